(** Specifications of addition. *)
From Coq Require Import ZArith List Bool Lia Arith Reals Lra Permutation.
From Verif Require Import Num Base CTable CTableWf Cx State Pkg Inv InvL PrimL NormL MkL TrL.
Import ListNotations.
Local Open Scope Z_scope.

Section AddL.
Context {N : num} {g : cfg N} {nb : kind -> Z} {X : numx N (g_ct g)} (G : gok g).
Local Notation cf := (g_ct g).
Local Notation co := (co N).
Local Notation qn := (qn N).
Local Notation linked := (linked N).
Local Notation c_ut := (c_ut N).
Local Notation Cw := (Cw N g X).
Local Notation Cv := (Cv N g X).
Local Notation Cv2 := (Cv2 N g X).
Local Notation dn := (dn N g X).
Local Notation de := (de N g X).
Local Notation dg := (dg N g X).
Local Notation wtab := (wtab N g X).
Local Notation etn := (etn N).
Local Notation isnode := (isnode N).
Local Notation tedge := (tedge N g X).
Local Notation gedge := (gedge N g X).
Local Notation cinv := (cinv N g nb X).
Local Notation uinv := (uinv N g nb X).
Local Notation nodeok := (nodeok N g nb X).
Local Notation inv := (inv N g nb X).
Local Notation step := (step N g nb X).
Local Notation qext := (qext N).
Local Notation owns := (owns N).
Local Notation wok := (wok N g X).
Local Notation wp := (wp N).
Local Notation al0 := (al0 N g X).
Local Notation nnorm := (nnorm N g X).
Local Notation iedge := (iedge (g:=g) (X:=X)).
Local Notation trsp := (trsp (nb:=nb) (X:=X)).
Local Notation unok := (unok N g X).
Local Notation binok := (binok N g X).
Local Notation addok := (addok N g X).
Local Notation tinv := (tinv N g X).
Local Notation vres := (vres N g X).
Local Notation dv := (dv N g X).
Local Notation mkpost := (mkpost (nb:=nb) (X:=X)).
Local Notation mulCached_sp := (mulCached_sp (nb:=nb) (X:=X) G).
Local Notation addCached_sp := (addCached_sp (nb:=nb) (X:=X) G).
Local Notation getCached_sp := (getCached_sp (nb:=nb) (X:=X) G).
Local Notation makeDDNode_sp := (makeDDNode_sp (nb:=nb) (X:=X) G).
Local Notation lookupC_sp := (lookupC_sp (nb:=nb) (X:=X) G).
Local Notation tedge_gedge := (tedge_gedge (nb:=nb) (X:=X)).
Local Notation child_ok := (child_ok (nb:=nb) (X:=X)).
Local Notation dn_ext := (dn_ext (nb:=nb) (X:=X)).
Local Notation Cw_eq0 := (Cw_eq0 (nb:=nb) (X:=X)).
Local Notation addInsert_sp := (addInsert_sp (g:=g) (nb:=nb) (X:=X)).
Local Notation binInsert_sp := (binInsert_sp (g:=g) (nb:=nb) (X:=X)).
Local Notation unInsert_sp := (unInsert_sp (g:=g) (nb:=nb) (X:=X)).
Local Notation addLookup_sp := (addLookup_sp (g:=g) (nb:=nb) (X:=X)).
Local Notation binLookup_sp := (binLookup_sp (g:=g) (nb:=nb) (X:=X)).
Local Notation unLookup_sp := (unLookup_sp (g:=g) (nb:=nb) (X:=X)).
Implicit Types (s : st N).

(** An intermediate result: zero, or an edge whose weight is a temporary. *)
Record cres (k : kind) (l : Z) (O : list nat) s (r : edge) : Prop := {
  cr_g : gedge s (wslots (ew r) ++ O) k l r;
  cr_s : ew r = Czero \/ exists a b, ew r = cslot a b;
  cr_o : owns (s_cc s) (wslots (ew r) ++ O) }.

Lemma cres_iedge k l O s r : cres k l O s r -> iedge s true k l r.
Proof.
  intros [[A B D E] H _]. constructor; auto.
  intros Ex Z. rewrite (E Ex); auto. rewrite Z. now apply Cv_zero.
Qed.
Lemma cres_zero k l O s : owns (s_cc s) O -> cres k l O s Ezero.
Proof. intros H. constructor; simpl; auto. apply gedge_zero. Qed.
Lemma cres_slot k l O s p a b : etn (co s) k l p -> (p = PTerm -> l = -1) -> owns (s_cc s) (a :: b :: O) ->
  (ex X -> Cv s (cslot a b) <> C0) -> cres k l O s (Ed p (cslot a b)).
Proof.
  intros E T Ow Z. constructor; simpl; eauto. constructor; simpl; auto.
  - destruct (owns_nodup _ _ _ _ Ow) as (D & _). right. exists a, b. repeat split; simpl; auto.
  - intros Ex H. exfalso. now apply Z.
Qed.
Lemma cres_mk k l es O s r s' : 0 <= l -> mkpost k l true es O s r s' -> cres k l O s' r.
Proof.
  intros Hl P. constructor.
  - eapply mkpost_gedge; eauto.
  - destruct P as (_ & _ & [->|(_ & W)] & _); [left; auto|right; exact W].
  - apply P.
Qed.

(** Releasing a temporary. *)
Lemma rel_sp s w O : inv s -> (exists a b, w = cslot a b) -> owns (s_cc s) (wslots w ++ O) ->
  exists s', retCache w s = Ok tt s' /\ owns (s_cc s') O /\ co s' = co s /\ cc_val (s_cc s') = cc_val (s_cc s) /\ forall O', step O' s s'.
Proof.
  intros I (a & b & ->) Ow. simpl in Ow. destruct (retCache_sp _ _ _ _ Ow) as (c & E & V & Oc & _).
  exists (set_cc s c). split; [exact E|]. split; [exact Oc|]. split; [reflexivity|]. split; [exact V|].
  intros O'. apply step_cc_any; auto.
Qed.

Lemma Cv_rel s s' w : co s' = co s -> cc_val (s_cc s') = cc_val (s_cc s) -> Cv s' w = Cv s w.
Proof.
  intros A B. unfold Inv.co in A. injection A as A1 A2 A3. unfold Inv.Cv, cval, val, aval.
  now rewrite A2, B.
Qed.

Lemma perm3 {A} (a b c d : list A) : Permutation (a ++ b ++ c ++ d) (c ++ a ++ b ++ d).
Proof. rewrite (app_assoc a b (c ++ d)), (app_assoc a b d). apply Permutation_app_swap_app. Qed.

(** A list of intermediate results. *)
Lemma mapM_cres {A} (d : A) al k l (f : A -> M N edge) (V : A -> list nat -> C) : forall idx s O,
  inv s -> owns (s_cc s) O ->
  (forall i s1 O1, In i idx -> inv s1 -> step O s s1 -> owns (s_cc s1) O1 -> incl O O1 ->
     wp al (f i) s1 (fun r s2 => step O1 s1 s2 /\ cres k l O1 s2 r /\
       (ex X -> forall path, vpath k l path -> dg s2 k r path = V i path))) ->
  wp al (mapM N f idx) s (fun es s' => step O s s' /\ length es = length idx /\ owns (s_cc s') (slots es ++ O) /\
    (forall e, In e es -> iedge s' true k l e) /\
    (ex X -> forall j path, (j < length idx)%nat -> vpath k l path -> dg s' k (nthe es j) path = V (nth j idx d) path)).
Proof.
  induction idx as [|i idx IH]; intros s O I Ow H; cbn [mapM].
  - apply wp_ret. split; [now apply step_refl|]. split; auto. split; auto. split; [intros e []|]. simpl. intros; lia.
  - apply wp_bind. eapply wp_mono; [apply (H i s O); auto; [now left|now apply step_refl|apply incl_refl]|].
    intros r s1 (S1 & R1 & V1). apply wp_bind. assert (I1: inv s1) by apply S1.
    assert (Inc: incl O (wslots (ew r) ++ O)) by apply incl_appr, incl_refl.
    eapply wp_mono; [apply (IH s1 (wslots (ew r) ++ O)); auto; [apply R1|]|].
    { intros j s2 O2 Hj I2 S2 Ow2 In2. apply H; auto; [now right| |eapply incl_tran; eauto].
      eapply step_trans; [exact S1|]. eapply step_weak; eauto. }
    intros es s2 (S2 & L2 & Ow2 & W2 & V2). apply wp_ret.
    split; [eapply step_trans; [exact S1|]; eapply step_weak; eauto|].
    split; [simpl; congruence|]. split; [|split].
    + eapply owns_perm; [|exact Ow2]. rewrite slots_cons, !app_assoc. apply Permutation_app_tail, Permutation_app_comm.
    + intros e [<-|He]; auto. eapply iedge_step; [exact S2|]. eapply cres_iedge; eauto.
    + intros Ex [|j] path Hj Vp.
      * cbn [nthe nth]. erewrite dg_step; [|exact I1|exact S2|apply R1|exact Vp]. now apply V1.
      * cbn [nthe nth]. apply V2; auto. simpl in Hj. lia.
Qed.

(** ** add2 *)

Lemma gedge_node s O k l x : inv s -> gedge s O k l x -> ew x <> Czero -> 0 <= l ->
  exists n, ep x = PNode n /\ linked (co s) k n /\ nv (nod s k n) = l /\ l < s_nq s.
Proof.
  intros I [A B D E] Z Hl. destruct (ep x) as [| |n] eqn:Ep.
  - contradiction.
  - destruct (D eq_refl); [lia|contradiction].
  - destruct A as [L Nv]. exists n. repeat split; auto.
    assert (H: isnode (co s) k l (PNode n)) by (split; [split; auto|discriminate]).
    exact (proj2 (isnode_lvl _ _ _ _ (iv_c _ _ _ _ _ I) H)).
Qed.

Lemma dg_cons s k x n i path : ep x = PNode n -> dg s k x (i :: path) = (Cv s (ew x) * de (co s) k (nthe (ne (nod s k n)) i) path)%C.
Proof. intros E. unfold Inv.dg. now rewrite E. Qed.

Lemma gedge_nz s O k l x : ex X -> gedge s O k l x -> ew x <> Czero -> Cv s (ew x) <> C0.
Proof. intros Ex [A B D E] Z H. apply Z. now rewrite (E Ex H). Qed.

(** The operand handed to the recursive call. *)
Lemma addArg_sp s O k l i x y : inv s -> owns (s_cc s) O -> gedge s O k l x -> ew x <> Czero -> 0 <= l -> (i < arity k)%nat ->
  wp al0 (addArg N g k l i x y) s (fun p s' => step O s s' /\ owns (s_cc s') (wslots (ew (fst p)) ++ O) /\
    gedge s' (wslots (ew (fst p)) ++ O) k (l - 1) (fst p) /\
    (if snd p then exists a b, ew (fst p) = cslot a b else ew (fst p) = Czero) /\
    (ex X -> forall path, vpath k (l - 1) path -> dg s' k (fst p) path = dg s k x (i :: path))).
Proof.
  intros I Ow Gx Zx Hl Hi. unfold addArg. apply wp_bind, wp_get.
  destruct (gedge_node _ _ _ _ _ I Gx Zx Hl) as (n & Ep & L & Nv & Hq).
  assert (At: atlvl N s k (ep x) l = true). { unfold atlvl. rewrite Ep. simpl. unfold lvl. rewrite Nv. apply Z.eqb_refl. }
  rewrite At, Ep. cbv zeta. pose proof (child_ok _ _ _ _ (iv_c _ _ _ _ _ I) L Hi) as T.
  change (Inv.qn N (co s) k n) with (nod s k n) in T. rewrite Nv in T.
  set (e1 := nthe (ne (nod s k n)) i) in *.
  destruct (ceqb (ew e1) Czero) eqn:Z1.
  - apply ceqb_spec in Z1. apply wp_ret. cbn [fst snd]. rewrite Z1. simpl app.
    split; [now apply step_refl|]. split; auto. split; [now apply tedge_gedge|]. split; auto.
    intros Ex path V. rewrite (dg_cons _ _ _ _ _ _ Ep). fold e1. unfold Inv.dg, Inv.de. rewrite Z1, Cv_zero, Cw_zero by auto. ring.
  - apply ceqb_false in Z1.
    destruct (mulCached_sp s O (ew e1) (ew x)) as (p & q & s1 & E1 & O1 & S1 & V1); auto; [left; apply T|apply Gx|].
    eapply wp_bind_ok; [exact E1|]. apply wp_ret. cbn [fst snd ew ep]. split; auto. simpl wslots.
    assert (Vn: ex X -> Cv s1 (cslot p q) <> C0).
    { intros Ex. rewrite V1 by auto. apply Cmul_neq; [|eapply gedge_nz; eauto].
      rewrite Cv_Cw by (auto; apply T). intros H. apply Z1. apply Cw_eq0 in H; auto; [apply I|apply T]. }
    pose proof (cres_slot k (l - 1) O s1 (ep e1) p q) as C. destruct C as [C1 C2 C3]; auto.
    { eapply etn_ext; [apply S1|apply T]. }
    { intros E. destruct (te_t _ _ _ _ _ _ _ T E) as [H|H]; auto. contradiction. }
    cbn [ew] in *. split; auto. split; auto. split; eauto.
    intros Ex path V. rewrite (dg_cons _ _ _ _ _ _ Ep). fold e1. unfold Inv.dg, Inv.de. cbn [ew ep]. rewrite V1 by auto.
    rewrite (Cv_Cw s (ew e1)) by (auto; apply T).
    rewrite (dn_ext (co s) (co s1) k) with (l:=l - 1); auto; [ring|apply I|apply S1|apply T].
Qed.

Definition addsp (add : edge -> edge -> M N edge) (k : kind) (l : Z) : Prop := forall s O x y,
  inv s -> owns (s_cc s) O -> gedge s O k l x -> gedge s O k l y ->
  wp al0 (add x y) s (fun r s' => step O s s' /\ cres k l O s' r /\
    (ex X -> forall path, vpath k l path -> dg s' k r path = (dg s k x path + dg s k y path)%C)).

Lemma relif_sp s (b : bool) w O : inv s -> (if b then exists p q, w = cslot p q else w = Czero) -> owns (s_cc s) (wslots w ++ O) ->
  exists s', (if b then retCache w else ret tt) s = Ok tt s' /\ owns (s_cc s') O /\ co s' = co s /\ cc_val (s_cc s') = cc_val (s_cc s) /\ forall O', step O' s s'.
Proof.
  intros I H Ow. destruct b.
  - now apply rel_sp.
  - subst w. exists s. split; [reflexivity|]. split; [exact Ow|]. split; [reflexivity|]. split; [reflexivity|].
    intros O'. now apply step_refl.
Qed.

Lemma dg_rel s s' k e path : co s' = co s -> cc_val (s_cc s') = cc_val (s_cc s) -> dg s' k e path = dg s k e path.
Proof. intros A B. unfold Inv.dg. now rewrite A, (Cv_rel _ _ _ A B). Qed.

Lemma gedge_rel s s' O k l e : co s' = co s -> cc_val (s_cc s') = cc_val (s_cc s) -> gedge s O k l e -> gedge s' O k l e.
Proof. intros A B [P Q R S]. constructor; rewrite ?A, ?(Cv_rel _ _ _ A B); auto. Qed.

Lemma cres_rel s s' O O' k l r : co s' = co s -> cc_val (s_cc s') = cc_val (s_cc s) -> cres k l O s r ->
  owns (s_cc s') (wslots (ew r) ++ O') -> cres k l O' s' r.
Proof.
  intros A B [P Q R] Ow. constructor; auto. apply (gedge_rel _ s' _ _ _ _ A B) in P. destruct P as [P1 P2 P3 P4]. constructor; auto.
  destruct Q as [Z|(a & b & E)].
  - left. rewrite Z. apply wtab_zero.
  - rewrite E in *. simpl in *. destruct (owns_nodup _ _ _ _ Ow) as (D & _). right. exists a, b. repeat split; simpl; auto.
Qed.

Lemma add2F_sp : forall f k l, -1 <= l -> l + 1 < Z.of_nat f -> addsp (add2F N g nb f k) k l.
Proof.
  induction f as [|f IH]; intros k l Hl Hf; [lia|]. intros s O x y I Ow Gx Gy. cbn [add2F].
  destruct (isnull (ep x)) eqn:Nx. { apply isnull_spec in Nx. destruct Gx as [A _ _ _]. rewrite Nx in A. contradiction. }
  destruct (isnull (ep y)) eqn:Ny. { apply isnull_spec in Ny. destruct Gy as [A _ _ _]. rewrite Ny in A. contradiction. }
  assert (Cp: forall e, gedge s O k l e -> ew e <> Czero ->
    wp al0 (let* s := get in let* c := getCached g (cval s (ew e)) in ret (Ed (ep e) c)) s
      (fun r s' => step O s s' /\ cres k l O s' r /\ (ex X -> forall path, vpath k l path -> dg s' k r path = dg s k e path))).
  { intros e Ge Ze. apply wp_bind, wp_get. destruct (getCached_sp s (cval s (ew e)) O) as (a & b & s1 & E1 & O1 & S1 & V1); auto.
    eapply wp_bind_ok; [exact E1|]. apply wp_ret. split; auto.
    assert (V1': Cv s1 (cslot a b) = Cv s (ew e)) by (unfold Inv.Cv; now rewrite V1).
    split.
    - apply cres_slot; auto. eapply etn_ext; [apply S1|apply Ge].
      intros E. destruct (ge_t _ _ _ _ _ _ _ _ Ge E); auto; contradiction.
      intros Ex. rewrite V1'. eapply gedge_nz; eauto.
    - intros Ex path V. unfold Inv.dg. cbn [ew ep]. rewrite V1'. f_equal. eapply dn_ext; eauto; [apply I|apply S1|apply Ge]. }
  destruct (wzero (ew x)) eqn:Zx.
  { apply ceqb_spec in Zx. destruct (wzero (ew y)) eqn:Zy.
    - apply ceqb_spec in Zy. apply wp_ret. split; [now apply step_refl|]. split; [now apply cres_zero|].
      intros Ex path V. rewrite dg_zero by auto. unfold Inv.dg. rewrite Zx, Zy, Cv_zero by auto. ring.
    - apply ceqb_false in Zy. eapply wp_mono; [apply Cp; auto|]. intros r s1 (S1 & R1 & V1). split; auto. split; auto.
      intros Ex path V. rewrite V1 by auto. unfold Inv.dg. rewrite Zx, Cv_zero by auto. ring. }
  apply ceqb_false in Zx. destruct (wzero (ew y)) eqn:Zy.
  { apply ceqb_spec in Zy. eapply wp_mono; [apply Cp; auto|]. intros r s1 (S1 & R1 & V1). split; auto. split; auto.
    intros Ex path V. rewrite V1 by auto. unfold Inv.dg. rewrite Zy, Cv_zero by auto. ring. }
  apply ceqb_false in Zy. clear Cp.
  destruct (nptr_eqb (ep x) (ep y)) eqn:Pe.
  { apply nptr_eqb_spec in Pe. destruct (addCached_sp s O (ew x) (ew y)) as (p & q & s1 & E1 & O1 & S1 & V1); auto; [apply Gx|apply Gy|].
    eapply wp_bind_ok; [exact E1|]. apply wp_bind, wp_get. destruct (wapx0 s1 (cslot p q)) eqn:Z.
    - destruct (rel_sp s1 (cslot p q) O) as (s2 & E2 & O2 & Q2 & V2 & S2); auto; [apply S1|eauto|].
      eapply wp_bind_ok; [exact E2|]. apply wp_ret. split; [eapply step_trans; eauto|]. split; [now apply cres_zero|].
      intros Ex path V. rewrite dg_zero by auto. apply (x_wapx0 (X:=X)) in Z; auto. rewrite V1 in Z by auto.
      unfold Inv.dg. rewrite Pe. transitivity ((Cv s (ew x) + Cv s (ew y)) * dn (co s) k (ep y) path)%C; [|ring]. rewrite Z. ring.
    - apply wp_ret. split; auto. split.
      + apply cres_slot; auto. eapply etn_ext; [apply S1|apply Gy].
        intros E. destruct (ge_t _ _ _ _ _ _ _ _ Gy E); auto; contradiction.
        intros Ex H. apply (x_wapx0 (X:=X)) in H; auto. congruence.
      + intros Ex path V. unfold Inv.dg. cbn [ew ep]. rewrite V1, Pe by auto.
        rewrite (dn_ext (co s) (co s1) k) with (l:=l); auto; [ring|apply I|apply S1|apply Gy]. }
  assert (Hl0: 0 <= l).
  { destruct (Z.eq_dec l (-1)) as [E|E]; [|lia]. exfalso. subst l.
    assert (Q: forall e, gedge s O k (-1) e -> ep e = PTerm).
    { intros e Ge. destruct (ep e) as [| |n] eqn:Ep; auto. { destruct Ge as [A _ _ _]. rewrite Ep in A. contradiction. }
      assert (H: isnode (co s) k (-1) (ep e)) by (split; [apply Ge|rewrite Ep; discriminate]).
      apply (isnode_lvl _ _ _ _ (iv_c _ _ _ _ _ I)) in H. lia. }
    rewrite (Q x), (Q y) in Pe by auto. discriminate. }
  apply wp_bind, wp_get. cbv zeta.
  destruct (gedge_node _ _ _ _ _ I Gx Zx Hl0) as (nx & Ex_ & Lx & Vx & Hq).
  destruct (gedge_node _ _ _ _ _ I Gy Zy Hl0) as (ny & Ey_ & Ly & Vy & _).
  assert (NX: isnode (co s) k l (ep x)) by (split; [apply Gx|rewrite Ex_; discriminate]).
  assert (NY: isnode (co s) k l (ep y)) by (split; [apply Gy|rewrite Ey_; discriminate]).
  destruct (addLookup_sp O s k (mkve s (ep x) (ew x)) (mkve s (ep y) (ew y)) I) as (r & s1 & E1 & S1 & C1' & Q1 & H1).
  eapply wp_bind_ok; [exact E1|]. clear E1. destruct r as [r|].
  - destruct H1 as (x' & y' & (l' & Hl' & Nx' & Ny' & Rv & Sem) & Ekx & Eky).
    unfold vedge_eqb in Ekx, Eky. apply andb_true_iff in Ekx, Eky. destruct Ekx as [Px Wx], Eky as [Py Wy].
    apply nptr_eqb_spec in Px, Py. cbn [vp vw mkve] in *.
    assert (l' = l). { apply (nptr_etn_lvl (co s) k l' l (ep x)); [rewrite <- Px; apply Nx'|apply NX|apply NX]. } subst l'.
    destruct (vapx0 (vw r)) eqn:Zr.
    + apply wp_ret. split; auto. split; [apply cres_zero; now rewrite C1'|].
      intros Ex path V. rewrite dg_zero by auto. apply (x_vapx0 (X:=X)) in Zr; auto.
      apply (x_vapx (X:=X)) in Wx, Wy; auto. specialize (Sem Ex path V). unfold Inv.dv in Sem. rewrite Zr, Wx, Wy, Px, Py in Sem.
      cbn [vw mkve] in Sem. unfold Inv.dg, Inv.Cv. rewrite <- Sem. ring.
    + rewrite <- C1' in Ow. destruct (getCached_sp s1 (vw r) O) as (a & b & s2 & E2 & O2 & S2 & V2); auto; [apply S1|].
      eapply wp_bind_ok; [exact E2|]. apply wp_ret. split; [eapply step_trans; eauto|].
      assert (V2': Cv s2 (cslot a b) = Cv2 (vw r)) by (unfold Inv.Cv; now rewrite V2).
      destruct Rv as (R1 & R2 & R3). rewrite <- Q1 in R1.
      split.
      * apply cres_slot; auto. eapply etn_ext; [apply S2|apply R1].
        intros E. destruct (R2 E); auto; congruence.
        intros Ex H. rewrite V2' in H. apply (x_vapx0 (X:=X)) in H; auto. congruence.
      * intros Ex path V. apply (x_vapx (X:=X)) in Wx, Wy; auto. specialize (Sem Ex path V).
        unfold Inv.dv in Sem. rewrite Wx, Wy, Px, Py in Sem. cbn [vw mkve] in Sem. unfold Inv.dg. cbn [ew ep].
        rewrite V2'. rewrite (dn_ext (co s1) (co s2) k) with (l:=l); auto; [|apply S1|apply S2].
        rewrite Q1, Sem. reflexivity.
  - clear H1. assert (W: (if isT (ep x) || negb (isT (ep y)) && (lvl s k (ep x) <? lvl s k (ep y)) then lvl s k (ep y) else lvl s k (ep x)) = l).
    { rewrite Ex_, Ey_. simpl. unfold lvl. now rewrite Vx, Vy, Z.ltb_irrefl. }
    rewrite W. clear W. rewrite <- C1' in Ow.
    assert (I1: inv s1) by apply S1. apply wp_bind.
    eapply wp_mono; [apply (mapM_cres 0%nat al0 k (l - 1) _ (fun i path => (dg s k x (i :: path) + dg s k y (i :: path))%C) (seq 0 (arity k)) s1 O); auto|].
    { intros i s2 O2 Hi I2 S2 Ow2 In2. apply in_seq in Hi. assert (Hi': (i < arity k)%nat) by lia.
      assert (S02: step O s s2) by (eapply step_trans; eauto).
      assert (Gx2: gedge s2 O2 k l x) by (eapply gedge_incl; [eapply gedge_step; eauto|auto]).
      assert (Gy2: gedge s2 O2 k l y) by (eapply gedge_incl; [eapply gedge_step; eauto|auto]).
      apply wp_bind. eapply wp_mono; [apply (addArg_sp s2 O2 k l i x y); auto|].
      intros [e1 b1] s3 (S3 & Ow3 & G3 & B3 & V3). cbn [fst snd] in *.
      set (O3 := wslots (ew e1) ++ O2) in *. assert (I23: incl O2 O3) by (apply incl_appr, incl_refl).
      assert (I3: inv s3) by apply S3.
      apply wp_bind. eapply wp_mono; [apply (addArg_sp s3 O3 k l i y x); auto|].
      { eapply gedge_incl; [eapply gedge_step; eauto|auto]. }
      intros [e2 b2] s4 (S4 & Ow4 & G4 & B4 & V4). cbn [fst snd] in *.
      set (O4 := wslots (ew e2) ++ O3) in *. assert (I34: incl O3 O4) by (apply incl_appr, incl_refl).
      assert (I4: inv s4) by apply S4.
      apply wp_bind. eapply wp_mono; [apply (IH k (l - 1)); auto; try lia|].
      { exact Ow4. } { eapply gedge_incl; [eapply gedge_step; [exact S4|exact G3]|auto]. } { exact G4. }
      intros r s5 (S5 & R5 & V5). assert (I5: inv s5) by apply S5.
      destruct (relif_sp s5 b1 (ew e1) (wslots (ew r) ++ wslots (ew e2) ++ O2) I5 B3) as (s6 & E6 & Ow6 & Q6 & Cv6 & S6).
      { eapply owns_perm; [|apply R5]. unfold O4, O3. apply perm3. }
      eapply wp_bind_ok; [exact E6|].
      destruct (relif_sp s6 b2 (ew e2) (wslots (ew r) ++ O2)) as (s7 & E7 & Ow7 & Q7 & Cv7 & S7); auto.
      { apply (S6 O). }
      { eapply owns_perm; [|apply Ow6]. rewrite !app_assoc. apply Permutation_app_tail, Permutation_app_comm. }
      eapply wp_bind_ok; [exact E7|]. apply wp_ret.
      assert (Q57: co s7 = co s5) by congruence. assert (C57: cc_val (s_cc s7) = cc_val (s_cc s5)) by congruence.
      split; [|split].
      - eapply step_trans; [exact S3|]. eapply step_trans; [eapply step_weak; [exact S4|auto]|].
        eapply step_trans; [eapply step_weak; [exact S5|eapply incl_tran; eauto]|]. eapply step_trans; eauto.
      - eapply cres_rel; eauto.
      - intros Ex path V. rewrite (dg_rel _ _ _ _ _ Q57 C57). rewrite V5 by auto.
        assert (Vp: vpath k l (i :: path)) by (apply vpath_cons; auto).
        rewrite V4 by auto. f_equal.
        + erewrite dg_step; [|exact I3|exact S4|exact G3|exact V]. rewrite V3 by auto. eapply dg_step; eauto.
        + erewrite dg_step; [|exact I2|exact S3|exact Gy2|exact Vp]. eapply dg_step; eauto. }
    intros es s2 (S2 & L2 & Ow2 & W2 & V2). rewrite seq_length in L2, V2.
    assert (S02: step O s s2) by (eapply step_trans; eauto). assert (I2: inv s2) by apply S2.
    apply wp_bind. eapply wp_mono; [apply (makeDDNode_sp s2 k l es true O); auto|].
    { split; auto. rewrite (qe_nq _ _ _ (sp_ext _ _ _ _ _ _ _ S02) : s_nq s2 = s_nq s). exact Hq. }
    intros e s3 P. assert (S3: step O s2 s3) by apply P. pose proof (cres_mk _ _ _ _ _ _ _ Hl0 P) as R3.
    assert (S03: step O s s3) by (eapply step_trans; eauto).
    assert (V3: ex X -> forall path, vpath k l path -> dg s3 k e path = (dg s k x path + dg s k y path)%C).
    { intros Ex path V. apply vpath_inv in V; auto. destruct V as (i & p & -> & Hi & V).
      destruct P as (_ & _ & _ & P4). destruct (P4 Ex) as [_ P5]. rewrite P5 by auto. rewrite V2 by auto. now rewrite seq_nth. }
    apply wp_bind, wp_get.
    destruct (addInsert_sp O s3 k (mkve s (ep x) (ew x)) (mkve s (ep y) (ew y)) (mkve s3 (ep e) (ew e))) as (s4 & E4 & S4 & C4 & Q4).
    { apply S3. }
    { exists l. split; auto. split; [|split; [|split]].
      - eapply isnode_ext; [apply S03|exact NX]. - eapply isnode_ext; [apply S03|exact NY].
      - destruct (cr_g _ _ _ _ _ R3) as [A B D E]. split; [exact A|]. split.
        + cbn [vp vw mkve]. intros Et. destruct (D Et) as [H|H]; auto. right. rewrite H. rewrite cval_zero. apply (vapx0_zero (X:=X)).
        + cbn [vp vw mkve]. intros Ex H. specialize (E Ex H). now rewrite E.
      - intros Ex path V. specialize (V3 Ex path V). unfold Inv.dg, Inv.dv, Inv.Cv in *. cbn [vp vw mkve].
        rewrite V3. f_equal; f_equal; symmetry; (eapply dn_ext; [apply I|apply S03|eapply ge_n; eassumption|exact V]). }
    eapply wp_bind_ok; [exact E4|]. apply wp_ret. split; [eapply step_trans; eauto|].
    assert (Cv4: cc_val (s_cc s4) = cc_val (s_cc s3)) by now rewrite C4.
    split; [eapply cres_rel; eauto; rewrite C4; apply R3|].
    intros Ex path V. rewrite (dg_rel _ _ _ _ _ Q4 Cv4). auto.
Qed.

(** ** Turning an intermediate result into a stored edge *)
Lemma finish_sp s O k l r : inv s -> cres k l O s r ->
  wp al0 (finish N g r) s (fun e s' => step O s s' /\ owns (s_cc s') O /\ tedge (co s') k l e /\
    (ex X -> forall path, vpath k l path -> de (co s') k e path = dg s k r path)).
Proof.
  intros I [[A B D E] S Ow]. unfold finish. destruct (ceqb (ew r) Czero) eqn:Z.
  - apply ceqb_spec in Z. rewrite Z in *. simpl in Ow. apply wp_ret. split; [now apply step_refl|]. split; auto.
    split.
    + constructor; auto; rewrite Z; auto. apply wtab_zero. intros Ex _. rewrite (E Ex); auto. rewrite ?Z. now apply Cv_zero.
    + intros Ex path V. unfold Inv.de, Inv.dg. rewrite Z, Cv_zero, Cw_zero by auto. ring.
  - apply ceqb_false in Z. destruct S as [S|S]; [contradiction|].
    destruct (rel_sp s (ew r) O) as (s1 & E1 & O1 & Q1 & V1 & S1); auto.
    eapply wp_bind_ok; [exact E1|]. apply wp_bind.
    eapply wp_mono; [apply (lookupC_sp O s1 (ew r)); apply (S1 O)|].
    intros w s2 (S2 & C2 & W2 & V2). apply wp_ret. split; [eapply step_trans; eauto|]. rewrite C2. split; auto.
    assert (Cw2: ex X -> Cw (co s2) w = Cv s (ew r)). { intros Ex. rewrite V2 by auto. now apply Cv_rel. }
    split.
    + constructor; cbn [ep ew]; auto.
      * eapply etn_ext; [apply S2|]. rewrite Q1. exact A.
      * intros Et. destruct (D Et); auto. contradiction.
      * intros Ex Hz. subst w. rewrite Cw_zero in Cw2 by auto. rewrite E; auto. symmetry; auto.
    + intros Ex path V. unfold Inv.de, Inv.dg. cbn [ew ep]. rewrite Cw2 by auto. f_equal. rewrite <- Q1.
      eapply dn_ext; eauto; [apply (S1 O)|apply S2|rewrite Q1; auto].
Qed.

Lemma balanced_sp {A} al (m : M N A) s O Q : owns (s_cc s) O ->
  wp al m s (fun r s' => owns (s_cc s') O /\ Q r s') -> wp al (balanced N m) s (fun r s' => owns (s_cc s') O /\ Q r s').
Proof.
  intros Ow H. unfold balanced. apply wp_bind, wp_gets. apply wp_bind. eapply wp_mono; [exact H|].
  intros r s' [O' Hq]. apply wp_bind, wp_gets. apply wp_bind. apply wp_assert.
  - apply Z.eqb_eq. now rewrite (ow_ct _ _ _ O'), (ow_ct _ _ _ Ow).
  - apply wp_ret. auto.
Qed.

(** The public operation: the assertion on the number of temporaries holds. *)
Theorem add_sp s O k l x y : -1 <= l < s_nq s -> inv s -> owns (s_cc s) O -> gedge s O k l x -> gedge s O k l y ->
  wp al0 (add N g nb k x y) s (fun r s' => owns (s_cc s') O /\ step O s s' /\ tedge (co s') k l r /\
    (ex X -> forall path, vpath k l path -> de (co s') k r path = (dg s k x path + dg s k y path)%C)).
Proof.
  intros Hl I Ow Gx Gy. apply balanced_sp; auto. apply wp_bind.
  apply (wp_eq al0 _ (add2F N g nb (fuelof N s) k x y)); [reflexivity|].
  eapply wp_mono; [apply (add2F_sp (fuelof N s) k l); eauto; unfold fuelof; lia|].
  intros r s1 (S1 & R1 & V1). eapply wp_mono; [apply (finish_sp s1 O k l r); auto; apply S1|].
  intros e s2 (S2 & O2 & T2 & V2). split; auto. split; [eapply step_trans; eauto|]. split; auto.
  intros Ex path V. rewrite V2, V1; auto.
Qed.
End AddL.
