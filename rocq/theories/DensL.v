(** Specifications of the operations on density matrices that are stored in full (no temporary
    marks, generateDensityMatrix = false). *)
From Coq Require Import ZArith List Bool Lia Arith Reals Lra Permutation.
From Verif Require Import Num Base CTable CTableWf Cx State Pkg Read Density DensMul Inv InvL PrimL NormL MkL TrL AddL MulL StateL.
Import ListNotations.
Local Open Scope Z_scope.

Section DensL.
Context {N : num} {g : cfg N} {nb : kind -> Z} {X : numx N (g_ct g)} (G : gok g).
Local Notation cf := (g_ct g).
Local Notation co := (co N).
Local Notation qn := (qn N).
Local Notation linked := (linked N).
Local Notation c_ut := (c_ut N).
Local Notation Cw := (Cw N g X).
Local Notation Cv := (Cv N g X).
Local Notation Cv2 := (Cv2 N g X).
Local Notation dn := (dn N g X).
Local Notation de := (de N g X).
Local Notation dg := (dg N g X).
Local Notation wtab := (wtab N g X).
Local Notation etn := (etn N).
Local Notation isnode := (isnode N).
Local Notation tedge := (tedge N g X).
Local Notation gedge := (gedge N g X).
Local Notation cinv := (cinv N g nb X).
Local Notation uinv := (uinv N g nb X).
Local Notation nodeok := (nodeok N g nb X).
Local Notation inv := (inv N g nb X).
Local Notation step := (step N g nb X).
Local Notation qext := (qext N).
Local Notation owns := (owns N).
Local Notation wok := (wok N g X).
Local Notation wp := (wp N).
Local Notation al0 := (al0 N g X).
Local Notation nnorm := (nnorm N g X).
Local Notation iedge := (iedge (g:=g) (X:=X)).
Local Notation trsp := (trsp (nb:=nb) (X:=X)).
Local Notation unok := (unok N g X).
Local Notation binok := (binok N g X).
Local Notation addok := (addok N g X).
Local Notation tinv := (tinv N g X).
Local Notation vres := (vres N g X).
Local Notation dv := (dv N g X).
Local Notation mkpost := (mkpost (nb:=nb) (X:=X)).
Local Notation mulCached_sp := (mulCached_sp (nb:=nb) (X:=X) G).
Local Notation addCached_sp := (addCached_sp (nb:=nb) (X:=X) G).
Local Notation getCached_sp := (getCached_sp (nb:=nb) (X:=X) G).
Local Notation makeDDNode_sp := (makeDDNode_sp (nb:=nb) (X:=X) G).
Local Notation lookupC_sp := (lookupC_sp (nb:=nb) (X:=X) G).
Local Notation tedge_gedge := (tedge_gedge (nb:=nb) (X:=X)).
Local Notation child_ok := (child_ok (nb:=nb) (X:=X)).
Local Notation dn_ext := (dn_ext (nb:=nb) (X:=X)).
Local Notation Cw_eq0 := (Cw_eq0 (nb:=nb) (X:=X)).
Local Notation addInsert_sp := (addInsert_sp (g:=g) (nb:=nb) (X:=X)).
Local Notation binInsert_sp := (binInsert_sp (g:=g) (nb:=nb) (X:=X)).
Local Notation unInsert_sp := (unInsert_sp (g:=g) (nb:=nb) (X:=X)).
Local Notation addLookup_sp := (addLookup_sp (g:=g) (nb:=nb) (X:=X)).
Local Notation binLookup_sp := (binLookup_sp (g:=g) (nb:=nb) (X:=X)).
Local Notation unLookup_sp := (unLookup_sp (g:=g) (nb:=nb) (X:=X)).
Local Notation cres := (cres (g:=g) (X:=X)).
Local Notation addsp := (addsp (g:=g) (nb:=nb) (X:=X)).
Local Notation rel_sp := (rel_sp (g:=g) (nb:=nb) (X:=X)).
Local Notation relif_sp := (relif_sp (g:=g) (nb:=nb) (X:=X)).
Local Notation mapM_cres := (mapM_cres (g:=g) (nb:=nb) (X:=X)).
Local Notation de_step := (de_step (g:=g) (nb:=nb) (X:=X)).
Local Notation dg_step := (dg_step (g:=g) (nb:=nb) (X:=X)).
Local Notation mulSelf_sp := (mulSelf_sp (g:=g) (nb:=nb) (X:=X)).
Local Notation finish_sp := (finish_sp (g:=g) (nb:=nb) (X:=X) G).
Local Notation scale2_sp := (scale2_sp (g:=g) (nb:=nb) (X:=X)).
Local Notation addArg_sp := (addArg_sp (g:=g) (nb:=nb) (X:=X) G).
Local Notation add2F_sp := (add2F_sp (g:=g) (nb:=nb) (X:=X) G).
Local Notation makeDDNode_t := (makeDDNode_t (nb:=nb) (X:=X) G).
Implicit Types (s : st N).


(** ** Functions that leave the marks alone *)

Lemma wp_dbind {A B} al (m : D N A) (f : A -> D N B) k s Q :
  wp al (m k) s (fun x s' => wp al (f (fst x) (snd x)) s' Q) -> wp al (dbind N m f k) s Q.
Proof. apply wp_bind. Qed.
Lemma wp_dlift {A} al (m : M N A) k s Q : wp al m s (fun a s' => Q (a, k) s') -> wp al (dlift N m k) s Q.
Proof. intros H. apply wp_bind. eapply wp_mono; [exact H|]. intros a s' Ha. now apply wp_ret. Qed.
Lemma wp_dret {A} al (a : A) k s (Q : A * mkst -> st N -> Prop) : Q (a, k) s -> wp al (dret N a k) s Q.
Proof. intros H. apply wp_dlift. now apply wp_ret. Qed.
Lemma wp_happly al e k s (Q : hedge * mkst -> st N -> Prop) : mk_dm (hk e) = false -> Q (e, k) s -> wp al (happly N e k) s Q.
Proof. intros E H. unfold happly. rewrite E. now apply wp_ret. Qed.
Lemma wp_hrevert al p s (Q : unit * mkst -> st N -> Prop) : hdp p <> PNull -> Q (tt, mz) s -> wp al (hrevert N p mz) s Q.
Proof. intros E H. unfold hrevert. destruct p as [[| |n]|[| |n]]; try (now elim E); now apply wp_ret. Qed.

Lemma searchD_mz s es den : forall c, searchD N s mz es den c = ut_search N s KD es den c.
Proof. induction c as [|p r IH]; cbn [searchD ut_search]; auto. change (mk_none (mz p)) with true. rewrite andb_true_r, IH. reflexivity. Qed.
Lemma lookupD_mz n var es den s : lookupD N g nb n var es den mz s = ut_lookup N g nb KD n var es den s.
Proof.
  unfold lookupD, ut_lookup, bind. cbn [get]. destruct (checkChildren N KD var es _) as [? s1| |]; auto.
  destruct ((var <? 0) || (s_nq s1 <=? var)); auto. now rewrite searchD_mz.
Qed.
Lemma makeD_mz var es cached al s Q :
  wp al (makeDDNode N g nb KD var es cached) s (fun e s' => Q (e, mz) s') -> wp al (makeD N g nb var es cached false mz) s Q.
Proof.
  unfold makeDDNode, makeD, mk, Inv.wp, bind. destruct (getNode N KD s) as [n s1| |]; auto.
  destruct (checkChildren N KD var es s1) as [? s2| |]; auto. destruct (normalize N g KD cached es s2) as [r s3| |]; auto.
  destruct r as [| |es' w]; auto.
  - destruct (returnNode N KD n s3); auto.
  - rewrite lookupD_mz. destruct (ut_lookup N g nb KD n var es' false s3); auto.
Qed.
Lemma addArgD_mz w i x y al s Q :
  wp al (addArg N g KD w i x y) s (fun r s' => Q ((hden (fst r), snd r), mz) s') -> wp al (addArgD N g w i x y mz) s Q.
Proof.
  unfold addArg, addArgD, Inv.wp, bind, get. destruct (atlvl N s KD (ep x) w).
  - destruct (ep x) as [| |n]; auto. cbn [view mz mk_dm mk0 negb orb hden hw hp hk]. cbv zeta.
    destruct (ceqb (ew (nthe (ne (nod s KD n)) i)) Czero); [exact (fun H => H)|].
    destruct (mulCached g (ew (nthe (ne (nod s KD n)) i)) (ew x) s); auto.
  - destruct (ep y) as [| |n]; auto.
Qed.


Lemma dmap_cres {A} (d : A) al k l (f : A -> D N edge) (V : A -> list nat -> C) : forall idx s O,
  inv s -> owns (s_cc s) O ->
  (forall i s1 O1, In i idx -> inv s1 -> step O s s1 -> owns (s_cc s1) O1 -> incl O O1 ->
     wp al (f i mz) s1 (fun x s2 => snd x = mz /\ step O1 s1 s2 /\ cres k l O1 s2 (fst x) /\
       (ex X -> forall path, vpath k l path -> dg s2 k (fst x) path = V i path))) ->
  wp al (dmap N f idx mz) s (fun x s' => snd x = mz /\ step O s s' /\ length (fst x) = length idx /\ owns (s_cc s') (slots (fst x) ++ O) /\
    (forall e, In e (fst x) -> iedge s' true k l e) /\
    (ex X -> forall j path, (j < length idx)%nat -> vpath k l path -> dg s' k (nthe (fst x) j) path = V (nth j idx d) path)).
Proof.
  induction idx as [|i idx IH]; intros s O I Ow H; cbn [dmap].
  - apply wp_dret. cbn [fst snd]. split; [auto|]. split; [now apply step_refl|]. split; auto. split; auto. split; [intros e []|]. simpl. intros; lia.
  - apply wp_dbind. eapply wp_mono; [apply (H i s O); auto; [now left|now apply step_refl|apply incl_refl]|].
    intros [r k1] s1 (-> & S1 & R1 & V1). cbn [fst snd] in *. apply wp_dbind. assert (I1: inv s1) by apply S1.
    assert (Inc: incl O (wslots (ew r) ++ O)) by apply incl_appr, incl_refl.
    eapply wp_mono; [apply (IH s1 (wslots (ew r) ++ O)); auto; [apply R1|]|].
    { intros j s2 O2 Hj I2 S2 Ow2 In2. apply H; auto; [now right| |eapply incl_tran; eauto].
      eapply step_trans; [exact S1|]. eapply step_weak; eauto. }
    intros [es k2] s2 (-> & S2 & L2 & Ow2 & W2 & V2). cbn [fst snd] in *. apply wp_dret. cbn [fst snd]. split; [auto|].
    split; [eapply step_trans; [exact S1|]; eapply step_weak; eauto|].
    split; [simpl; congruence|]. split; [|split].
    + eapply owns_perm; [|exact Ow2]. rewrite slots_cons, !app_assoc. apply Permutation_app_tail, Permutation_app_comm.
    + intros e [<-|He]; auto. eapply iedge_step; [exact S2|]. eapply cres_iedge; eauto.
    + intros Ex [|j] path Hj Vp.
      * cbn [nthe nth]. erewrite dg_step; [|exact I1|exact S2|apply R1|exact Vp]. now apply V1.
      * cbn [nthe nth]. apply V2; auto. simpl in Hj. lia.
Qed.

Lemma gedge_nn s O k l e : gedge s O k l e -> ep e <> PNull.
Proof. intros [A _ _ _] E. rewrite E in A. contradiction. Qed.

Definition addspD (add : edge -> edge -> D N edge) (l : Z) : Prop := forall s O x y,
  inv s -> owns (s_cc s) O -> gedge s O KD l x -> gedge s O KD l y ->
  wp al0 (add x y mz) s (fun r s' => snd r = mz /\ step O s s' /\ cres KD l O s' (fst r) /\
    (ex X -> forall path, vpath KD l path -> dg s' KD (fst r) path = (dg s KD x path + dg s KD y path)%C)).

Lemma add2D_sp : forall f l, -1 <= l -> l + 1 < Z.of_nat f -> addspD (add2D N g nb f) l.
Proof.
  induction f as [|f IH]; intros l Hl Hf; [lia|]. intros s O x y I Ow Gx Gy. cbn [add2D].
  destruct (isnull (ep x)) eqn:Nx. { apply isnull_spec in Nx. destruct Gx as [A _ _ _]. rewrite Nx in A. contradiction. }
  destruct (isnull (ep y)) eqn:Ny. { apply isnull_spec in Ny. destruct Gy as [A _ _ _]. rewrite Ny in A. contradiction. }
  assert (Cp: forall e, gedge s O KD l e -> ew e <> Czero ->
    wp al0 (dlift N (let* s := get in let* c := getCached g (cval s (ew e)) in ret (Ed (ep e) c)) mz) s
      (fun r s' => snd r = mz /\ step O s s' /\ cres KD l O s' (fst r) /\ (ex X -> forall path, vpath KD l path -> dg s' KD (fst r) path = dg s KD e path))).
  { intros e Ge Ze. apply wp_dlift, wp_bind, wp_get. destruct (getCached_sp s (cval s (ew e)) O) as (a & b & s1 & E1 & O1 & S1 & V1); auto.
    eapply wp_bind_ok; [exact E1|]. apply wp_ret. cbn [fst snd]. split; [auto|]. split; auto.
    assert (V1': Cv s1 (cslot a b) = Cv s (ew e)) by (unfold Inv.Cv; now rewrite V1).
    split.
    - apply cres_slot; auto. eapply etn_ext; [apply S1|apply Ge].
      intros E. destruct (ge_t _ _ _ _ _ _ _ _ Ge E); auto; contradiction.
      intros Ex. rewrite V1'. eapply gedge_nz; eauto.
    - intros Ex path V. unfold Inv.dg. cbn [ew ep]. rewrite V1'. f_equal. eapply dn_ext; eauto; [apply I|apply S1|apply Ge]. }
  destruct (wzero (ew x)) eqn:Zx.
  { apply ceqb_spec in Zx. destruct (wzero (ew y)) eqn:Zy.
    - apply ceqb_spec in Zy. apply wp_dret. cbn [fst snd]. split; [auto|]. split; [now apply step_refl|]. split; [now apply cres_zero|].
      intros Ex path V. rewrite dg_zero by auto. unfold Inv.dg. rewrite Zx, Zy, Cv_zero by auto. ring.
    - apply ceqb_false in Zy. eapply wp_mono; [apply Cp; auto|]. intros [r k1] s1 (-> & S1 & R1 & V1). cbn [fst snd] in *. split; [auto|]. split; auto. split; auto.
      intros Ex path V. rewrite V1 by auto. unfold Inv.dg. rewrite Zx, Cv_zero by auto. ring. }
  apply ceqb_false in Zx. destruct (wzero (ew y)) eqn:Zy.
  { apply ceqb_spec in Zy. eapply wp_mono; [apply Cp; auto|]. intros [r k1] s1 (-> & S1 & R1 & V1). cbn [fst snd] in *. split; [auto|]. split; auto. split; auto.
    intros Ex path V. rewrite V1 by auto. unfold Inv.dg. rewrite Zy, Cv_zero by auto. ring. }
  apply ceqb_false in Zy. clear Cp.
  destruct (nptr_eqb (ep x) (ep y)) eqn:Pe.
  { apply nptr_eqb_spec in Pe. apply wp_dlift. destruct (addCached_sp s O (ew x) (ew y)) as (p & q & s1 & E1 & O1 & S1 & V1); auto; [apply Gx|apply Gy|].
    eapply wp_bind_ok; [exact E1|]. apply wp_bind, wp_get. destruct (wapx0 s1 (cslot p q)) eqn:Z.
    - destruct (rel_sp s1 (cslot p q) O) as (s2 & E2 & O2 & Q2 & V2 & S2); auto; [apply S1|eauto|].
      eapply wp_bind_ok; [exact E2|]. apply wp_ret. cbn [fst snd]. split; [auto|]. split; [eapply step_trans; eauto|]. split; [now apply cres_zero|].
      intros Ex path V. rewrite dg_zero by auto. apply (x_wapx0 (X:=X)) in Z; auto. rewrite V1 in Z by auto.
      unfold Inv.dg. rewrite Pe. transitivity ((Cv s (ew x) + Cv s (ew y)) * dn (co s) KD (ep y) path)%C; [|ring]. rewrite Z. ring.
    - apply wp_ret. cbn [fst snd]. split; [auto|]. split; auto. split.
      + apply cres_slot; auto. eapply etn_ext; [apply S1|apply Gy].
        intros E. destruct (ge_t _ _ _ _ _ _ _ _ Gy E); auto; contradiction.
        intros Ex H. apply (x_wapx0 (X:=X)) in H; auto. congruence.
      + intros Ex path V. unfold Inv.dg. cbn [ew ep]. rewrite V1, Pe by auto.
        rewrite (dn_ext (co s) (co s1) KD) with (l:=l); auto; [ring|apply I|apply S1|apply Gy]. }
  assert (Hl0: 0 <= l).
  { destruct (Z.eq_dec l (-1)) as [E|E]; [|lia]. exfalso. subst l.
    assert (Q: forall e, gedge s O KD (-1) e -> ep e = PTerm).
    { intros e Ge. destruct (ep e) as [| |n] eqn:Ep; auto. { destruct Ge as [A _ _ _]. rewrite Ep in A. contradiction. }
      assert (H: isnode (co s) KD (-1) (ep e)) by (split; [apply Ge|rewrite Ep; discriminate]).
      apply (isnode_lvl _ _ _ _ (iv_c _ _ _ _ _ I)) in H. lia. }
    rewrite (Q x), (Q y) in Pe by auto. discriminate. }
  apply wp_dbind, wp_dlift, wp_get. cbn [fst snd]. cbv zeta.
  destruct (gedge_node _ _ _ _ _ I Gx Zx Hl0) as (nx & Ex_ & Lx & Vx & Hq).
  destruct (gedge_node _ _ _ _ _ I Gy Zy Hl0) as (ny & Ey_ & Ly & Vy & _).
  assert (NX: isnode (co s) KD l (ep x)) by (split; [apply Gx|rewrite Ex_; discriminate]).
  assert (NY: isnode (co s) KD l (ep y)) by (split; [apply Gy|rewrite Ey_; discriminate]).
  destruct (addLookup_sp O s KD (mkve s (ep x) (ew x)) (mkve s (ep y) (ew y)) I) as (r & s1 & E1 & S1 & C1' & Q1 & H1).
  apply wp_dbind, wp_dlift. unfold Inv.wp at 1. rewrite E1. cbn [fst snd]. clear E1. destruct r as [r|].
  - destruct H1 as (x' & y' & (l' & Hl' & Nx' & Ny' & Rv & Sem) & Ekx & Eky).
    unfold vedge_eqb in Ekx, Eky. apply andb_true_iff in Ekx, Eky. destruct Ekx as [Px Wx], Eky as [Py Wy].
    apply nptr_eqb_spec in Px, Py. cbn [vp vw mkve] in *.
    assert (l' = l). { apply (nptr_etn_lvl (co s) KD l' l (ep x)); [rewrite <- Px; apply Nx'|apply NX|apply NX]. } subst l'.
    apply wp_dlift. destruct (vapx0 (vw r)) eqn:Zr.
    + apply wp_ret. cbn [fst snd]. split; [auto|]. split; auto. split; [apply cres_zero; now rewrite C1'|].
      intros Ex path V. rewrite dg_zero by auto. apply (x_vapx0 (X:=X)) in Zr; auto.
      apply (x_vapx (X:=X)) in Wx, Wy; auto. specialize (Sem Ex path V). unfold Inv.dv in Sem. rewrite Zr, Wx, Wy, Px, Py in Sem.
      cbn [vw mkve] in Sem. unfold Inv.dg, Inv.Cv. rewrite <- Sem. ring.
    + rewrite <- C1' in Ow. destruct (getCached_sp s1 (vw r) O) as (a & b & s2 & E2 & O2 & S2 & V2); auto; [apply S1|].
      eapply wp_bind_ok; [exact E2|]. apply wp_ret. cbn [fst snd]. split; [auto|]. split; [eapply step_trans; eauto|].
      assert (V2': Cv s2 (cslot a b) = Cv2 (vw r)) by (unfold Inv.Cv; now rewrite V2).
      destruct Rv as (R1 & R2 & R3). rewrite <- Q1 in R1.
      split.
      * apply cres_slot; auto. eapply etn_ext; [apply S2|apply R1].
        intros E. destruct (R2 E); auto; congruence.
        intros Ex H. rewrite V2' in H. apply (x_vapx0 (X:=X)) in H; auto. congruence.
      * intros Ex path V. apply (x_vapx (X:=X)) in Wx, Wy; auto. specialize (Sem Ex path V).
        unfold Inv.dv in Sem. rewrite Wx, Wy, Px, Py in Sem. cbn [vw mkve] in Sem. unfold Inv.dg. cbn [ew ep].
        rewrite V2'. rewrite (dn_ext (co s1) (co s2) KD) with (l:=l); auto; [|apply S1|apply S2].
        rewrite Q1, Sem. reflexivity.
  - clear H1. assert (W: (if isT (ep x) || negb (isT (ep y)) && (lvl s KD (ep x) <? lvl s KD (ep y)) then lvl s KD (ep y) else lvl s KD (ep x)) = l).
    { rewrite Ex_, Ey_. simpl. unfold lvl. now rewrite Vx, Vy, Z.ltb_irrefl. }
    rewrite W. clear W. rewrite <- C1' in Ow.
    assert (I1: inv s1) by apply S1. apply wp_dbind.
    eapply wp_mono; [apply (dmap_cres 0%nat al0 KD (l - 1) _ (fun i path => (dg s KD x (i :: path) + dg s KD y (i :: path))%C) (seq 0 (arity KD)) s1 O); auto|].
    { intros i s2 O2 Hi I2 S2 Ow2 In2. apply in_seq in Hi. assert (Hi': (i < arity KD)%nat) by lia.
      assert (S02: step O s s2) by (eapply step_trans; eauto).
      assert (Gx2: gedge s2 O2 KD l x) by (eapply gedge_incl; [eapply gedge_step; eauto|auto]).
      assert (Gy2: gedge s2 O2 KD l y) by (eapply gedge_incl; [eapply gedge_step; eauto|auto]).
      apply wp_dbind, addArgD_mz. eapply wp_mono; [apply (addArg_sp s2 O2 KD l i x y); auto|].
      intros [e1 b1] s3 (S3 & Ow3 & G3 & B3 & V3). cbn [fst snd] in *.
      set (O3 := wslots (ew e1) ++ O2) in *. assert (I23: incl O2 O3) by (apply incl_appr, incl_refl).
      assert (I3: inv s3) by apply S3.
      apply wp_dbind, addArgD_mz. eapply wp_mono; [apply (addArg_sp s3 O3 KD l i y x); auto|].
      { eapply gedge_incl; [eapply gedge_step; eauto|auto]. }
      intros [e2 b2] s4 (S4 & Ow4 & G4 & B4 & V4). cbn [fst snd] in *.
      set (O4 := wslots (ew e2) ++ O3) in *. assert (I34: incl O3 O4) by (apply incl_appr, incl_refl).
      assert (I4: inv s4) by apply S4.
      assert (N3: ep e1 <> PNull) by (eapply gedge_nn; eauto). assert (N4: ep e2 <> PNull) by (eapply gedge_nn; eauto).
      apply wp_dbind, wp_happly; [reflexivity|]. apply wp_dbind, wp_happly; [reflexivity|]. cbn [fst snd hden hp hw hdp].
      replace (Ed (ep e1) (ew e1)) with e1 by (now destruct e1). replace (Ed (ep e2) (ew e2)) with e2 by (now destruct e2).
      apply wp_dbind. eapply wp_mono; [apply (IH (l - 1)); auto; try lia|].
      { exact Ow4. } { eapply gedge_incl; [eapply gedge_step; [exact S4|exact G3]|auto]. } { exact G4. }
      intros [r k5] s5 (-> & S5 & R5 & V5). cbn [fst snd] in *.
      apply wp_dbind, wp_hrevert; [exact N3|]. apply wp_dbind, wp_hrevert; [exact N4|]. cbn [fst snd].
      assert (I5: inv s5) by apply S5.
      destruct (relif_sp s5 b1 (ew e1) (wslots (ew r) ++ wslots (ew e2) ++ O2) I5 B3) as (s6 & E6 & Ow6 & Q6 & Cv6 & S6).
      { eapply owns_perm; [|apply R5]. unfold O4, O3. apply perm3. }
      apply wp_dbind, wp_dlift. unfold Inv.wp at 1. rewrite E6. cbn [fst snd].
      destruct (relif_sp s6 b2 (ew e2) (wslots (ew r) ++ O2)) as (s7 & E7 & Ow7 & Q7 & Cv7 & S7); auto.
      { apply (S6 O). }
      { eapply owns_perm; [|apply Ow6]. rewrite !app_assoc. apply Permutation_app_tail, Permutation_app_comm. }
      apply wp_dbind, wp_dlift. unfold Inv.wp at 1. rewrite E7. cbn [fst snd]. apply wp_dret. cbn [fst snd].
      assert (Q57: co s7 = co s5) by congruence. assert (C57: cc_val (s_cc s7) = cc_val (s_cc s5)) by congruence.
      split; [auto|]. split; [|split].
      - eapply step_trans; [exact S3|]. eapply step_trans; [eapply step_weak; [exact S4|auto]|].
        eapply step_trans; [eapply step_weak; [exact S5|eapply incl_tran; eauto]|]. eapply step_trans; eauto.
      - eapply cres_rel; eauto.
      - intros Ex path V. rewrite (dg_rel _ _ _ _ _ Q57 C57). rewrite V5 by auto.
        assert (Vp: vpath KD l (i :: path)) by (apply vpath_cons; auto).
        rewrite V4 by auto. f_equal.
        + erewrite dg_step; [|exact I3|exact S4|exact G3|exact V]. rewrite V3 by auto. eapply dg_step; eauto.
        + erewrite dg_step; [|exact I2|exact S3|exact Gy2|exact Vp]. eapply dg_step; eauto. }
    intros [es k2] s2 (-> & S2 & L2 & Ow2 & W2 & V2). cbn [fst snd] in *. rewrite seq_length in L2, V2.
    assert (S02: step O s s2) by (eapply step_trans; eauto). assert (I2: inv s2) by apply S2.
    apply wp_dbind, makeD_mz. eapply wp_mono; [apply (makeDDNode_sp s2 KD l es true O); auto|].
    { split; auto. rewrite (qe_nq _ _ _ (sp_ext _ _ _ _ _ _ _ S02) : s_nq s2 = s_nq s). exact Hq. }
    intros e s3 P. assert (S3: step O s2 s3) by apply P. pose proof (cres_mk _ _ _ _ _ _ _ Hl0 P) as R3.
    assert (S03: step O s s3) by (eapply step_trans; eauto).
    assert (V3: ex X -> forall path, vpath KD l path -> dg s3 KD e path = (dg s KD x path + dg s KD y path)%C).
    { intros Ex path V. apply vpath_inv in V; auto. destruct V as (i & p & -> & Hi & V).
      destruct P as (_ & _ & _ & P4). destruct (P4 Ex) as [_ P5]. rewrite P5 by auto. rewrite V2 by auto. now rewrite seq_nth. }
    cbn [fst snd]. apply wp_dlift, wp_bind, wp_get.
    destruct (addInsert_sp O s3 KD (mkve s (ep x) (ew x)) (mkve s (ep y) (ew y)) (mkve s3 (ep e) (ew e))) as (s4 & E4 & S4 & C4 & Q4).
    { apply S3. }
    { exists l. split; auto. split; [|split; [|split]].
      - eapply isnode_ext; [apply S03|exact NX]. - eapply isnode_ext; [apply S03|exact NY].
      - destruct (cr_g _ _ _ _ _ R3) as [A B D E]. split; [exact A|]. split.
        + cbn [vp vw mkve]. intros Et. destruct (D Et) as [H|H]; auto. right. rewrite H. rewrite cval_zero. apply (vapx0_zero (X:=X)).
        + cbn [vp vw mkve]. intros Ex H. specialize (E Ex H). now rewrite E.
      - intros Ex path V. specialize (V3 Ex path V). unfold Inv.dg, Inv.dv, Inv.Cv in *. cbn [vp vw mkve].
        rewrite V3. f_equal; f_equal; symmetry; (eapply dn_ext; [apply I|apply S03|eapply ge_n; eassumption|exact V]). }
    eapply wp_bind_ok; [exact E4|]. apply wp_ret. cbn [fst snd]. split; [auto|]. split; [eapply step_trans; eauto|].
    assert (Cv4: cc_val (s_cc s4) = cc_val (s_cc s3)) by now rewrite C4.
    split; [eapply cres_rel; eauto; rewrite C4; apply R3|].
    intros Ex path V. rewrite (dg_rel _ _ _ _ _ Q4 Cv4). auto.
Qed.


(** ** Multiplication *)

Definition hkd (p : hptr) : kind := match p with HM _ => KM | HD _ => KD end.
Definition hed (x : hedge) : edge := Ed (hdp (hp x)) (hw x).
Definition htedge (q : core N) (l : Z) (x : hedge) : Prop := hk x = mk0 /\ tedge q (hkd (hp x)) l (hed x).
Definition hde (q : core N) (x : hedge) : list nat -> C := de q (hkd (hp x)) (hed x).
Definition hsub (p : hptr) (e : edge) : hedge := HE (match p with HM _ => HM (ep e) | HD _ => HD (ep e) end) mk0 (ew e).

Lemma hed_hsub p e : hed (hsub p e) = e.
Proof. destruct p, e; reflexivity. Qed.
Lemma hkd_hsub p e : hkd (hp (hsub p e)) = hkd p.
Proof. destruct p; reflexivity. Qed.
Lemma hde_hsub q p e : hde q (hsub p e) = de q (hkd p) e.
Proof. unfold hde. now rewrite hkd_hsub, hed_hsub. Qed.
Lemma htedge_hsub q l p e : tedge q (hkd p) l e -> htedge q l (hsub p e).
Proof. intros H. split; [reflexivity|]. now rewrite hkd_hsub, hed_hsub. Qed.
Lemma htedge_nn q l x : htedge q l x -> hdp (hp x) <> PNull.
Proof. intros [_ [A _ _ _]] E. cbn [ep hed] in A. rewrite E in A. contradiction. Qed.
Lemma htedge_ext q q' l x : qext q q' -> htedge q l x -> htedge q' l x.
Proof. intros E [A B]. split; auto. eapply tedge_ext; eauto. Qed.
Lemma vpath_D k l path : k = KM \/ k = KD -> vpath k l path <-> vpath KM l path.
Proof. intros [-> | ->]; reflexivity. Qed.
Lemma hkd_D p : hkd p = KM \/ hkd p = KD.
Proof. destruct p; auto. Qed.
Lemma hde_step O s s' l x path : inv s -> step O s s' -> htedge (co s) l x -> vpath KM l path -> hde (co s') x path = hde (co s) x path.
Proof. intros I S [_ T] V. unfold hde. eapply de_step; eauto. now apply (vpath_D _ _ _ (hkd_D _)). Qed.

Lemma hnull_hdp p : hnull p = isnull (hdp p).
Proof. destruct p as [[]|[]]; reflexivity. Qed.

Lemma mulArgD_mz s l i x n : hdp (hp x) = PNode n -> nv (nod s (hkd (hp x)) n) = l ->
  mulArgD N l i x mz s = Ok (hsub (hp x) (nthe (ne (nod s (hkd (hp x)) n)) i), mz) s.
Proof.
  intros E V. unfold mulArgD. destruct (hp x) as [p|p]; cbn [hdp hkd] in *; subst p; cbn [hT negb andb hlvl lvl];
    rewrite V, Z.eqb_refl; reflexivity.
Qed.

Definition multspD (mul : hedge -> hedge -> D N edge) (l : Z) : Prop := forall s O x y,
  l < s_nq s -> inv s -> owns (s_cc s) O -> htedge (co s) l x -> htedge (co s) l y ->
  wp al0 (mul x y mz) s (fun r s' => snd r = mz /\ step O s s' /\ cres KD l O s' (fst r) /\
    (ex X -> forall path, vpath KM l path -> dg s' KD (fst r) path = psum KM (hde (co s) x) (hde (co s) y) path)).

(** One entry of the product. *)
Lemma mulEntry_sp rec l s O x y nx ny i j : multspD rec (l - 1) -> 0 <= l < s_nq s -> inv s -> owns (s_cc s) O ->
  hdp (hp x) = PNode nx -> linked (co s) (hkd (hp x)) nx -> nv (nod s (hkd (hp x)) nx) = l ->
  hdp (hp y) = PNode ny -> linked (co s) (hkd (hp y)) ny -> nv (nod s (hkd (hp y)) ny) = l ->
  (i < 2)%nat -> (j < 2)%nat ->
  wp al0 (mulEntry N g nb rec l x y i j mz) s (fun r s' => snd r = mz /\ step O s s' /\ cres KD (l - 1) O s' (fst r) /\
    (ex X -> forall path, vpath KM (l - 1) path -> dg s' KD (fst r) path =
       psum KM (dn (co s) (hkd (hp x)) (PNode nx)) (dn (co s) (hkd (hp y)) (PNode ny)) (2 * i + j :: path)%nat)).
Proof.
  intros IH Hl I Ow Epx Lx Vx Epy Ly Vy Hi Hj.
  set (kx := hkd (hp x)) in *. set (ky := hkd (hp y)) in *.
  assert (Ax: arity kx = 4%nat) by (unfold kx; destruct (hp x); reflexivity).
  assert (Ay: arity ky = 4%nat) by (unfold ky; destruct (hp y); reflexivity).
  assert (Cx: forall i, (i < 4)%nat -> tedge (co s) kx (l - 1) (nthe (ne (nod s kx nx)) i)).
  { intros i0 Hi0. rewrite <- Vx. apply child_ok; auto. apply I. lia. }
  assert (Cy: forall i, (i < 4)%nat -> tedge (co s) ky (l - 1) (nthe (ne (nod s ky ny)) i)).
  { intros i0 Hi0. rewrite <- Vy. apply child_ok; auto. apply I. lia. }
  set (cx := fun i => hsub (hp x) (nthe (ne (nod s kx nx)) i)). set (cy := fun i => hsub (hp y) (nthe (ne (nod s ky ny)) i)).
  assert (Hx: forall s3, step O s s3 -> forall i0, (i0 < 4)%nat -> mulArgD N l i0 x mz s3 = Ok (cx i0, mz) s3 /\ htedge (co s3) (l - 1) (cx i0)).
  { intros s3 S3 i0 Hi0. destruct (qe_same _ _ _ _ (sp_ext _ _ _ _ _ _ _ S3) Lx) as (N1 & _ & N2 & _).
    change (Inv.qn N (co s) kx nx) with (nod s kx nx) in *. change (Inv.qn N (co s3) kx nx) with (nod s3 kx nx) in *.
    rewrite (mulArgD_mz s3 l i0 x nx); [|auto|unfold kx in *; congruence]. fold kx. unfold cx. rewrite <- N1. split; [reflexivity|].
    apply htedge_hsub. eapply tedge_ext; [apply S3|]. now apply Cx. }
  assert (Hy: forall s3, step O s s3 -> forall i0, (i0 < 4)%nat -> mulArgD N l i0 y mz s3 = Ok (cy i0, mz) s3 /\ htedge (co s3) (l - 1) (cy i0)).
  { intros s3 S3 i0 Hi0. destruct (qe_same _ _ _ _ (sp_ext _ _ _ _ _ _ _ S3) Ly) as (N1 & _ & N2 & _).
    change (Inv.qn N (co s) ky ny) with (nod s ky ny) in *. change (Inv.qn N (co s3) ky ny) with (nod s3 ky ny) in *.
    rewrite (mulArgD_mz s3 l i0 y ny); [|auto|unfold ky in *; congruence]. fold ky. unfold cy. rewrite <- N1. split; [reflexivity|].
    apply htedge_hsub. eapply tedge_ext; [apply S3|]. now apply Cy. }
  assert (NQ: forall s3, step O s s3 -> s_nq s3 = s_nq s).
  { intros s3 S3. exact (qe_nq _ _ _ (sp_ext _ _ _ _ _ _ _ S3)). }
  assert (S0: step O s s) by (now apply step_refl).
  assert (PS: forall s3, step O s s3 -> forall a b, (a < 4)%nat -> (b < 4)%nat -> forall path, vpath KM (l - 1) path ->
      psum KM (hde (co s3) (cx a)) (hde (co s3) (cy b)) path = psum KM (hde (co s) (cx a)) (hde (co s) (cy b)) path).
  { intros s3 S3 a b Ha Hb path V. apply (psum_ext KM ltac:(discriminate) path (l - 1)); auto; intros p Vp; (eapply hde_step; eauto).
    now apply Hx. now apply Hy. }
  assert (Tgt: forall path, psum KM (dn (co s) kx (PNode nx)) (dn (co s) ky (PNode ny)) (2 * i + j :: path)%nat =
     (psum KM (hde (co s) (cx (2 * i + 0)%nat)) (hde (co s) (cy (j + 2 * 0)%nat)) path +
      psum KM (hde (co s) (cx (2 * i + 1)%nat)) (hde (co s) (cy (j + 2 * 1)%nat)) path)%C).
  { intros path. cbn [psum]. unfold cx, cy. rewrite !hde_hsub. fold kx ky.
    assert (PR: prow KM (2 * i + j) = i /\ pcol KM (2 * i + j) = j).
    { unfold prow, pcol. rewrite (Nat.mul_comm 2 i). rewrite Nat.div_add_l by lia. rewrite Nat.div_small by lia.
      rewrite (Nat.add_comm (i * 2) j), Nat.mod_add by lia. rewrite Nat.mod_small by lia. lia. }
    destruct PR as [-> ->]. reflexivity. }
  unfold mulEntry. apply wp_dbind. unfold mulTerm at 1.
  (* first factor *)
  apply wp_dbind. unfold Inv.wp at 1. rewrite (proj1 (Hx s S0 (2 * i + 0)%nat ltac:(lia))). cbn [fst snd].
  apply wp_dbind. unfold Inv.wp at 1. rewrite (proj1 (Hy s S0 (j + 2 * 0)%nat ltac:(lia))). cbn [fst snd].
  apply wp_dbind, wp_happly; [reflexivity|]. apply wp_dbind, wp_happly; [reflexivity|]. cbn [fst snd].
  assert (Nx: forall i0, (i0 < 4)%nat -> hdp (hp (cx i0)) <> PNull) by (intros i0 Hi0; eapply htedge_nn, (Hx s S0); auto).
  assert (Ny: forall i0, (i0 < 4)%nat -> hdp (hp (cy i0)) <> PNull) by (intros i0 Hi0; eapply htedge_nn, (Hy s S0); auto).
  apply wp_dbind. eapply wp_mono; [apply (IH s O)|]; auto; try lia.
  { apply Hx; auto; lia. } { apply Hy; auto; lia. }
  intros [m0 k3] s3 (-> & S3 & R3 & V3). cbn [fst snd Nat.eqb orb] in *. apply wp_dbind, wp_dret. cbn [fst snd].
  apply wp_dbind, wp_hrevert; [apply Nx; lia|]. apply wp_dbind, wp_hrevert; [apply Ny; lia|]. cbn [fst snd]. apply wp_dret. cbn [fst snd].
  set (O3 := wslots (ew m0) ++ O) in *. assert (Inc3: incl O O3) by (apply incl_appr, incl_refl).
  assert (I3: inv s3) by apply S3. unfold mulTerm.
  (* second factor *)
  apply wp_dbind. unfold Inv.wp at 1. rewrite (proj1 (Hx s3 S3 (2 * i + 1)%nat ltac:(lia))). cbn [fst snd].
  apply wp_dbind. unfold Inv.wp at 1. rewrite (proj1 (Hy s3 S3 (j + 2 * 1)%nat ltac:(lia))). cbn [fst snd].
  apply wp_dbind, wp_happly; [reflexivity|]. apply wp_dbind, wp_happly; [reflexivity|]. cbn [fst snd].
  apply wp_dbind. eapply wp_mono; [apply (IH s3 O3)|]; auto.
  { rewrite (NQ s3); auto. lia. } { apply R3. } { apply Hx; auto; lia. } { apply Hy; auto; lia. }
  intros [m1 k4] s4 (-> & S4 & R4 & V4). cbn [fst snd] in *. assert (I4: inv s4) by apply S4.
  assert (S24: step O s s4) by (eapply step_trans; [exact S3|eapply step_weak; eauto]).
  assert (Vm0: ex X -> forall path, vpath KM (l - 1) path -> dg s4 KD m0 path =
     psum KM (hde (co s) (cx (2 * i + 0)%nat)) (hde (co s) (cy (j + 2 * 0)%nat)) path).
  { intros Ex path V. erewrite dg_step; [|exact I3|exact S4|apply R3|exact V]. now apply V3. }
  assert (Vm1: ex X -> forall path, vpath KM (l - 1) path -> dg s4 KD m1 path =
     psum KM (hde (co s) (cx (2 * i + 1)%nat)) (hde (co s) (cy (j + 2 * 1)%nat)) path).
  { intros Ex path V. rewrite V4 by auto. apply (PS s3); auto; lia. }
  apply wp_dbind. cbn [Nat.eqb orb].
  assert (Fin: forall r s5, step O s s5 -> cres KD (l - 1) O s5 r -> (ex X -> forall path, vpath KM (l - 1) path -> dg s5 KD r path =
       psum KM (dn (co s) kx (PNode nx)) (dn (co s) ky (PNode ny)) (2 * i + j :: path)%nat) ->
     wp al0 (dbind N (hrevert N (hp (cx (2 * i + 1)%nat))) (fun _ => dbind N (hrevert N (hp (cy (j + 2 * 1)%nat))) (fun _ => dret N r)) mz) s5
       (fun r s' => snd r = mz /\ step O s s' /\ cres KD (l - 1) O s' (fst r) /\
    (ex X -> forall path, vpath KM (l - 1) path -> dg s' KD (fst r) path =
       psum KM (dn (co s) kx (PNode nx)) (dn (co s) ky (PNode ny)) (2 * i + j :: path)%nat))).
  { intros r s5 H1 H2 H3. apply wp_dbind, wp_hrevert; [apply Nx; lia|]. apply wp_dbind, wp_hrevert; [apply Ny; lia|].
    apply wp_dret. cbn [fst snd]. auto. }
  destruct (wzero (ew m0)) eqn:Z0.
  - apply ceqb_spec in Z0. apply wp_dret. cbn [fst snd]. apply Fin; auto.
    + assert (O3 = O) by (unfold O3; rewrite Z0; reflexivity). congruence.
    + intros Ex path V. rewrite Tgt, <- Vm0, <- Vm1 by auto. unfold Inv.dg at 2. rewrite Z0, Cv_zero by auto. ring.
  - apply ceqb_false in Z0. destruct (wzero (ew m1)) eqn:Z1; simpl negb; cbv iota.
    + apply ceqb_spec in Z1. apply wp_dret. cbn [fst snd]. apply Fin; auto.
      * destruct R3 as [P1 P2 P3]. destruct R4 as [_ _ P4]. rewrite Z1 in P4. simpl in P4. constructor; auto. eapply gedge_step; eauto.
      * intros Ex path V. rewrite Tgt, <- Vm0, <- Vm1 by auto. unfold Inv.dg at 3. rewrite Z1, Cv_zero by auto. ring.
    + apply ceqb_false in Z1. apply wp_dbind, wp_dlift, wp_gets. cbn [fst snd]. apply wp_dbind.
      set (O4 := wslots (ew m1) ++ O3) in *. assert (Inc4: incl O3 O4) by (apply incl_appr, incl_refl).
      eapply wp_mono; [apply (add2D_sp (fuelof N s4) (l - 1)) with (O:=O4)|]; auto; try lia.
      { unfold fuelof. rewrite (NQ s4); auto. lia. }
      { apply R4. } { eapply gedge_incl; [eapply gedge_step; [exact S4|apply R3]|auto]. } { apply R4. }
      intros [r k5] s5 (-> & S5 & R5 & V5). cbn [fst snd] in *. assert (I5: inv s5) by apply S5.
      apply wp_dbind, wp_hrevert; [eapply gedge_nn, R5|]. apply wp_dbind, wp_hrevert; [apply Ny; lia|]. cbn [fst snd].
      destruct (rel_sp s5 (ew m0) (wslots (ew r) ++ wslots (ew m1) ++ O) I5) as (s6 & E6 & Ow6 & Q6 & Cv6 & S6).
      { destruct (cr_s _ _ _ _ _ R3); [contradiction|auto]. }
      { eapply owns_perm; [|apply R5]. unfold O4, O3. apply perm3. }
      apply wp_dbind, wp_dlift. unfold Inv.wp at 1. rewrite E6. cbn [fst snd].
      destruct (rel_sp s6 (ew m1) (wslots (ew r) ++ O)) as (s7 & E7 & Ow7 & Q7 & Cv7 & S7); auto.
      { apply (S6 O). }
      { destruct (cr_s _ _ _ _ _ R4); [contradiction|auto]. }
      { eapply owns_perm; [|apply Ow6]. rewrite !app_assoc. apply Permutation_app_tail, Permutation_app_comm. }
      apply wp_dbind, wp_dlift. unfold Inv.wp at 1. rewrite E7. cbn [fst snd]. apply wp_dret. cbn [fst snd].
      assert (Q57: co s7 = co s5) by congruence. assert (C57: cc_val (s_cc s7) = cc_val (s_cc s5)) by congruence.
      apply Fin.
      * eapply step_trans; [exact S24|]. eapply step_trans; [eapply step_weak; [exact S5|eapply incl_tran; eauto]|]. eapply step_trans; eauto.
      * eapply cres_rel; eauto.
      * intros Ex path V. rewrite (dg_rel _ _ _ _ _ Q57 C57). rewrite V5 by auto. rewrite Tgt, Vm0, Vm1 by auto. reflexivity.
Qed.

(** The table of products. *)
Lemma ddLookup_sp O s k x y gen : inv s -> hdp x <> PNull -> hdp y <> PNull ->
  exists r s', ddLookup N g k x y gen s = Ok r s' /\ step O s s' /\ s_cc s' = s_cc s /\ co s' = co s /\
  match r with None => True | Some r => exists x' y', binok (co s) BDD x' y' r /\
     edge_eqb s x' (Ed (hcode x 0) Cone) = true /\ edge_eqb s y' (Ed (hcode y 0) Cone) = true end.
Proof.
  intros I Nx Ny. unfold ddLookup.
  assert (E: hnull x || hnull y = false). { rewrite !hnull_hdp. destruct (hdp x), (hdp y); try reflexivity; congruence. }
  rewrite E. cbv zeta. destruct (iv_t _ _ _ _ _ I) as [T1 T2 T3 T4 T5].
  assert (K: forall a b, step O s (set_bin s BDD (TB (tb_ent (s_bin s BDD)) (tb_count (s_bin s BDD)) a b))).
  { intros a b. apply step_tb; auto. constructor; auto.
    - intros b' h a' c' r'. simpl. destruct (bop_eqb b' BDD) eqn:Q; [|apply T2]. apply bop_eqb_spec in Q. subst. apply T2.
    - apply tcnt_bin; auto. exact (proj1 (proj2 T5) BDD). }
  destruct (tb_ent (s_bin s BDD) (ddHash N g k x y)) as [[[a b] r]|] eqn:Et.
  - destruct (edge_eqb s a (Ed (hcode x 0) Cone)) eqn:Ea; [|eexists None, _; split; [reflexivity|]; split; [now apply K|auto]].
    destruct (edge_eqb s b (Ed (hcode y 0) Cone)) eqn:Eb; [|eexists None, _; split; [reflexivity|]; split; [now apply K|auto]].
    destruct (Bool.eqb (isden N s (vp r)) gen); cbn [andb]; [|eexists None, _; split; [reflexivity|]; split; [now apply K|auto]].
    eexists (Some r), _. split; [reflexivity|]. split; [now apply K|]. split; [auto|]. split; [auto|]. exists a, b.
    split; [eapply T2; eauto|auto].
  - eexists None, _. split; [reflexivity|]. split; [now apply K|auto].
Qed.
Lemma ddInsert_sp O s k x y r : inv s -> binok (co s) BDD (Ed (hcode x 0) Cone) (Ed (hcode y 0) Cone) r ->
  exists s', ddInsert N g k x y r s = Ok tt s' /\ step O s s' /\ s_cc s' = s_cc s /\ co s' = co s.
Proof.
  intros I U. destruct (iv_t _ _ _ _ _ I) as [T1 T2 T3 T4 T5].
  eexists. split; [reflexivity|]. split; [|auto]. apply step_tb; auto. constructor; auto; [|apply tcnt_bin; auto; apply tb_insert_tok, T5].
  intros b' h a c r'. simpl s_bin. destruct (bop_eqb b' BDD) eqn:Q; [|apply T2]. apply bop_eqb_spec in Q. subst.
  intros H. apply tb_insert_ent in H. destruct H as [H|H]; [|eapply T2; eauto]. injection H as -> -> ->. auto.
Qed.
Lemma hcode_inj a b : hdp a <> PNull -> hcode a 0 = hcode b 0 -> a = b.
Proof.
  intros Ha H. destruct a as [[| |n]|[| |n]], b as [[| |m]|[| |m]]; cbn [hcode hdp] in *; try discriminate; try congruence;
    injection H as H; try (f_equal; f_equal; lia); try lia.
Qed.
Lemma hn_dn q p : hn N g X q p = dn q (hkd p) (hdp p).
Proof. destruct p; reflexivity. Qed.
Lemma hnode_isnode q l p : hnode N q l p <-> isnode q (hkd p) l (hdp p).
Proof. destruct p; reflexivity. Qed.
Lemma ddsem_psum q l a b r : ddsem N g X q l a b r <->
  (forall path, vpath KM l path -> r path = psum KM (dn q (hkd a) (hdp a)) (dn q (hkd b) (hdp b)) path).
Proof.
  unfold ddsem. rewrite !hn_dn. split.
  - intros H p V. destruct (mp_surj _ _ V) as (rs & cs & Vr & Vc & ->). rewrite H by auto. symmetry.
    apply psum_KM; [|apply Vc]. rewrite (InvL.vpath_len _ _ _ Vr), (InvL.vpath_len _ _ _ Vc). auto.
  - intros H rs cs Vr Vc. rewrite H by (now apply vpath_mp). apply psum_KM; [|apply Vc].
    rewrite (InvL.vpath_len _ _ _ Vr), (InvL.vpath_len _ _ _ Vc). auto.
Qed.

Lemma seq4 {B} al (f : nat * nat -> D N edge) (K : list edge -> D N B) k s Q :
  wp al (dmap N f [(0, 0); (0, 1); (1, 0); (1, 1)]%nat k) s (fun x s' => wp al (K (fst x) (snd x)) s' Q) ->
  wp al (dbind N (f (0, 0)%nat) (fun e0 => dbind N (f (0, 1)%nat) (fun e1 => dbind N (f (1, 0)%nat) (fun e2 =>
         dbind N (f (1, 1)%nat) (fun e3 => K [e0; e1; e2; e3])))) k) s Q.
Proof.
  unfold Inv.wp, dbind, bind. cbn [dmap]. unfold dbind, dret, dlift, bind, ret.
  destruct (f (0, 0)%nat k s) as [[? ?] s1| |]; auto. cbn [fst snd]. destruct (f (0, 1)%nat _ s1) as [[? ?] s2| |]; auto. cbn [fst snd].
  destruct (f (1, 0)%nat _ s2) as [[? ?] s3| |]; auto. cbn [fst snd]. destruct (f (1, 1)%nat _ s3) as [[? ?] s4| |]; auto.
Qed.

Lemma htedge_node s l x : inv s -> htedge (co s) l x -> hw x <> Czero -> 0 <= l ->
  exists n, hdp (hp x) = PNode n /\ linked (co s) (hkd (hp x)) n /\ nv (nod s (hkd (hp x)) n) = l.
Proof. intros I [_ T] Z Hl. exact (tedge_node0 s (hkd (hp x)) l (hed x) I T Z Hl). Qed.

Lemma mult2D_sp : forall f l, -1 <= l -> l + 1 < Z.of_nat f -> multspD (fun x y => mult2D N g nb f x y l 0 false) l.
Proof.
  induction f as [|f IH]; intros l Hl Hf; [lia|]. intros s O x y Hq I Ow Tx Ty. cbn [mult2D].
  pose proof (htedge_nn _ _ _ Tx) as Nx. pose proof (htedge_nn _ _ _ Ty) as Ny.
  assert (Nx': hnull (hp x) = false) by (rewrite hnull_hdp; destruct (hdp (hp x)); auto; congruence).
  assert (Ny': hnull (hp y) = false) by (rewrite hnull_hdp; destruct (hdp (hp y)); auto; congruence).
  rewrite Nx', Ny'. set (kx := hkd (hp x)). set (ky := hkd (hp y)).
  assert (Sc: forall path, vpath KM l path -> psum KM (hde (co s) x) (hde (co s) y) path =
     (Cw (co s) (hw x) * Cw (co s) (hw y) * psum KM (dn (co s) kx (hdp (hp x))) (dn (co s) ky (hdp (hp y))) path)%C).
  { intros path V. rewrite <- psum_scal. reflexivity. }
  assert (Wx: wtab (co s) (hw x)) by apply Tx. assert (Wy: wtab (co s) (hw y)) by apply Ty.
  destruct (wzero (hw x) || wzero (hw y)) eqn:Z.
  { apply wp_dret. cbn [fst snd]. split; [auto|]. split; [now apply step_refl|]. split; [now apply cres_zero|]. intros Ex path V. rewrite dg_zero, Sc by auto.
    apply orb_true_iff in Z. destruct Z as [Z|Z]; apply ceqb_spec in Z; rewrite Z, Cw_zero by auto; ring. }
  apply orb_false_iff in Z. destruct Z as [Zx Zy]. apply ceqb_false in Zx, Zy.
  destruct (l =? 0 - 1) eqn:El.
  { apply Z.eqb_eq in El. assert (l = -1) by lia. subst l.
    destruct (mulCached_sp s O (hw x) (hw y)) as (p & q & s1 & E1 & O1 & S1 & V1); auto; try (now left).
    apply wp_dlift. eapply wp_bind_ok; [exact E1|]. apply wp_ret. cbn [fst snd]. split; [auto|]. split; auto.
    assert (Cx: ex X -> Cv s1 (cslot p q) = (Cw (co s) (hw x) * Cw (co s) (hw y))%C).
    { intros Ex. rewrite V1, !Cv_Cw; auto. }
    split.
    - apply cres_slot; simpl; auto. intros Ex. rewrite Cx by auto. apply Cmul_neq; intros Hc; apply Cw_eq0 in Hc; auto; try apply I.
    - intros Ex path V. rewrite Sc by auto. apply vpath_m1 in V. subst path. unfold Inv.dg. cbn [ew ep psum]. rewrite Cx by auto.
      unfold Inv.dn; simpl. ring. }
  apply Z.eqb_neq in El. assert (Hl0: 0 <= l) by lia. clear El.
  destruct (htedge_node _ _ _ I Tx Zx Hl0) as (nx & Epx & Lx & Vx).
  destruct (htedge_node _ _ _ I Ty Zy Hl0) as (ny & Epy & Ly & Vy).
  assert (NX: isnode (co s) kx l (hdp (hp x))) by (split; [apply Tx|rewrite Epx; discriminate]).
  assert (NY: isnode (co s) ky l (hdp (hp y))) by (split; [apply Ty|rewrite Epy; discriminate]).
  destruct (ddLookup_sp O s mz (hp x) (hp y) false I Nx Ny) as (r & s1 & E1 & S1 & C1' & Q1 & H1).
  apply wp_dbind, wp_dlift. unfold Inv.wp at 1. rewrite E1. cbn [fst snd]. clear E1. assert (I1: inv s1) by apply S1. rewrite <- C1' in Ow.
  destruct r as [r|].
  - destruct H1 as (x' & y' & (Wx' & Wy' & l' & a & b & Hl' & Pa & Pb & Na & Nb & Rv & Sem) & Ekx & Eky).
    pose proof (edge_eqb_p _ _ _ Ekx) as Px. pose proof (edge_eqb_p _ _ _ Eky) as Py. cbn [ep] in Px, Py.
    assert (Da: hp x = a) by (apply hcode_inj; [auto|congruence]). assert (Db: hp y = b) by (apply hcode_inj; [auto|congruence]). subst a b.
    apply hnode_isnode in Na, Nb.
    assert (l' = l). { apply (nptr_etn_lvl (co s) kx l' l (hdp (hp x))); [apply Na|apply NX|apply NX]. } subst l'.
    assert (Sem': ex X -> forall path, vpath KM l path -> dv (co s) KD r path = psum KM (dn (co s) kx (hdp (hp x))) (dn (co s) ky (hdp (hp y))) path).
    { intros Ex. exact (proj1 (ddsem_psum _ _ _ _ _) (Sem Ex)). }
    apply wp_dlift. destruct (vapx0 (vw r)) eqn:Zr.
    + apply wp_ret. cbn [fst snd]. split; [auto|]. split; auto. split; [now apply cres_zero|].
      intros Ex path V. rewrite dg_zero by auto. apply (x_vapx0 (X:=X)) in Zr; auto.
      rewrite Sc, <- Sem' by auto. unfold Inv.dv. rewrite Zr. ring.
    + destruct (getCached_sp s1 (vw r) O) as (a & b & s2 & E2 & O2 & S2 & V2); auto.
      eapply wp_bind_ok; [exact E2|]. destruct Rv as (R1 & R2 & R3). rewrite <- Q1 in R1.
      assert (S02: step O s s2) by (eapply step_trans; eauto).
      eapply wp_mono; [apply (scale2_sp s2 O KD l (vp r) a b (hw x) (hw y)); auto|].
      * apply S2. * eapply etn_ext; [apply S2|auto]. * intros E. destruct (R2 E); auto. congruence.
      * eapply wtab_ext; [apply S02|auto]. * eapply wtab_ext; [apply S02|auto].
      * intros r2 s3 (S3 & R & V3). cbn [fst snd]. split; [auto|]. split; [eapply step_trans; eauto|]. split; auto.
        intros Ex path V. rewrite V3, Sc, <- Sem' by auto. unfold Inv.dv.
        rewrite (Cw_ext (co s) (co s2) (hw x)), (Cw_ext (co s) (co s2) (hw y)); try apply S02; auto.
        replace (Cv s2 (cslot a b)) with (Cv2 (vw r)) by (unfold Inv.Cv; now rewrite V2).
        rewrite (dn_ext (co s1) (co s2) KD) with (l:=l); auto; [|apply I1|apply S2]. now rewrite Q1.
  - clear H1.
    apply (seq4 al0 (fun ij => mulEntry N g nb (fun e1 e2 => mult2D N g nb f e1 e2 (l - 1) 0 false) l x y (fst ij) (snd ij))
      (fun es => dbind N (makeD N g nb l es true false) (fun e => fun k =>
        dlift N (let* s := get in
        ddInsert N g k (hp x) (hp y) (mkve s (ep e) (ew e)) ;;;
        if negb (wzero (ew e)) && (wone (hw x) || negb (wzero (hw y))) then
          let* w :=
            if wone (ew e) then mulCached g (hw x) (hw y)
            else mulInto (ew e) (ew e) (hw x) ;;; mulInto (ew e) (ew e) (hw y) ;;; ret (ew e) in
          let* s := get in
          if wapx0 s w then retCache w ;;; ret Ezero
          else ret (Ed (ep e) w)
        else ret e) k))).
    eapply wp_mono; [apply (dmap_cres (0%nat, 0%nat) al0 KD (l - 1) _
       (fun ij path => psum KM (dn (co s) kx (hdp (hp x))) (dn (co s) ky (hdp (hp y))) (2 * fst ij + snd ij :: path)%nat)
       [(0, 0); (0, 1); (1, 0); (1, 1)]%nat s1 O); auto|].
    { intros [i j] s2 O2 Hij I2 S2 Ow2 In2. assert (Hi: (i < 2 /\ j < 2)%nat).
      { cbn [In] in Hij. destruct Hij as [E|[E|[E|[E|[]]]]]; injection E as <- <-; lia. }
      assert (S02: step O s s2) by (eapply step_trans; eauto).
      destruct (qe_same _ _ _ _ (sp_ext _ _ _ _ _ _ _ S02) Lx) as (_ & _ & N2 & _).
      destruct (qe_same _ _ _ _ (sp_ext _ _ _ _ _ _ _ S02) Ly) as (_ & _ & M2 & _).
      cbn [fst snd]. eapply wp_mono; [apply (mulEntry_sp _ l s2 O2 x y nx ny i j)|]; auto; try lia.
      - apply IH; lia.
      - rewrite (qe_nq _ _ _ (sp_ext _ _ _ _ _ _ _ S02) : s_nq s2 = s_nq s). lia.
      - eapply qe_linked; [apply S02|auto].
      - rewrite <- Vx. symmetry. exact N2.
      - eapply qe_linked; [apply S02|auto].
      - rewrite <- Vy. symmetry. exact M2.
      - intros [r k3] s3 (-> & S3 & R3 & V3). cbn [fst snd] in *. split; [auto|]. split; auto. split; auto.
        intros Ex path V. rewrite V3 by auto. rewrite Epx, Epy.
        apply (psum_ext KM ltac:(discriminate) _ l).
        + apply vpath_cons. split; [cbn [arity]; lia|exact V].
        + intros p Vp. eapply dn_ext; [apply I|apply S02|rewrite <- Epx; apply Tx|]. now apply (vpath_D _ _ _ (hkd_D _)).
        + intros p Vp. eapply dn_ext; [apply I|apply S02|rewrite <- Epy; apply Ty|]. now apply (vpath_D _ _ _ (hkd_D _)). }
    intros [es k2] s2 (-> & S2 & L2 & Ow2 & W2 & V2). cbn [fst snd length] in *.
    assert (S02: step O s s2) by (eapply step_trans; eauto). assert (I2: inv s2) by apply S2.
    apply wp_dbind, makeD_mz. eapply wp_mono; [apply (makeDDNode_sp s2 KD l es true O); auto|].
    { split; auto. rewrite (qe_nq _ _ _ (sp_ext _ _ _ _ _ _ _ S02) : s_nq s2 = s_nq s). exact Hq. }
    intros e s3 P. assert (S3: step O s2 s3) by apply P. pose proof (cres_mk _ _ _ _ _ _ _ Hl0 P) as R3.
    assert (S03: step O s s3) by (eapply step_trans; eauto). cbn [fst snd].
    assert (V3: ex X -> forall path, vpath KM l path -> dg s3 KD e path = psum KM (dn (co s) kx (hdp (hp x))) (dn (co s) ky (hdp (hp y))) path).
    { intros Ex path V. apply vpath_inv in V; auto. destruct V as (i & p & -> & Hi & V). cbn [arity] in Hi.
      destruct P as (_ & _ & _ & P4). destruct (P4 Ex) as [_ P5]. rewrite P5 by auto. rewrite V2 by auto.
      f_equal. f_equal. destruct i as [|[|[|[|]]]]; try reflexivity. lia. }
    apply wp_dlift, wp_bind, wp_get.
    destruct (ddInsert_sp O s3 mz (hp x) (hp y) (mkve s3 (ep e) (ew e))) as (s4 & E4 & S4 & C4 & Q4).
    { apply S3. }
    { split; auto. split; auto. exists l, (hp x), (hp y). split; auto. split; [reflexivity|]. split; [reflexivity|]. split; [|split; [|split]].
      - apply hnode_isnode. eapply isnode_ext; [apply S03|exact NX]. - apply hnode_isnode. eapply isnode_ext; [apply S03|exact NY].
      - destruct (cr_g _ _ _ _ _ R3) as [A B D E]. split; [exact A|]. split.
        + cbn [vp vw mkve]. intros Et. destruct (D Et) as [H|H]; auto. right. rewrite H. rewrite cval_zero. apply (vapx0_zero (X:=X)).
        + cbn [vp vw mkve]. intros Ex H. specialize (E Ex H). now rewrite E.
      - intros Ex. apply ddsem_psum. intros path V. specialize (V3 Ex path V). unfold Inv.dg, Inv.dv, Inv.Cv in *. cbn [vp vw mkve].
        rewrite V3. apply (psum_ext KM ltac:(discriminate) _ l); auto; intros p Vp; symmetry;
          (eapply dn_ext; [apply I|apply S03|first [apply NX|apply NY]|now apply (vpath_D _ _ _ (hkd_D _))]). }
    eapply wp_bind_ok; [exact E4|].
    assert (Cv4: cc_val (s_cc s4) = cc_val (s_cc s3)) by now rewrite C4.
    assert (R4: cres KD l O s4 e) by (eapply cres_rel; eauto; rewrite C4; apply R3).
    assert (S04: step O s s4) by (eapply step_trans; eauto).
    assert (Nz: wzero (hw y) = false) by (now apply ceqb_false). rewrite Nz. simpl negb. rewrite orb_true_r, andb_true_r.
    destruct (wzero (ew e)) eqn:Ze; simpl negb; cbv iota.
    + apply ceqb_spec in Ze. apply wp_ret. cbn [fst snd]. split; [auto|]. split; auto. split; auto.
      intros Ex path V. rewrite Sc, <- V3 by auto. unfold Inv.dg. rewrite Ze, !Cv_zero by auto. ring.
    + apply ceqb_false in Ze. destruct (cr_s _ _ _ _ _ R4) as [H|(a & b & Ew)]; [contradiction|].
      rewrite Ew. change (wone (cslot a b)) with false. cbv iota.
      assert (TE: ep e = PTerm -> l = -1). { intros Et. destruct (cr_g _ _ _ _ _ R4) as [_ _ D _]. destruct (D Et) as [H|H]; auto. congruence. }
      pose proof (cr_o _ _ _ _ _ R4) as Ow4. rewrite Ew in Ow4. simpl in Ow4.
      assert (A: wp al0 (mulInto (cslot a b) (cslot a b) (hw x) ;;; mulInto (cslot a b) (cslot a b) (hw y) ;;;
          let* s := get in if wapx0 s (cslot a b) then retCache (cslot a b) ;;; ret Ezero else ret (Ed (ep e) (cslot a b))) s4
          (fun r s' => step O s4 s' /\ cres KD l O s' r /\
      (ex X -> forall path, vpath KD l path -> dg s' KD r path = (Cw (co s4) (hw x) * Cw (co s4) (hw y) * (Cv s4 (cslot a b) * dn (co s4) KD (ep e) path))%C))).
      { apply scale2_sp; auto. apply S4. apply R4. eapply wtab_ext; [apply S04|auto]. eapply wtab_ext; [apply S04|auto]. }
      assert (B: wp al0 (let* w := (mulInto (cslot a b) (cslot a b) (hw x) ;;; mulInto (cslot a b) (cslot a b) (hw y) ;;; ret (cslot a b)) in
          let* s := get in if wapx0 s w then retCache w ;;; ret Ezero else ret (Ed (ep e) w)) s4
          (fun r s' => step O s4 s' /\ cres KD l O s' r /\
      (ex X -> forall path, vpath KD l path -> dg s' KD r path = (Cw (co s4) (hw x) * Cw (co s4) (hw y) * (Cv s4 (cslot a b) * dn (co s4) KD (ep e) path))%C))).
      { unfold Inv.wp, bind in A |- *. destruct (mulInto (cslot a b) (cslot a b) (hw x) s4) as [? t1| |]; auto.
        destruct (mulInto (cslot a b) (cslot a b) (hw y) t1) as [? t2| |]; auto. }
      eapply wp_mono; [exact B|]. intros r s5 (S5 & R5 & V5). cbn [fst snd]. split; [auto|]. split; [eapply step_trans; eauto|]. split; auto.
      intros Ex path V. rewrite V5, Sc, <- V3 by auto. unfold Inv.dg. rewrite Ew, Q4.
      rewrite (Cw_ext (co s) (co s3) (hw x)), (Cw_ext (co s) (co s3) (hw y)); try apply S03; auto.
      rewrite (Cv_rel s3 s4); auto.
Qed.

(** ** The public functions *)

Theorem addD_sp s O l x y : -1 <= l < s_nq s -> inv s -> owns (s_cc s) O -> tedge (co s) KD l x -> tedge (co s) KD l y ->
  wp al0 (addD N g nb (hden x) (hden y) mz) s (fun r s' => snd r = mz /\ owns (s_cc s') O /\ step O s s' /\ tedge (co s') KD l (fst r) /\
    (ex X -> forall path, vpath KD l path -> de (co s') KD (fst r) path = (de (co s) KD x path + de (co s) KD y path)%C)).
Proof.
  intros Hl I Ow Tx Ty. unfold addD. cbn [hden hk mk_none mk0 mk_conj mk_first mk_dm negb andb hp hw hdp].
  pose proof (tedge_gedge s O KD l x I Tx) as Gx. pose proof (tedge_gedge s O KD l y I Ty) as Gy.
  eapply wp_mono; [apply (balanced_sp al0 _ s O (fun r s' => snd r = mz /\ step O s s' /\ tedge (co s') KD l (fst r) /\
    (ex X -> forall path, vpath KD l path -> de (co s') KD (fst r) path = (de (co s) KD x path + de (co s) KD y path)%C)) Ow)|].
  - apply wp_dbind, wp_dlift, wp_gets. cbn [fst snd]. apply wp_dbind.
    replace (Ed (ep x) (ew x)) with x by (now destruct x). replace (Ed (ep y) (ew y)) with y by (now destruct y).
    eapply wp_mono; [apply (add2D_sp (fuelof N s) l) with (O:=O); auto; unfold fuelof; lia|].
    intros [r k1] s1 (-> & S1 & R1 & V1). cbn [fst snd] in *. apply wp_dlift.
    eapply wp_mono; [apply (finish_sp s1 O KD l r); auto; apply S1|].
    intros e s2 (S2 & O2 & T2 & V2). cbn [fst snd]. split; auto. split; auto. split; [eapply step_trans; eauto|]. split; auto.
    intros Ex path V. rewrite V2, V1 by auto. unfold Inv.dg, Inv.de. rewrite (Cv_Cw s (ew x)), (Cv_Cw s (ew y)); auto; [apply Ty|apply Tx].
  - intros r s' (A & B & D & E & F). auto.
Qed.

Theorem multiplyD_sp s O l x y : -1 <= l < s_nq s -> inv s -> owns (s_cc s) O -> htedge (co s) l x -> htedge (co s) l y ->
  wp al0 (multiplyD N g nb x y 0 false mz) s (fun r s' => snd r = mz /\ owns (s_cc s') O /\ step O s s' /\ tedge (co s') KD l (fst r) /\
    (ex X -> forall path, vpath KM l path -> de (co s') KD (fst r) path = psum KM (hde (co s) x) (hde (co s) y) path)).
Proof.
  intros Hl I Ow Tx Ty. unfold multiplyD.
  pose proof (htedge_nn _ _ _ Tx) as Nx. pose proof (htedge_nn _ _ _ Ty) as Ny.
  assert (Kx: mk_dm (hk x) = false) by (destruct Tx as [-> _]; reflexivity). assert (Ky: mk_dm (hk y) = false) by (destruct Ty as [-> _]; reflexivity).
  eapply wp_mono; [apply (balanced_sp al0 _ s O (fun r s' => snd r = mz /\ step O s s' /\ tedge (co s') KD l (fst r) /\
    (ex X -> forall path, vpath KM l path -> de (co s') KD (fst r) path = psum KM (hde (co s) x) (hde (co s) y) path)) Ow)|].
  2: { intros r s' (A & B & D & E & F). auto. }
  apply wp_dbind, wp_happly; [exact Kx|]. apply wp_dbind, wp_happly; [exact Ky|]. cbn [fst snd].
  apply wp_dbind, wp_dlift, wp_get. cbn [fst snd]. cbv zeta.
  set (v0 := if hT (hp x) then -1 else hlvl N s (hp x)).
  set (var := if negb (hT (hp y)) && (v0 <? hlvl N s (hp y)) then hlvl N s (hp y) else v0).
  assert (Wx: wtab (co s) (hw x)) by apply Tx. assert (Wy: wtab (co s) (hw y)) by apply Ty.
  assert (A: wp al0 (mult2D N g nb (fuelof N s) x y var 0 false mz) s (fun r s' => snd r = mz /\ step O s s' /\ cres KD l O s' (fst r) /\
    (ex X -> forall path, vpath KM l path -> dg s' KD (fst r) path = psum KM (hde (co s) x) (hde (co s) y) path))).
  { destruct (wzero (hw x) || wzero (hw y)) eqn:Z.
    - unfold fuelof. cbn [mult2D].
      assert (Nx': hnull (hp x) = false) by (rewrite hnull_hdp; destruct (hdp (hp x)); auto; congruence).
      assert (Ny': hnull (hp y) = false) by (rewrite hnull_hdp; destruct (hdp (hp y)); auto; congruence).
      rewrite Nx', Ny', Z. apply wp_dret. cbn [fst snd]. split; auto. split; [now apply step_refl|]. split; [now apply cres_zero|]. intros Ex path V. rewrite dg_zero by auto.
      assert (Sc: psum KM (hde (co s) x) (hde (co s) y) path =
         (Cw (co s) (hw x) * Cw (co s) (hw y) * psum KM (dn (co s) (hkd (hp x)) (hdp (hp x))) (dn (co s) (hkd (hp y)) (hdp (hp y))) path)%C) by (rewrite <- psum_scal; reflexivity).
      rewrite Sc. apply orb_true_iff in Z. destruct Z as [Z|Z]; apply ceqb_spec in Z; rewrite Z, Cw_zero by auto; ring.
    - apply orb_false_iff in Z. destruct Z as [Zx Zy]. apply ceqb_false in Zx, Zy.
      assert (var = l).
      { unfold var, v0. destruct (Z.eq_dec l (-1)) as [->|Hn].
        - assert (Px: hdp (hp x) = PTerm) by (apply (tedge_term (g:=g) (nb:=nb) (X:=X) s (hkd (hp x)) (-1) (hed x)); [exact I|apply Tx|lia]).
          assert (Py: hdp (hp y) = PTerm) by (apply (tedge_term (g:=g) (nb:=nb) (X:=X) s (hkd (hp y)) (-1) (hed y)); [exact I|apply Ty|lia]).
          destruct (hp x) as [px|px], (hp y) as [py|py]; cbn [hdp] in Px, Py; subst; reflexivity.
        - destruct (htedge_node s l x I Tx Zx) as (nx & Epx & Lx & Vx); [lia|].
          destruct (htedge_node s l y I Ty Zy) as (ny & Epy & Ly & Vy); [lia|].
          destruct (hp x) as [px|px], (hp y) as [py|py]; cbn [hdp hkd] in *; subst px py; cbn [hT negb andb hlvl lvl]; now rewrite Vx, Vy, Z.ltb_irrefl. }
      replace var with l by auto. apply (mult2D_sp (fuelof N s) l); auto; [lia|unfold fuelof; lia|lia]. }
  apply wp_dbind. eapply wp_mono; [exact A|]. intros [r k1] s1 (-> & S1 & R1 & V1). cbn [fst snd] in *.
  apply wp_dbind, wp_hrevert; [exact Nx|]. apply wp_dbind, wp_hrevert; [exact Ny|]. cbn [fst snd]. apply wp_dlift.
  rewrite (finish_eq _ _ _ _ _ R1).
  eapply wp_mono; [apply (finish_sp s1 O KD l r); auto; apply S1|].
  intros e s2 (S2 & O2 & T2 & V2). cbn [fst snd]. split; auto. split; auto. split; [eapply step_trans; eauto|]. split; auto.
  intros Ex path V. rewrite V2, V1; auto.
Qed.

(** The density matrix of the state |0...0>. *)
Definition dzero (p : list nat) : C := if forallb (Nat.eqb 0) p then C1 else C0.

Theorem makeZeroDensity_sp s O n : 0 <= n <= s_nq s -> inv s -> owns (s_cc s) O ->
  wp al0 (makeZeroDensity N g nb n) s (fun r s' => step O s s' /\ owns (s_cc s') O /\ tedge (co s') KD (n - 1) r /\
    (ex X -> forall path, vpath KD (n - 1) path -> de (co s') KD r path = dzero path)).
Proof.
  intros Hn I Ow. unfold makeZeroDensity.
  apply (wp_eq al0 _ (foldM N (fun f p => makeDDNode N g nb KD p [f; Ezero; Ezero; Ezero] false) (map (fun i => 0 + Z.of_nat i) (seq (Z.to_nat 0) (Z.to_nat n))) Eone)); [reflexivity|].
  eapply wp_mono; [apply (foldM_levels (g:=g) (nb:=nb) (X:=X) _ (fun p s' f => s_nq s' = s_nq s /\ tedge (co s') KD (p - 1) f /\
     (ex X -> forall path, vpath KD (p - 1) path -> de (co s') KD f path = dzero path)) O (Z.to_nat n) 0 s Eone); auto; try lia|].
  - split; auto. split; [constructor; simpl; auto; try apply wtab_one; try discriminate|].
    intros Ex path V. apply vpath_m1 in V. subst. unfold Inv.de. cbn [ew ep Eone]. rewrite Cw_one by auto. unfold Inv.dn; simpl. unfold dzero; simpl. ring.
  - intros i s1 f Hi I1 O1 (Q1 & T1 & V1). eapply wp_mono; [apply (makeDDNode_t KD i s1 _ O I1 O1); auto; try lia|].
    + intros e [<-|[<-|[<-|[<-|[]]]]]; auto; apply tedge_zero.
    + intros r s2 (S2 & O2 & T2 & _ & V2). split; auto. split; auto. replace (i + 1 - 1) with i by lia.
      split; [rewrite <- Q1; apply (qe_nq _ _ _ (sp_ext _ _ _ _ _ _ _ S2))|]. split; auto.
      intros Ex path V. apply vpath_inv in V; [|lia]. destruct V as (j & q & -> & Hj & V). rewrite V2 by auto. cbn [arity] in Hj.
      destruct j as [|[|[|[|j]]]]; try lia; cbn [nthe nth]; unfold dzero; cbn [forallb Nat.eqb andb]; [now apply V1| | |]; now apply de_zero.
  - intros r s' (S' & O' & _ & T' & V'). replace (0 + Z.of_nat (Z.to_nat n)) with n in * by lia. auto.
Qed.


End DensL.
