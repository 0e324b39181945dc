(** Specification of the reduction of ancillary and garbage qubits. *)
From Coq Require Import ZArith List Bool Lia Arith Reals Lra Permutation.
From Verif Require Import Num Base CTable CTableWf Cx State Pkg Control Gate Meas Reduce Inv InvL PrimL NormL MkL TrL AddL MulL KronL CanonL IdentL StateL GateL DelL.
Import ListNotations.
Local Open Scope Z_scope.

(** [h] with the entries removed whose index has at qubit [a] a digit for which [bd] holds. *)
Definition mask (a : Z) (bd : nat -> bool) (h : list nat -> C) (p : list nat) : C :=
  if (0 <=? a) && (a <? Z.of_nat (length p)) && bd (dig a p) then C0 else h p.
Lemma mask_here bd h i p : mask (Z.of_nat (length p)) bd h (i :: p) = if bd i then C0 else h (i :: p).
Proof.
  unfold mask. rewrite dig_cons by lia. rewrite Z.eqb_refl. cbn [length].
  destruct (Z.leb_spec 0 (Z.of_nat (length p))); [|lia]. destruct (Z.ltb_spec (Z.of_nat (length p)) (Z.of_nat (S (length p)))); [|lia]. reflexivity.
Qed.
Lemma mask_below a bd h i p : a <> Z.of_nat (length p) -> mask a bd h (i :: p) = mask a bd (fun q => h (i :: q)) p.
Proof.
  intros H. unfold mask. cbn [length]. destruct (Z.leb_spec 0 a); [|reflexivity].
  destruct (Z.ltb_spec a (Z.of_nat (S (length p)))), (Z.ltb_spec a (Z.of_nat (length p))); try lia; [|reflexivity].
  rewrite dig_cons by lia. destruct (Z.eqb_spec a (Z.of_nat (length p))); [lia|reflexivity].
Qed.
Lemma mask_short a bd h p : Z.of_nat (length p) <= a -> mask a bd h p = h p.
Proof. intros H. unfold mask. destruct (Z.ltb_spec a (Z.of_nat (length p))); [lia|]. now rewrite andb_false_r. Qed.
Lemma mask_scale a bd c h p : mask a bd (fun q => (c * h q)%C) p = (c * mask a bd h p)%C.
Proof. unfold mask. destruct (_ && _ && _); [ring|reflexivity]. Qed.
Lemma mask_ext a bd h h' p : h p = h' p -> mask a bd h p = mask a bd h' p.
Proof. unfold mask. intros ->. reflexivity. Qed.

Section ReduceL.
Context {N : num} {g : cfg N} {nb : kind -> Z} {X : numx N (g_ct g)} (G : gok g).
Local Notation cf := (g_ct g).
Local Notation co := (co N).
Local Notation qn := (qn N).
Local Notation linked := (linked N).
Local Notation c_ut := (c_ut N).
Local Notation Cw := (Cw N g X).
Local Notation Cv := (Cv N g X).
Local Notation Cv2 := (Cv2 N g X).
Local Notation dn := (dn N g X).
Local Notation de := (de N g X).
Local Notation dg := (dg N g X).
Local Notation wtab := (wtab N g X).
Local Notation etn := (etn N).
Local Notation isnode := (isnode N).
Local Notation tedge := (tedge N g X).
Local Notation gedge := (gedge N g X).
Local Notation cinv := (cinv N g nb X).
Local Notation uinv := (uinv N g nb X).
Local Notation nodeok := (nodeok N g nb X).
Local Notation inv := (inv N g nb X).
Local Notation step := (step N g nb X).
Local Notation qext := (qext N).
Local Notation owns := (owns N).
Local Notation wok := (wok N g X).
Local Notation wp := (wp N).
Local Notation al0 := (al0 N g X).
Local Notation nnorm := (nnorm N g X).
Local Notation iedge := (iedge (g:=g) (X:=X)).
Local Notation trsp := (trsp (nb:=nb) (X:=X)).
Local Notation unok := (unok N g X).
Local Notation binok := (binok N g X).
Local Notation addok := (addok N g X).
Local Notation tinv := (tinv N g X).
Local Notation vres := (vres N g X).
Local Notation dv := (dv N g X).
Local Notation mkpost := (mkpost (nb:=nb) (X:=X)).
Local Notation mulCached_sp := (mulCached_sp (nb:=nb) (X:=X) G).
Local Notation addCached_sp := (addCached_sp (nb:=nb) (X:=X) G).
Local Notation getCached_sp := (getCached_sp (nb:=nb) (X:=X) G).
Local Notation makeDDNode_sp := (makeDDNode_sp (nb:=nb) (X:=X) G).
Local Notation lookupC_sp := (lookupC_sp (nb:=nb) (X:=X) G).
Local Notation tedge_gedge := (tedge_gedge (nb:=nb) (X:=X)).
Local Notation child_ok := (child_ok (nb:=nb) (X:=X)).
Local Notation dn_ext := (dn_ext (nb:=nb) (X:=X)).
Local Notation Cw_eq0 := (Cw_eq0 (nb:=nb) (X:=X)).
Local Notation addInsert_sp := (addInsert_sp (g:=g) (nb:=nb) (X:=X)).
Local Notation binInsert_sp := (binInsert_sp (g:=g) (nb:=nb) (X:=X)).
Local Notation unInsert_sp := (unInsert_sp (g:=g) (nb:=nb) (X:=X)).
Local Notation addLookup_sp := (addLookup_sp (g:=g) (nb:=nb) (X:=X)).
Local Notation binLookup_sp := (binLookup_sp (g:=g) (nb:=nb) (X:=X)).
Local Notation unLookup_sp := (unLookup_sp (g:=g) (nb:=nb) (X:=X)).
Local Notation cres := (cres (g:=g) (X:=X)).
Local Notation addsp := (addsp (g:=g) (nb:=nb) (X:=X)).
Local Notation rel_sp := (rel_sp (g:=g) (nb:=nb) (X:=X)).
Local Notation relif_sp := (relif_sp (g:=g) (nb:=nb) (X:=X)).
Local Notation mapM_cres := (mapM_cres (g:=g) (nb:=nb) (X:=X)).
Local Notation de_step := (de_step (g:=g) (nb:=nb) (X:=X)).
Local Notation dg_step := (dg_step (g:=g) (nb:=nb) (X:=X)).
Local Notation mulSelf_sp := (mulSelf_sp (g:=g) (nb:=nb) (X:=X)).
Local Notation finish_sp := (finish_sp (g:=g) (nb:=nb) (X:=X) G).
Local Notation add2F_sp := (add2F_sp (g:=g) (nb:=nb) (X:=X) G).
Implicit Types (s : st N).

Local Notation dn_nz := (dn_nz (g:=g) (nb:=nb) (X:=X)).
Local Notation idok := (idok N g X).
Local Notation makeDDNode_t := (makeDDNode_t (nb:=nb) (X:=X) G).
Local Notation mk_weight := (mk_weight (nb:=nb) (X:=X)).

(** mulCached, lookup, returnToCache *)
Lemma wp_cmul {A} O a b (k : complex -> M N A) s Q : inv s -> owns (s_cc s) O -> wok (co s) O a -> wok (co s) O b ->
  (forall w s', step O s s' -> owns (s_cc s') O -> wtab (co s') w ->
     (ex X -> Cw (co s') w = (Cv s a * Cv s b)%C) -> (a = Czero \/ b = Czero -> w = Czero) -> wp al0 (k w) s' Q) ->
  wp al0 (bind (mulCached g a b) (fun c => bind (cn_lookupC g c) (fun w => bind (retCache c) (fun _ => k w)))) s Q.
Proof.
  intros I H Wa Wb K. destruct (getCached0_sp (g:=g) G s O H) as (p & q & c' & E & V & Kc).
  destruct (owns_nodup _ _ _ _ Kc) as (D & D1 & D2).
  destruct (mulInto_sp (g:=g) (X:=X) (set_cc s c') p q a b) as (v & E2 & V2); try (eapply (wok_ci (g:=g) (X:=X)); eauto); auto.
  assert (Zv: a = Czero \/ b = Czero -> setc p q v (set_cc s c') = setc p q (n0, n0) (set_cc s c')).
  { intros Hz. rewrite (mulInto_z (g:=g) (X:=X)) in E2; auto; try (eapply (wok_ci (g:=g) (X:=X)); eauto). congruence. }
  eapply wp_bind_ok; [unfold mulCached, bind; rewrite E, E2; reflexivity|]. apply wp_bind.
  assert (S1: step O s (setc p q v (set_cc s c'))).
  { eapply step_trans; [apply step_cc_any; eauto|]. apply setc_step; auto. now apply inv_cc. }
  eapply wp_mono; [apply wp_and; [apply (lookupC_sp (p :: q :: O)); apply S1|intros ? ? EE; exact EE]|].
  intros w s' ((S2 & C2 & W2 & V3) & EE).
  assert (Ow2: owns (s_cc s') (wslots (cslot p q) ++ O)). { rewrite C2. cbn. apply owns_ccw. exact Kc. }
  destruct (rel_sp s' (cslot p q) O) as (s3 & E3 & O3 & Q3 & V4 & S3); auto; [apply S2|eauto|].
  eapply wp_bind_ok; [exact E3|]. apply K; auto.
  - eapply step_trans; [exact S1|]. eapply step_trans; [|apply (S3 O)]. eapply step_weak; [exact S2|]. intros x Hx; cbn; auto.
  - rewrite Q3. exact W2.
  - intros Ex. rewrite Q3. rewrite V3 by auto. rewrite setc_Cv by auto. rewrite V2 by auto. now rewrite !Cv_cc_same.
  - intros Hz. rewrite (Zv Hz) in EE. exact (lookupC_slotz (g:=g) (X:=X) _ p q w s' D EE).
Qed.

(** ** The recursion *)
Section Red.
Variables (k : kind) (post : edge -> M N edge) (cap : bool) (lb a : Z) (bd : nat -> bool) (nqs : Z) (sm : Prop) (D : nat -> Prop).
Hypothesis Hlb : 0 <= lb.
Hypothesis Hcap : cap = true -> forall s, inv s -> nltb n1 (wmag2 s Czero) = false.
Hypothesis Hsm : sm -> ex X /\ cap = false /\ lb = a.

(** What the reduction of one qubit has to do *)
Definition postok : Prop := forall l s O f, inv s -> owns (s_cc s) O -> 0 <= l < s_nq s -> s_nq s = nqs -> tedge (co s) k l f -> (ep f = PTerm -> f = Ezero) ->
  wp al0 (post f) s (fun r s' => step O s s' /\ owns (s_cc s') O /\ tedge (co s') k l r /\ (ep r = PTerm -> r = Ezero) /\
    (sm -> (l = a -> exists n, etn (co s) k l (PNode n) /\ forall p, vpath k l p -> de (co s) k f p = dn (co s) k (PNode n) p) ->
       forall p, vpath k l p -> de (co s') k r p = if l =? a then mask a bd (de (co s) k f) p else de (co s) k f p)).
Hypothesis Hpost : postok.

(** [D] holds nodes of the table, with all their successors, and no node from level [lb] on has two
    successors that share a node but have different weights. *)
Definition inD (p : nptr) : Prop := match p with PNode m => D m | _ => True end.
Definition uni s : Prop := forall n, D n -> linked (co s) k n /\ (forall c, In c (ne (nod s k n)) -> inD (ep c)) /\
  (lb <= nv (nod s k n) -> forall c c', In c (ne (nod s k n)) -> In c' (ne (nod s k n)) -> ep c = ep c' -> ep c <> PTerm -> ew c = ew c').

Lemma uni_step O s s' : inv s -> step O s s' -> uni s -> uni s'.
Proof.
  intros I S U n Dn. destruct (U n Dn) as (L & A & B). destruct (sp_ext _ _ _ _ _ _ _ S) as [_ _ _ T _ _].
  destruct L as (v & b & L). destruct (T _ _ _ _ L) as [L' SN]. destruct SN as (S2 & _ & S1 & _). change (nod s' k n) with (qn (co s') k n) in *. change (nod s k n) with (qn (co s) k n) in *.
  rewrite <- S1, <- S2. split; [exists v, b; exact L'|]. auto.
Qed.

(** The loop over the successors *)
Definition loopok l (cs : list edge) O s0 (i : nat) (st : (nat -> edge) * (nat -> bool)) s : Prop :=
  step O s0 s /\ owns (s_cc s) O /\
  forall j, (j < arity k)%nat -> (j < i)%nat \/ snd st j = true ->
    tedge (co s) k l (fst st j) /\ (sm -> forall p, vpath k l p -> de (co s) k (fst st j) p = mask a bd (de (co s0) k (nthe cs j)) p).
Lemma redLoop_sp (rec : edge -> M N edge) l (cs : list edge) O s0 : inv s0 -> -1 <= l < s_nq s0 -> length cs = arity k ->
  (forall j, (j < arity k)%nat -> tedge (co s0) k l (nthe cs j)) ->
  (sm -> uni s0) -> (sm -> forall c, In c cs -> inD (ep c)) ->
  (sm -> forall c c', In c cs -> In c' cs -> ep c = ep c' -> ep c <> PTerm -> ew c = ew c') ->
  (forall s c, inv s -> owns (s_cc s) O -> s_nq s = s_nq s0 -> tedge (co s) k l c -> (sm -> uni s) -> (sm -> inD (ep c)) ->
     wp al0 (rec c) s (fun r s' => step O s s' /\ owns (s_cc s') O /\ tedge (co s') k l r /\
       (sm -> forall p, vpath k l p -> de (co s') k r p = mask a bd (de (co s) k c) p))) ->
  forall m i st s, (i + m = arity k)%nat -> loopok l cs O s0 i st s ->
    wp al0 (foldM N (redStep N k rec cs) (seq i m) st) s (fun st' s' => loopok l cs O s0 (arity k) st' s').
Proof.
  intros I0 Hl Len Tc U0 Dc Uc Rec. induction m as [|m IH]; intros i st s Him J; cbn [seq foldM].
  - apply wp_ret. replace (arity k) with i by lia. exact J.
  - apply wp_bind. destruct J as (S & Ow & J). assert (I: inv s) by apply S. assert (Hnq: s_nq s = s_nq s0) by apply (stp_nq O _ _ S).
    assert (Tci: tedge (co s) k l (nthe cs i)) by (eapply tedge_ext; [apply S|apply Tc; lia]).
    assert (Inc: forall j, (j < arity k)%nat -> In (nthe cs j) cs) by (intros j Hj; unfold nthe; apply nth_In; lia).
    unfold redStep at 1. destruct (snd st i) eqn:Hi.
    { apply wp_ret. apply IH; [lia|]. split; auto. split; auto. intros j Hj [Lt|Eq]; apply J; auto.
      destruct (Nat.eq_dec j i) as [-> |]; [now right|left; lia]. }
    cbv zeta. destruct (ep (nthe cs i)) as [| |n] eqn:Ec.
    + pose proof (te_n _ _ _ _ _ _ _ Tci) as Tn. rewrite Ec in Tn. contradiction.
    + apply wp_ret. apply IH; [lia|]. split; auto. split; auto. intros j Hj Hh. cbn [fst snd] in *. unfold upd in *.
      destruct (Nat.eqb_spec j i) as [-> |Nj].
      * split; [exact Tci|]. intros Sm p Vp. destruct (Hsm Sm) as (Ex & _ & Ea).
        destruct (te_t _ _ _ _ _ _ _ Tci Ec) as [El|Z].
        -- rewrite mask_short by (destruct Vp as [Vp _]; lia). apply (de_step O s0 s k l); auto.
        -- assert (D0: forall q, de (co s) k (nthe cs i) q = C0) by (intros q; unfold Inv.de; rewrite Z, Cw_zero by auto; ring).
           assert (D1: forall q, de (co s0) k (nthe cs i) q = C0) by (intros q; unfold Inv.de; rewrite Z, Cw_zero by auto; ring).
           rewrite D0. unfold mask. rewrite D1. destruct (_ && _ && _); reflexivity.
      * apply J; auto. destruct Hh as [Hh|Hh]; auto. left; lia.
    + apply wp_bind. eapply wp_mono; [apply Rec; auto; [intros Sm; apply (uni_step O s0 s); auto|intros Sm; apply (Dc Sm); apply Inc; lia]|].
      intros r s1 (S1 & O1 & T1 & V1). apply wp_ret. assert (S01: step O s0 s1) by (eapply step_trans; eauto).
      apply IH; [lia|]. split; auto. split; auto. intros j Hj Hh. cbn [fst snd] in *.
      set (sm' := Nat.ltb i j && Nat.ltb j (arity k) && nptr_eqb (PNode n) (ep (nthe cs j))) in *.
      destruct (Nat.eqb j i || sm') eqn:Es.
      * split; auto. intros Sm p Vp. rewrite V1 by auto. apply mask_ext. destruct (Hsm Sm) as (Ex & _ & _).
        rewrite (de_step O s0 s k l) by (auto; apply Tc; lia).
        apply orb_true_iff in Es. destruct Es as [Es|Es]; [apply Nat.eqb_eq in Es; subst j; reflexivity|].
        unfold sm' in Es. apply andb_true_iff in Es. destruct Es as [_ Es]. apply nptr_eqb_true in Es.
        unfold Inv.de. rewrite Ec, <- Es. rewrite (Uc Sm (nthe cs i) (nthe cs j)); auto; try (apply Inc; lia); rewrite Ec; [exact Es|discriminate].
      * apply orb_false_iff in Es. destruct Es as [Es Es']. apply Nat.eqb_neq in Es.
        destruct (J j Hj) as [Tj Vj]. { destruct Hh as [Hh|Hh]; [left; lia|right]. exact Hh. }
        split; [eapply tedge_ext; [apply S1|exact Tj]|]. intros Sm p Vp. rewrite (de_step O s s1 k l) by auto. now apply Vj.
Qed.

Lemma redF_sp : forall f l e s O, l + 2 <= Z.of_nat f -> (0 < f)%nat -> inv s -> owns (s_cc s) O -> -1 <= l < s_nq s -> s_nq s = nqs -> tedge (co s) k l e ->
  (sm -> uni s) -> (sm -> inD (ep e)) ->
  wp al0 (redF N g nb f k post cap lb e) s (fun r s' => step O s s' /\ owns (s_cc s') O /\ tedge (co s') k l r /\
    (sm -> forall p, vpath k l p -> de (co s') k r p = mask a bd (de (co s) k e) p)).
Proof.
  induction f as [|f IH]; intros l e s O Hf Hf0 I Ow Hl Hq T U0 D0; [lia|]. cbn [redF].
  destruct (ep e) as [| |n] eqn:Ee.
  - pose proof (te_n _ _ _ _ _ _ _ T) as Tn. rewrite Ee in Tn. contradiction.
  - destruct (Z.ltb_spec (-1) lb); [|lia]. apply wp_ret. split; [now apply step_refl|]. split; auto. split; auto.
    intros Sm p Vp. destruct (Hsm Sm) as (Ex & _ & Ea). destruct (te_t _ _ _ _ _ _ _ T Ee) as [-> | Z].
    + rewrite mask_short; auto. destruct Vp as [Vp _]. lia.
    + assert (Dz: forall q, de (co s) k e q = C0) by (intros q; unfold Inv.de; rewrite Z, Cw_zero by auto; ring).
      unfold mask. rewrite Dz. destruct (_ && _ && _); auto.
  - pose proof (te_n _ _ _ _ _ _ _ T) as Tn. rewrite Ee in Tn. destruct Tn as [L Nv].
    destruct (linked_ok (g:=g) (nb:=nb) (X:=X) _ _ _ (iv_c _ _ _ _ _ I) L) as (b & K & _). pose proof (no_v _ _ _ _ _ _ _ _ _ K) as Hv. rewrite Nv in K, Hv.
    apply wp_bind, wp_get. cbv zeta. change (nod s k n) with (qn (co s) k n). rewrite Nv.
    assert (Ch: forall i, (i < arity k)%nat -> tedge (co s) k (l - 1) (nthe (ne (qn (co s) k n)) i)).
    { intros i Hi. rewrite <- Nv. apply child_ok; auto. apply I. }
    assert (Len := no_len _ _ _ _ _ _ _ _ _ K).
    destruct (Z.ltb_spec l lb) as [Lt|Ge].
    { apply wp_ret. split; [now apply step_refl|]. split; auto. split; auto.
      intros Sm p Vp. destruct (Hsm Sm) as (Ex & _ & Ea). rewrite mask_short; auto. destruct Vp as [Vp _]. lia. }
    apply wp_bind. eapply wp_mono.
    { apply (redLoop_sp (redF N g nb f k post cap lb) (l - 1) (ne (qn (co s) k n)) O s); auto; try lia.
      - intros Sm. apply (U0 Sm). exact (D0 Sm).
      - intros Sm. apply (U0 Sm); [exact (D0 Sm)|]. change (nod s k n) with (qn (co s) k n). lia.
      - intros s1 c I1 O1 Hn T1 U1 D1. apply IH; auto; lia.
      - split; [now apply step_refl|]. split; auto. cbn [snd]. intros j _ [H|H]; [lia|discriminate]. }
    intros st s1 (S1 & O1 & J). apply wp_bind. assert (I1: inv s1) by apply S1. assert (Hq1: s_nq s1 = s_nq s) by apply (stp_nq O _ _ S1).
    eapply wp_mono; [apply (makeDDNode_t k l s1 (map (fst st) (seq 0 (arity k))) O); auto; try lia|].
    { now rewrite map_length, seq_length. }
    { intros c Hc. apply in_map_iff in Hc. destruct Hc as (j & <- & Hj). apply in_seq in Hj. apply J; lia. }
    intros f1 s2 (S2 & O2 & T2 & Z2 & V2). assert (I2: inv s2) by apply S2. assert (Hq2: s_nq s2 = s_nq s) by (rewrite (stp_nq O _ _ S2); exact Hq1).
    assert (S02: step O s s2) by (eapply step_trans; eauto).
    assert (Vf: sm -> forall i p, (i < arity k)%nat -> vpath k (l - 1) p -> de (co s2) k f1 (i :: p) = mask a bd (fun q => dn (co s) k (PNode n) (i :: q)) p).
    { intros Sm i p Hi Vp. destruct (Hsm Sm) as (Ex & _). rewrite V2 by auto.
      assert (En: nthe (map (fst st) (seq 0 (arity k))) i = fst st i).
      { unfold nthe. rewrite (nth_indep _ Enull (fst st 0%nat)) by (rewrite map_length, seq_length; exact Hi). rewrite map_nth, seq_nth by exact Hi. reflexivity. }
      rewrite En. destruct (J i Hi) as [_ Vi]; [now left|]. rewrite Vi by auto. apply mask_ext. reflexivity. }
    assert (Et: etn (co s) k l (PNode n)) by (split; auto).
    assert (Dn2: forall p, vpath k l p -> dn (co s2) k (PNode n) p = dn (co s) k (PNode n) p).
    { intros p Vp. apply (dn_ext (co s) (co s2) k (iv_c _ _ _ _ _ I) (sp_ext _ _ _ _ _ _ _ S02) p l (PNode n)); auto. }
    apply wp_bind. eapply wp_mono; [apply (Hpost l s2 O f1); auto; lia|].
    intros f2 s3 (S3 & O3 & T3 & Z3 & V3). assert (I3: inv s3) by apply S3. assert (S03: step O s s3) by (eapply step_trans; eauto).
    assert (Vr: sm -> forall p, vpath k l p -> de (co s3) k f2 p = mask a bd (dn (co s) k (PNode n)) p).
    { intros Sm p Vp. rewrite V3; auto.
      - destruct p as [|i p]; [destruct Vp as [Vp _]; cbn in Vp; lia|]. pose proof Vp as Vp'. apply vpath_cons in Vp. destruct Vp as [Hi Vp].
        assert (Lp: l = Z.of_nat (length p)) by (destruct Vp; lia).
        destruct (Z.eqb_spec l a) as [El|Nl].
        + apply mask_ext. rewrite Vf by auto. rewrite mask_short; [reflexivity|]. lia.
        + rewrite Vf by auto. rewrite mask_below by lia. reflexivity.
      - intros El. exists n. split; [eapply etn_ext; [apply S02|exact Et]|]. intros q Vq. rewrite Dn2 by auto.
        destruct q as [|i q]; [destruct Vq as [Vq _]; cbn in Vq; lia|]. apply vpath_cons in Vq. destruct Vq as [Hi Vq].
        rewrite Vf by auto. rewrite mask_short; [reflexivity|]. destruct Vq; lia. }
    assert (We: wtab (co s3) (ew e)) by (eapply wtab_ext; [apply S03|apply T]).
    apply (wp_cmul O); auto; [left; apply T3|left; exact We|].
    intros w s4 S4 O4 W4 V4 Zw. apply wp_bind, wp_get. apply wp_ret. split; [eapply step_trans; eauto|]. split; auto.
    assert (Tr: tedge (co s4) k l (Ed (ep f2) w)).
    { constructor; cbn [ep ew]; auto.
      - eapply etn_ext; [apply S4|apply T3].
      - intros Et2. right. apply Zw. left. rewrite (Z3 Et2). reflexivity.
      - intros Ex Zw'. destruct (ep f2) eqn:E2; auto.
        + pose proof (te_n _ _ _ _ _ _ _ T3) as Tn. rewrite E2 in Tn. contradiction.
        + exfalso. assert (Q: (Cv s3 (ew f2) * Cv s3 (ew e) = C0)%C) by (rewrite <- V4 by auto; rewrite Zw'; now apply Cw_zero).
          rewrite !Cv_Cw in Q by (auto; apply T3). apply Cmul_integral in Q.
          destruct Q as [Q|Q]; apply (Cw_eq0 (co s3) _ Ex (iv_c _ _ _ _ _ I3)) in Q.
          * apply (te_z _ _ _ _ _ _ _ T3 Ex) in Q. congruence.
          * exact (te_w _ _ _ _ _ _ _ T3).
          * apply (te_z _ _ _ _ _ _ _ T Ex) in Q. congruence.
          * exact We. }
    split.
    + destruct (cap && nltb n1 (wmag2 s4 w)) eqn:Ecap; [|exact Tr]. apply andb_true_iff in Ecap. destruct Ecap as [Ecap Em].
      constructor; cbn [ep ew].
      * apply Tr.
      * apply wtab_one.
      * intros Et2. exfalso. rewrite (Zw (or_introl (f_equal ew (Z3 Et2)))) in Em. rewrite (Hcap Ecap s4) in Em; [discriminate|apply S4].
      * discriminate.
    + intros Sm p Vp. destruct (Hsm Sm) as (Ex & -> & _). cbn [andb]. unfold Inv.de at 1. cbn [ep ew]. rewrite V4 by auto.
      rewrite !Cv_Cw by (auto; apply T3).
      assert (E4: dn (co s4) k (ep f2) p = dn (co s3) k (ep f2) p).
      { apply (dn_ext (co s3) (co s4) k (iv_c _ _ _ _ _ I3) (sp_ext _ _ _ _ _ _ _ S4) p l (ep f2)); auto. apply T3. }
      rewrite E4. specialize (Vr Sm p Vp). unfold Inv.de in Vr.
      assert (Ew: Cw (co s3) (ew e) = Cw (co s) (ew e)) by (apply (Cw_ext (g:=g) (X:=X)); [apply S03|apply T]).
      rewrite Ew. transitivity (Cw (co s) (ew e) * (Cw (co s3) (ew f2) * dn (co s3) k (ep f2) p))%C; [ring|]. rewrite Vr. rewrite <- mask_scale.
      apply mask_ext. unfold Inv.de. rewrite Ee. reflexivity.
Qed.
End Red.

Lemma bitAt_ok (l : list bool) v s : 0 <= v < Z.of_nat (length l) -> bitAt N l v s = Ok (nth (Z.to_nat v) l false) s.
Proof.
  intros H. unfold bitAt. destruct (nth_error l (Z.to_nat v)) as [b|] eqn:E.
  - apply (nth_error_nth _ _ false) in E. rewrite E. reflexivity.
  - apply nth_error_None in E. lia.
Qed.

(** What the successors of a stored node look like *)
Lemma kids k l s n : inv s -> etn (co s) k l (PNode n) -> 0 <= l /\ forall i, (i < arity k)%nat -> tedge (co s) k (l - 1) (nthe (ne (nod s k n)) i).
Proof.
  intros I [L Nv]. destruct (linked_ok (g:=g) (nb:=nb) (X:=X) _ _ _ (iv_c _ _ _ _ _ I) L) as (b & K & _). pose proof (no_v _ _ _ _ _ _ _ _ _ K) as Hv.
  split; [lia|]. intros i Hi. rewrite <- Nv. apply (child_ok (co s) k n i); auto. apply I.
Qed.

(** digits of the removed entries: column one, or row one *)
Definition ancbd (regular : bool) (d : nat) : bool := if regular then Nat.eqb d 1 || Nat.eqb d 3 else Nat.eqb d 2 || Nat.eqb d 3.

Lemma ancPost_ok anc regular a nqs (sm : Prop) : nqs <= Z.of_nat (length anc) ->
  (sm -> ex X /\ forall v, 0 <= v < nqs -> (nth (Z.to_nat v) anc false = true <-> v = a)) ->
  postok KM (ancPost N g nb anc regular) a (ancbd regular) nqs sm.
Proof.
  intros Hlen Hs l s O f I Ow Hl Hq T Zf. unfold ancPost. destruct (ep f) as [| |n] eqn:Ef.
  - pose proof (te_n _ _ _ _ _ _ _ T) as Tn. rewrite Ef in Tn. contradiction.
  - apply wp_ret. split; [now apply step_refl|]. split; auto. split; auto. split; [auto|]. intros Sm _ p Vp. rewrite (Zf eq_refl).
    assert (Z0: forall q, de (co s) KM Ezero q = C0) by (intros q; apply de_zero; apply (Hs Sm)).
    destruct (l =? a); auto. unfold mask. rewrite Z0. destruct (_ && _ && _); auto.
  - pose proof (te_n _ _ _ _ _ _ _ T) as Tn. rewrite Ef in Tn. destruct (kids _ _ _ _ I Tn) as [_ Ch]. destruct Tn as [L Nv].
    apply wp_bind, wp_get. cbv zeta. change (nv (nod s KM n)) with (nv (qn (co s) KM n)). rewrite Nv.
    eapply wp_bind_ok; [apply bitAt_ok; lia|].
    assert (Keep: forall P : Prop, (sm -> P -> l = a -> forall p, vpath KM l p -> de (co s) KM f p = mask a (ancbd regular) (de (co s) KM f) p) -> (sm -> l = a -> P) ->
      wp al0 (ret f) s (fun r s' => step O s s' /\ owns (s_cc s') O /\ tedge (co s') KM l r /\ (ep r = PTerm -> r = Ezero) /\
       (sm -> (l = a -> exists n, etn (co s) KM l (PNode n) /\ forall p, vpath KM l p -> de (co s) KM f p = dn (co s) KM (PNode n) p) ->
       forall p, vpath KM l p -> de (co s') KM r p = if l =? a then mask a (ancbd regular) (de (co s) KM f) p else de (co s) KM f p))).
    { intros P H HP. apply wp_ret. split; [now apply step_refl|]. split; auto. split; auto. split; [congruence|]. intros Sm _ p Vp.
      destruct (Z.eqb_spec l a) as [El|Nl]; auto. }
    destruct (nth (Z.to_nat l) anc false) eqn:Eb; [|apply (Keep False); [tauto|]; intros Sm El; apply (Hs Sm) in El; [congruence|lia]].
    assert (Red: forall es, length es = 4%nat -> (forall i, (i < 4)%nat -> nthe es i = if ancbd regular i then Ezero else nthe (ne (nod s KM n)) i) ->
      wp al0 (makeDDNode N g nb KM l es false) s (fun r s' => step O s s' /\ owns (s_cc s') O /\ tedge (co s') KM l r /\ (ep r = PTerm -> r = Ezero) /\
       (sm -> (l = a -> exists n, etn (co s) KM l (PNode n) /\ forall p, vpath KM l p -> de (co s) KM f p = dn (co s) KM (PNode n) p) ->
       forall p, vpath KM l p -> de (co s') KM r p = if l =? a then mask a (ancbd regular) (de (co s) KM f) p else de (co s) KM f p))).
    { intros es Len Hes. eapply wp_mono; [apply (makeDDNode_t KM l s es O); auto|].
      - intros c Hc. destruct (In_nth _ _ Enull Hc) as (j & Hj & Ej). fold (nthe es j) in Ej. rewrite <- Ej. rewrite Hes by lia.
        destruct (ancbd regular j); [apply tedge_zero|]. apply Ch. cbn [arity]. lia.
      - intros r s' (S1 & O1 & T1 & Z1 & V1). split; auto. split; auto. split; auto. split; auto. intros Sm Hn p Vp.
        destruct (Hs Sm) as [Ex Ha]. assert (El: l = a) by (apply Ha; [lia|exact Eb]). rewrite (proj2 (Z.eqb_eq l a) El).
        destruct (Hn El) as (n' & En & Dn).
        assert (Ee: f = Ed (PNode n') Cone).
        { apply (canon_edge (g:=g) (nb:=nb) (X:=X) (co s) KM l); auto; [discriminate|apply I|lia| |].
          - constructor; cbn [ep ew]; auto; [apply wtab_one|discriminate|discriminate].
          - intros q Vq. rewrite Dn by auto. unfold Inv.de. cbn [ep ew]. rewrite Cw_one by auto. ring. }
        destruct p as [|i p]; [destruct Vp as [Vp _]; cbn in Vp; lia|]. apply vpath_cons in Vp. destruct Vp as [Hi Vp]. cbn [arity] in Hi.
        rewrite V1 by (auto; cbn [arity]; lia). rewrite Hes by auto. assert (Lp: a = Z.of_nat (length p)) by (destruct Vp; lia).
        rewrite Lp, mask_here. destruct (ancbd regular i); [now apply de_zero|].
        rewrite Ee. unfold Inv.de at 2. cbn [ep ew]. rewrite Cw_one by auto. rewrite dn_cons. rewrite Ee in Ef. cbn [ep] in Ef. injection Ef as ->. 
        change (nod s KM n) with (qn (co s) KM n). unfold Inv.de. ring. }
    assert (Zer: forall i, ancbd regular i = true -> sm -> ew (nthe (ne (nod s KM n)) i) = Czero -> forall p, de (co s) KM f (i :: p) = C0).
    { intros i _ Sm Z p. unfold Inv.de. rewrite Ef, dn_cons. change (nod s KM n) with (qn (co s) KM n) in Z. unfold Inv.de; rewrite Z, Cw_zero by apply (Hs Sm). ring. }
    assert (KeepZ: (forall i, ancbd regular i = true -> ew (nthe (ne (nod s KM n)) i) = Czero) ->
      wp al0 (ret f) s (fun r s' => step O s s' /\ owns (s_cc s') O /\ tedge (co s') KM l r /\ (ep r = PTerm -> r = Ezero) /\
       (sm -> (l = a -> exists n, etn (co s) KM l (PNode n) /\ forall p, vpath KM l p -> de (co s) KM f p = dn (co s) KM (PNode n) p) ->
       forall p, vpath KM l p -> de (co s') KM r p = if l =? a then mask a (ancbd regular) (de (co s) KM f) p else de (co s) KM f p))).
    { intros Hz. apply (Keep True); [|auto]. intros Sm _ El p Vp. destruct p as [|i p]; [destruct Vp as [Vp _]; cbn in Vp; lia|].
      apply vpath_cons in Vp. destruct Vp as [Hi Vp]. assert (Lp: a = Z.of_nat (length p)) by (destruct Vp; lia).
      rewrite Lp, mask_here. destruct (ancbd regular i) eqn:Ei; auto. }
    destruct regular.
    + destruct (negb _ || negb _) eqn:E.
      * apply Red; auto. intros [|[|[|[|i]]]] Hi; try lia; reflexivity.
      * apply orb_false_iff in E. destruct E as [E1 E2]. apply negb_false_iff, ceqb_spec in E1. apply negb_false_iff, ceqb_spec in E2. apply KeepZ.
        intros i Hi. apply orb_true_iff in Hi. destruct Hi as [Hi|Hi]; apply Nat.eqb_eq in Hi; subst i; auto.
    + destruct (negb _ || negb _) eqn:E.
      * apply Red; auto. intros [|[|[|[|i]]]] Hi; try lia; reflexivity.
      * apply orb_false_iff in E. destruct E as [E1 E2]. apply negb_false_iff, ceqb_spec in E1. apply negb_false_iff, ceqb_spec in E2. apply KeepZ.
        intros i Hi. apply orb_true_iff in Hi. destruct Hi as [Hi|Hi]; apply Nat.eqb_eq in Hi; subst i; auto.
Qed.

(** Garbage qubits: nothing is claimed about the entries. *)
Lemma garAdd_sp k l x y s O : inv s -> owns (s_cc s) O -> -1 <= l < s_nq s -> tedge (co s) k l x -> tedge (co s) k l y ->
  wp al0 (garAdd N g nb k x y) s (fun r s' => step O s s' /\ owns (s_cc s') O /\ tedge (co s') k l r).
Proof.
  intros I Ow Hl Tx Ty. unfold garAdd. destruct (_ && _).
  - apply wp_ret. split; [now apply step_refl|]. auto.
  - destruct (negb _).
    + eapply wp_mono; [apply (add_sp (g:=g) (nb:=nb) (X:=X) G s O k l x y); auto; apply tedge_gedge; auto|]. intros r s' (A & B & T & _). auto.
    + apply wp_ret. split; [now apply step_refl|]. auto.
Qed.
Lemma gar_mk k l s O es : inv s -> owns (s_cc s) O -> 0 <= l < s_nq s -> length es = arity k -> (forall e, In e es -> tedge (co s) k (l - 1) e) ->
  wp al0 (makeDDNode N g nb k l es false) s (fun r s' => step O s s' /\ owns (s_cc s') O /\ tedge (co s') k l r /\ (ep r = PTerm -> r = Ezero)).
Proof. intros I Ow Hl Len T. eapply wp_mono; [apply (makeDDNode_t k l s es O); auto|]. intros r s' (A & B & E & F & _). auto. Qed.

Lemma garPostV_ok gar a bd nqs : nqs <= Z.of_nat (length gar) -> postok KV (garPostV N g nb gar) a bd nqs False.
Proof.
  intros Hlen l s O f I Ow Hl Hq T Zf. eapply wp_mono with (Q := fun r s' => step O s s' /\ owns (s_cc s') O /\ tedge (co s') KV l r /\ (ep r = PTerm -> r = Ezero)).
  2:{ intros r s' (A & B & E & F). repeat (split; auto). intros []. }
  assert (Same: wp al0 (ret f) s (fun r s' => step O s s' /\ owns (s_cc s') O /\ tedge (co s') KV l r /\ (ep r = PTerm -> r = Ezero))).
  { apply wp_ret. split; [now apply step_refl|]. auto. }
  unfold garPostV. destruct (ep f) as [| |n] eqn:Ef; auto.
  pose proof (te_n _ _ _ _ _ _ _ T) as Tn. rewrite Ef in Tn. destruct (kids _ _ _ _ I Tn) as [_ Ch]. destruct Tn as [L Nv].
  apply wp_bind, wp_get. cbv zeta. change (nv (nod s KV n)) with (nv (qn (co s) KV n)). rewrite Nv.
  eapply wp_bind_ok; [apply bitAt_ok; lia|]. destruct (_ && _); auto.
  assert (C0': tedge (co s) KV (l - 1) (nthe (ne (nod s KV n)) 0)) by (apply Ch; cbn; lia).
  assert (C1': tedge (co s) KV (l - 1) (nthe (ne (nod s KV n)) 1)) by (apply Ch; cbn; lia).
  apply wp_bind. eapply wp_mono; [apply (garAdd_sp KV (l - 1) _ _ s O); auto; lia|].
  intros h s1 (S1 & O1 & T1). eapply wp_mono; [apply (gar_mk KV l s1 O); auto; [apply S1|rewrite (stp_nq O _ _ S1); lia|]|].
  - intros c [<-|[<-|[]]]; auto. apply tedge_zero.
  - intros r s2 (S2 & O2 & T2 & Z2). split; [eapply step_trans; eauto|]. auto.
Qed.
Lemma garPostM_ok gar regular a bd nqs : nqs <= Z.of_nat (length gar) -> postok KM (garPostM N g nb gar regular) a bd nqs False.
Proof.
  intros Hlen l s O f I Ow Hl Hq T Zf. eapply wp_mono with (Q := fun r s' => step O s s' /\ owns (s_cc s') O /\ tedge (co s') KM l r /\ (ep r = PTerm -> r = Ezero)).
  2:{ intros r s' (A & B & E & F). repeat (split; auto). intros []. }
  assert (Same: wp al0 (ret f) s (fun r s' => step O s s' /\ owns (s_cc s') O /\ tedge (co s') KM l r /\ (ep r = PTerm -> r = Ezero))).
  { apply wp_ret. split; [now apply step_refl|]. auto. }
  unfold garPostM. destruct (ep f) as [| |n] eqn:Ef; auto.
  pose proof (te_n _ _ _ _ _ _ _ T) as Tn. rewrite Ef in Tn. destruct (kids _ _ _ _ I Tn) as [_ Ch]. destruct Tn as [L Nv].
  apply wp_bind, wp_get. cbv zeta. change (nv (nod s KM n)) with (nv (qn (co s) KM n)). rewrite Nv.
  eapply wp_bind_ok; [apply bitAt_ok; lia|]. destruct (nth _ _ _); auto.
  assert (Ci: forall i, (i < 4)%nat -> tedge (co s) KM (l - 1) (nthe (ne (nod s KM n)) i)) by (intros i Hi; apply Ch; cbn; lia).
  assert (Two: forall i j i' j' (mkes : edge -> edge -> list edge), (i < 4)%nat -> (j < 4)%nat -> (i' < 4)%nat -> (j' < 4)%nat ->
     (forall h h', length (mkes h h') = 4%nat /\ forall c, In c (mkes h h') -> c = h \/ c = h' \/ c = Ezero) ->
     wp al0 (let* h := garAdd N g nb KM (nthe (ne (nod s KM n)) i) (nthe (ne (nod s KM n)) j) in
             let* h' := garAdd N g nb KM (nthe (ne (nod s KM n)) i') (nthe (ne (nod s KM n)) j') in makeDDNode N g nb KM l (mkes h h') false) s
       (fun r s' => step O s s' /\ owns (s_cc s') O /\ tedge (co s') KM l r /\ (ep r = PTerm -> r = Ezero))).
  { intros i j i' j' mkes Hi Hj Hi' Hj' Hm. apply wp_bind. eapply wp_mono; [apply (garAdd_sp KM (l - 1) _ _ s O); auto; lia|].
    intros h s1 (S1 & O1 & T1). apply wp_bind. assert (I1: inv s1) by apply S1. assert (Hq1: s_nq s1 = s_nq s) by apply (stp_nq O _ _ S1).
    eapply wp_mono; [apply (garAdd_sp KM (l - 1) _ _ s1 O); auto; try lia; (eapply tedge_ext; [apply S1|apply Ci; auto])|].
    intros h' s2 (S2 & O2 & T2). assert (I2: inv s2) by apply S2. assert (Hq2: s_nq s2 = s_nq s) by (rewrite (stp_nq O _ _ S2); exact Hq1).
    destruct (Hm h h') as [Hlen' Hin]. eapply wp_mono; [apply (gar_mk KM l s2 O); auto; try lia|].
    - intros c Hc. destruct (Hin c Hc) as [-> | [-> | ->]]; [eapply tedge_ext; [apply S2|exact T1]|exact T2|apply tedge_zero].
    - intros r s3 (S3 & O3 & T3 & Z3). split; [eapply step_trans; [exact S1|]; eapply step_trans; eauto|]. auto. }
  destruct regular; destruct (_ || _); auto.
  - apply (Two 0%nat 2%nat 1%nat 3%nat (fun h h' => [h; h'; Ezero; Ezero])); try lia. intros h h'. split; [reflexivity|]. intros c [<-|[<-|[<-|[<-|[]]]]]; auto.
  - apply (Two 0%nat 1%nat 2%nat 3%nat (fun h h' => [h; Ezero; h'; Ezero])); try lia. intros h h'. split; [reflexivity|]. intros c [<-|[<-|[<-|[<-|[]]]]]; auto.
Qed.


(** A block of [h] (a matrix on qubits 0..l) that is a multiple of another non-zero block of the same
    parent is equal to it or zero, for parents at level [q] or above. *)
Definition sharefree (q l : Z) (h : list nat -> C) : Prop := forall pre i j c,
  q <= l - Z.of_nat (length pre) -> 1 <= l - Z.of_nat (length pre) -> Forall (fun d => (d < 4)%nat) pre -> (i < 4)%nat -> (j < 4)%nat ->
  (forall p, vpath KM (l - Z.of_nat (length pre) - 1) p -> h (pre ++ j :: p) = (c * h (pre ++ i :: p))%C) ->
  (exists p, vpath KM (l - Z.of_nat (length pre) - 1) p /\ h (pre ++ i :: p) <> C0) -> c = C0 \/ c = C1.

(** The nodes of a diagram for [h] *)
Definition nodesof s (l : Z) (h : list nat -> C) (n : nat) : Prop := exists pre c,
  c <> C0 /\ Forall (fun d => (d < 4)%nat) pre /\ etn (co s) KM (l - Z.of_nat (length pre)) (PNode n) /\
  forall p, vpath KM (l - Z.of_nat (length pre)) p -> h (pre ++ p) = (c * dn (co s) KM (PNode n) p)%C.
Lemma nodesof_root s l e : ex X -> inv s -> tedge (co s) KM l e -> inD (nodesof s l (de (co s) KM e)) (ep e).
Proof.
  intros Ex I T. destruct (ep e) as [| |n] eqn:Ee; cbn; auto. exists [], (Cw (co s) (ew e)). cbn [length app]. replace (l - Z.of_nat 0) with l by lia.
  pose proof (te_n _ _ _ _ _ _ _ T) as Tn. rewrite Ee in Tn. split; [|split; [constructor|split; [exact Tn|]]].
  - intros Z. apply (Cw_eq0 (co s)) in Z; auto; [|apply I|apply T]. apply (te_z _ _ _ _ _ _ _ T Ex) in Z. congruence.
  - intros p _. unfold Inv.de. now rewrite Ee.
Qed.
Lemma nodesof_uni s q l h : ex X -> inv s -> sharefree q l h -> uni KM q (nodesof s l h) s.
Proof.
  intros Ex I SF n (pre & c & Hc & Fp & Et & Hn). destruct (kids _ _ _ _ I Et) as [Hl Ch]. pose proof Et as [L Nv]. split; [exact L|].
  destruct (linked_ok (g:=g) (nb:=nb) (X:=X) _ _ _ (iv_c _ _ _ _ _ I) L) as (b & K & _). assert (Len := no_len _ _ _ _ _ _ _ _ _ K). cbn [arity] in Len.
  change (nod s KM n) with (qn (co s) KM n). set (lv := l - Z.of_nat (length pre)) in *.
  assert (Idx: forall x, In x (ne (qn (co s) KM n)) -> exists i, (i < 4)%nat /\ nthe (ne (qn (co s) KM n)) i = x).
  { intros x Hx. destruct (In_nth _ _ Enull Hx) as (i & Hi & Ei). exists i. split; [lia|exact Ei]. }
  assert (Val: forall i p, (i < 4)%nat -> vpath KM (lv - 1) p -> h (pre ++ i :: p) = (c * (Cw (co s) (ew (nthe (ne (qn (co s) KM n)) i)) * dn (co s) KM (ep (nthe (ne (qn (co s) KM n)) i)) p))%C).
  { intros i p Hi Vp. rewrite Hn by (apply vpath_cons; auto). rewrite dn_cons. reflexivity. }
  split.
  - intros x Hx. destruct (Idx x Hx) as (i & Hi & <-). pose proof (Ch i Hi) as Ti. destruct (ep (nthe (ne (qn (co s) KM n)) i)) as [| |m] eqn:Em; cbn; auto.
    exists (pre ++ [i]), (c * Cw (co s) (ew (nthe (ne (qn (co s) KM n)) i)))%C. rewrite app_length. cbn [length].
    replace (l - Z.of_nat (length pre + 1)) with (lv - 1) by (unfold lv; lia). split; [|split; [|split]].
    + apply Cmul_neq; auto. intros Z. apply (Cw_eq0 (co s)) in Z; auto; [|apply I|apply Ti]. apply (te_z _ _ _ _ _ _ _ Ti Ex) in Z. change (nod s KM n) with (qn (co s) KM n) in Z. congruence.
    + apply Forall_app. auto.
    + pose proof (te_n _ _ _ _ _ _ _ Ti) as Tn. change (nod s KM n) with (qn (co s) KM n) in Tn. rewrite Em in Tn. exact Tn.
    + intros p Vp. rewrite <- app_assoc. cbn [app]. rewrite Val by auto. rewrite Em. ring.
  - intros Hq x y Hx Hy Exy Nt. destruct (Idx x Hx) as (i & Hi & Ei). destruct (Idx y Hy) as (j & Hj & Ej).
    pose proof (Ch i Hi) as Ti. pose proof (Ch j Hj) as Tj. change (nod s KM n) with (qn (co s) KM n) in Ti, Tj. rewrite Ei in Ti. rewrite Ej in Tj.
    rewrite Nv in Hq.
    assert (Wx: Cw (co s) (ew x) <> C0). { intros Z. apply (Cw_eq0 (co s)) in Z; auto; [|apply I|apply Ti]. apply (te_z _ _ _ _ _ _ _ Ti Ex) in Z. congruence. }
    assert (Wy: Cw (co s) (ew y) <> C0). { intros Z. apply (Cw_eq0 (co s)) in Z; auto; [|apply I|apply Tj]. apply (te_z _ _ _ _ _ _ _ Tj Ex) in Z. congruence. }
    pose proof (te_n _ _ _ _ _ _ _ Ti) as Tn. destruct (ep x) as [| |m] eqn:Em; [contradiction|congruence|].
    destruct (kids _ _ _ _ I Tn) as [Hl1 _].
    destruct (dn_nz (co s) KM Ex (iv_c _ _ _ _ _ I) (Z.to_nat lv) (lv - 1) (PNode m)) as (p0 & V0 & D0); [lia| |].
    { left. split; [exact Tn|discriminate]. }
    destruct (SF pre i j (Cw (co s) (ew y) / Cw (co s) (ew x))%C) as [Z|Z]; auto; fold lv; try lia.
    + intros p Vp. rewrite !Val by auto. rewrite Ei, Ej, <- Exy, Em. field. exact Wx.
    + exists p0. split; auto. rewrite Val by auto. rewrite Ei, Em. repeat apply Cmul_neq; auto.
    + exfalso. apply Wy. transitivity (Cw (co s) (ew y) / Cw (co s) (ew x) * Cw (co s) (ew x))%C; [field; exact Wx|rewrite Z; ring].
    + apply (Cw_inj (g:=g) (nb:=nb) (X:=X) (co s)); auto; [apply I|apply Ti|apply Tj|].
      transitivity (Cw (co s) (ew y) / Cw (co s) (ew x) * Cw (co s) (ew x))%C; [rewrite Z; ring|field; exact Wx].
Qed.

(** ** The entry points *)
Lemma firstSet_some : forall b i, firstSet b = Some i -> (i < length b)%nat /\ nth i b false = true.
Proof.
  induction b as [|x b IH]; intros i E; cbn in E; [discriminate|]. destruct x; [injection E as <-; cbn; split; [lia|reflexivity]|].
  destruct (firstSet b) as [j|]; [|discriminate]. injection E as <-. destruct (IH j eq_refl). cbn. split; [lia|auto].
Qed.
Lemma firstSet_none : forall b i, firstSet b = None -> nth i b false = false.
Proof.
  induction b as [|x b IH]; intros i E; cbn in E; [destruct i; reflexivity|]. destruct x; [discriminate|].
  destruct (firstSet b) as [j|] eqn:Eb; [discriminate|]. destruct i; cbn; auto.
Qed.
(** Exactly position [q] is set. *)
Definition onlyset (b : list bool) (q : Z) : Prop := 0 <= q /\ forall j, nth j b false = true <-> j = Z.to_nat q.
Lemma int8_small i : (i < 128)%nat -> int8 i = Z.of_nat i.
Proof. intros H. unfold int8. rewrite Z.mod_small by lia. lia. Qed.
End ReduceL.
