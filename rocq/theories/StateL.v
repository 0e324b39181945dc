(** Specifications of the basis states and of the construction from vectors and matrices. *)
From Coq Require Import ZArith List Bool Lia Arith Reals Lra Permutation.
From Verif Require Import Num Base CTable CTableWf Cx State Pkg Inv InvL PrimL NormL MkL TrL AddL MulL KronL CanonL IdentL.
Import ListNotations.
Local Open Scope Z_scope.

(** Amplitudes of the single-qubit states (Definitions.hpp:41-48). *)
Definition amp (b : bstate) (c : nat) : C :=
  match b, c with
  | BSzero, O => C1 | BSzero, _ => C0
  | BSone, O => C0 | BSone, _ => C1
  | _, O => ((sqrt 2 / 2)%R, 0%R)
  | BSplus, _ => ((sqrt 2 / 2)%R, 0%R)
  | BSminus, _ => ((- (sqrt 2 / 2))%R, 0%R)
  | BSright, _ => (0%R, (sqrt 2 / 2)%R)
  | BSleft, _ => (0%R, (- (sqrt 2 / 2))%R)
  end.
(** Amplitude of a product state; the first digit belongs to the highest qubit. *)
Fixpoint bsval (sts : list bstate) (path : list nat) : C :=
  match path with
  | [] => C1
  | c :: r => (amp (nth (length r) sts BSzero) c * bsval sts r)%C
  end.
(** Binary number with the most significant digit first. *)
Fixpoint vidx (path : list nat) : nat :=
  match path with
  | [] => 0
  | c :: r => c * 2 ^ length r + vidx r
  end%nat.
Definition ridx (path : list nat) : nat := vidx (map (fun i => i / 2)%nat path).
Definition cidx (path : list nat) : nat := vidx (map (fun i => i mod 2)%nat path).

(** The test for powers of two *)
Lemma ispow2_pow k : ispow2 (2 ^ k) = true.
Proof.
  unfold ispow2. apply Nat.eqb_eq. rewrite Nat.sub_1_r, <- Nat.ones_equiv, Nat.land_ones. apply Nat.mod_same. apply Nat.pow_nonzero. lia.
Qed.
Lemma ispow2_inv n : (0 < n)%nat -> ispow2 n = true -> exists k, n = (2 ^ k)%nat.
Proof.
  intros P E. apply Nat.eqb_eq in E. exists (Nat.log2 n). destruct (Nat.log2_spec n P) as [A B].
  destruct (Nat.eq_dec n (2 ^ Nat.log2 n)) as [|Ne]; auto. exfalso.
  assert (L: Nat.log2 (n - 1) = Nat.log2 n) by (apply Nat.log2_unique; lia).
  assert (T: Nat.testbit (Nat.land n (n - 1)) (Nat.log2 n) = true).
  { rewrite Nat.land_spec, Nat.bit_log2 by lia. rewrite <- L. rewrite Nat.bit_log2; [reflexivity|]. pose proof (Nat.pow_nonzero 2 (Nat.log2 n)). lia. }
  rewrite E, Nat.bits_0 in T. discriminate.
Qed.

Section StateL.
Context {N : num} {g : cfg N} {nb : kind -> Z} {X : numx N (g_ct g)} (G : gok g).
Local Notation cf := (g_ct g).
Local Notation co := (co N).
Local Notation qn := (qn N).
Local Notation linked := (linked N).
Local Notation c_ut := (c_ut N).
Local Notation Cw := (Cw N g X).
Local Notation Cv := (Cv N g X).
Local Notation Cv2 := (Cv2 N g X).
Local Notation dn := (dn N g X).
Local Notation de := (de N g X).
Local Notation dg := (dg N g X).
Local Notation wtab := (wtab N g X).
Local Notation etn := (etn N).
Local Notation isnode := (isnode N).
Local Notation tedge := (tedge N g X).
Local Notation gedge := (gedge N g X).
Local Notation cinv := (cinv N g nb X).
Local Notation uinv := (uinv N g nb X).
Local Notation nodeok := (nodeok N g nb X).
Local Notation inv := (inv N g nb X).
Local Notation step := (step N g nb X).
Local Notation qext := (qext N).
Local Notation owns := (owns N).
Local Notation wok := (wok N g X).
Local Notation wp := (wp N).
Local Notation al0 := (al0 N g X).
Local Notation nnorm := (nnorm N g X).
Local Notation iedge := (iedge (g:=g) (X:=X)).
Local Notation trsp := (trsp (nb:=nb) (X:=X)).
Local Notation unok := (unok N g X).
Local Notation binok := (binok N g X).
Local Notation addok := (addok N g X).
Local Notation tinv := (tinv N g X).
Local Notation vres := (vres N g X).
Local Notation dv := (dv N g X).
Local Notation mkpost := (mkpost (nb:=nb) (X:=X)).
Local Notation mulCached_sp := (mulCached_sp (nb:=nb) (X:=X) G).
Local Notation addCached_sp := (addCached_sp (nb:=nb) (X:=X) G).
Local Notation getCached_sp := (getCached_sp (nb:=nb) (X:=X) G).
Local Notation makeDDNode_sp := (makeDDNode_sp (nb:=nb) (X:=X) G).
Local Notation lookupC_sp := (lookupC_sp (nb:=nb) (X:=X) G).
Local Notation tedge_gedge := (tedge_gedge (nb:=nb) (X:=X)).
Local Notation child_ok := (child_ok (nb:=nb) (X:=X)).
Local Notation dn_ext := (dn_ext (nb:=nb) (X:=X)).
Local Notation Cw_eq0 := (Cw_eq0 (nb:=nb) (X:=X)).
Local Notation addInsert_sp := (addInsert_sp (g:=g) (nb:=nb) (X:=X)).
Local Notation binInsert_sp := (binInsert_sp (g:=g) (nb:=nb) (X:=X)).
Local Notation unInsert_sp := (unInsert_sp (g:=g) (nb:=nb) (X:=X)).
Local Notation addLookup_sp := (addLookup_sp (g:=g) (nb:=nb) (X:=X)).
Local Notation binLookup_sp := (binLookup_sp (g:=g) (nb:=nb) (X:=X)).
Local Notation unLookup_sp := (unLookup_sp (g:=g) (nb:=nb) (X:=X)).
Local Notation cres := (cres (g:=g) (X:=X)).
Local Notation addsp := (addsp (g:=g) (nb:=nb) (X:=X)).
Local Notation rel_sp := (rel_sp (g:=g) (nb:=nb) (X:=X)).
Local Notation relif_sp := (relif_sp (g:=g) (nb:=nb) (X:=X)).
Local Notation mapM_cres := (mapM_cres (g:=g) (nb:=nb) (X:=X)).
Local Notation de_step := (de_step (g:=g) (nb:=nb) (X:=X)).
Local Notation dg_step := (dg_step (g:=g) (nb:=nb) (X:=X)).
Local Notation mulSelf_sp := (mulSelf_sp (g:=g) (nb:=nb) (X:=X)).
Local Notation finish_sp := (finish_sp (g:=g) (nb:=nb) (X:=X) G).
Local Notation add2F_sp := (add2F_sp (g:=g) (nb:=nb) (X:=X) G).
Implicit Types (s : st N).

Local Notation dn_nz := (dn_nz (g:=g) (nb:=nb) (X:=X)).
Local Notation idok := (idok N g X).
Local Notation makeDDNode_t := (makeDDNode_t (nb:=nb) (X:=X) G).
Local Notation mk_weight := (mk_weight (nb:=nb) (X:=X)).

Local Notation node_or_term := (node_or_term (N:=N)).
Local Notation canon_node := (canon_node (g:=g) (nb:=nb) (X:=X)).
Local Notation lookup_sp := (lookup_sp (nb:=nb) (X:=X) G).
Local Notation nnormV := (nnormV (g:=g) (X:=X)).

(** The weight of a vector node whose successors are in normal form is one. *)
Definition anorm (a : nat -> C) : Prop :=
  (Cmag2 (a 0%nat) + Cmag2 (a 1%nat) = 1)%R /\ ((Cmag2 (a 1%nat) <= Cmag2 (a 0%nat))%R -> real_pos (a 0%nat)) /\
  ((Cmag2 (a 0%nat) < Cmag2 (a 1%nat))%R -> real_pos (a 1%nat)).

Lemma vnode_one q l r p a : ex X -> cinv q -> 0 <= l -> tedge q KV l r -> node_or_term q KV (l - 1) p -> anorm a ->
  (forall i path, (i < 2)%nat -> vpath KV (l - 1) path -> de q KV r (i :: path) = (a i * dn q KV p path)%C) ->
  ew r = Cone /\ forall i path, (i < 2)%nat -> vpath KV (l - 1) path -> dn q KV (ep r) (i :: path) = (a i * dn q KV p path)%C.
Proof.
  intros Ex I Hl T Hp (A1 & A2 & A3) H.
  destruct (dn_nz q KV Ex I (Z.to_nat l) (l - 1) p) as (pp & Vpp & Dpp); [lia|exact Hp|].
  assert (Z: ew r <> Czero).
  { intros Z. assert (Q: forall i, (i < 2)%nat -> Cmag2 (a i) = 0%R).
    { intros i Hi. apply Cmag2_zero. specialize (H i pp Hi Vpp). unfold Inv.de in H. rewrite Z, Cw_zero in H by auto.
      assert (E: (a i * dn q KV p pp = C0)%C) by (rewrite <- H; ring). apply Cmul_integral in E. tauto. }
    rewrite !Q in A1 by lia. lra. }
  destruct (tedge_nt (g:=g) (X:=X) q KV l r T Z) as [Hn|[E _]]; [|lia]. apply isnode_n in Hn. destruct Hn as (m & Em & L & Nv).
  pose proof (linked_ok (nb:=nb) (X:=X) _ _ _ I L) as (b & K & _). pose proof (no_norm _ _ _ _ _ _ _ _ _ K Ex) as Nn. apply nnormV in Nn; auto. cbv zeta in Nn.
  assert (Wr: Cw q (ew r) <> C0). { intros W. apply Cw_eq0 in W; auto. apply T. }
  assert (Q: forall i, (i < 2)%nat -> a i = (Cw q (ew r) * Cw q (ew (nthe (ne (qn q KV m)) i)))%C).
  { intros i Hi. set (e := nthe (ne (qn q KV m)) i). assert (Te: tedge q KV (l - 1) e). { unfold e. rewrite <- Nv. apply child_ok; auto. }
    assert (E: forall path, vpath KV (l - 1) path -> (Cw q (ew r) * (Cw q (ew e) * dn q KV (ep e) path) = a i * dn q KV p path)%C).
    { intros path V. rewrite <- (H i path Hi V). unfold Inv.de. rewrite Em, dn_cons. reflexivity. }
    destruct (ceqb (ew e) Czero) eqn:Ze.
    - apply ceqb_spec in Ze. specialize (E pp Vpp). rewrite Ze, Cw_zero in E by auto. rewrite Ze, Cw_zero by auto.
      assert (E': (a i * dn q KV p pp = C0)%C) by (rewrite <- E; ring). apply Cmul_integral in E'. destruct E' as [E'|]; [rewrite E'; ring|contradiction].
    - apply ceqb_false in Ze. assert (We: Cw q (ew e) <> C0). { intros W. apply Cw_eq0 in W; auto. apply Te. }
      destruct (canon_node q KV ltac:(discriminate) Ex I (Z.to_nat l) (l - 1) (ep e) p (a i / (Cw q (ew r) * Cw q (ew e)))%C) as [_ P]; auto; [lia|now apply (tedge_nt (g:=g) (X:=X))| |].
      + intros path V. specialize (E path V). apply (Cmul_cancel_l (Cw q (ew r) * Cw q (ew e))%C); [now apply Cmul_neq|].
        transitivity (a i * dn q KV p path)%C; [rewrite <- E; ring|]. field. auto.
      + transitivity (a i / (Cw q (ew r) * Cw q (ew e)) * (Cw q (ew r) * Cw q (ew e)))%C; [field; auto|]. rewrite P. ring. }
  assert (W1: Cw q (ew r) = C1).
  { set (c := Cw q (ew r)) in *. destruct Nn as (B1 & B2 & B3). rewrite !Q in A1, A2, A3 by lia. rewrite !Cmag2_mul in A1, A2, A3.
    set (u := Cw q (ew (nthe (ne (qn q KV m)) 0))) in *. set (v := Cw q (ew (nthe (ne (qn q KV m)) 1))) in *.
    assert (M: Cmag2 c = 1%R) by (rewrite <- Rmult_plus_distr_l, B1 in A1; lra). rewrite M in *.
    destruct (Rle_or_lt (Cmag2 v) (Cmag2 u)) as [Le|Lt].
    + eapply real_pos_scale; [apply B2; auto|apply A2; lra|auto].
    + eapply real_pos_scale; [apply B3; auto|apply A3; lra|auto]. }
  split; [apply (Cw_eq1 (nb:=nb) (X:=X) q); auto; apply T|].
  intros i path Hi V. rewrite <- (H i path Hi V). unfold Inv.de. rewrite W1. ring.
Qed.

Lemma sq2_pos : (0 < sqrt 2 / 2)%R.
Proof. assert (0 < sqrt 2)%R by (apply sqrt_lt_R0; lra). lra. Qed.
Lemma sq2_sq : (sqrt 2 / 2 * (sqrt 2 / 2) = / 2)%R.
Proof. assert (sqrt 2 * sqrt 2 = 2)%R by (apply sqrt_sqrt; lra). lra. Qed.

Lemma amp_norm b : anorm (amp b).
Proof.
  pose proof sq2_pos. pose proof sq2_sq. unfold anorm, real_pos, Cmag2, amp. destruct b; simpl; repeat split; try intros; try lra.
Qed.

(** ** Basis states *)

(** The invariant of the loop over the qubits. *)
Definition bsinv (sts : list bstate) (p : Z) s (f : edge) : Prop :=
  tedge (co s) KV (p - 1) f /\
  (ex X -> ew f = Cone /\ forall path, vpath KV (p - 1) path -> dn (co s) KV (ep f) path = bsval sts path).

Lemma foldM_levels (F : edge -> Z -> M N edge) (J : Z -> st N -> edge -> Prop) O : forall n p s f,
  inv s -> owns (s_cc s) O -> 0 <= p -> J p s f ->
  (forall i s f, p <= i < p + Z.of_nat n -> inv s -> owns (s_cc s) O -> J i s f ->
     wp al0 (F f i) s (fun r s' => step O s s' /\ owns (s_cc s') O /\ J (i + 1) s' r)) ->
  wp al0 (foldM N F (map (fun i => 0 + Z.of_nat i) (seq (Z.to_nat p) n)) f) s
    (fun r s' => step O s s' /\ owns (s_cc s') O /\ J (p + Z.of_nat n) s' r).
Proof.
  induction n as [|n IH]; intros p s f I Ow Hp HJ H; cbn [seq map foldM].
  - apply wp_ret. split; [now apply step_refl|]. split; auto. now rewrite Z.add_0_r.
  - apply wp_bind. replace (0 + Z.of_nat (Z.to_nat p)) with p by lia. eapply wp_mono; [apply H; auto; lia|].
    intros r s1 (S1 & O1 & J1). replace (S (Z.to_nat p)) with (Z.to_nat (p + 1)) by lia.
    eapply wp_mono; [apply (IH (p + 1) s1 r); auto; try lia; [apply S1|]|].
    + intros i s2 f2 Hi I2 O2 J2. apply H; auto. lia.
    + intros r' s2 (S2 & O2 & J2). split; [eapply step_trans; eauto|]. split; auto.
      now replace (p + Z.of_nat (S n)) with (p + 1 + Z.of_nat n) by lia.
Qed.

Lemma bsinv_nt sts p s f : ex X -> bsinv sts p s f -> node_or_term (co s) KV (p - 1) (ep f).
Proof. intros Ex [T H]. apply (tedge_nt (g:=g) (X:=X)); auto. destruct (H Ex) as [-> _]. discriminate. Qed.

(** One step: a new top qubit in state [nth p sts]. *)
Lemma bs_step sts p s O f es r s' : 0 <= p -> inv s -> bsinv sts p s f -> step O s s' -> tedge (co s') KV p r ->
  (ex X -> forall i path, (i < 2)%nat -> vpath KV (p - 1) path -> de (co s') KV r (i :: path) = de (co s) KV (nthe es i) path) ->
  (ex X -> forall i path, (i < 2)%nat -> vpath KV (p - 1) path -> de (co s) KV (nthe es i) path = (amp (nth (Z.to_nat p) sts BSzero) i * dn (co s) KV (ep f) path)%C) ->
  bsinv sts (p + 1) s' r.
Proof.
  intros Hp I B S T V E. unfold bsinv. replace (p + 1 - 1) with p by lia. split; auto. intros Ex.
  pose proof (bsinv_nt _ _ _ _ Ex B) as Nt. destruct B as [Tf Bf]. destruct (Bf Ex) as [Wf Df].
  destruct (vnode_one (co s') p r (ep f) (amp (nth (Z.to_nat p) sts BSzero))) as [W D]; auto.
  { apply S. }
  { destruct Nt as [Nt|Nt]; [left; eapply isnode_ext; [apply S|auto]|right; auto]. }
  { apply amp_norm. }
  { intros i path Hi Vp. rewrite V, E by auto. f_equal. symmetry. eapply dn_ext; eauto; [apply I|apply S|apply Tf]. }
  split; auto. intros path Vp. apply vpath_inv in Vp; auto. destruct Vp as (i & q & -> & Hi & Vp). rewrite D by auto.
  cbn [bsval]. replace (length q) with (Z.to_nat p) by (destruct Vp; lia). f_equal. rewrite <- Df by auto.
  eapply dn_ext; eauto; [apply I|apply S|apply Tf].
Qed.

Lemma bs_plain sts p s O f b : 0 <= p < s_nq s -> inv s -> owns (s_cc s) O -> bsinv sts p s f ->
  nth (Z.to_nat p) sts BSzero = (if b : bool then BSone else BSzero) ->
  wp al0 (makeDDNode N g nb KV p (if b then [Ezero; f] else [f; Ezero]) false) s
    (fun r s' => step O s s' /\ owns (s_cc s') O /\ bsinv sts (p + 1) s' r).
Proof.
  intros Hp I Ow B Hb. pose proof B as [Tf Bf].
  assert (Tes: forall a, In a (if b then [Ezero; f] else [f; Ezero]) -> tedge (co s) KV (p - 1) a).
  { intros a Ha. destruct b; destruct Ha as [<-|[<-|[]]]; auto; apply tedge_zero. }
  eapply wp_mono; [apply (makeDDNode_t KV p s _ O I Ow); auto; destruct b; reflexivity|].
  intros r s1 (S1 & O1 & T1 & _ & V1). split; auto. split; auto.
  eapply bs_step; eauto; [lia|]. intros Ex i path Hi V. rewrite Hb. destruct (Bf Ex) as [Wf _].
  destruct i as [|[|i]]; [| |lia]; destruct b; cbn [nthe nth amp]; rewrite ?de_zero by auto; unfold Inv.de; rewrite ?Wf, ?Cw_one by auto; ring.
Qed.


Lemma stp_nq O s s' : step O s s' -> s_nq s' = s_nq s.
Proof. intros S. exact (qe_nq _ _ _ (sp_ext _ _ _ _ _ _ _ S)). Qed.

Lemma bs_init sts s : bsinv sts 0 s Eone.
Proof.
  split; [constructor; simpl; auto; try apply wtab_one; try discriminate|]. intros Ex. split; auto.
  intros path V. apply vpath_m1 in V. now subst.
Qed.

(** The common loop of the three functions. *)
Lemma bs_loop sts F s O n : 0 <= n <= s_nq s -> inv s -> owns (s_cc s) O ->
  (forall i s1 f, 0 <= i < n -> s_nq s1 = s_nq s -> inv s1 -> owns (s_cc s1) O -> bsinv sts i s1 f ->
     wp al0 (F f i) s1 (fun r s' => step O s1 s' /\ owns (s_cc s') O /\ bsinv sts (i + 1) s' r)) ->
  wp al0 (foldM N F (map (fun i => 0 + Z.of_nat i) (seq 0 (Z.to_nat n))) Eone) s
    (fun r s' => step O s s' /\ owns (s_cc s') O /\ bsinv sts n s' r).
Proof.
  intros Hn I Ow H. eapply wp_mono; [apply (foldM_levels F (fun p s' f => s_nq s' = s_nq s /\ bsinv sts p s' f) O (Z.to_nat n) 0 s Eone); auto; try lia|].
  - split; auto. apply bs_init.
  - intros i s1 f Hi I1 O1 [Q1 J1]. eapply wp_mono; [apply H; auto; lia|]. intros r s2 (S2 & O2 & B2).
    split; auto. split; auto. split; auto. rewrite <- Q1. apply (qe_nq _ _ _ (sp_ext _ _ _ _ _ _ _ S2)).
  - intros r s2 (S2 & O2 & _ & B2). split; auto. split; auto. now replace (0 + Z.of_nat (Z.to_nat n)) with n in B2 by lia.
Qed.

Theorem makeZeroState_sp s O n : 0 <= n <= s_nq s -> inv s -> owns (s_cc s) O ->
  wp al0 (makeZeroState N g nb n 0) s (fun r s' => step O s s' /\ owns (s_cc s') O /\ bsinv [] n s' r).
Proof.
  intros Hn I Ow. eapply wp_eq with (m' := foldM N (fun f p => makeDDNode N g nb KV p [f; Ezero] false)
             (map (fun i => 0 + Z.of_nat i) (seq 0 (Z.to_nat n))) Eone).
  { unfold makeZeroState. assert (B: s_nq s <? n + 0 = false) by (apply Z.ltb_ge; lia). now rewrite B. }
  apply bs_loop; auto. intros i s1 f Hi Q1 I1 O1 B1. apply (bs_plain [] i s1 O f false); auto; [lia|].
  apply nth_overflow; simpl; lia.
Qed.

Definition bits_st (bits : list bool) : list bstate := map (fun b : bool => if b then BSone else BSzero) bits.

Theorem makeBasisState_sp s O n bits : 0 <= n <= s_nq s -> n <= Z.of_nat (length bits) -> inv s -> owns (s_cc s) O ->
  wp al0 (makeBasisState N g nb n bits 0) s (fun r s' => step O s s' /\ owns (s_cc s') O /\ bsinv (bits_st bits) n s' r).
Proof.
  intros Hn Hb I Ow. eapply wp_eq with (m' := foldM N _ (map (fun i => 0 + Z.of_nat i) (seq 0 (Z.to_nat n))) Eone).
  { unfold makeBasisState. assert (B: s_nq s <? n + 0 = false) by (apply Z.ltb_ge; lia). rewrite B. reflexivity. }
  apply bs_loop; auto. intros i s1 f Hi Q1 I1 O1 B1. cbv beta.
  destruct (nth_error bits (Z.to_nat i)) as [b|] eqn:Eb; [|apply nth_error_None in Eb; lia].
  assert (Hs: nth (Z.to_nat i) (bits_st bits) BSzero = if b then BSone else BSzero).
  { apply nth_error_nth. unfold bits_st. now rewrite nth_error_map, Eb. }
  destruct b; [apply (bs_plain (bits_st bits) i s1 O f true)|apply (bs_plain (bits_st bits) i s1 O f false)]; auto; lia.
Qed.

Lemma bs_two sts p s O f a b c d : ex X -> 0 <= p < s_nq s -> inv s -> owns (s_cc s) O -> bsinv sts p s f ->
  Cv2 (a, b) = amp (nth (Z.to_nat p) sts BSzero) 0 -> Cv2 (c, d) = amp (nth (Z.to_nat p) sts BSzero) 1 ->
  Cv2 (a, b) <> C0 -> Cv2 (c, d) <> C0 ->
  wp al0 (let* w0 := cn_lookup g a b in let* w1 := cn_lookup g c d in
          makeDDNode N g nb KV p [Ed (ep f) w0; Ed (ep f) w1] false) s
    (fun r s' => step O s s' /\ owns (s_cc s') O /\ bsinv sts (p + 1) s' r).
Proof.
  intros Ex Hp I Ow B Ha Hc Za Zc. pose proof B as [Tf Bf]. destruct (Bf Ex) as [Wf Df].
  apply wp_bind. eapply wp_mono; [apply (lookup_sp O s a b I)|]. intros w0 s1 (S1 & C1' & W1 & V1). rewrite <- C1' in Ow.
  apply wp_bind. eapply wp_mono; [apply (lookup_sp O s1 c d); apply S1|]. intros w1 s2 (S2 & C2' & W2 & V2). rewrite <- C2' in Ow.
  assert (S02: step O s s2) by (eapply step_trans; eauto).
  assert (B2: bsinv sts p s2 f).
  { split; [eapply tedge_ext; [apply S02|auto]|]. intros _. split; auto. intros path V. rewrite <- Df by auto. eapply dn_ext; eauto; [apply I|apply S02|apply Tf]. }
  assert (W1': wtab (co s2) w0) by (eapply wtab_ext; [apply S2|auto]).
  assert (V1': Cw (co s2) w0 = Cv2 (a, b)). { rewrite <- V1 by auto. apply (Cw_ext (co s1) (co s2) w0); auto. apply S2. }
  pose proof (bsinv_nt _ _ _ _ Ex B2) as Nt.
  assert (Te: forall w, wtab (co s2) w -> Cw (co s2) w <> C0 -> tedge (co s2) KV (p - 1) (Ed (ep f) w)).
  { intros w Ww Zw. constructor; simpl; auto.
    - apply B2.
    - intros Ep. destruct Nt as [[_ Nt]|[Nt _]]; auto; contradiction.
    - intros _ E. rewrite E, Cw_zero in Zw by auto. contradiction. }
  eapply wp_mono; [apply (makeDDNode_t KV p s2 [Ed (ep f) w0; Ed (ep f) w1] O); [apply S2|auto|reflexivity| |]|].
  - rewrite (stp_nq _ _ _ S02). auto.
  - intros e [<-|[<-|[]]]; apply Te; auto; [rewrite V1'|rewrite V2]; auto.
  - intros r s3 (S3 & O3 & T3 & _ & V3). split; [eapply step_trans; eauto|]. split; auto.
    eapply (bs_step sts p s2 O f [Ed (ep f) w0; Ed (ep f) w1]); eauto; [lia|apply S2|].
    intros _ i path Hi V. destruct i as [|[|i]]; [| |lia]; cbn [nthe nth]; unfold Inv.de; cbn [ew ep].
    + rewrite V1', Ha. reflexivity. + rewrite (V2 Ex), Hc. reflexivity.
Qed.

Lemma Cv2_sq2 : ex X -> Cv2 (nsq2, n0) = ((sqrt 2 / 2)%R, 0%R) /\ Cv2 (nneg nsq2, n0) = ((- (sqrt 2 / 2))%R, 0%R) /\
  Cv2 (n0, nsq2) = (0%R, (sqrt 2 / 2)%R) /\ Cv2 (n0, nneg nsq2) = (0%R, (- (sqrt 2 / 2))%R).
Proof.
  intros Ex. unfold Inv.Cv2. cbn [fst snd]. rewrite !(x_neg X Ex), !(x_0 X Ex), !(x_sq2 X Ex). auto.
Qed.

(** In rounded arithmetic only the computational basis states are covered. *)
Theorem makeBasisStateB_sp s O n sts : (ex X \/ forall b, In b sts -> b = BSzero \/ b = BSone) ->
  0 <= n <= s_nq s -> n <= Z.of_nat (length sts) -> inv s -> owns (s_cc s) O ->
  wp al0 (makeBasisStateB N g nb n sts 0) s (fun r s' => step O s s' /\ owns (s_cc s') O /\ bsinv sts n s' r).
Proof.
  intros H Hn Hb I Ow. eapply wp_eq with (m' := foldM N _ (map (fun i => 0 + Z.of_nat i) (seq 0 (Z.to_nat n))) Eone).
  { unfold makeBasisStateB. assert (B: s_nq s <? n + 0 = false) by (apply Z.ltb_ge; lia). rewrite B.
    assert (B': Z.of_nat (length sts) <? n = false) by (apply Z.ltb_ge; lia). rewrite B'. reflexivity. }
  apply bs_loop; auto. intros i s1 f Hi Q1 I1 O1 B1. cbv beta.
  destruct (nth_error sts (Z.to_nat i)) as [b|] eqn:Eb; [|apply nth_error_None in Eb; lia].
  pose proof (nth_error_nth _ _ BSzero Eb) as Hs. pose proof (nth_error_In _ _ Eb) as Hin.
  pose proof sq2_pos as P2.
  assert (Ex: b = BSzero \/ b = BSone \/ ex X) by (destruct H as [H|H]; auto; destruct (H b Hin); auto).
  destruct b.
  1: apply (bs_plain sts i s1 O f false); auto; lia.
  1: apply (bs_plain sts i s1 O f true); auto; lia.
  all: destruct Ex as [Ex|[Ex|Ex]]; try discriminate; destruct (Cv2_sq2 Ex) as (Q & Q2 & Q3 & Q4).
  all: apply bs_two; auto; try lia; rewrite ?Hs, ?Q, ?Q2, ?Q3, ?Q4; auto; intros E; injection E; intros; lra.
Qed.

(** ** Vectors and matrices *)

Definition ires (k : kind) (l : Z) (O : list nat) s (r : edge) : Prop :=
  iedge s true k l r /\ owns (s_cc s) (wslots (ew r) ++ O).

Lemma iedge_dg s s' O k l r path : inv s -> step O s s' -> wok (co s) O (ew r) -> iedge s true k l r -> vpath k l path -> dg s' k r path = dg s k r path.
Proof.
  intros I S W [A B D F] V. unfold Inv.dg. rewrite (Cv_step (nb:=nb) s s' O (ew r) S W). f_equal.
  eapply dn_ext; eauto. apply I. apply S.
Qed.
Lemma ires_wok k l O s r : ires k l O s r -> wok (co s) (wslots (ew r) ++ O) (ew r).
Proof.
  intros [[_ _ _ [E|(a & b & E)]] Ow]; rewrite E in *.
  - left. apply wtab_zero.
  - right. exists a, b. simpl in *. destruct (owns_nodup _ _ _ _ Ow) as (? & _). auto 10.
Qed.

Lemma mapM_ires {A} (d : A) al k l (f : A -> M N edge) (V : A -> list nat -> C) : forall idx s O,
  inv s -> owns (s_cc s) O ->
  (forall i s1 O1, In i idx -> inv s1 -> step O s s1 -> owns (s_cc s1) O1 -> incl O O1 ->
     wp al (f i) s1 (fun r s2 => step O1 s1 s2 /\ ires k l O1 s2 r /\
       (ex X -> forall path, vpath k l path -> dg s2 k r path = V i path))) ->
  wp al (mapM N f idx) s (fun es s' => step O s s' /\ length es = length idx /\ owns (s_cc s') (slots es ++ O) /\
    (forall e, In e es -> iedge s' true k l e) /\
    (ex X -> forall j path, (j < length idx)%nat -> vpath k l path -> dg s' k (nthe es j) path = V (nth j idx d) path)).
Proof.
  induction idx as [|i idx IH]; intros s O I Ow H; cbn [mapM].
  - apply wp_ret. split; [now apply step_refl|]. split; auto. split; auto. split; [intros e []|]. simpl. intros; lia.
  - apply wp_bind. eapply wp_mono; [apply (H i s O); auto; [now left|now apply step_refl|apply incl_refl]|].
    intros r s1 (S1 & R1 & V1). apply wp_bind. assert (I1: inv s1) by apply S1.
    assert (Inc: incl O (wslots (ew r) ++ O)) by apply incl_appr, incl_refl.
    eapply wp_mono; [apply (IH s1 (wslots (ew r) ++ O)); auto; [apply R1|]|].
    { intros j s2 O2 Hj I2 S2 Ow2 In2. apply H; auto; [now right| |eapply incl_tran; eauto].
      eapply step_trans; [exact S1|]. eapply step_weak; eauto. }
    intros es s2 (S2 & L2 & Ow2 & W2 & V2). apply wp_ret.
    split; [eapply step_trans; [exact S1|]; eapply step_weak; eauto|].
    split; [simpl; congruence|]. split; [|split].
    + eapply owns_perm; [|exact Ow2]. rewrite slots_cons, !app_assoc. apply Permutation_app_tail, Permutation_app_comm.
    + intros e [<-|He]; auto. eapply iedge_step; [exact S2|]. apply R1.
    + intros Ex [|j] path Hj Vp.
      * cbn [nthe nth]. erewrite iedge_dg; [|exact I1|exact S2|eapply ires_wok; eauto|apply R1|exact Vp]. now apply V1.
      * cbn [nthe nth]. apply V2; auto. simpl in Hj. lia.
Qed.

(** Combining the parts of a vector or matrix. *)
Lemma comb_sp {A} (d : A) k l (f : A -> M N edge) (V : A -> list nat -> C) idx s O : 0 <= l < s_nq s ->
  inv s -> owns (s_cc s) O -> length idx = arity k ->
  (forall i s1 O1, In i idx -> inv s1 -> step O s s1 -> owns (s_cc s1) O1 -> incl O O1 ->
     wp al0 (f i) s1 (fun r s2 => step O1 s1 s2 /\ ires k (l - 1) O1 s2 r /\
       (ex X -> forall path, vpath k (l - 1) path -> dg s2 k r path = V i path))) ->
  wp al0 (let* es := mapM N f idx in makeDDNode N g nb k l es true) s (fun r s' =>
    step O s s' /\ cres k l O s' r /\
    (ex X -> forall i path, (i < arity k)%nat -> vpath k (l - 1) path -> dg s' k r (i :: path) = V (nth i idx d) path)).
Proof.
  intros Hl I Ow Len H. apply wp_bind. eapply wp_mono; [apply (mapM_ires d al0 k (l - 1) f V idx s O I Ow H)|].
  intros es s1 (S1 & L1 & O1 & W1 & V1). assert (I1: inv s1) by apply S1.
  eapply wp_mono; [apply (makeDDNode_sp s1 k l es true O); auto; [congruence|]|].
  { rewrite (stp_nq _ _ _ S1). auto. }
  intros r s2 P. split; [eapply step_trans; [exact S1|apply P]|]. split; [eapply cres_mk; eauto; lia|].
  intros Ex i path Hi Vp. destruct P as (_ & _ & _ & P). destruct (P Ex) as [_ P2]. rewrite P2, V1 by (auto; lia). reflexivity.
Qed.

Lemma cres_ires k l O s r : cres k l O s r -> ires k l O s r.
Proof. intros R. split; [eapply cres_iedge; eauto|apply R]. Qed.

Lemma term_sp k s O v : inv s -> owns (s_cc s) O ->
  wp al0 (let* w := getCached g v in ret (Ed PTerm w)) s (fun r s' => step O s s' /\ ires k (-1) O s' r /\
    (ex X -> forall path, vpath k (-1) path -> dg s' k r path = Cv2 v)).
Proof.
  intros I Ow. destruct (getCached_sp s v O I Ow) as (a & b & s1 & E & O1 & S1 & V1).
  eapply wp_bind_ok; [exact E|]. apply wp_ret. split; auto. split.
  - split; [constructor; simpl; eauto|exact O1].
  - intros Ex path V. apply vpath_m1 in V. subst path. unfold Inv.dg, Inv.Cv. cbn [ew ep]. rewrite V1. simpl. unfold Inv.dn. simpl. ring.
Qed.

Lemma vidx_lt path : (forall c, In c path -> (c < 2)%nat) -> (vidx path < 2 ^ length path)%nat.
Proof.
  induction path as [|c p IH]; intros H; cbn [vidx length Nat.pow]; [lia|].
  specialize (H c (or_introl eq_refl)) as Hc. assert (vidx p < 2 ^ length p)%nat by (apply IH; intros; apply H; now right). nia.
Qed.

Lemma nth_firstn_lt {A} (d : A) : forall n i l, (i < n)%nat -> nth i (firstn n l) d = nth i l d.
Proof. induction n as [|n IH]; intros i l H; [lia|]. destruct l as [|a l]; [now rewrite firstn_nil|]. destruct i as [|i]; auto. cbn [firstn nth]. apply IH. lia. Qed.
Lemma nth_skipn {A} (d : A) : forall n i l, nth i (skipn n l) d = nth (n + i) l d.
Proof. induction n as [|n IH]; intros i l; auto. destruct l as [|a l]; [rewrite skipn_nil; now destruct i|]. cbn [skipn plus nth]. apply IH. Qed.

Lemma fromVec_S l v s : fromVec N g nb (S (S l)) v s =
  (let* es := mapM N (fun v' => fromVec N g nb (S l) v') [firstn (Nat.div2 (length v)) v; skipn (Nat.div2 (length v)) v] in
   makeDDNode N g nb KV (Z.of_nat (S l)) es true) s.
Proof.
  change (fromVec N g nb (S (S l)) v s) with
   ((let* e0 := fromVec N g nb (S l) (firstn (Nat.div2 (length v)) v) in
     let* e1 := fromVec N g nb (S l) (skipn (Nat.div2 (length v)) v) in
     makeDDNode N g nb KV (Z.of_nat (S l)) [e0; e1] true) s).
  cbn [mapM]. unfold bind. destruct (fromVec N g nb (S l) (firstn _ v) s) as [e0 s0| |]; auto.
  destruct (fromVec N g nb (S l) (skipn _ v) s0) as [e1 s1| |]; auto.
Qed.

Lemma fromVec_1 a b s : fromVec N g nb 1 [a; b] s =
  (let* es := mapM N (fun v => let* w := getCached g v in ret (Ed PTerm w)) [a; b] in makeDDNode N g nb KV 0 es true) s.
Proof.
  cbn [fromVec mapM]. unfold bind, ret. destruct (getCached g a s) as [e0 s0| |]; auto.
  destruct (getCached g b s0) as [e1 s1| |]; auto.
Qed.

Lemma vpath_len k l path : -1 <= l -> vpath k l path -> length path = Z.to_nat (l + 1).
Proof. intros Hl [A B]. lia. Qed.

Lemma fromVec_sp : forall lv v s O, (length v = 2 ^ lv)%nat -> (1 <= lv)%nat -> Z.of_nat lv <= s_nq s -> inv s -> owns (s_cc s) O ->
  wp al0 (fromVec N g nb lv v) s (fun r s' => step O s s' /\ cres KV (Z.of_nat lv - 1) O s' r /\
    (ex X -> forall path, vpath KV (Z.of_nat lv - 1) path -> dg s' KV r path = Cv2 (nth (vidx path) v (n0, n0)))).
Proof.
  induction lv as [|lv IH]; intros v s O Len Hlv Hq I Ow; [lia|]. destruct lv as [|lv].
  - destruct v as [|a [|b [|c v]]]; try discriminate. eapply wp_eq; [apply fromVec_1|].
    eapply wp_mono; [apply (comb_sp (n0, n0) KV 0 (fun v => let* w := getCached g v in ret (Ed PTerm w)) (fun v _ => Cv2 v) [a; b] s O); auto; [lia|]|].
    { intros i s1 O1 Hi I1 S1 Ow1 _. apply (term_sp KV s1 O1 i I1 Ow1). }
    intros r s1 (S1 & R1 & V1). split; auto. split; auto. intros Ex path V. change (Z.of_nat 1 - 1) with 0 in V.
    apply vpath_inv in V; [|lia]. destruct V as (i & q & -> & Hi & V). rewrite V1 by auto. apply vpath_m1 in V. subst.
    cbn [vidx length Nat.pow]. now replace (i * 1 + 0)%nat with i by lia.
  - eapply wp_eq; [apply fromVec_S|]. set (h := Nat.div2 (length v)).
    assert (Eh: h = (2 ^ S lv)%nat). { unfold h. rewrite Len. change (2 ^ S (S lv))%nat with (2 * 2 ^ S lv)%nat. apply Nat.div2_double. }
    eapply wp_mono; [apply (comb_sp [] KV (Z.of_nat (S lv)) (fun v' => fromVec N g nb (S lv) v') (fun v' path => Cv2 (nth (vidx path) v' (n0, n0))) [firstn h v; skipn h v] s O); auto; [lia|]|].
    { intros v' s1 O1 Hi I1 S1 Ow1 _. assert (Lv': length v' = (2 ^ S lv)%nat).
      { change (2 ^ S (S lv))%nat with (2 * 2 ^ S lv)%nat in Len. destruct Hi as [<-|[<-|[]]]; [rewrite firstn_length|rewrite skipn_length]; lia. }
      replace (Z.of_nat (S lv) - 1) with (Z.of_nat (S lv) - 1) by lia.
      eapply wp_mono; [apply (IH v' s1 O1); auto; try lia|].
      - rewrite (stp_nq _ _ _ S1). lia.
      - intros r s2 (S2 & R2 & V2). split; auto. split; auto. now apply cres_ires. }
    intros r s1 (S1 & R1 & V1). replace (Z.of_nat (S (S lv)) - 1) with (Z.of_nat (S lv)) by lia. split; auto. split; auto.
    intros Ex path V. apply vpath_inv in V; [|lia]. destruct V as (i & q & -> & Hi & V). rewrite V1 by auto. f_equal.
    assert (Lq: length q = S lv) by (apply vpath_len in V; lia).
    assert (Bq: (vidx q < 2 ^ S lv)%nat). { rewrite <- Lq. apply vidx_lt. intros c Hc. destruct V as [_ V]. rewrite Forall_forall in V. exact (V c Hc). }
    cbn [vidx]. rewrite Lq. cbn [arity] in Hi. destruct i as [|[|i]]; [| |lia]; cbn [nth].
    + rewrite nth_firstn_lt by lia. f_equal; lia.
    + rewrite nth_skipn. f_equal; lia.
Qed.

Theorem makeStateFromVector_sp lv v s O : (length v = 2 ^ lv)%nat -> Z.of_nat lv <= s_nq s -> inv s -> owns (s_cc s) O ->
  wp al0 (makeStateFromVector N g nb v) s (fun r s' => owns (s_cc s') O /\ step O s s' /\ tedge (co s') KV (Z.of_nat lv - 1) r /\
    (ex X -> forall path, vpath KV (Z.of_nat lv - 1) path -> de (co s') KV r path = Cv2 (nth (vidx path) v (n0, n0)))).
Proof.
  intros Len Hq I Ow. destruct v as [|a [|b v]].
  - exfalso. simpl in Len. pose proof (Nat.pow_nonzero 2 lv). lia.
  - cbn [makeStateFromVector]. destruct lv as [|lv].
    2:{ exfalso. simpl in Len. pose proof (Nat.pow_nonzero 2 lv). lia. }
    apply wp_bind. eapply wp_mono; [apply (lookup_sp O s (fst a) (snd a) I)|]. intros w s1 (S1 & C1' & W1 & V1). apply wp_ret.
    rewrite C1'. split; auto. split; auto. split.
    + constructor; simpl; auto.
    + intros Ex path V. apply vpath_m1 in V. subst. unfold Inv.de. cbn [ew ep]. rewrite V1 by auto. unfold Inv.dn. destruct a. simpl. ring.
  - assert (Hlv: (1 <= lv)%nat). { destruct lv; [simpl in Len; lia|lia]. }
    unfold makeStateFromVector. rewrite Len, ispow2_pow, Nat.log2_pow2 by lia. cbn [negb].
    apply balanced_sp; auto. apply wp_bind. eapply wp_mono; [apply (fromVec_sp lv (a :: b :: v) s O); auto|].
    intros r s1 (S1 & R1 & V1). eapply wp_mono; [apply (finish_sp s1 O KV (Z.of_nat lv - 1) r); auto; apply S1|].
    intros e s2 (S2 & O2 & T2 & V2). split; auto. split; [eapply step_trans; eauto|]. split; auto.
    intros Ex path V. now rewrite V2, V1.
Qed.

(** *** Matrices *)
Lemma fromMat_S m l r0 c0 s : fromMat N g nb m (S l) r0 c0 s =
  (let* es := mapM N (fun rc => fromMat N g nb m l (fst rc) (snd rc))
      [(r0, c0); (r0, c0 + 2 ^ l); (r0 + 2 ^ l, c0); (r0 + 2 ^ l, c0 + 2 ^ l)]%nat in
   makeDDNode N g nb KM (Z.of_nat l) es true) s.
Proof.
  cbn [fromMat mapM fst snd]. unfold bind.
  repeat match goal with |- context[fromMat N g nb m l ?r ?c ?s] => destruct (fromMat N g nb m l r c s); auto end.
Qed.

Definition mentry (m : list (list (N * N))) (r c : nat) : N * N := nth c (nth r m []) (n0, n0).

Lemma fromMat_sp m sz : length m = sz -> (forall row, In row m -> length row = sz) ->
  forall lv r0 c0 s O, (r0 + 2 ^ lv <= sz)%nat -> (c0 + 2 ^ lv <= sz)%nat -> Z.of_nat lv <= s_nq s -> inv s -> owns (s_cc s) O ->
  wp al0 (fromMat N g nb m lv r0 c0) s (fun r s' => step O s s' /\ ires KM (Z.of_nat lv - 1) O s' r /\ ((1 <= lv)%nat -> cres KM (Z.of_nat lv - 1) O s' r) /\
    (ex X -> forall path, vpath KM (Z.of_nat lv - 1) path -> dg s' KM r path = Cv2 (mentry m (r0 + ridx path) (c0 + cidx path)))).
Proof.
  intros Lm Lr. induction lv as [|lv IH]; intros r0 c0 s O Hr Hc Hq I Ow.
  - cbn [fromMat]. simpl in Hr, Hc. destruct (nth_error m r0) as [row|] eqn:Er; [|apply nth_error_None in Er; lia].
    pose proof (nth_error_In _ _ Er) as Hin. apply Lr in Hin.
    destruct (nth_error row c0) as [v|] eqn:Ev; [|apply nth_error_None in Ev; lia].
    eapply wp_mono; [apply (term_sp KM s O v I Ow)|]. intros r s1 (S1 & R1 & V1). split; auto. split; auto. split; [lia|].
    intros Ex path V. rewrite V1 by auto. apply vpath_m1 in V. subst. unfold ridx, cidx, mentry. cbn [vidx map].
    rewrite !Nat.add_0_r, (nth_error_nth _ _ [] Er), (nth_error_nth _ _ (n0, n0) Ev). reflexivity.
  - eapply wp_eq; [apply fromMat_S|]. set (h := (2 ^ lv)%nat). cbn [Nat.pow] in Hr, Hc. fold h in Hr, Hc.
    eapply wp_mono; [apply (comb_sp (0%nat, 0%nat) KM (Z.of_nat lv) (fun rc => fromMat N g nb m lv (fst rc) (snd rc))
        (fun rc path => Cv2 (mentry m (fst rc + ridx path) (snd rc + cidx path)))
        [(r0, c0); (r0, c0 + h); (r0 + h, c0); (r0 + h, c0 + h)]%nat s O); auto; [lia|]|].
    { intros [r c] s1 O1 Hi I1 S1 Ow1 _. cbn [fst snd]. eapply wp_mono; [apply (IH r c s1 O1); auto|].
      - fold h. destruct Hi as [E|[E|[E|[E|[]]]]]; injection E as <- <-; lia.
      - fold h. destruct Hi as [E|[E|[E|[E|[]]]]]; injection E as <- <-; lia.
      - rewrite (stp_nq _ _ _ S1). lia.
      - intros e s2 (S2 & R2 & _ & V2). split; auto. }
    intros r s1 (S1 & R1 & V1). replace (Z.of_nat (S lv) - 1) with (Z.of_nat lv) by lia. split; auto. split; [now apply cres_ires|]. split; auto.
    intros Ex path V. apply vpath_inv in V; [|lia]. destruct V as (i & q & -> & Hi & V). rewrite V1 by auto. f_equal.
    assert (Lq: length q = lv) by (apply vpath_len in V; lia).
    unfold ridx, cidx. cbn [map vidx]. rewrite !map_length, Lq. fold h. cbn [arity] in Hi.
    destruct i as [|[|[|[|i]]]]; [| | | |lia]; cbn [nth fst snd]; f_equal; cbn; lia.
Qed.

Theorem makeDDFromMatrix_sp lv m s O : (length m = 2 ^ lv)%nat -> (forall row, In row m -> length row = length m) ->
  Z.of_nat lv <= s_nq s -> inv s -> owns (s_cc s) O ->
  wp al0 (makeDDFromMatrix N g nb m) s (fun r s' => owns (s_cc s') O /\ step O s s' /\ tedge (co s') KM (Z.of_nat lv - 1) r /\
    (ex X -> forall path, vpath KM (Z.of_nat lv - 1) path -> de (co s') KM r path = Cv2 (mentry m (ridx path) (cidx path)))).
Proof.
  intros Len Hr Hq I Ow. destruct m as [|row m].
  { exfalso. simpl in Len. pose proof (Nat.pow_nonzero 2 lv). lia. }
  unfold makeDDFromMatrix. rewrite (Hr row (or_introl eq_refl)), Nat.eqb_refl, Len, ispow2_pow, Nat.log2_pow2 by lia. cbn [negb].
  destruct m as [|row2 m].
  - destruct lv as [|lv]. 2:{ exfalso. simpl in Len. pose proof (Nat.pow_nonzero 2 lv). lia. }
    specialize (Hr row (or_introl eq_refl)). destruct row as [|a [|]]; try discriminate.
    apply wp_bind. eapply wp_mono; [apply (lookup_sp O s (fst a) (snd a) I)|]. intros w s1 (S1 & C1' & W1 & V1). apply wp_ret.
    rewrite C1'. split; auto. split; auto. split.
    + constructor; simpl; auto.
    + intros Ex path V. apply vpath_m1 in V. subst. unfold Inv.de. cbn [ew ep]. rewrite V1 by auto. rewrite <- surjective_pairing. change (mentry [[a]] (ridx []) (cidx [])) with a. change (dn (co s1) KM PTerm []) with C1. ring.
  - assert (Hlv: (1 <= lv)%nat). { destruct lv; [simpl in Len; lia|lia]. }
    set (mm := row :: row2 :: m) in *.
    apply balanced_sp; auto. apply wp_bind.
    eapply wp_mono; [apply (fromMat_sp mm (2 ^ lv) Len ltac:(intros; rewrite <- Len; auto) lv 0 0 s O); auto; lia|].
    intros r s1 (S1 & _ & R1 & V1). eapply wp_mono; [apply (finish_sp s1 O KM (Z.of_nat lv - 1) r); auto; apply S1|].
    intros e s2 (S2 & O2 & T2 & V2). split; auto. split; [eapply step_trans; eauto|]. split; auto.
    intros Ex path V. now rewrite V2, V1.
Qed.
End StateL.
