(** Sampling and collapse. *)
From Coq Require Import ZArith List Bool Lia Arith Reals Lra Permutation.
From Verif Require Import Num Base CTable CTableWf Cx State Pkg Control Gate Meas Inv InvL PrimL NormL MkL TrL AddL MulL KronL CanonL IdentL StateL TraceL GateL GateAct DelL MeasL.
Import ListNotations.
Local Open Scope Z_scope.

(** ** Sampling from a vector of amplitudes *)

Definition b2n (b : bool) : nat := if b then 1%nat else 0%nat.
(** The digits drawn from the amplitudes [a] of [n] qubits with the random numbers [ts], top qubit
    first: a digit is 0 with the conditional probability of 0 given the digits drawn so far. *)
Fixpoint dsample (n : nat) (a : list nat -> C) (ts : list R) : list bool :=
  match n, ts with
  | S m, t :: r =>
      let b := if Rlt_dec t (nrm2 m (fun p => a (0%nat :: p)) / nrm2 (S m) a) then false else true in
      b :: dsample m (fun p => a (b2n b :: p)) r
  | _, _ => []
  end.
(** [v] is the basis vector with index [q]. *)
Definition delta (q p : list nat) : C := if list_eq_dec Nat.eq_dec p q then C1 else C0.

Lemma nrm2_S' n f : nrm2 (S n) f = (nrm2 n (fun p => f (0%nat :: p)) + nrm2 n (fun p => f (1%nat :: p)))%R.
Proof. apply nrm2_S. Qed.
Lemma bits_cons n i p : (i < 2)%nat -> In p (bits n) -> In (i :: p) (bits (S n)).
Proof. intros Hi Hp. cbn [bits]. apply in_or_app. destruct i as [|[|i]]; [left; now apply in_map|right; now apply in_map|lia]. Qed.
Lemma b2n_lt b : (b2n b < 2)%nat.
Proof. destruct b; cbn; lia. Qed.
Lemma dsample_ext n : forall a c ts, (forall p, In p (bits n) -> a p = c p) -> dsample n a ts = dsample n c ts.
Proof.
  induction n as [|n IH]; intros a c [|t ts] H; cbn [dsample]; auto.
  rewrite (nrm2_ext (S n) a c) by auto. rewrite (nrm2_ext n (fun p => a (0%nat :: p)) (fun p => c (0%nat :: p))) by (intros; apply H, bits_cons; auto).
  f_equal. apply IH. intros p Hp. apply H, bits_cons; auto. apply b2n_lt.
Qed.
Lemma dsample_scale n : forall a c z ts, z <> C0 -> (forall p, In p (bits n) -> a p = (z * c p)%C) -> dsample n a ts = dsample n c ts.
Proof.
  induction n as [|n IH]; intros a c z [|t ts] Hz H; cbn [dsample]; auto.
  rewrite (nrm2_scale (S n) z a c) by auto. rewrite (nrm2_scale n z (fun p => a (0%nat :: p)) (fun p => c (0%nat :: p))) by (intros; apply H, bits_cons; auto).
  assert (Z: (Cmag2 z <> 0)%R) by (intros E; apply Cmag2_zero in E; auto).
  assert (E: (Cmag2 z * nrm2 n (fun p => c (0%nat :: p)) / (Cmag2 z * nrm2 (S n) c) = nrm2 n (fun p => c (0%nat :: p)) / nrm2 (S n) c)%R).
  { destruct (Req_dec (nrm2 (S n) c) 0) as [E|E]; [rewrite E; unfold Rdiv; rewrite Rmult_0_r, Rinv_0; ring|field; auto]. }
  rewrite E. f_equal. apply (IH _ _ z); auto. intros p Hp. apply H, bits_cons; auto. apply b2n_lt.
Qed.
Lemma dsample_len n : forall a ts, (n <= length ts)%nat -> length (dsample n a ts) = n.
Proof. induction n as [|n IH]; intros a [|t ts] H; cbn [dsample length] in *; auto; [lia|]. now rewrite IH by lia. Qed.

(** A digit that is drawn has positive conditional probability. *)
Lemma draw_pos n a t : (0 <= t < 1)%R -> nrm2 (S n) a <> 0%R ->
  nrm2 n (fun p => a (b2n (if Rlt_dec t (nrm2 n (fun p => a (0%nat :: p)) / nrm2 (S n) a) then false else true) :: p)) <> 0%R.
Proof.
  intros Ht Nz. pose proof (nrm2_S' n a) as E. pose proof (nrm2_nonneg n (fun p => a (0%nat :: p))) as P0. pose proof (nrm2_nonneg n (fun p => a (1%nat :: p))) as P1.
  destruct (Rlt_dec _ _) as [L|L]; cbn [b2n]; intros Z.
  - rewrite Z in L. unfold Rdiv in L. rewrite Rmult_0_l in L. lra.
  - apply L. rewrite Z in E. rewrite Rplus_0_r in E. rewrite <- E. unfold Rdiv. rewrite Rinv_r by auto. apply Ht.
Qed.
(** What is drawn has a non-zero amplitude. *)
Theorem dsample_nz n : forall a ts, (n <= length ts)%nat -> Forall (fun t => (0 <= t < 1)%R) ts -> nrm2 n a <> 0%R -> a (map b2n (dsample n a ts)) <> C0.
Proof.
  induction n as [|n IH]; intros a ts L F Nz.
  - cbn [dsample map]. intros E. apply Nz. unfold nrm2. cbn. rewrite E, Cmag2_0. ring.
  - destruct ts as [|t ts]; [cbn in L; lia|]. inversion F; subst. cbn [dsample map]. apply (IH (fun p => a (_ :: p))); auto; [cbn in L; lia|]. now apply draw_pos.
Qed.

(** The random numbers that yield a given outcome form a box whose volume is the probability of
    the outcome. *)
Theorem dsample_box n : forall a bs, nrm2 n a <> 0%R -> length bs = n ->
  exists I : list (R * R), length I = n /\ Forall (fun i => (0 <= fst i <= snd i)%R /\ (snd i <= 1)%R) I /\
    fold_right Rmult 1%R (map (fun i => (snd i - fst i)%R) I) = (Cmag2 (a (map b2n bs)) / nrm2 n a)%R /\
    forall ts, length ts = n -> Forall (fun t => (0 <= t < 1)%R) ts ->
      (dsample n a ts = bs <-> Forall2 (fun t i => (fst i <= t < snd i)%R) ts I).
Proof.
  induction n as [|n IH]; intros a bs Nz L.
  - destruct bs; [|discriminate]. exists []. split; auto. split; auto. split.
    + cbn [map fold_right]. unfold nrm2 in *. cbn [bits map fold_right] in *. field. lra.
    + intros [|t ts] Lt _; [|discriminate]. cbn. split; auto.
  - destruct bs as [|b bs]; [discriminate|]. cbn [length] in L. injection L as L.
    set (q := (nrm2 n (fun p => a (0%nat :: p)) / nrm2 (S n) a)%R).
    pose proof (nrm2_S' n a) as E. pose proof (nrm2_nonneg n (fun p => a (0%nat :: p))) as P0. pose proof (nrm2_nonneg n (fun p => a (1%nat :: p))) as P1.
    pose proof (nrm2_nonneg (S n) a) as P. assert (Pp: (0 < nrm2 (S n) a)%R) by lra.
    assert (Q0: (0 <= q)%R) by (unfold q; apply Rmult_le_pos; [auto|left; now apply Rinv_0_lt_compat]).
    assert (Q1: (1 - q = nrm2 n (fun p => a (1%nat :: p)) / nrm2 (S n) a)%R) by (unfold q; apply (Rmult_eq_reg_r (nrm2 (S n) a)); [field_simplify; auto; lra|auto]).
    assert (Q2: (0 <= 1 - q)%R) by (rewrite Q1; apply Rmult_le_pos; [auto|left; now apply Rinv_0_lt_compat]).
    set (i0 := if b then (q, 1%R) else (0%R, q)).
    assert (I0: (0 <= fst i0 <= snd i0)%R /\ (snd i0 <= 1)%R) by (unfold i0; destruct b; cbn [fst snd]; lra).
    assert (Len: (snd i0 - fst i0 = nrm2 n (fun p => a (b2n b :: p)) / nrm2 (S n) a)%R) by (unfold i0; destruct b; cbn [fst snd b2n]; [exact Q1|fold q; ring]).
    assert (Hb: forall t, (0 <= t < 1)%R -> ((if Rlt_dec t q then false else true) = b <-> (fst i0 <= t < snd i0)%R)).
    { intros t Ht. unfold i0. destruct (Rlt_dec t q), b; cbn [fst snd]; split; intros ?; try discriminate; try lra; auto. }
    destruct (Req_dec (nrm2 n (fun p => a (b2n b :: p))) 0) as [Z|Z].
    + exists (i0 :: repeat (0%R, 0%R) n). split; [cbn [length]; now rewrite repeat_length|]. split.
      { constructor; auto. apply Forall_forall. intros x Hx. apply repeat_spec in Hx. subst x. cbn. lra. }
      split.
      * cbn [map fold_right]. rewrite Len, Z. assert (A: a (map b2n (b :: bs)) = C0).
        { assert (In (map b2n bs) (bits n)). { apply bits_all; [now rewrite map_length|]. apply Forall_map. apply Forall_forall. intros; apply b2n_lt. }
          cbn [map]. apply Cmag2_zero. pose proof (Cmag2_nonneg (a (b2n b :: map b2n bs))). apply Rle_antisym; auto. rewrite <- Z. unfold nrm2. revert H. generalize (bits n). clear. intros l. induction l as [|x l IH]; intros H; [destruct H|].
          cbn [map fold_right]. assert (P: (0 <= fold_right Rplus 0 (map (fun p => Cmag2 (a (b2n b :: p))) l))%R). { clear. induction l; cbn; [lra|]. pose proof (Cmag2_nonneg (a (b2n b :: a0))). lra. }
          pose proof (Cmag2_nonneg (a (b2n b :: x))). destruct H as [->|H]; [lra|]. specialize (IH H). lra. }
        cbn [map] in A. rewrite A, Cmag2_0. field. auto.
      * intros ts Lt F. destruct ts as [|t ts]; [discriminate|]. inversion F as [|? ? F1 F2]; subst. split.
        -- intros D. cbn [dsample] in D. injection D as Db D. exfalso. pose proof (draw_pos (length bs) a t F1 Nz) as Np. rewrite Db in Np. contradiction.
        -- intros F2'. inversion F2' as [|? ? ? ? A B]; subst. exfalso. assert (snd i0 - fst i0 = 0)%R by (rewrite Len, Z; unfold Rdiv; ring). lra.
    + destruct (IH (fun p => a (b2n b :: p)) bs Z L) as (I & LI & FI & VI & HI). exists (i0 :: I). split; [cbn [length]; lia|]. split; [constructor; auto|]. split.
      * cbn [map fold_right]. rewrite VI, Len. field. auto.
      * intros ts Lt F. destruct ts as [|t ts]; [discriminate|]. inversion F as [|? ? F1 F2]; subst. cbn [length] in Lt. injection Lt as Lt. cbn [dsample]. fold q. split.
        -- intros D. injection D as Db D. rewrite Db in D. constructor; [apply Hb; auto|]. apply HI; auto.
        -- intros F2'. inversion F2' as [|? ? ? ? A B]; subst. apply Hb in A; auto. rewrite A. f_equal. apply HI; auto.
Qed.
Section SampL.
Context {N : num} {g : cfg N} {nb : kind -> Z} {X : numx N (g_ct g)} (G : gok g).
Local Notation cf := (g_ct g).
Local Notation co := (co N).
Local Notation qn := (qn N).
Local Notation linked := (linked N).
Local Notation c_ut := (c_ut N).
Local Notation Cw := (Cw N g X).
Local Notation Cv := (Cv N g X).
Local Notation Cv2 := (Cv2 N g X).
Local Notation dn := (dn N g X).
Local Notation de := (de N g X).
Local Notation dg := (dg N g X).
Local Notation wtab := (wtab N g X).
Local Notation etn := (etn N).
Local Notation isnode := (isnode N).
Local Notation tedge := (tedge N g X).
Local Notation gedge := (gedge N g X).
Local Notation cinv := (cinv N g nb X).
Local Notation uinv := (uinv N g nb X).
Local Notation nodeok := (nodeok N g nb X).
Local Notation inv := (inv N g nb X).
Local Notation step := (step N g nb X).
Local Notation qext := (qext N).
Local Notation owns := (owns N).
Local Notation wok := (wok N g X).
Local Notation wp := (wp N).
Local Notation al0 := (al0 N g X).
Local Notation nnorm := (nnorm N g X).
Local Notation iedge := (iedge (g:=g) (X:=X)).
Local Notation trsp := (trsp (nb:=nb) (X:=X)).
Local Notation unok := (unok N g X).
Local Notation binok := (binok N g X).
Local Notation addok := (addok N g X).
Local Notation tinv := (tinv N g X).
Local Notation vres := (vres N g X).
Local Notation dv := (dv N g X).
Local Notation mkpost := (mkpost (nb:=nb) (X:=X)).
Local Notation mulCached_sp := (mulCached_sp (nb:=nb) (X:=X) G).
Local Notation addCached_sp := (addCached_sp (nb:=nb) (X:=X) G).
Local Notation getCached_sp := (getCached_sp (nb:=nb) (X:=X) G).
Local Notation makeDDNode_sp := (makeDDNode_sp (nb:=nb) (X:=X) G).
Local Notation lookupC_sp := (lookupC_sp (nb:=nb) (X:=X) G).
Local Notation tedge_gedge := (tedge_gedge (nb:=nb) (X:=X)).
Local Notation child_ok := (child_ok (nb:=nb) (X:=X)).
Local Notation dn_ext := (dn_ext (nb:=nb) (X:=X)).
Local Notation Cw_eq0 := (Cw_eq0 (nb:=nb) (X:=X)).
Local Notation addInsert_sp := (addInsert_sp (g:=g) (nb:=nb) (X:=X)).
Local Notation binInsert_sp := (binInsert_sp (g:=g) (nb:=nb) (X:=X)).
Local Notation unInsert_sp := (unInsert_sp (g:=g) (nb:=nb) (X:=X)).
Local Notation addLookup_sp := (addLookup_sp (g:=g) (nb:=nb) (X:=X)).
Local Notation binLookup_sp := (binLookup_sp (g:=g) (nb:=nb) (X:=X)).
Local Notation unLookup_sp := (unLookup_sp (g:=g) (nb:=nb) (X:=X)).
Local Notation cres := (cres (g:=g) (X:=X)).
Local Notation addsp := (addsp (g:=g) (nb:=nb) (X:=X)).
Local Notation rel_sp := (rel_sp (g:=g) (nb:=nb) (X:=X)).
Local Notation relif_sp := (relif_sp (g:=g) (nb:=nb) (X:=X)).
Local Notation mapM_cres := (mapM_cres (g:=g) (nb:=nb) (X:=X)).
Local Notation de_step := (de_step (g:=g) (nb:=nb) (X:=X)).
Local Notation dg_step := (dg_step (g:=g) (nb:=nb) (X:=X)).
Local Notation mulSelf_sp := (mulSelf_sp (g:=g) (nb:=nb) (X:=X)).
Local Notation finish_sp := (finish_sp (g:=g) (nb:=nb) (X:=X) G).
Local Notation add2F_sp := (add2F_sp (g:=g) (nb:=nb) (X:=X) G).
Implicit Types (s : st N).

Local Notation dn_nz := (dn_nz (g:=g) (nb:=nb) (X:=X)).
Local Notation idok := (idok N g X).
Local Notation makeDDNode_t := (makeDDNode_t (nb:=nb) (X:=X) G).
Local Notation mk_weight := (mk_weight (nb:=nb) (X:=X)).
Local Notation dn_unit := (dn_unit (g:=g) (nb:=nb) (X:=X)).
Local Notation nt := (node_or_term (N:=N)).

Lemma child_mass q n l i : ex X -> cinv q -> linked q KV n -> nv (qn q KV n) = l -> 0 <= l -> (i < 2)%nat ->
  nrm2 (Z.to_nat l) (fun p => dn q KV (PNode n) (i :: p)) = Cmag2 (Cw q (ew (nthe (ne (qn q KV n)) i))).
Proof.
  intros Ex I L Nv Hl Hi. set (e := nthe (ne (qn q KV n)) i). assert (T: tedge q KV (l - 1) e). { unfold e. rewrite <- Nv. apply child_ok; auto. }
  rewrite (nrm2_scale _ (Cw q (ew e)) _ (dn q KV (ep e))) by (intros; apply dn_cons).
  destruct (ceqb (ew e) Czero) eqn:Z.
  - apply ceqb_spec in Z. rewrite Z, Cw_zero, Cmag2_0 by auto. ring.
  - apply ceqb_false in Z. rewrite (dn_unit q Ex I _ (l - 1)); [ring|lia|now apply (tedge_nt (g:=g) (X:=X))].
Qed.

Section Ex.
Context (Ex : ex X).

Lemma off1_sp (eps x : N) : (0 <= toR X eps)%R -> toR X x = 1%R -> off1 N eps x = false.
Proof.
  intros He Hx. unfold off1. apply not_true_is_false. intros H. apply (x_ltb X Ex) in H. rewrite (x_abs X Ex), (x_sub X Ex), Hx, (x_1 X Ex), Rminus_eq_0, Rabs_R0 in H. lra.
Qed.

Lemma drawF_sp s (eps : N) : inv s -> (0 <= toR X eps)%R -> forall n cur ts, nt (co s) KV (Z.of_nat n - 1) (ep cur) -> (n <= length ts)%nat -> Forall (fun t => (0 <= toR X t < 1)%R) ts ->
  drawF N eps n cur ts s = Ok (dsample n (dn (co s) KV (ep cur)) (map (toR X) ts)) s.
Proof.
  intros I He. induction n as [|n IH]; intros cur ts Nt Lt F; [reflexivity|].
  destruct ts as [|t ts]; [cbn in Lt; lia|]. inversion F as [|? ? F1 F2]; subst.
  destruct Nt as [Nt|[E _]]; [|lia]. replace (Z.of_nat (S n) - 1) with (Z.of_nat n) in Nt by lia.
  destruct Nt as [A B]. destruct (ep cur) as [| |m] eqn:Em; [contradiction|contradiction|]. destruct A as [L Nv].
  pose proof (iv_c _ _ _ _ _ I) as Ic. cbn [drawF]. rewrite Em. unfold bind at 1, get. cbv beta iota.
  set (e0 := nthe (ne (nod s KV m)) 0). set (e1 := nthe (ne (nod s KV m)) 1).
  assert (T: forall i, (i < 2)%nat -> tedge (co s) KV (Z.of_nat n - 1) (nthe (ne (nod s KV m)) i)). { intros i Hi. rewrite <- Nv. apply (child_ok (co s) KV m i Ic L Hi). }
  assert (M: forall i, (i < 2)%nat -> nrm2 n (fun p => dn (co s) KV (PNode m) (i :: p)) = Cmag2 (Cw (co s) (ew (nthe (ne (nod s KV m)) i)))).
  { intros i Hi. pose proof (child_mass (co s) m (Z.of_nat n) i Ex Ic L Nv ltac:(lia) Hi) as C. rewrite Nat2Z.id in C. exact C. }
  assert (U: nrm2 (S n) (dn (co s) KV (PNode m)) = 1%R). { apply (dn_unit (co s) Ex Ic (S n) (Z.of_nat n)); [lia|]. left. split; auto. split; auto. }
  assert (P0: toR X (wmag2 s (ew e0)) = Cmag2 (Cw (co s) (ew e0))) by (apply (toR_w (g:=g) (X:=X) Ex); apply (T 0%nat); lia).
  assert (P1: toR X (wmag2 s (ew e1)) = Cmag2 (Cw (co s) (ew e1))) by (apply (toR_w (g:=g) (X:=X) Ex); apply (T 1%nat); lia).
  assert (Sm: toR X (nadd (wmag2 s (ew e0)) (wmag2 s (ew e1))) = 1%R). { rewrite (x_add X Ex), P0, P1. rewrite <- U, nrm2_S, !M by lia. reflexivity. }
  rewrite (off1_sp eps _ He Sm).
  set (q := (nrm2 n (fun p => dn (co s) KV (PNode m) (0%nat :: p)) / nrm2 (S n) (dn (co s) KV (PNode m)))%R).
  assert (Bq: negb (nltb t (ndiv (wmag2 s (ew e0)) (nadd (wmag2 s (ew e0)) (wmag2 s (ew e1))))) = if Rlt_dec (toR X t) q then false else true).
  { assert (Eq: toR X (ndiv (wmag2 s (ew e0)) (nadd (wmag2 s (ew e0)) (wmag2 s (ew e1)))) = q). { rewrite (x_div X Ex), Sm, P0. unfold q. rewrite U, (M 0%nat) by lia. reflexivity. }
    destruct (nltb _ _) eqn:Lb.
    - apply (x_ltb X Ex) in Lb. rewrite Eq in Lb. destruct (Rlt_dec _ _); auto; lra.
    - destruct (Rlt_dec _ _) as [Y|]; auto. rewrite <- Eq in Y. apply (x_ltb X Ex) in Y. congruence. }
  rewrite Bq. assert (Dp: nrm2 n (fun p => dn (co s) KV (PNode m) (b2n (if Rlt_dec (toR X t) q then false else true) :: p)) <> 0%R).
  { apply draw_pos; auto. rewrite U. apply R1_neq_R0. }
  cbn [map dsample]. fold q. set (b := if Rlt_dec (toR X t) q then false else true) in *.
  assert (Ec: (if b then e1 else e0) = nthe (ne (nod s KV m)) (b2n b)) by (destruct b; reflexivity). rewrite Ec.
  set (c := nthe (ne (nod s KV m)) (b2n b)) in *.
  assert (Wc: Cw (co s) (ew c) <> C0). { intros Z. apply Dp. rewrite M by apply b2n_lt. fold c. rewrite Z. apply Cmag2_0. }
  unfold bind. rewrite IH; [|apply (tedge_nt (g:=g) (X:=X)); [apply T, b2n_lt|intros Z; apply Wc; now rewrite Z, Cw_zero]|cbn in Lt; lia|auto].
  unfold ret. f_equal. f_equal. symmetry. apply (dsample_scale n _ _ (Cw (co s) (ew c))); auto.
Qed.

(** The outcome of measureAll. *)
Theorem measureAll_draw s (eps : N) l e ts : inv s -> (0 <= toR X eps)%R -> -1 <= l -> tedge (co s) KV l e -> ew e <> Czero ->
  (Z.to_nat (l + 1) <= length ts)%nat -> Forall (fun t => (0 <= toR X t < 1)%R) ts ->
  lvl s KV (ep e) = l /\ isnull (ep e) = false /\ wapx0 s (ew e) = false /\
  drawF N eps (Z.to_nat (l + 1)) e ts s = Ok (dsample (Z.to_nat (l + 1)) (de (co s) KV e) (map (toR X) ts)) s.
Proof.
  intros I He Hl T W Lt F. pose proof (tedge_nt (g:=g) (X:=X) _ _ _ _ T W) as Nt.
  assert (Wc: Cw (co s) (ew e) <> C0). { intros Z. apply W. apply (Cw_eq0 (co s)); [exact Ex|apply I|apply T|exact Z]. }
  split; [|split; [|split]].
  - destruct Nt as [Nt|[-> ->]]; [now apply (isnode_lvl' (N:=N))|reflexivity].
  - destruct Nt as [[A B]|[_ ->]]; auto. destruct (ep e); [contradiction|contradiction|auto].
  - apply not_true_is_false. intros Z. apply (x_wapx0 (X:=X)) in Z; auto. rewrite Cv_Cw in Z; auto. apply T.
  - rewrite drawF_sp; auto; [|replace (Z.of_nat (Z.to_nat (l + 1)) - 1) with l by lia; auto].
    f_equal. symmetry. apply (dsample_scale _ _ _ (Cw (co s) (ew e))); auto.
Qed.

(** A zero vector cannot be measured. *)
Theorem measureAll_zero s (eps : N) collapse ts : (toR X eps < 1)%R -> measureAll N g nb eps Ezero collapse ts s = Thr ERuntime s.
Proof.
  intros He. unfold measureAll, bind, get. cbn [ew Ezero].
  assert (Z: Cv s Czero = C0) by now apply Cv_zero.
  assert (A: wapx0 s Czero = true) by reflexivity.
  assert (B: off1 N eps (wmag2 s Czero) = true).
  { unfold off1. apply (x_ltb X Ex). rewrite (x_abs X Ex), (x_sub X Ex), (x_1 X Ex), x_wmag2, Z, Cmag2_0 by auto. unfold Rabs. destruct (Rcase_abs _); lra. }
  rewrite A, B. reflexivity.
Qed.
End Ex.

(** ** Collapse *)

Lemma basisF_sp (sts : list bstate) : forall (bs : list bool) (p : Z) s (O : list nat) (e : edge), 0 <= p -> p + Z.of_nat (length bs) <= s_nq s -> inv s -> owns (s_cc s) O -> bsinv (g:=g) (X:=X) sts p s e ->
  (forall i b, nth_error bs i = Some b -> nth (Z.to_nat p + i) sts BSzero = if b then BSone else BSzero) ->
  wp al0 (basisF N g nb p bs e) s (fun r s' => step O s s' /\ owns (s_cc s') O /\ bsinv (g:=g) (X:=X) sts (p + Z.of_nat (length bs)) s' r).
Proof.
  induction bs as [|b bs IH]; intros p s O e Hp Hn I Ow B H; cbn [basisF length].
  - apply wp_ret. split; [now apply step_refl|]. split; auto. now rewrite Z.add_0_r.
  - cbn [length] in Hn. apply wp_bind. eapply wp_mono; [apply (bs_plain (g:=g) (nb:=nb) (X:=X) G sts p s O e b); auto; [lia|]|].
    { specialize (H 0%nat b eq_refl). now rewrite Nat.add_0_r in H. }
    intros r s1 (S1 & O1 & B1). pose proof (stp_nq (g:=g) (nb:=nb) (X:=X) O _ _ S1) as Q1.
    eapply wp_mono; [apply (IH (p + 1) s1 O r); auto; [lia|lia|apply S1|]|].
    { intros i c Hi. specialize (H (S i) c Hi). replace (Z.to_nat (p + 1) + i)%nat with (Z.to_nat p + S i)%nat by lia. exact H. }
    intros r' s2 (S2 & O2 & B2). split; [eapply step_trans; eauto|]. split; auto. replace (p + Z.of_nat (S (length bs))) with (p + 1 + Z.of_nat (length bs)) by lia. exact B2.
Qed.

Lemma bsval_app sts b p : (length p <= length sts)%nat -> bsval (sts ++ [b]) p = bsval sts p.
Proof. induction p as [|i p IH]; cbn [bsval length]; intros H; auto. rewrite IH by lia. rewrite app_nth1 by lia. reflexivity. Qed.
Lemma bsval_delta : forall bs p, length p = length bs -> Forall (fun i => (i < 2)%nat) p -> bsval (bits_st (rev bs)) p = delta (map b2n bs) p.
Proof.
  induction bs as [|b bs IH]; intros [|i p] L F; cbn [length] in L; try lia; [reflexivity|]. inversion F as [|? ? F1 F2]; subst. injection L as L.
  cbn [bsval rev map]. unfold bits_st in *. rewrite map_app. cbn [map].
  assert (Lr: length (map (fun b0 : bool => if b0 then BSone else BSzero) (rev bs)) = length p) by (rewrite map_length, rev_length; lia).
  rewrite app_nth2 by lia. rewrite Lr, Nat.sub_diag. cbn [nth]. rewrite bsval_app by lia. rewrite IH by auto. unfold delta.
  destruct (list_eq_dec Nat.eq_dec p (map b2n bs)) as [->|Ne], (list_eq_dec Nat.eq_dec (i :: _) (b2n b :: map b2n bs)) as [E|E]; try congruence.
  - injection E as ->. destruct b; cbn; ring.
  - destruct b; cbn [b2n] in E; assert (i = 0 \/ i = 1)%nat as [-> | ->] by lia; cbn; try congruence; ring.
  - ring.
Qed.

(** The projector as a gate leaves the projected vector. *)
Lemma proj_gate n idx b h a : 0 <= idx < n -> Z.of_nat (length a) = n -> Forall (fun i => (i < 2)%nat) a ->
  Csum (fun c => (gatem [] [idx] (fun ds => if Nat.eqb (nth 0 ds 0%nat) (if b : bool then 3 else 0) then C1 else C0) (mp a c) * h c)%C) (bits (length a)) = proj idx (b2n b) h a.
Proof.
  intros H La Fa. assert (T: tgok n [] [idx]). { split; [constructor; [intros []|constructor]|split; [intros t [<-|[]]; auto|intros c []]]. }
  rewrite (gate_act n [] [idx] _ h a T La Fa).
  cbn [csat forallb]. cbn [length bits map app Csum]. unfold digs. cbn [map mp nth setds]. unfold proj.
  pose proof (bitd a idx Fa) as Bd. assert (E: forall c, dig idx a = c -> setd idx c a = a).
  { intros c Ec. apply dig_ext; [apply setd_len|]. intros q Hq. rewrite setd_len in Hq. rewrite dig_setd by lia. destruct (Z.eqb_spec q idx); [now subst|auto]. }
  assert (dig idx a = 0 \/ dig idx a = 1)%nat as [D|D] by lia; rewrite D; destruct b; cbn [Nat.eqb Nat.mul Nat.add b2n]; rewrite ?(E _ D); ring.
Qed.

Lemma vpath_mp' l rs cs : vpath KV l rs -> vpath KV l cs -> vpath KM l (mp rs cs).
Proof.
  revert l cs. induction rs as [|r rs IH]; intros l [|c cs] V W.
  - destruct V as [V1 V2]. split; [exact V1|constructor].
  - destruct V, W. cbn [length] in *. lia.
  - destruct V, W. cbn [length] in *. lia.
  - apply vpath_cons in V. apply vpath_cons in W. destruct V as [V1 V2], W as [W1 W2]. cbn [mp]. apply vpath_cons. split; [simpl in *; lia|auto].
Qed.

Section Col.
Context (Ex : ex X).

Lemma projm_val b d : (d < 4)%nat -> Cv2 (nth d (projm N b) (n0, n0)) = if Nat.eqb d (if b then 3 else 0) then C1 else C0.
Proof.
  intros Hd. assert (A: Cv2 (n0, n0) = C0) by (unfold Inv.Cv2; cbn; now rewrite !(x_0 X Ex)). assert (B: Cv2 (n1, n0) = C1) by (unfold Inv.Cv2; cbn; now rewrite (x_0 X Ex), (x_1 X Ex)).
  destruct b, d as [|[|[|[|d]]]]; cbn [nth projm Nat.eqb]; auto; lia.
Qed.

Theorem projectTo_sp s O l e idx (b : bool) (nf : N) : inv s -> owns (s_cc s) O -> tedge (co s) KV l e -> ew e <> Czero -> 0 <= idx <= l -> l < s_nq s -> l < 128 ->
  toR X nf = nrm2 (Z.to_nat (l + 1)) (proj idx (b2n b) (de (co s) KV e)) -> toR X nf <> 0%R ->
  wp al0 (projectTo N g nb b nf e idx) s (fun r s' => step O s s' /\ owns (s_cc s') O /\ tedge (co s') KV l r /\
    forall p, vpath KV l p -> de (co s') KV r p = (RtoC (1 / sqrt (toR X nf)) * proj idx (b2n b) (de (co s) KV e) p)%C).
Proof.
  intros I Ow T W Hi Hn Hm En Nz. unfold projectTo. apply wp_bind. apply wp_get.
  assert (Lv: lvl s KV (ep e) = l). { destruct (tedge_nt (g:=g) (X:=X) _ _ _ _ T W) as [Nt|[-> ->]]; [now apply (isnode_lvl' (N:=N))|reflexivity]. }
  rewrite Lv. apply wp_bind.
  eapply wp_mono; [apply (makeGateDD_sp (g:=g) (nb:=nb) (X:=X) G (projm N b) (l + 1) [] idx s O); auto; try lia; [destruct b; reflexivity|split; [constructor|intros c []]]|].
  intros m s1 (S1 & O1 & T1 & V1). specialize (V1 Ex). replace (l + 1 - 1) with l in * by lia. pose proof (stp_nq (g:=g) (nb:=nb) (X:=X) O _ _ S1) as Q1.
  assert (Te1: tedge (co s1) KV l e) by (eapply tedge_ext; [apply S1|auto]).
  apply wp_bind. eapply wp_mono; [apply (multiply_sp (g:=g) (nb:=nb) (X:=X) G s1 O KV l m e); auto; [discriminate|lia|apply S1]|].
  intros r s2 (O2 & S2 & T2 & V2). specialize (V2 Ex). apply (mvsem_psem (g:=g) (X:=X)) in V2.
  assert (Vr: forall p, vpath KV l p -> de (co s2) KV r p = proj idx (b2n b) (de (co s) KV e) p).
  { intros p Vp. rewrite V2 by auto. destruct Vp as [Lp Fp]. rewrite <- (proj_gate (l + 1) idx b (de (co s) KV e) p) by (auto; lia). apply Csum_ext. intros c Hc.
    apply bits_In in Hc. destruct Hc as [Lc Fc]. assert (Vm: vpath KM l (mp p c)) by (apply vpath_mp'; split; auto; lia). rewrite V1 by auto.
    rewrite (de_step O s s1 KV l) by (auto; split; auto; lia). f_equal. destruct Vm as [Lm Fm]. apply gatem_ext; auto.
    - intros t [<-|[]]. lia.
    - intros ds Ld Fd. destruct ds as [|d ds]; [discriminate|]. inversion Fd; subst. cbn [nth]. now apply projm_val. }
  destruct (getTemp_sp (g:=g) G s2 O O2) as (p & q & c' & E & V & Oc & D & Hp & Hq & _).
  set (v := (nsqrt (ndiv n1 nf), n0 (n:=N))). set (s3 := set_cc s2 c'). set (s4 := setc p q v s3).
  assert (E4: getTempV g v s2 = Ok (cslot p q) s4). { unfold getTempV, bind. rewrite E. cbn [cr ci cslot]. rewrite !wr_slot. reflexivity. }
  eapply wp_bind_ok; [exact E4|].
  destruct (mulInto_sp (X:=X) s4 p q (ew r) (cslot p q)) as (v1 & E5 & V5). { eapply (wok_ci (X:=X) (co s2) O); [left; apply T2|exact Hp]. } { simpl; congruence. }
  eapply wp_bind_ok; [exact E5|]. set (s5 := setc p q v1 s4) in *.
  assert (I2: inv s2) by apply S2. assert (I3: inv s3) by now apply inv_cc.
  assert (S3: step O s2 s3) by (apply step_cc_any; auto).
  assert (S4: step O s2 s4) by (eapply step_trans; [exact S3|]; apply setc_step; auto).
  assert (S5: step O s2 s5) by (eapply step_trans; [exact S4|]; apply setc_step; auto; apply S4).
  apply wp_bind. eapply wp_mono; [apply (lookupC_sp O s5 (cslot p q)); apply S5|]. intros w s6 (S6 & C6 & W6 & V6). apply wp_ret.
  assert (S26: step O s2 s6) by (eapply step_trans; eauto).
  assert (P: (0 < toR X nf)%R) by (pose proof (nrm2_nonneg (Z.to_nat (l + 1)) (proj idx (b2n b) (de (co s) KV e))); lra).
  assert (Vw: Cw (co s6) w = (RtoC (1 / sqrt (toR X nf)) * Cw (co s2) (ew r))%C).
  { rewrite V6 by auto. unfold s5. rewrite setc_Cv by auto. rewrite V5 by auto. unfold s4 at 2. rewrite setc_Cv by auto.
    replace (Cv s4 (ew r)) with (Cw (co s2) (ew r)).
    - unfold v, Inv.Cv2. cbn [fst snd]. rewrite (x_sqrt X Ex), (x_div X Ex), (x_1 X Ex), (x_0 X Ex). rewrite sqrt_div by lra. rewrite sqrt_1. fold (RtoC (1 / sqrt (toR X nf))). ring.
    - rewrite <- Cv_Cw by (auto; apply T2). symmetry. apply (Cv_step (nb:=nb) (X:=X) s2 s4 O); auto. left. apply T2. }
  assert (Rn: RtoC (1 / sqrt (toR X nf)) <> C0). { intros Z. apply (f_equal fst) in Z. cbn in Z. assert (0 < 1 / sqrt (toR X nf))%R by (apply Rdiv_lt_0_compat; [lra|now apply sqrt_lt_R0]). lra. }
  split; [eapply step_trans; [exact S1|]; eapply step_trans; eauto|]. split; [rewrite C6; repeat apply owns_ccw; exact Oc|]. split.
  - assert (Wr: ew r <> Czero).
    { intros Z. apply Nz. rewrite En. apply nrm2_zero. intros p' Hp'. apply bits_In in Hp'. rewrite <- Vr by (split; [lia|apply Hp']). unfold Inv.de. rewrite Z, Cw_zero by auto. ring. }
    assert (Wc: Cw (co s2) (ew r) <> C0). { intros Z. apply Wr. apply (Cw_eq0 (co s2)); [exact Ex|apply I2|apply T2|exact Z]. }
    destruct (tedge_nt (g:=g) (X:=X) _ _ _ _ T2 Wr) as [[Nt Np]|[A _]]; [|lia].
    assert (T6: tedge (co s6) KV l r) by (eapply tedge_ext; [apply S26|auto]).
    constructor; cbn [ep ew]; auto; [apply T6| |].
    + intros Et. rewrite Et in Np. contradiction.
    + intros _ Zw. exfalso. rewrite Zw, Cw_zero in Vw by auto. symmetry in Vw. apply Cmul_integral in Vw. destruct Vw; contradiction.
  - intros p' Vp. rewrite <- Vr by auto. unfold Inv.de. cbn [ep ew]. rewrite Vw. replace (dn (co s6) KV (ep r) p') with (dn (co s2) KV (ep r) p'); [ring|].
    symmetry. eapply dn_ext; eauto; [apply I2|apply S26|apply T2].
Qed.
End Col.
End SampL.
