(** Comparison of edges (C77). *)
From Coq Require Import ZArith List Bool Lia Reals Lra SpecFloat.
From Verif Require Import Num Base CTable CTableWf CTableR CTableHist CTableProps PropCTable State Pkg Read Inv InvL PrimL PropBase.
Import ListNotations.
Local Open Scope Z_scope.

(** * C77 *)

(** Every edge equals itself, whatever its weight. *)
Theorem edge_equal_self (N : num) (s : st N) x : edge_eqb s x x = true.
Proof. unfold edge_eqb, wapx, eapx. now rewrite nptr_eqb_refl, !eptr_eqb_refl. Qed.

Section Tol.
Context (t : R) (T : (0 <= t)%R).
Implicit Types s : st (NumR t).

Lemma approx_iff (a b : NumR t) : approx_eq a b = true <-> (a = b \/ Rabs (a - b) <= t)%R.
Proof.
  unfold approx_eq. cbn. rewrite orb_true_iff, andb_true_iff, !Rleb_iff. split; (intros [H|H]; [left|now right]); [|split]; cbn in *; lra.
Qed.
Lemma eapx_iff s p q : eapx s p q = true <-> (Rabs (val s p - val s q) <= t)%R.
Proof.
  unfold eapx. rewrite orb_true_iff, eptr_eqb_spec, approx_iff. split; [|auto].
  intros [->|[->|H]]; auto; match goal with |- context [(?a - ?a)%R] => replace (a - a)%R with 0%R by ring end; now rewrite Rabs_R0.
Qed.
(** Two edges are equal if they lead to the same node and real and imaginary parts are at
    most the tolerance apart. *)
Theorem edge_equal_iff s x y : edge_eqb s x y = true <->
  ep x = ep y /\ (Rabs (val s (cr (ew x)) - val s (cr (ew y))) <= t /\ Rabs (val s (ci (ew x)) - val s (ci (ew y))) <= t)%R.
Proof. unfold edge_eqb, wapx. rewrite !andb_true_iff, nptr_eqb_spec, !eapx_iff. reflexivity. Qed.
(** The same for the operands kept in compute tables *)
Theorem operand_equal_iff (x y : vedge (NumR t)) : vedge_eqb x y = true <->
  vp x = vp y /\ (Rabs (fst (vw x) - fst (vw y)) <= t /\ Rabs (snd (vw x) - snd (vw y)) <= t)%R.
Proof.
  assert (A: forall a b : NumR t, approx_eq a b = true <-> (Rabs (a - b) <= t)%R).
  { intros a b. rewrite approx_iff. split; [|auto]. intros [->|H]; auto. replace (b - b)%R with 0%R by ring. now rewrite Rabs_R0. }
  unfold vedge_eqb, vapx. rewrite !andb_true_iff, nptr_eqb_spec, !A. reflexivity.
Qed.
(** The order of the edges does not matter. *)
Theorem edge_equal_sym s x y : edge_eqb s x y = edge_eqb s y x.
Proof.
  apply eq_true_iff_eq. rewrite !edge_equal_iff, (Rabs_minus_sym (val s (cr (ew x)))), (Rabs_minus_sym (val s (ci (ew x)))). intuition congruence.
Qed.
End Tol.

(** The same in doubles: the difference is rounded alike in both orders. *)
Lemma abs_round_aux sx sy mx ex lx : SFabs (binary_round_aux 53 1024 sx mx ex lx) = SFabs (binary_round_aux 53 1024 sy mx ex lx).
Proof.
  unfold binary_round_aux. destruct (shr_fexp 53 1024 mx ex lx) as [m' e']. destruct (shr_fexp 53 1024 _ e' loc_Exact) as [m'' e''].
  destruct (shr_m m'') as [|p|p]; [reflexivity| |reflexivity]. destruct (_ <=? _); reflexivity.
Qed.
Lemma abs_norm m e a b : SFabs (binary_normalize 53 1024 m e a) = SFabs (binary_normalize 53 1024 (- m) e b).
Proof.
  destruct m as [|p|p]; cbn [Z.opp binary_normalize]; [reflexivity| |]; unfold binary_round; destruct (shl_align p e _) as [mz ez]; apply abs_round_aux.
Qed.
Lemma abs_sub_sym x y : SFabs (SFsub 53 1024 x y) = SFabs (SFsub 53 1024 y x).
Proof.
  destruct x as [a|a| |a m e], y as [b|b| |b n f]; try destruct a; try destruct b; try reflexivity; cbn [SFsub]; rewrite Z.min_comm;
    rewrite abs_norm with (b := false);
    match goal with |- SFabs (binary_normalize _ _ ?u _ _) = SFabs (binary_normalize _ _ ?v _ _) => replace u with v by (cbn [cond_Zopp]; lia) end; try reflexivity;
    destruct (_ - _); reflexivity.
Qed.
Theorem edge_equal_sym_doubles tol (s : st (NumFt tol)) x y : edge_eqb s x y = edge_eqb s y x.
Proof.
  assert (A: forall a b : NumFt tol, approx_eq a b = approx_eq b a).
  { intros a b. unfold approx_eq. rewrite andb_comm. f_equal. cbn. now rewrite abs_sub_sym. }
  unfold edge_eqb, wapx, eapx. now rewrite nptr_eqb_sym, (eptr_eqb_sym (cr (ew x))), (eptr_eqb_sym (ci (ew x))), (A (val s (cr (ew x)))), (A (val s (ci (ew x)))).
Qed.

(** Weights that are entries of the table of numbers, reached in any way, or constants: here equal
    edges have the same node and weights of the same value, although there is a tolerance. *)
Section Stored.
Context (t : R) (T : (0 <= t)%R) (T4 : (t < 1 / 4)%R) (cf : ctcfg) (Hcf : cfgok cf) (Tm : (2 * t * IZR (ct_mask cf) < 1)%R).
Implicit Types s : st (NumR t).

Lemma sq2_range : (7 / 10 < sqrt 2 / 2 < 3 / 4)%R.
Proof.
  pose proof (sqrt_sqrt 2 ltac:(lra)). pose proof (sqrt_pos 2). split.
  - apply Rnot_le_lt. intros Q. assert (sqrt 2 * sqrt 2 <= 14/10 * (14/10))%R by (apply Rmult_le_compat; lra). lra.
  - apply Rnot_le_lt. intros Q. assert (3/2 * (3/2) <= sqrt 2 * sqrt 2)%R by (apply Rmult_le_compat; lra). lra.
Qed.
(** Magnitudes: none is negative, different ones are more than the tolerance apart, and all but zero
    are greater than the tolerance. *)
Lemma mags s a b : ctreach cf (s_ct s) -> alive (s_ct s) a -> alive (s_ct s) b ->
  (0 <= aval s a /\ 0 <= aval s b /\ (a = b \/ t < Rabs (aval s a - aval s b)) /\ (aval s a = 0 \/ t < aval s a))%R.
Proof.
  intros H A B. destruct (C02_no_duplicates cf t _ Hcf T Tm H) as (D & S & _). pose proof sq2_range as Q2.
  assert (P: forall n, ctlive (s_ct s) n -> (0 <= ct_value (s_ct s) n)%R).
  { intros n (k & L). apply (co_hash _ _ _ (proj2 (ctreach_ord cf Hcf t T Tm _ H))) in L. apply L. }
  assert (Aa: forall x : R, (0 <= x -> t < Rabs (x - 0) -> t < x)%R) by (intros x X; rewrite Rminus_0_r, Rabs_right; lra).
  destruct a as [| | |n|]; try contradiction; destruct b as [| | |m|]; try contradiction; cbn [aval alive] in *;
    [..|destruct (Nat.eq_dec n m) as [->|E]; [|pose proof (D n m A B E)]];
    change (@n0 (NumR t)) with 0%R in *; change (@n1 (NumR t)) with 1%R in *; change (@nsq2 (NumR t)) with (sqrt 2 / 2)%R in *;
    clear D; repeat match goal with L : ctlive _ ?n |- _ => pose proof (P n L); pose proof (S n L); pose proof (Aa _ (P n L) (proj1 (S n L))); clear L end;
    repeat split; try lra; try (left; lra); try (now left); try (right; lra);
    right; unfold Rabs in *; destruct (Rcase_abs _); repeat destruct (Rcase_abs _); lra.
Qed.
Lemma stored_same s p q : ctreach cf (s_ct s) -> alive (s_ct s) (ep_at p) -> alive (s_ct s) (ep_at q) ->
  (Rabs (val s p - val s q) <= t)%R -> val s p = val s q.
Proof.
  intros H A B L. destruct (mags s _ _ H A B) as (P1 & P2 & [E|F] & G1); destruct (mags s _ _ H B A) as (_ & _ & _ & G2);
    unfold val in *; destruct p as [np a], q as [nq b]; cbn [ep_neg ep_at] in *.
  - subst b. change (@nneg (NumR t)) with Ropp in *. destruct np, nq; auto; unfold Rabs in L; destruct (Rcase_abs _); lra.
  - change (@nneg (NumR t)) with Ropp in *. destruct np, nq; unfold Rabs in *; repeat destruct (Rcase_abs _); lra.
Qed.
(** The weight consists of such numbers. *)
Definition stored_weight s (w : complex) : Prop := alive (s_ct s) (ep_at (cr w)) /\ alive (s_ct s) (ep_at (ci w)).
Theorem stored_edges_equal s x y : ctreach cf (s_ct s) -> stored_weight s (ew x) -> stored_weight s (ew y) ->
  (edge_eqb s x y = true <-> ep x = ep y /\ cval s (ew x) = cval s (ew y)).
Proof.
  intros H [A1 A2] [B1 B2]. rewrite (edge_equal_iff t T). unfold cval. split.
  - intros (E & L1 & L2). split; auto. f_equal; now apply stored_same.
  - intros (E & [= -> ->]). split; auto. split; match goal with |- context [(?a - ?a)%R] => replace (a - a)%R with 0%R by ring end; now rewrite Rabs_R0.
Qed.
Theorem stored_edges_trans s x y z : ctreach cf (s_ct s) -> stored_weight s (ew x) -> stored_weight s (ew y) -> stored_weight s (ew z) ->
  edge_eqb s x y = true -> edge_eqb s y z = true -> edge_eqb s x z = true.
Proof. intros H X Y Z. rewrite !stored_edges_equal by auto. intuition congruence. Qed.
End Stored.

(** Without a tolerance the comparison is transitive: equal edges have the same node and weights
    of the same value. *)
Theorem edge_equal_trans_partial (s : st R0) x y z : edge_eqb s x y = true -> edge_eqb s y z = true -> edge_eqb s x z = true.
Proof.
  assert (Z: forall a b : R, (Rabs (a - b) <= 0)%R <-> a = b).
  { intros a b. split; [|intros ->; replace (b - b)%R with 0%R by ring; rewrite Rabs_R0; lra].
    intros H. destruct (Req_dec (a - b) 0) as [E|E]; [lra|]. pose proof (Rabs_pos_lt _ E). lra. }
  assert (T: (0 <= 0)%R) by lra. rewrite !(edge_equal_iff 0 T), !Z. intuition congruence.
Qed.

(** * Cases *)
(** Three temporaries *)
Definition three (N : num) (g : cfg N) (a b c : N * N) : st N := setc 4 5 c (setc 2 3 b (setc 0 1 a (pkg_init N g 1))).
Definition te (i : nat) : edge := Ed PTerm (cslot i (i + 1)).
(** 1 + 2i three times, in different places *)
Example edge_equal_example : let s := three R0 gR (1, 2)%R (1, 2)%R (1, 2)%R in
  te 0 <> te 2 /\ edge_eqb s (te 0) (te 2) = true /\ edge_eqb s (te 2) (te 4) = true.
Proof.
  cbv zeta. split; [discriminate|]. assert (T: (0 <= 0)%R) by lra. rewrite !(edge_equal_iff 0 T).
  assert (Q: forall a b : R, a = b -> (Rabs (a - b) <= 0)%R) by (intros a b ->; replace (b - b)%R with 0%R by ring; rewrite Rabs_R0; lra).
  repeat split; apply Q; reflexivity.
Qed.

(** With the default tolerance and a table holding about 1/3: 1/3 + 0i and 1/3 - 0i *)
Example stored_edges_example : exists (s : st (NumR (/ 2 ^ 42))) x y, ctreach ct_default (s_ct s) /\ stored_weight _ s (ew x) /\ stored_weight _ s (ew y) /\
  x <> y /\ (0 < fst (cval s (ew x)))%R /\ edge_eqb s x y = true.
Proof.
  destruct reachable_nontrivial as (c & R & n & L & V & _). destruct default_config_ok as (H1 & H2 & H3).
  assert (T: (/ 2 ^ 42 < 1 / 100)%R).
  { apply (Rmult_lt_reg_r (2 ^ 42)). apply pow_lt; lra. rewrite Rinv_l by (apply pow_nonzero; lra). simpl. lra. }
  pose (s := set_ct (pkg_init (NumR (/ 2 ^ 42)) (gdef _) 1) c).
  exists s, (Ed PTerm (CX (EP false (ATab n)) (EP false AZero))), (Ed PTerm (CX (EP false (ATab n)) (EP true AZero))).
  assert (A: stored_weight _ s (CX (EP false (ATab n)) (EP false AZero)) /\ stored_weight _ s (CX (EP false (ATab n)) (EP true AZero)))
    by (split; (split; [exact L|exact Logic.I])).
  destruct A as [A1 A2]. split; [exact R|]. split; [exact A1|]. split; [exact A2|]. split; [discriminate|]. split.
  - change (0 < ct_value c n)%R. unfold Rabs in V. destruct (Rcase_abs _); lra.
  - apply (stored_edges_equal (/ 2 ^ 42) H2 ltac:(lra) ct_default H1 H3); auto. split; [reflexivity|]. unfold cval. f_equal. cbn. lra.
Qed.

(** 1 and 1 + 2^-42 are equal in both orders, 1 and 1 + 2^-41 in none. *)
Example edge_equal_sym_example : let s := three NumF (gdef NumF) (F1, F0) (SFadd 53 1024 F1 Ftol, F0) (SFadd 53 1024 (SFadd 53 1024 F1 Ftol) Ftol, F0) in
  edge_eqb s (te 2) (te 0) = true /\ edge_eqb s (te 0) (te 2) = true /\ edge_eqb s (te 4) (te 0) = false /\ edge_eqb s (te 0) (te 4) = false.
Proof. vm_compute. repeat split. Qed.

(** In doubles the comparison is not transitive: 1, 1 + 2^-42 and 1 + 2^-41. *)
Definition f1t : NumF := SFadd 53 1024 F1 Ftol.
Definition f2t : NumF := SFadd 53 1024 f1t Ftol.
Theorem edge_equal_trans_refuted : exists (s : st NumF) x y z,
  edge_eqb s x y = true /\ edge_eqb s y z = true /\ edge_eqb s x z = false.
Proof. exists (three NumF (gdef NumF) (F1, F0) (f1t, F0) (f2t, F0)), (te 0), (te 2), (te 4). vm_compute. repeat split. Qed.
(** An operand whose weight is not a number does not equal itself; an edge with this weight
    does. *)
Theorem operand_equal_self_refuted : exists (s : st NumF) x, edge_eqb s x x = true /\
  vedge_eqb (mkve s (ep x) (ew x)) (mkve s (ep x) (ew x)) = false.
Proof. exists (three NumF (gdef NumF) (S754_nan, F0) (F0, F0) (F0, F0)), (te 0). vm_compute. split; reflexivity. Qed.

Print Assumptions edge_equal_self.
Print Assumptions edge_equal_iff.
Print Assumptions operand_equal_iff.
Print Assumptions edge_equal_sym.
Print Assumptions edge_equal_sym_doubles.
Print Assumptions stored_edges_equal.
Print Assumptions stored_edges_trans.
Print Assumptions edge_equal_trans_partial.
Print Assumptions edge_equal_trans_refuted.
Print Assumptions operand_equal_self_refuted.
