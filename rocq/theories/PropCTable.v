(** Properties C01-C05: the table of real numbers. *)
From Coq Require Import ZArith List Bool Lia Arith Reals Lra SpecFloat.
From Verif Require Import Num Base CTable CTableWf CTableR CTableHist CTableProps.
Import ListNotations.
Local Open Scope Z_scope.

(** The default template parameters and the default tolerance 2^-42 meet the
    hypotheses of all theorems below. *)
Example default_config_ok :
  cfgok ct_default /\ (0 <= / 2 ^ 42)%R /\ (2 * (/ 2 ^ 42) * IZR (ct_mask ct_default) < 1)%R.
Proof.
  split; [apply ct_default_ok|]. change (ct_mask ct_default) with 65536.
  assert (0 < 2 ^ 42)%R by (apply pow_lt; lra).
  split. left. now apply Rinv_0_lt_compat.
  apply (Rmult_lt_reg_r (2 ^ 42)); auto.
  replace (2 * / 2 ^ 42 * 65536 * 2 ^ 42)%R with (2 * 65536)%R by (field; lra).
  simpl. lra.
Qed.

(** A reachable table with two entries besides the constants, one of them referenced:
    the shape of state the theorems quantify over. *)
Example reachable_nontrivial :
  exists c : ctab (NumR (/ 2 ^ 42)), ctreach ct_default c /\
    exists a, ctlive c a /\ (Rabs (ct_value c a - 1/3) <= / 2 ^ 42)%R /\ ce_rc (ct_heap c a) <> 0.
Proof.
  destruct default_config_ok as (H1 & H2 & H3).
  assert (T: (/ 2 ^ 42 < 1 / 100)%R).
  { apply (Rmult_lt_reg_r (2 ^ 42)). apply pow_lt; lra. rewrite Rinv_l by (apply pow_nonzero; lra). simpl. lra. }
  destruct (within_tolerance ct_default H1 _ H2 H3 (ct_init ct_default) (1/3) (re_init _))
    as (a & c & E & A & B); [lra|].
  assert (R: ctreach ct_default c) by (eapply re_step; [apply re_init|econstructor; exact E]).
  assert (X: exists n, a = ATab n).
  { destruct a as [| | |n|]; eauto; exfalso; unfold valueof in B.
    - rewrite Rminus_0_l, Rabs_Ropp, Rabs_right in B; lra.
    - assert (Q: (14/10 <= sqrt 2)%R).
      { rewrite <- (sqrt_square (14/10)) by lra. apply sqrt_le_1_alt. lra. }
      rewrite Rabs_right in B; lra.
    - rewrite Rabs_right in B; lra.
    - destruct A. }
  destruct X as (n & ->).
  exists (ct_incRef c (EP false (ATab n))). split.
  - eapply re_step; [exact R|apply st_inc; exact A].
  - exists n. split; [exact A|]. split.
    + change (ct_value (ct_incRef c (EP false (ATab n))) n) with (V (/ 2 ^ 42) (ct_incRef c (EP false (ATab n))) n).
      rewrite V_incRef. exact B.
    + change (ct_heap (ct_incRef c (EP false (ATab n))))
        with (upd (ct_heap c) n (CE (ct_value c n) (rc_inc (ce_rc (ct_heap c n))))).
      rewrite upd_eq. cbn [ce_rc]. unfold rc_inc.
      pose proof (wf_rc _ _ (ctreach_wf _ _ H1 R) n). 
      match goal with |- (if ?b then _ else _) <> 0 => destruct b eqn:Q end.
      * apply Z.eqb_eq in Q. rewrite Q. unfold RCMAX; lia.
      * lia.
Qed.

(** C01 *)
Theorem C01_lookup_within_tolerance :
  forall cf tol (c : ctab (NumR tol)) v,
  cfgok cf -> (0 <= tol)%R -> (2 * tol * IZR (ct_mask cf) < 1)%R ->
  ctreach cf c -> (0 <= v)%R ->
  exists a c', ct_lookup cf c v = inl (a, c') /\ alive c' a /\
    (Rabs (valueof tol c' a - v) <= tol)%R.
Proof. intros; now apply within_tolerance. Qed.
Print Assumptions C01_lookup_within_tolerance.

(** C02 *)
Theorem C02_no_duplicates :
  forall cf tol (c : ctab (NumR tol)),
  cfgok cf -> (0 <= tol)%R -> (2 * tol * IZR (ct_mask cf) < 1)%R ->
  ctreach cf c ->
  (forall a b, ctlive c a -> ctlive c b -> a <> b ->
     (tol < Rabs (ct_value c a - ct_value c b))%R) /\
  (forall a, ctlive c a -> (tol < Rabs (ct_value c a - 0))%R /\
     (tol < Rabs (ct_value c a - 1))%R /\ (tol < Rabs (ct_value c a - sqrt 2 / 2))%R) /\
  (forall v a c', ct_lookup cf c v = inl (a, c') ->
     (exists b, alive c b /\ (Rabs (valueof tol c b - v) <= tol)%R) ->
     forall n, ctlive c' n <-> ctlive c n).
Proof. intros; now apply no_duplicates. Qed.
Print Assumptions C02_no_duplicates.

(** The restriction on the tolerance in C02 is needed: with the doubles and tolerance
    1/64 (settable through ComplexNumbers::setTolerance) looking up 0.25 and
    0.25 + 1/128 creates two entries within tolerance of each other. *)
Definition Ftol64 : spec_float := binary_normalize 53 1024 1 (-6) false.
Definition Fquarter : spec_float := binary_normalize 53 1024 1 (-2) false.
Definition Fquarter' : spec_float := binary_normalize 53 1024 33 (-7) false.

Definition C02_witness : ctab (NumFt Ftol64) :=
  ct_lookup_st (N:=NumFt Ftol64) ct_default (ct_lookup_st (N:=NumFt Ftol64) ct_default (ct_init ct_default) Fquarter) Fquarter'.

Theorem C02_large_tolerance_refuted :
  exists (t : spec_float) (c : ctab (NumFt t)) a b,
    ctreach ct_default c /\ ctlive c a /\ ctlive c b /\ a <> b /\
    approx_eq (N := NumFt t) (ct_value c a) (ct_value c b) = true.
Proof.
  exists Ftol64, C02_witness, 1%nat, 2%nat. split; [|split; [|split; [|split]]].
  - apply ct_lookup_st_reach, ct_lookup_st_reach, re_init.
  - exists 16384. vm_compute. auto.
  - exists 16896. vm_compute. auto.
  - discriminate.
  - vm_compute. reflexivity.
Qed.
Print Assumptions C02_large_tolerance_refuted.

(** C03 *)
Theorem C03_lookups_stable :
  forall cf tol (c : ctab (NumR tol)),
  cfgok cf -> (0 <= tol)%R -> (2 * tol * IZR (ct_mask cf) < 1)%R ->
  ctreach cf c ->
  (forall n, ctlive c n ->
     exists c', ct_lookup cf c (ct_value c n) = inl (ATab n, c') /\ ct_count c' = ct_count c) /\
  (forall v a c', ct_lookup cf c v = inl (a, c') ->
     exists c'', ct_lookup cf c' v = inl (a, c'') /\ ct_count c'' = ct_count c').
Proof. intros; now apply stable. Qed.
Print Assumptions C03_lookups_stable.

(** C04, for every number system including the doubles: a collection that runs keeps
    exactly the referenced entries, and the reported count is the number of entries. *)
Theorem C04_collection_exact :
  forall (N : num) cf (c : ctab N) f n c',
  cfgok cf -> ctreach cf c -> ct_gc cf f c = (n, c') ->
  (ct_gcruns c' <> ct_gcruns c ->
   (forall a, ctlive c' a <-> ctlive c a /\ ce_rc (ct_heap c a) <> 0) /\
   (forall a, ct_heap c' a = ct_heap c a) /\
   n = ct_count c - ct_count c' /\
   (exists l, NoDup l /\ (forall a, In a l <-> ctlive c' a) /\ ct_count c' = Z.of_nat (length l))) /\
  (ct_gcruns c' = ct_gcruns c ->
   n = 0 /\ (forall a, ctlive c' a <-> ctlive c a) /\ (forall a, ct_heap c' a = ct_heap c a)).
Proof. intros; split; intros; [eapply gc_exact|eapply gc_not_run]; eauto. Qed.
Print Assumptions C04_collection_exact.

(** C04, second half: every referenced entry is still found by a later lookup. *)
Theorem C04_survivors_found :
  forall cf tol (c : ctab (NumR tol)) f n c' a,
  cfgok cf -> (0 <= tol)%R -> (2 * tol * IZR (ct_mask cf) < 1)%R ->
  ctreach cf c -> ct_gc cf f c = (n, c') ->
  ctlive c a -> ce_rc (ct_heap c a) <> 0 ->
  exists c'', ct_lookup cf c' (ct_value c a) = inl (ATab a, c'').
Proof. intros; eapply found_after_gc; eauto. Qed.
Print Assumptions C04_survivors_found.

(** A table with 65 buckets, so that collections can be computed here. *)
Definition ct_small : ctcfg := CTcfg 65 2048 2 65536.

(** A forced collection does run as soon as there are two entries, and collects: on the
    doubles, after looking up 0.25 and 0.25 + 1/128 both are removed and the pinned 1/2
    stays. *)
Example C04_runs :
  let c0 := ct_init (N := NumF) ct_small in
  match ct_lookup (N:=NumF) ct_small c0 Fquarter with
  | inl (_, c1) =>
      match ct_lookup (N:=NumF) ct_small c1 Fquarter' with
      | inl (_, c2) => let '(n, c3) := ct_gc ct_small true c2 in
                       n = 2 /\ ct_count c3 = 1 /\ ct_gcruns c3 = 1
      | inr _ => False
      end
  | inr _ => False
  end.
Proof. vm_compute. auto. Qed.

(** The early exit of garbageCollect (ComplexTable.hpp:307: [count <= 1], "0 and 1 are
    always there") does not match what the table holds after [clear]: 1/2 is not
    re-inserted, so a single unreferenced entry survives even a forced collection. *)
Definition C04_witness : ctab NumF :=
  ct_lookup_st (N:=NumF) ct_small (ct_clear ct_small (ct_init ct_small)) Fquarter.

Theorem C04_forced_collection_runs_refuted :
  exists (c : ctab NumF) a, ctreach ct_small c /\ ctlive c a /\ ce_rc (ct_heap c a) = 0 /\
    ctlive (snd (ct_gc ct_small true c)) a.
Proof.
  exists C04_witness, 0%nat. split; [|split; [|split]].
  - apply ct_lookup_st_reach. eapply re_step; [apply re_init|apply st_clear].
  - exists 16. vm_compute. auto.
  - reflexivity.
  - exists 16. vm_compute. auto.
Qed.
Print Assumptions C04_forced_collection_runs_refuted.

(** C05, one counter: increments and decrements. *)
Theorem C05_counter_arithmetic :
  forall r, 0 <= r <= RCMAX ->
  (r < RCMAX - 1 -> rc_dec (rc_inc r) = Some r) /\
  (rc_inc r = RCMAX -> rc_dec (rc_inc r) = Some RCMAX) /\
  rc_inc RCMAX = RCMAX /\ rc_dec RCMAX = Some RCMAX /\
  rc_dec 0 = None /\ (0 < r -> rc_dec r <> None) /\
  r <= rc_inc r <= RCMAX.
Proof. exact rc_inc_dec. Qed.
Print Assumptions C05_counter_arithmetic.

(** C05, any sequence of changes: the counter stays in range, sticks at the maximum, and
    below the maximum is the exact number of increments minus decrements. *)
Theorem C05_counter_never_wraps :
  forall l r, 0 <= r <= RCMAX ->
  0 <= rc_run l r <= RCMAX /\
  rc_run l RCMAX = RCMAX /\
  ((forall l1 l2, l = l1 ++ l2 ->
     0 <= r + Z.of_nat (count_occ bool_dec l1 true) - Z.of_nat (count_occ bool_dec l1 false) < RCMAX) ->
   rc_run l r = r + Z.of_nat (count_occ bool_dec l true) - Z.of_nat (count_occ bool_dec l false)).
Proof.
  intros; split; [now apply rc_run_range|split; [apply rc_run_max|intros; apply rc_run_exact; auto; lia]].
Qed.
Print Assumptions C05_counter_never_wraps.

Example C05_example : rc_run [true; true; false; true; false; false] 5 = 5.
Proof. reflexivity. Qed.

(** C05: an entry whose counter reached the maximum is never collected nor changed by
    any call except clearing the whole table. *)
Theorem C05_saturated_forever :
  forall (N : num) cf (c : ctab N) o c' a,
  cfgok cf -> ctreach cf c -> ctlive c a -> ce_rc (ct_heap c a) = RCMAX ->
  ctstep cf c o c' -> o <> OClear ->
  ctlive c' a /\ ct_heap c' a = ct_heap c a.
Proof. intros; eapply pinned_forever; eauto using ctreach_wf. Qed.
Print Assumptions C05_saturated_forever.

(** A table whose pinned entry sits at the maximum (the state after 2^32 - 2 further
    increments) meets the invariant used by C05_saturated_forever, and a forced
    collection keeps the entry. *)
Example C05_saturated_example :
  let c := ct_init (N := NumF) ct_default in
  let c' := set_heap c (upd (ct_heap c) 0%nat (CE (ct_value c 0) RCMAX)) in
  ctwf ct_default c' /\ ctlive c' 0 /\ ce_rc (ct_heap c' 0%nat) = RCMAX.
Proof.
  cbv zeta. split; [|split].
  - apply set_rc_wf.
    + apply ct_init_wf, ct_default_ok.
    + vm_compute. lia.
    + unfold RCMAX; lia.
  - exists 32768. vm_compute. auto.
  - reflexivity.
Qed.
