(** Inputs that do not fit: which ones are refused, which ones are not (C74). *)
From Coq Require Import ZArith List Bool Lia Arith Reals Lra SpecFloat.
From Verif Require Import Num Base CTable CTableWf Cx State Pkg Read Inv InvL PrimL NormL MkL TrL AddL ReadL StateL Inst GateAct Run PropBase PropSem PropState PropRefute PropPrint.
Import ListNotations.
Local Open Scope Z_scope.

(** The test on lengths, (length & (length - 1)) == 0 *)
Theorem power_of_two_test n : (0 < n)%nat -> (Nat.land n (n - 1) = 0%nat <-> exists k, n = (2 ^ k)%nat).
Proof.
  intros P. split.
  - intros E. apply ispow2_inv; auto. now apply Nat.eqb_eq.
  - intros [k ->]. apply Nat.eqb_eq. apply ispow2_pow.
Qed.
Lemma ispow2_false n : ~ (exists k, n = (2 ^ k)%nat) -> (0 < n)%nat -> ispow2 n = false.
Proof. intros H P. destruct (ispow2 n) eqn:E; auto. elim H. now apply ispow2_inv. Qed.

Section R.
Context (g : cfg R0) (nb : kind -> Z) (G : gok g).
Local Notation entry := (entry g G).
Local Notation reachedR := (reachedR g nb G).

Lemma reached_nq nq s V D : reachedR nq s V D -> 0 <= nq.
Proof. intros H. induction H; auto. Qed.

(** A list of at most 2^nq amplitudes is accepted if it is empty or its length is a power of two;
    otherwise the exception leaves the package as it was. *)
Theorem vectors_refused_partial nq s V D (v : list (R0 * R0)) : reachedR nq s V D -> (length v <= 2 ^ Z.to_nat nq)%nat ->
  ((v = [] \/ exists k, length v = (2 ^ k)%nat) -> exists r s', makeStateFromVector R0 g nb v s = Ok r s') /\
  (v <> [] -> ~ (exists k, length v = (2 ^ k)%nat) -> makeStateFromVector R0 g nb v s = Thr EInvalidArg s).
Proof.
  intros H L. destruct (reached_inv _ _ _ _ _ _ _ H) as (I & Ow & Q). split.
  - intros [->|[k Hk]]; [exists Eone, s; reflexivity|].
    destruct (vector_round_trip g nb G nq s V D k v H Hk) as (r & s' & E & _); [|eauto].
    rewrite Hk in L. apply Nat.pow_le_mono_r_iff in L; [|lia]. 
    pose proof (reached_nq _ _ _ _ H). lia.
  - intros Ne Np. destruct v as [|a [|b v]]; [contradiction|elim Np; now exists 0%nat|].
    unfold makeStateFromVector. rewrite ispow2_false by (auto; cbn [length]; lia). reflexivity.
Qed.
(** A matrix with rows of one length *)
Theorem matrices_refused_partial nq s V D (m : list (list (R0 * R0))) w : reachedR nq s V D -> (length m <= 2 ^ Z.to_nat nq)%nat -> (forall row, In row m -> length row = w) ->
  ((m = [] \/ w = length m /\ exists k, length m = (2 ^ k)%nat) -> exists r s', makeDDFromMatrix R0 g nb m s = Ok r s') /\
  (m <> [] -> ~ (w = length m /\ exists k, length m = (2 ^ k)%nat) -> makeDDFromMatrix R0 g nb m s = Thr EInvalidArg s).
Proof.
  intros H L Hw. split.
  - intros [->|[-> [k Hk]]]; [exists Eone, s; reflexivity|].
    destruct (matrix_round_trip g nb G nq s V D k m H Hk Hw) as (r & s' & E & _); [|eauto].
    rewrite Hk in L. apply Nat.pow_le_mono_r_iff in L; [|lia]. pose proof (reached_nq _ _ _ _ H). lia.
  - intros Ne Np. destruct m as [|row m]; [contradiction|]. unfold makeDDFromMatrix.
    destruct (ispow2 (length (row :: m))) eqn:E; cbn [negb]; [|reflexivity].
    apply ispow2_inv in E; [|cbn [length]; lia]. rewrite (Hw row (or_introl eq_refl)).
    destruct (Nat.eqb_spec (length (row :: m)) w) as [Q|Q]; cbn [negb]; [|reflexivity]. elim Np. auto.
Qed.
(** The expectation value of an operator that acts on another number of qubits is refused, before
    anything is computed. *)
Theorem expectation_refused_partial nq s V D l x l' y p q : reachedR nq s V D -> usr V D KM l x -> usr V D KV l' y -> 0 <= l -> 0 <= l' ->
  vpath KM l p -> entry s KM x p <> C0 -> vpath KV l' q -> entry s KV y q <> C0 ->
  l <> l' -> expectationValue R0 g nb x y s = Thr EInvalidArg s.
Proof.
  intros H Hx Hy Hl Hl' Vp Np Vq Nq Ne. unfold expectationValue.
  rewrite (usr_lvl g nb G nq s V D KM l x), (usr_lvl g nb G nq s V D KV l' y); auto; try (eapply (nonzero_nt g nb G nq s V D); eauto).
  destruct (Z.eqb_spec l l'); [contradiction|reflexivity].
Qed.
End R.

(** * Cases meeting the hypotheses *)
Example power_of_two_example : Nat.land 12 11 <> 0%nat /\ Nat.land 16 15 = 0%nat.
Proof. split; [discriminate|reflexivity]. Qed.
Lemma not_pow3 : ~ exists k, 3%nat = (2 ^ k)%nat.
Proof. intros [[|[|k]] E]; cbn in E; lia. Qed.
Example vectors_refused_example : exists s V s' r, reachedR gR nbdef GR 3 s V D0 /\
  makeStateFromVector R0 gR nbdef [C1; C0; Ci] s = Thr EInvalidArg s /\ makeStateFromVector R0 gR nbdef [C1; C0; Ci; C1] s = Ok r s'.
Proof.
  destruct reached0 as (s & V & H).
  destruct (vectors_refused_partial gR nbdef GR 3 s V D0 [C1; C0; Ci; C1] H) as [(r & s' & E) _]; [vm_compute; lia|right; now exists 2%nat|].
  exists s, V, s', r. split; [exact H|]. split; [|exact E]. apply (vectors_refused_partial gR nbdef GR 3 s V D0 [C1; C0; Ci] H); [vm_compute; lia|discriminate|exact not_pow3].
Qed.
(** Two rows of three entries *)
Example matrices_refused_example : exists s V, reachedR gR nbdef GR 3 s V D0 /\
  makeDDFromMatrix R0 gR nbdef [[C1; C0; Ci]; [C0; C1; C1]] s = Thr EInvalidArg s.
Proof.
  destruct reached0 as (s & V & H). exists s, V. split; [exact H|].
  apply (matrices_refused_partial gR nbdef GR 3 s V D0 [[C1; C0; Ci]; [C0; C1; C1]] 3 H); [vm_compute; lia|intros r [<-|[<-|[]]]; reflexivity|discriminate|intros [E _]; discriminate].
Qed.
(** A matrix on one qubit and a vector on two *)
Example expectation_refused_example : exists s V, reachedR gR nbdef GR 3 s V D0 /\ expectationValue R0 gR nbdef (var V 7) (var V 1) s = Thr EInvalidArg s.
Proof.
  destruct reached0 as (s & V & H). exists s, V. split; [exact H|].
  apply (expectation_refused_partial gR nbdef GR 3 s V D0 0 _ 1 _ [0]%nat [1; 0]%nat H (usr0_m V) (usr0_v V)); try lia; try vp.
  - vals. cval. intros A. injection A. intros. lra.
  - vals. cval. intros A. injection A. intros. lra.
Qed.

(** * Inputs that are not refused *)

(** Four amplitudes in a package for one qubit: the unique table is accessed out of range. *)
Theorem long_vector_refuted : exists v : list (NumF * NumF), length v = 4%nat /\ run NumF gF nbdef [IVec v] [] (pkg_init NumF gF 1) = Bad BadIndex.
Proof. exists [(f1, f0); (f1, f0); (f0, f0); (f0, f0)]. split; [reflexivity|]. apply watch_bad. vm_compute. reflexivity. Qed.
(** So is it by a Kronecker product of more qubits than the package has. *)
Theorem large_product_refuted : exists m : list (list (NumF * NumF)), length m = 2%nat /\ run NumF gF nbdef [IMat m; IKron KM 0 0] [] (pkg_init NumF gF 1) = Bad BadIndex.
Proof. exists (diag f1). split; [reflexivity|]. apply watch_bad. vm_compute. reflexivity. Qed.
(** Only the length of the first row is compared: a shorter row is read past its end, the last
    entry of a longer row is ignored. *)
Theorem ragged_matrix_refuted : exists m m' : list (list (NumF * NumF)),
  run NumF gF nbdef [IMat m] [] (pkg_init NumF gF 1) = Bad BadIndex /\
  length (nth 1 m' []) = 3%nat /\ exists V s, run NumF gF nbdef [IMat m'; IGetMat 0] [] (pkg_init NumF gF 1) = Ok (V, [OM (diag f1)]) s.
Proof.
  exists [[(f1, f0); (f0, f0)]; [(f0, f0)]], [[(f1, f0); (f0, f0)]; [(f0, f0); (f1, f0); (f2, f0)]].
  split; [apply watch_bad; vm_compute; reflexivity|]. split; [reflexivity|]. apply watch_outs. vm_compute. reflexivity.
Qed.
(** The expectation value in the zero vector on the right number of qubits is refused. *)
Theorem expectation_zero_refuted : exists m v, length m = 2%nat /\ length v = 2%nat /\
  watch 1 [IMat m; IVec v; IExp 0 1] = SeenThrow EInvalidArg.
Proof. exists (diag f1), [(f0, f0); (f0, f0)]. split; [reflexivity|]. split; [reflexivity|]. vm_compute. reflexivity. Qed.
(** Adding (1, 0) and (1, 2, 4, 0) is not refused. *)
Definition f4 : NumF := nadd f2 f2.
Theorem unequal_sum_refuted : exists v w, length v = 2%nat /\ length w = 4%nat /\
  match watch 2 [IVec v; IVec w; IAdd KV 0 1; IGetVec 2] with SeenOuts [OV u] => length u = 4%nat | _ => False end.
Proof. exists [(f1, f0); (f0, f0)], [(f1, f0); (f2, f0); (f4, f0); (f0, f0)]. split; [reflexivity|]. split; [reflexivity|]. vm_compute. reflexivity. Qed.
(** A state on qubit 1 alone: getVector and getValueByPath differ on the index 1. *)
Theorem state_above_refuted : exists n start,
  match (let* e := makeZeroState NumF gF nbdef n start in let* v := getVector NumF gF e in let* a := getValueV NumF gF e 1 in ret (nth 1 v (f1, f1), a)) (pkg_init NumF gF 2) with
  | Ok (a, b) _ => a = (f0, f0) /\ b = (f1, f0) | _ => False end.
Proof. exists 1, 1. vm_compute. split; reflexivity. Qed.

Print Assumptions power_of_two_test.
Print Assumptions vectors_refused_partial.
Print Assumptions matrices_refused_partial.
Print Assumptions expectation_refused_partial.
Print Assumptions long_vector_refuted.
Print Assumptions large_product_refuted.
Print Assumptions ragged_matrix_refuted.
Print Assumptions expectation_zero_refuted.
Print Assumptions unequal_sum_refuted.
Print Assumptions state_above_refuted.
