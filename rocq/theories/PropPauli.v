(** The predefined gate matrices in terms of the Pauli operators (C32). *)
From Coq Require Import ZArith List Bool Lia Arith Reals Lra Permutation.
From Verif Require Import Num Base CTable CTableWf Cx State Pkg Control Gate Named Meas Inv InvL PrimL NormL MkL TrL AddL MulL CanonL IdentL StateL TraceL GateL GateAct GateAlg NamedL DelL MeasL SampL Run Inst PropBase PropSem PropRefute PropGate PropUnit.
Import ListNotations.
Local Open Scope Z_scope.

(** The Pauli operators are given by what they do to the bit that indexes rows and columns: X flips it, Z changes the
    sign of one of its values, Y flips it with the factor i or -i (Y = i X Z is part of the theorem). *)
Definition pI (i j : nat) : C := if Nat.eqb i j then C1 else C0.
Definition pX (i j : nat) : C := if Nat.eqb i (1 - j) then C1 else C0.
Definition pZ (i j : nat) : C := if Nat.eqb i j then (if Nat.eqb j 1 then (- (1), 0)%R else C1) else C0.
Definition mprod (d : nat) (A B : nat -> nat -> C) (i j : nat) : C := Csum (fun k => A i k * B k j)%C (seq 0 d).
Definition mplus (A B : nat -> nat -> C) (i j : nat) : C := (A i j + B i j)%C.
Definition mscal (a : C) (A : nat -> nat -> C) (i j : nat) : C := (a * A i j)%C.
Definition pY (i j : nat) : C := if Nat.eqb i (1 - j) then (if Nat.eqb j 1 then (0, - (1))%R else (0, 1)%R) else C0.
(** Tensor product: the first factor acts on the more significant bit. *)
Definition tens (A B : nat -> nat -> C) (i j : nat) : C := (A (i / 2)%nat (j / 2)%nat * B (i mod 2)%nat (j mod 2)%nat)%C.
(** exp (- i theta / 2 P) for an involution P. *)
Definition rot (P : nat -> nat -> C) (d : nat -> nat -> C) (theta : R) : nat -> nat -> C :=
  mplus (mscal (cos (theta / 2), 0)%R d) (mscal (0, - sin (theta / 2))%R P).
Definition meq (d : nat) (A B : nat -> nat -> C) : Prop := forall i j, (i < d)%nat -> (j < d)%nat -> A i j = B i j.
(** Projectors onto the values 0 and 1. *)
Definition pr0 (i j : nat) : C := match i, j with O, O => C1 | _, _ => C0 end.
Definition pr1 (i j : nat) : C := match i, j with S O, S O => C1 | _, _ => C0 end.
(** diag (1, exp (i beta)). *)
Definition ph (beta : R) : nat -> nat -> C := mplus pr0 (mscal (cos beta, sin beta) pr1).

Ltac punf := cbv [rot meq mplus mscal mprod tens ph pr0 pr1 pY pX pZ pI Nat.sub Nat.div Nat.divmod Nat.modulo fst snd]; gunf.

Lemma Cadd_0_l a : (C0 + a)%C = a.
Proof. ring. Qed.
Lemma Cadd_0_r a : (a + C0)%C = a.
Proof. ring. Qed.
Ltac csimp := change (IZR 0, IZR 0) with C0; change (IZR 1, IZR 0) with C1; rewrite ?Cmul_0_l, ?Cmul_0_r, ?Cmul_1_l, ?Cmul_1_r, ?Cadd_0_l, ?Cadd_0_r, ?Cmul_0_l, ?Cmul_0_r, ?Cadd_0_l, ?Cadd_0_r.

Theorem single_qubit_gates_pauli theta :
  meq 2 (at22 Imat) pI /\ meq 2 (at22 Xmat) pX /\ meq 2 (at22 Ymat) pY /\ meq 2 (at22 Zmat) pZ /\ meq 2 pY (mscal (0, 1)%R (mprod 2 pX pZ)) /\
  meq 2 (at22 Hmat) (mscal (/ sqrt 2, 0)%R (mplus pX pZ)) /\
  meq 2 (mprod 2 (at22 Smat) (at22 Smat)) pZ /\ meq 2 (mprod 2 (at22 Tmat) (at22 Tmat)) (at22 Smat) /\
  meq 2 (mprod 2 (at22 SXmat) (at22 SXmat)) pX /\ meq 2 (at22 Vmat) (rot pX pI (PI / 2)%R) /\
  meq 2 (at22 SXmat) (mscal (cos (PI / 4), sin (PI / 4)) (at22 Vmat)) /\
  meq 2 (at22 (RXmat TR theta)) (rot pX pI theta) /\ meq 2 (at22 (RYmat TR theta)) (rot pY pI theta) /\ meq 2 (at22 (RZmat TR theta)) (rot pZ pI theta) /\
  meq 2 (at22 (Phasemat TR theta)) (ph theta).
Proof.
  pose proof sq2_sq as Q. assert (Q0: sqrt 2 <> 0%R) by (apply Rgt_not_eq, sqrt_lt_R0; lra).
  assert (C4: cos (PI / 4) = (sqrt 2 / 2)%R) by (change (sqrt 2 / 2)%R with q2; rewrite <- cos_q2; f_equal; field).
  assert (S4: sin (PI / 4) = (sqrt 2 / 2)%R) by (change (sqrt 2 / 2)%R with q2; rewrite <- sin_q2; f_equal; field).
  assert (E4: (PI / 2 / 2 = PI / 4)%R) by field. assert (E2: (1 + 1 = 2)%R) by ring.
  assert (Q1: (/ sqrt 2 = sqrt 2 / 2)%R) by (apply (Rmult_eq_reg_r (sqrt 2)); [rewrite Rinv_l by exact Q0; unfold Rdiv; replace (sqrt 2 * / 2 * sqrt 2)%R with (sqrt 2 * sqrt 2 * / 2)%R by ring; rewrite Q; field|exact Q0]).
  repeat match goal with |- _ /\ _ => split end; intros i j Hi Hj; c2 i; c2 j; punf; rewrite ?E4, ?Q1, ?C4, ?S4, ?E2; csimp; cent; field [Q].
Qed.

Theorem two_qubit_gates_pauli theta beta :
  meq 4 (at44 CXmat) (mplus (tens pr0 pI) (tens pr1 pX)) /\
  meq 4 (at44 CZmat) (mplus (tens pr0 pI) (tens pr1 pZ)) /\
  meq 4 (at44 SWAPmat) (mscal (/ 2, 0)%R (mplus (mplus (tens pI pI) (tens pX pX)) (mplus (tens pY pY) (tens pZ pZ)))) /\
  meq 4 (at44 iSWAPmat) (mscal (/ 2, 0)%R (mplus (mplus (tens pI pI) (tens pZ pZ)) (mscal (0, 1)%R (mplus (tens pX pX) (tens pY pY))))) /\
  meq 4 (at44 ECRmat) (mscal (/ sqrt 2, 0)%R (mplus (tens pX pI) (mscal (- (1), 0)%R (tens pY pX)))) /\
  meq 4 (at44 DCXmat) (mprod 4 (mplus (tens pr0 pI) (tens pr1 pX)) (mplus (tens pI pr0) (tens pX pr1))) /\
  meq 4 (at44 (RXXmat TR theta)) (rot (tens pX pX) (tens pI pI) theta) /\
  meq 4 (at44 (RYYmat TR theta)) (rot (tens pY pY) (tens pI pI) theta) /\
  meq 4 (at44 (RZZmat TR theta)) (rot (tens pZ pZ) (tens pI pI) theta) /\
  meq 4 (at44 (RZXmat TR theta)) (rot (tens pZ pX) (tens pI pI) theta) /\
  meq 4 (at44 (XXPlusYYmat TR theta beta))
    (mplus (mscal (/ 2, 0)%R (mplus (tens pI pI) (tens pZ pZ)))
    (mplus (mscal (cos (theta / 2) / 2, 0)%R (mplus (tens pI pI) (mscal (- (1), 0)%R (tens pZ pZ))))
           (mscal (0, - sin (theta / 2) / 2)%R
              (mplus (mscal (cos beta, 0%R) (mplus (tens pX pX) (tens pY pY)))
                     (mscal (sin beta, 0%R) (mplus (tens pX pY) (mscal (- (1), 0)%R (tens pY pX)))))))) /\
  meq 4 (at44 (XXMinusYYmat TR theta beta))
    (mplus (mscal (/ 2, 0)%R (mplus (tens pI pI) (mscal (- (1), 0)%R (tens pZ pZ))))
    (mplus (mscal (cos (theta / 2) / 2, 0)%R (mplus (tens pI pI) (tens pZ pZ)))
           (mscal (0, - sin (theta / 2) / 2)%R
              (mplus (mscal (cos beta, 0%R) (mplus (tens pX pX) (mscal (- (1), 0)%R (tens pY pY))))
                     (mscal (- sin beta, 0)%R (mplus (tens pX pY) (tens pY pX))))))).
Proof.
  pose proof sq2_sq as Q. assert (Q0: sqrt 2 <> 0%R) by (apply Rgt_not_eq, sqrt_lt_R0; lra).
  assert (E2: (1 + 1 = 2)%R) by ring.
  assert (Q1: (/ sqrt 2 = sqrt 2 / 2)%R) by (apply (Rmult_eq_reg_r (sqrt 2)); [rewrite Rinv_l by exact Q0; unfold Rdiv; replace (sqrt 2 * / 2 * sqrt 2)%R with (sqrt 2 * sqrt 2 * / 2)%R by ring; rewrite Q; field|exact Q0]).
  repeat match goal with |- _ /\ _ => split end; intros i j Hi Hj; c4 i; c4 j; punf; rewrite ?Q1, ?E2; csimp; cent; field [Q].
Qed.

(** Swapping |01> and |10> is not what CX does; RXX is not RZZ. *)
Example pauli_example : at44 SWAPmat 1 2 = C1 /\ at44 CXmat 1 2 = C0 /\ tens pX pX 0 3 = C1 /\ tens pZ pZ 0 3 = C0.
Proof. repeat split; punf; csimp; cent; field. Qed.

Print Assumptions single_qubit_gates_pauli.
Print Assumptions two_qubit_gates_pauli.
