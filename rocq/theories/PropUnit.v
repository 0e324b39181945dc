(** The predefined gate matrices (C32). *)
From Coq Require Import ZArith List Bool Lia Arith Reals Lra Permutation.
From Verif Require Import Num Base CTable CTableWf Cx State Pkg Control Gate Named Meas Inv InvL PrimL NormL MkL TrL AddL MulL CanonL IdentL StateL TraceL GateL GateAct GateAlg NamedL DelL MeasL SampL Run Inst PropBase PropSem PropRefute PropGate.
Import ListNotations.
Local Open Scope Z_scope.

(** Sine, cosine and the fractions of pi of real numbers. *)
Definition TR : trig R0 := @Trig R0 cos sin (PI / 2)%R (PI / 4)%R.

(** * C32 *)

(** Entry in row [i], column [j] of a list of four numbers and of a list of rows. *)
Definition at22 (m : list (R0 * R0)) (i j : nat) : C := num_at m (2 * i + j).
Definition at44 (m : list (list (R0 * R0))) (i j : nat) : C := num_at (nth i m []) j.
Definition delta2 (i j : nat) : C := if Nat.eqb i j then C1 else C0.
(** The product with the adjoint is the identity, from both sides. *)
Definition unitary (d : nat) (U : nat -> nat -> C) : Prop :=
  forall i j, (i < d)%nat -> (j < d)%nat ->
    Csum (fun k => U i k * Cconj (U j k))%C (seq 0 d) = delta2 i j /\ Csum (fun k => Cconj (U k i) * U k j)%C (seq 0 d) = delta2 i j.
Definition adjoint (d : nat) (U W : nat -> nat -> C) : Prop :=
  forall i j, (i < d)%nat -> (j < d)%nat -> W i j = Cconj (U j i).

Ltac gunf := cbv [at22 at44 num_at delta2 Csum seq fold_right map nth Nat.add Nat.mul Nat.eqb
  Imat Hmat Xmat Ymat Zmat Smat Sdagmat Tmat Tdagmat SXmat SXdagmat Vmat Vdagmat U3mat U2mat Phasemat RXmat RYmat RZmat
  CXmat CZmat SWAPmat iSWAPmat iSWAPinvmat ECRmat DCXmat RXXmat RYYmat RZZmat RZXmat XXMinusYYmat XXPlusYYmat
  c_one c_mone c_zero c_i c_mi c_sq c_msq c_isq c_misq c_1pi c_1mi c_1pi2 c_1mi2 half2 tcos tsin tpi2 tpi4 TR
  T n0 n1 nadd nsub nmul ndiv nneg nhalf nsq2 NumR].
Ltac c2 x := destruct x as [|[|x]]; [| |lia].
Ltac c4 x := destruct x as [|[|[|[|x]]]]; [| | | |lia].
Ltac cent := apply C_eq; unfold C0, C1, Csub, Cmul, Cadd, Copp, Cconj; cbn [fst snd].
Lemma sq2_sq : (sqrt 2 * sqrt 2 = 2)%R.
Proof. apply sqrt_def. lra. Qed.

Theorem single_qubit_gates_unitary lambda phi theta :
  Forall (fun m => unitary 2 (at22 m))
    [Imat; Hmat; Xmat; Ymat; Zmat; Smat; Sdagmat; Tmat; Tdagmat; SXmat; SXdagmat; Vmat; Vdagmat;
     U3mat TR lambda phi theta; U2mat TR lambda phi; Phasemat TR lambda; RXmat TR lambda; RYmat TR lambda; RZmat TR lambda].
Proof.
  pose proof sq2_sq as Q. pose proof (cs1 lambda) as H1. pose proof (cs1 phi) as H2. pose proof (cs1 (theta / (1 + 1))) as H3. pose proof (cs1 (lambda / (1 + 1))) as H4.
  pose proof (cos_plus lambda phi) as H5. pose proof (sin_plus lambda phi) as H6.
  repeat (apply Forall_cons; [intros i j Hi Hj; c2 i; c2 j; split; gunf; cent; field [Q H1 H2 H3 H4 H5 H6]|]). apply Forall_nil.
Qed.

Theorem two_qubit_gates_unitary theta beta :
  Forall (fun m => unitary 4 (at44 m))
    [CXmat; CZmat; SWAPmat; iSWAPmat; iSWAPinvmat; ECRmat; DCXmat; RXXmat TR theta; RYYmat TR theta; RZZmat TR theta; RZXmat TR theta;
     XXMinusYYmat TR theta beta; XXPlusYYmat TR theta beta].
Proof.
  pose proof sq2_sq as Q. pose proof (cs1 beta) as H1. pose proof (cs1 (theta / (1 + 1))) as H2.
  repeat (apply Forall_cons; [intros i j Hi Hj; c4 i; c4 j; split; gunf; cent; field [Q H1 H2]|]). apply Forall_nil.
Qed.

(** The daggered matrices, and the rotations by the opposite angles, are the adjoints. *)
Theorem daggered_gates_are_adjoints lambda :
  Forall (fun p => adjoint 2 (at22 (fst p)) (at22 (snd p)))
    [(Smat, Sdagmat); (Tmat, Tdagmat); (SXmat, SXdagmat); (Vmat, Vdagmat); (Imat, Imat); (Hmat, Hmat); (Xmat, Xmat); (Ymat, Ymat); (Zmat, Zmat);
     (Phasemat TR lambda, Phasemat TR (- lambda)%R); (RXmat TR lambda, RXmat TR (- lambda)%R);
     (RYmat TR lambda, RYmat TR (- lambda)%R); (RZmat TR lambda, RZmat TR (- lambda)%R)].
Proof.
  assert (E: (- lambda / (1 + 1) = - (lambda / (1 + 1)))%R) by field.
  repeat (apply Forall_cons; [intros i j Hi Hj; c2 i; c2 j; cbn [fst snd]; gunf; rewrite ?E, ?cos_neg, ?sin_neg; cent; field|]). apply Forall_nil.
Qed.
Theorem two_qubit_adjoints theta beta :
  Forall (fun p => adjoint 4 (at44 (fst p)) (at44 (snd p)))
    [(iSWAPmat, iSWAPinvmat); (CXmat, CXmat); (CZmat, CZmat); (SWAPmat, SWAPmat); (ECRmat, ECRmat);
     (RXXmat TR theta, RXXmat TR (- theta)%R); (RYYmat TR theta, RYYmat TR (- theta)%R); (RZZmat TR theta, RZZmat TR (- theta)%R); (RZXmat TR theta, RZXmat TR (- theta)%R);
     (XXMinusYYmat TR theta beta, XXMinusYYmat TR (- theta)%R beta); (XXPlusYYmat TR theta beta, XXPlusYYmat TR (- theta)%R beta)].
Proof.
  assert (E: (- theta / (1 + 1) = - (theta / (1 + 1)))%R) by field.
  repeat (apply Forall_cons; [intros i j Hi Hj; c4 i; c4 j; cbn [fst snd]; gunf; rewrite ?E, ?cos_neg, ?sin_neg; cent; field|]). apply Forall_nil.
Qed.
(** Special cases of U3: U2, the phase gate and RY; two SX are one X. *)
Theorem gate_matrices_consistent lambda phi theta :
  U2mat TR lambda phi = U3mat TR lambda phi (PI / 2)%R /\ Phasemat TR lambda = U3mat TR lambda 0%R 0%R /\ RYmat TR theta = U3mat TR 0%R 0%R theta /\
  Zmat = Phasemat TR PI /\ Smat = Phasemat TR (PI / 2)%R /\ Tmat = Phasemat TR (PI / 4)%R.
Proof.
  assert (C4: cos (PI / 4) = (sqrt 2 / 2)%R) by (change (sqrt 2 / 2)%R with q2; rewrite <- cos_q2; f_equal; field).
  assert (S4: sin (PI / 4) = (sqrt 2 / 2)%R) by (change (sqrt 2 / 2)%R with q2; rewrite <- sin_q2; f_equal; field).
  assert (E: (PI / 2 / (1 + 1) = PI / 4)%R) by field. assert (E0: (0 / (1 + 1) = 0)%R) by field. assert (E1: (lambda + 0 = lambda)%R) by ring. assert (E2: (0 + 0 = 0)%R) by ring.
  repeat split; gunf; rewrite ?E, ?E0, ?E1, ?E2, ?C4, ?S4, ?cos_0, ?sin_0, ?cos_PI, ?sin_PI, ?cos_PI2, ?sin_PI2; try reflexivity; repeat (apply f_equal2; [apply f_equal2; field|]); reflexivity.
Qed.

Example unitary_example : unitary 2 (at22 (U3mat TR 1 2 3)%R) /\ unitary 4 (at44 (XXPlusYYmat TR 1 2)%R).
Proof.
  pose proof (single_qubit_gates_unitary 1%R 2%R 3%R) as A. pose proof (two_qubit_gates_unitary 1%R 2%R) as B. rewrite Forall_forall in A, B.
  split; [apply A|apply B]; cbn [In]; tauto.
Qed.
(** A matrix that is not unitary. *)
Example not_unitary : ~ unitary 2 (at22 [(1, 0); (1, 0); (0, 0); (1, 0)])%R.
Proof. intros H. destruct (H 0%nat 0%nat) as [A _]; try lia. revert A. gunf. unfold C0, C1, Cmul, Cadd, Cconj. cbn [fst snd]. intros [= A]. lra. Qed.

Print Assumptions single_qubit_gates_unitary.
Print Assumptions two_qubit_gates_unitary.
Print Assumptions daggered_gates_are_adjoints.
Print Assumptions two_qubit_adjoints.
Print Assumptions gate_matrices_consistent.
