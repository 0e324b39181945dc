(** The named two-qubit gates (C33). *)
From Coq Require Import ZArith List Bool Lia Arith Reals Lra Permutation.
From Verif Require Import Num Base CTable CTableWf Cx State Pkg Control Gate Named Meas Inv InvL PrimL NormL MkL TrL AddL MulL CanonL IdentL StateL TraceL GateL GateAct GateAlg NamedL DelL MeasL SampL Run Inst PropBase PropSem PropRefute PropGate PropUnit.
Import ListNotations.
Local Open Scope Z_scope.

(** * C33 *)

(** The matrix the uncontrolled overload hands to makeTwoQubitGateDD (Package.hpp:629, 658, 675, 692,
    705, 719, 732, 745, 756, 766, 789).  The Peres gates have none; they map (a, b) to (a xor b, not b) and back. *)
Definition uncontrolled (w : ngate R0) : list (list (R0 * R0)) :=
  match w with
  | GSwap => SWAPmat
  | GPeres => [[c_zero; c_zero; c_zero; c_one]; [c_one; c_zero; c_zero; c_zero]; [c_zero; c_one; c_zero; c_zero]; [c_zero; c_zero; c_one; c_zero]]
  | GPeresdag => [[c_zero; c_one; c_zero; c_zero]; [c_zero; c_zero; c_one; c_zero]; [c_zero; c_zero; c_zero; c_one]; [c_one; c_zero; c_zero; c_zero]]
  | GiSwap => iSWAPmat
  | GiSwapinv => iSWAPinvmat
  | GDcx => DCXmat
  | GRzz theta => RZZmat TR theta
  | GRyy theta => RYYmat TR theta
  | GRxx theta => RXXmat TR theta
  | GRzx theta => RZXmat TR theta
  | GEcr => ECRmat
  | GXXmYY theta beta => XXMinusYYmat TR theta beta
  | GXXpYY theta beta => XXPlusYYmat TR theta beta
  end.

Section NamedP.
Context (g : cfg R0) (nb : kind -> Z) (G : gok g).
Local Notation X := (XR g G).
Local Notation reachedR := (reachedR g nb G).
Local Notation gives := (gives g nb G).

Lemma trigok_TR : trigok X TR.
Proof. intros _. repeat split; reflexivity. Qed.
Lemma named_mat w : named_m (X:=X) w = concat (uncontrolled w).
Proof.
  destruct w; cbn [named_m uncontrolled]; unfold swap_m, dcx_m, iswap_m, rzz_m, ryy_m, rxx_m, rzx_m, ecr_m, xxm_m, xxp_m, q2; gunf; cbn [concat app map];
    try reflexivity; mcalc; lists; centry; ring.
Qed.

(** Every named gate applies its uncontrolled matrix to the two targets, the first one in front, where all
    controls are satisfied and the identity elsewhere. *)
Theorem controlled_two_qubit_gates nq s V D w n cs t0 t1 : reachedR nq s V D ->
  0 <= t0 < n -> 0 <= t1 < n -> t0 <> t1 -> n <= nq -> n <= 128 -> ctl_dom n [t0; t1] cs ->
  exists r s', makeNamed R0 g nb TR w n (cs_of cs) t0 t1 0 s = Ok r s' /\
    gives nq V D s KM (n - 1) r s' (fun p => gate_entry cs [t0; t1]
      (fun x y => num_at (nth (2 * nth 0 x 0 + nth 1 x 0) (uncontrolled w) [])%nat (2 * nth 0 y 0 + nth 1 y 0)%nat) (rowd p) (cold p)).
Proof.
  intros H H0 H1 Ne Hn Hm Hc. pose proof (ctl_dom_ok _ _ _ Hc) as Ok. destruct (reached_inv _ _ _ _ _ _ _ H) as (I & Ow & Q).
  eapply gives_push; [exact H|apply (d_named (X:=X) nq D TR w n (cs_of cs) t0 t1); auto; apply trigok_TR|reflexivity|apply al0_1|].
  eapply wp_mono; [apply (named_gate_sp (g:=g) (nb:=nb) (X:=X) G TR trigok_TR n t0 t1 (cs_of cs) H0 H1 Ne Hm Ok w s []); auto; lia|].
  intros r s' (S' & O' & T' & V'). split; auto. intros p Vp. rewrite V' by (auto; exact Logic.I).
  assert (Tg: tgok n (cs_of cs) [t0; t1]).
  { split; [repeat constructor; cbn; [intros [->|[]]; congruence|tauto]|]. split; [intros x [<-|[<-|[]]]; lia|]. intros c Hi. apply cs_of_in in Hi. apply Hc in Hi. exact Hi. }
  rewrite (gatem_entry n (cs_of cs) cs); auto; [|apply control_set].
  unfold gate_entry. destruct (agree_off _ _ _); auto. destruct (forallb _ cs); auto. destruct (mp_rc (n - 1) p Vp) as (_ & Vr & Vc). cbn [map mp nth].
  pose proof (bitd _ t0 (proj2 Vc)) as B0. pose proof (bitd _ t1 (proj2 Vc)) as B1. pose proof (bitd _ t0 (proj2 Vr)) as B2. pose proof (bitd _ t1 (proj2 Vr)) as B3.
  generalize dependent (dig t0 (rowd p)). generalize dependent (dig t1 (rowd p)). generalize dependent (dig t0 (cold p)). generalize dependent (dig t1 (cold p)).
  intros y1 By y0 By0 x1 Bx x0 Bx0. rewrite named_mat. clear - By By0 Bx Bx0.
  assert (L: exists a b c d e f h i j k l m n o p q, uncontrolled w = [[a; b; c; d]; [e; f; h; i]; [j; k; l; m]; [n; o; p; q]]) by (destruct w; repeat eexists).
  destruct L as (? & ? & ? & ? & ? & ? & ? & ? & ? & ? & ? & ? & ? & ? & ? & ? & ->).
  c2 x0; c2 x1; c2 y0; c2 y1; reflexivity.
Qed.
End NamedP.

(** The two Peres gates are inverse to each other. *)
Theorem peres_gates_adjoint : unitary 4 (at44 (uncontrolled GPeres)) /\ adjoint 4 (at44 (uncontrolled GPeres)) (at44 (uncontrolled GPeresdag)).
Proof. split; intros i j Hi Hj; c4 i; c4 j; try split; cbn [uncontrolled]; gunf; cent; field. Qed.

(** RXX(1) on the qubits 2 and 0, controlled by a zero in qubit 1. *)
Example controlled_two_qubit_gates_example : exists s V r s', reachedR gR nbdef GR 3 s V D0 /\
  makeNamed R0 gR nbdef TR (@GRxx R0 1%R) 3 (cs_of [Ctl 1 false]) 2 0 0 s = Ok r s' /\
  entry gR GR s' KM r [1; 0; 1]%nat = (0, - sin (1 / (1 + 1)))%R /\ entry gR GR s' KM r [1; 3; 1]%nat = C0 /\ entry gR GR s' KM r [3; 3; 0]%nat = C1.
Proof.
  destruct reached0 as (s & V & H).
  destruct (controlled_two_qubit_gates gR nbdef GR 3 s V D0 (@GRxx R0 1%R) 3 [Ctl 1 false] 2 0 H) as (r & s' & E & _ & F & _); try lia.
  { split; [intros c [<-|[]]; cbn; split; [lia|intros [Q|[Q|[]]]; discriminate]|]. intros c d [<-|[]] [<-|[]] _; auto. }
  exists s, V, r, s'. split; auto. split; auto. repeat split; rewrite F by vp; reflexivity.
Qed.

Print Assumptions controlled_two_qubit_gates.
Print Assumptions peres_gates_adjoint.
