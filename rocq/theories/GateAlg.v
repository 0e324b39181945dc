(** Products of small matrices: the decompositions of the controlled two-qubit gates (mathematics). *)
From Coq Require Import List Reals Lra Arith Lia.
From Verif Require Import Cx.
Import ListNotations.
Local Open Scope R_scope.

(** Matrices with the entries row by row: product of 2x2 and of 4x4 matrices, Kronecker product. *)
Definition at4 (l : list C) (i : nat) : C := nth i l C0.
Definition mul2 (l r : list C) : list C :=
  [at4 l 0 * at4 r 0 + at4 l 1 * at4 r 2; at4 l 0 * at4 r 1 + at4 l 1 * at4 r 3;
   at4 l 2 * at4 r 0 + at4 l 3 * at4 r 2; at4 l 2 * at4 r 1 + at4 l 3 * at4 r 3]%C.
Definition mul4 (l r : list C) : list C :=
  flat_map (fun i => map (fun j => at4 l (4 * i) * at4 r j + at4 l (4 * i + 1) * at4 r (4 + j) +
     at4 l (4 * i + 2) * at4 r (8 + j) + at4 l (4 * i + 3) * at4 r (12 + j))%C [0; 1; 2; 3]%nat) [0; 1; 2; 3]%nat.
Definition kron2 (l r : list C) : list C :=
  [at4 l 0 * at4 r 0; at4 l 0 * at4 r 1; at4 l 1 * at4 r 0; at4 l 1 * at4 r 1;
   at4 l 0 * at4 r 2; at4 l 0 * at4 r 3; at4 l 1 * at4 r 2; at4 l 1 * at4 r 3;
   at4 l 2 * at4 r 0; at4 l 2 * at4 r 1; at4 l 3 * at4 r 0; at4 l 3 * at4 r 1;
   at4 l 2 * at4 r 2; at4 l 2 * at4 r 3; at4 l 3 * at4 r 2; at4 l 3 * at4 r 3]%C.
Definition I2 : list C := [C1; C0; C0; C1].
Definition I4 : list C := [C1; C0; C0; C0; C0; C1; C0; C0; C0; C0; C1; C0; C0; C0; C0; C1].
(** [u] on the second qubit where the first is 1, and the other way round. *)
Definition ctl01 (u : list C) : list C :=
  [C1; C0; C0; C0; C0; C1; C0; C0; C0; C0; at4 u 0; at4 u 1; C0; C0; at4 u 2; at4 u 3].
Definition ctl10 (u : list C) : list C :=
  [C1; C0; C0; C0; C0; at4 u 0; C0; at4 u 1; C0; C0; C1; C0; C0; at4 u 2; C0; at4 u 3].

Lemma len4 {A} (l : list A) : length l = 4%nat -> exists a b c d, l = [a; b; c; d].
Proof. intros H. destruct l as [|a [|b [|c [|d [|]]]]]; try discriminate. now exists a, b, c, d. Qed.
Lemma len16 {A} (l : list A) : length l = 16%nat -> exists a b c d e f g h i j k m n o p q, l = [a; b; c; d; e; f; g; h; i; j; k; m; n; o; p; q].
Proof. intros H. do 16 (destruct l as [|? l]; [discriminate|]). destruct l; [|discriminate]. do 16 eexists. reflexivity. Qed.

(** The gates in exact arithmetic. *)
Definition q2 : R := sqrt 2 / 2.
Definition gX : list C := [C0; C1; C1; C0].
Definition gH : list C := [(q2, 0); (q2, 0); (q2, 0); (- q2, 0)].
Definition gS : list C := [C1; C0; C0; (0, 1)].
Definition gSd : list C := [C1; C0; C0; (0, - 1)].
Definition gSX : list C := [(1/2, 1/2); (1/2, - (1/2)); (1/2, - (1/2)); (1/2, 1/2)].
Definition gSXd : list C := [(1/2, - (1/2)); (1/2, 1/2); (1/2, 1/2); (1/2, - (1/2))].
Definition gRX (t : R) : list C := [(cos (t/2), 0); (0, - sin (t/2)); (0, - sin (t/2)); (cos (t/2), 0)].
Definition gRY (t : R) : list C := [(cos (t/2), 0); (- sin (t/2), 0); (sin (t/2), 0); (cos (t/2), 0)].
Definition gRZ (t : R) : list C := [(cos (t/2), - sin (t/2)); C0; C0; (cos (t/2), sin (t/2))].

Lemma q2_sq : q2 * q2 = 1/2.
Proof. unfold q2. replace (sqrt 2 / 2 * (sqrt 2 / 2)) with ((sqrt 2 * sqrt 2) / 4) by field. rewrite sqrt_def; lra. Qed.
Lemma cos_q2 : cos (PI/2/2) = q2.
Proof. replace (PI/2/2) with (PI/4) by field. rewrite cos_PI4. unfold q2. apply (Rmult_eq_reg_l (2 * sqrt 2)). 
  - replace (2 * sqrt 2 * (1 / sqrt 2)) with 2 by (field; apply Rgt_not_eq, sqrt_lt_R0; lra). replace (2 * sqrt 2 * (sqrt 2 / 2)) with (sqrt 2 * sqrt 2) by field. rewrite sqrt_def; lra.
  - apply Rgt_not_eq. apply Rmult_gt_0_compat; [lra|]. apply sqrt_lt_R0. lra.
Qed.
Lemma sin_q2 : sin (PI/2/2) = q2.
Proof. rewrite <- cos_q2. replace (PI/2/2) with (PI/4) by field. now rewrite sin_PI4, cos_PI4. Qed.
Lemma cos_q2n : cos (- (PI/2)/2) = q2.
Proof. replace (- (PI/2)/2) with (- (PI/2/2)) by field. now rewrite cos_neg, cos_q2. Qed.
Lemma sin_q2n : sin (- (PI/2)/2) = - q2.
Proof. replace (- (PI/2)/2) with (- (PI/2/2)) by field. now rewrite sin_neg, sin_q2. Qed.
Lemma q2_r : exists r, q2 = r / 2 /\ r * r = 2.
Proof. exists (sqrt 2). split; [reflexivity|]. apply sqrt_def. lra. Qed.
Lemma cs1 x : cos x * cos x = 1 - sin x * sin x.
Proof. pose proof (sin2_cos2 x) as H. unfold Rsqr in H. lra. Qed.

Ltac mcalc := unfold mul4, kron2, mul2, ctl01, ctl10, gX, gH, gS, gSd, gSX, gSXd, I2, I4; cbn [flat_map map app at4 nth Nat.mul Nat.add]; unfold at4; cbn [nth].
Ltac centry := apply C_eq; unfold C0, C1, Csub, Cmul, Cadd, Copp; cbn [fst snd].
Ltac lists := repeat match goal with |- ?a = ?b => change (@eq (list C) a b); apply (f_equal2 (@cons C)); [|] end; try reflexivity.

(** Gates on one of the qubits after a product. *)
Lemma kron_t0 A B U : length A = 4%nat -> length B = 4%nat -> length U = 4%nat -> mul4 (kron2 A B) (kron2 U I2) = kron2 (mul2 A U) B.
Proof. intros HA HB HU. destruct (len4 _ HA) as (? & ? & ? & ? & ->), (len4 _ HB) as (? & ? & ? & ? & ->), (len4 _ HU) as (? & ? & ? & ? & ->). mcalc. lists; ring. Qed.
Lemma kron_t1 A B U : length A = 4%nat -> length B = 4%nat -> length U = 4%nat -> mul4 (kron2 A B) (kron2 I2 U) = kron2 A (mul2 B U).
Proof. intros HA HB HU. destruct (len4 _ HA) as (? & ? & ? & ? & ->), (len4 _ HB) as (? & ? & ? & ? & ->), (len4 _ HU) as (? & ? & ? & ? & ->). mcalc. lists; ring. Qed.
Lemma kron_I : kron2 I2 I2 = I4.
Proof. mcalc. lists; ring. Qed.
Lemma mul2_I A : length A = 4%nat -> mul2 A I2 = A.
Proof. intros HA. destruct (len4 _ HA) as (? & ? & ? & ? & ->). mcalc. lists; ring. Qed.
Lemma mul2_Il A : length A = 4%nat -> mul2 I2 A = A.
Proof. intros HA. destruct (len4 _ HA) as (? & ? & ? & ? & ->). mcalc. lists; ring. Qed.
Lemma mul4_I A : length A = 16%nat -> mul4 A I4 = A.
Proof. intros HA. destruct (len16 _ HA) as (? & ? & ? & ? & ? & ? & ? & ? & ? & ? & ? & ? & ? & ? & ? & ? & ->). mcalc. lists; ring. Qed.
Lemma mul4_Il A : length A = 16%nat -> mul4 I4 A = A.
Proof. intros HA. destruct (len16 _ HA) as (? & ? & ? & ? & ? & ? & ? & ? & ? & ? & ? & ? & ? & ? & ? & ? & ->). mcalc. lists; ring. Qed.

(** SWAP, DCX and the Peres gates. *)
Definition swap_m : list C := [C1; C0; C0; C0; C0; C0; C1; C0; C0; C1; C0; C0; C0; C0; C0; C1].
Definition dcx_m : list C := [C1; C0; C0; C0; C0; C0; C0; C1; C0; C1; C0; C0; C0; C0; C1; C0].
Lemma swap_alg : mul4 (ctl01 gX) (mul4 (ctl10 gX) (ctl01 gX)) = swap_m.
Proof. unfold swap_m. mcalc. lists; ring. Qed.
Lemma dcx_alg : mul4 (ctl01 gX) (ctl10 gX) = dcx_m.
Proof. unfold dcx_m. mcalc. lists; ring. Qed.

(** Multiplication from the right, row by row. *)
Section Right.
Context (a0 b0 c0 d0 a1 b1 c1 d1 a2 b2 c2 d2 a3 b3 c3 d3 u v w x e h : C).
Local Notation M0 := [a0; b0; c0; d0; a1; b1; c1; d1; a2; b2; c2; d2; a3; b3; c3; d3].
Local Open Scope C_scope.
Lemma right_c01 : mul4 M0 (ctl01 gX) = [a0; b0; d0; c0; a1; b1; d1; c1; a2; b2; d2; c2; a3; b3; d3; c3].
Proof. mcalc. lists; ring. Qed.
Lemma right_c10 : mul4 M0 (ctl10 gX) = [a0; d0; c0; b0; a1; d1; c1; b1; a2; d2; c2; b2; a3; d3; c3; b3].
Proof. mcalc. lists; ring. Qed.
Lemma right_t0 : mul4 M0 (kron2 [u; v; w; x] I2) = [a0 * u + c0 * w; b0 * u + d0 * w; a0 * v + c0 * x; b0 * v + d0 * x; a1 * u + c1 * w; b1 * u + d1 * w; a1 * v + c1 * x; b1 * v + d1 * x; a2 * u + c2 * w; b2 * u + d2 * w; a2 * v + c2 * x; b2 * v + d2 * x; a3 * u + c3 * w; b3 * u + d3 * w; a3 * v + c3 * x; b3 * v + d3 * x].
Proof. mcalc. lists; ring. Qed.
Lemma right_t1 : mul4 M0 (kron2 I2 [u; v; w; x]) = [a0 * u + b0 * w; a0 * v + b0 * x; c0 * u + d0 * w; c0 * v + d0 * x; a1 * u + b1 * w; a1 * v + b1 * x; c1 * u + d1 * w; c1 * v + d1 * x; a2 * u + b2 * w; a2 * v + b2 * x; c2 * u + d2 * w; c2 * v + d2 * x; a3 * u + b3 * w; a3 * v + b3 * x; c3 * u + d3 * w; c3 * v + d3 * x].
Proof. mcalc. lists; ring. Qed.
Lemma right_d1 : mul4 M0 (kron2 I2 [u; C0; C0; x]) = [a0 * u; b0 * x; c0 * u; d0 * x; a1 * u; b1 * x; c1 * u; d1 * x; a2 * u; b2 * x; c2 * u; d2 * x; a3 * u; b3 * x; c3 * u; d3 * x].
Proof. mcalc. lists; ring. Qed.
Lemma right_d0 : mul4 M0 (kron2 [u; C0; C0; x] I2) = [a0 * u; b0 * u; c0 * x; d0 * x; a1 * u; b1 * u; c1 * x; d1 * x; a2 * u; b2 * u; c2 * x; d2 * x; a3 * u; b3 * u; c3 * x; d3 * x].
Proof. mcalc. lists; ring. Qed.
Lemma right_diag : mul4 M0 [u; C0; C0; C0; C0; v; C0; C0; C0; C0; w; C0; C0; C0; C0; x] = [a0 * u; b0 * v; c0 * w; d0 * x; a1 * u; b1 * v; c1 * w; d1 * x; a2 * u; b2 * v; c2 * w; d2 * x; a3 * u; b3 * v; c3 * w; d3 * x].
Proof. mcalc. lists; ring. Qed.
Lemma right_kd : mul4 M0 (kron2 [u; v; w; x] [e; C0; C0; h]) = [(a0 * u + c0 * w) * e; (b0 * u + d0 * w) * h; (a0 * v + c0 * x) * e; (b0 * v + d0 * x) * h; (a1 * u + c1 * w) * e; (b1 * u + d1 * w) * h; (a1 * v + c1 * x) * e; (b1 * v + d1 * x) * h; (a2 * u + c2 * w) * e; (b2 * u + d2 * w) * h; (a2 * v + c2 * x) * e; (b2 * v + d2 * x) * h; (a3 * u + c3 * w) * e; (b3 * u + d3 * w) * h; (a3 * v + c3 * x) * e; (b3 * v + d3 * x) * h].
Proof. mcalc. lists; ring. Qed.
Lemma kron_d : kron2 [u; v; w; x] [e; C0; C0; h] = [u * e; C0; v * e; C0; C0; u * h; C0; v * h; w * e; C0; x * e; C0; C0; w * h; C0; x * h].
Proof. mcalc. lists; ring. Qed.
Lemma kron_1 : kron2 I2 [u; v; w; x] = [u; v; C0; C0; w; x; C0; C0; C0; C0; u; v; C0; C0; w; x].
Proof. mcalc. lists; ring. Qed.
End Right.
Lemma right_00 M0 A B U : length M0 = 16%nat -> length A = 4%nat -> length B = 4%nat -> length U = 4%nat ->
  mul4 (mul4 M0 (kron2 A B)) (kron2 U I2) = mul4 M0 (kron2 (mul2 A U) B).
Proof.
  intros HM HA HB HU. destruct (len4 _ HA) as (? & ? & ? & ? & ->), (len4 _ HB) as (? & ? & ? & ? & ->), (len4 _ HU) as (? & ? & ? & ? & ->).
  destruct (len16 _ HM) as (? & ? & ? & ? & ? & ? & ? & ? & ? & ? & ? & ? & ? & ? & ? & ? & ->). mcalc. lists; ring.
Qed.
Lemma right_11 M0 A B U : length M0 = 16%nat -> length A = 4%nat -> length B = 4%nat -> length U = 4%nat ->
  mul4 (mul4 M0 (kron2 A B)) (kron2 I2 U) = mul4 M0 (kron2 A (mul2 B U)).
Proof.
  intros HM HA HB HU. destruct (len4 _ HA) as (? & ? & ? & ? & ->), (len4 _ HB) as (? & ? & ? & ? & ->), (len4 _ HU) as (? & ? & ? & ? & ->).
  destruct (len16 _ HM) as (? & ? & ? & ? & ? & ? & ? & ? & ? & ? & ? & ? & ? & ? & ? & ? & ->). mcalc. lists; ring.
Qed.

(** iSWAP *)
Definition iswap_m (y : R) : list C := [C1; C0; C0; C0; C0; C0; (0, y); C0; C0; (0, y); C0; C0; C0; C0; C0; C1].
Lemma iswap_alg :
  mul4 (mul4 (mul4 (mul4 (mul4 (kron2 I2 gS) (kron2 gS I2)) (kron2 gH I2)) (ctl01 gX)) (ctl10 gX)) (kron2 I2 gH) = iswap_m 1.
Proof.
  rewrite kron_t0 by reflexivity. rewrite kron_t0 by reflexivity. unfold iswap_m.
  assert (E: mul2 (mul2 I2 gS) gH = [(q2, 0); (q2, 0); (0, q2); (0, - q2)]) by (mcalc; lists; centry; ring). rewrite E.
  unfold gS, gH. rewrite kron_d, right_c01, right_c10, right_t1. destruct q2_r as (r & Er & Q). rewrite Er. clear E. lists; centry; field [Q].
Qed.
Lemma iswapinv_alg :
  mul4 (mul4 (mul4 (mul4 (mul4 (kron2 I2 gH) (ctl10 gX)) (ctl01 gX)) (kron2 gH I2)) (kron2 gSd I2)) (kron2 I2 gSd) = iswap_m (- 1).
Proof.
  unfold iswap_m, gH, gSd. rewrite kron_1, right_c10, right_c01, right_t0, right_d0, right_d1.
  destruct q2_r as (r & Er & Q). rewrite Er. lists; centry; field [Q].
Qed.

(** RZZ, RXX, RYY, RZX and ECR; [c], [s] are cosine and sine of half the angle. *)
Definition rzz_m (c s : R) : list C := [(c, - s); C0; C0; C0; C0; (c, s); C0; C0; C0; C0; (c, s); C0; C0; C0; C0; (c, - s)].
Definition rxx_m (c s : R) : list C := [(c, 0); C0; C0; (0, - s); C0; (c, 0); (0, - s); C0; C0; (0, - s); (c, 0); C0; (0, - s); C0; C0; (c, 0)].
Definition ryy_m (c s : R) : list C := [(c, 0); C0; C0; (0, s); C0; (c, 0); (0, - s); C0; C0; (0, - s); (c, 0); C0; (0, s); C0; C0; (c, 0)].
Definition rzx_m (c s : R) : list C := [(c, 0); (0, - s); C0; C0; (0, - s); (c, 0); C0; C0; C0; C0; (c, 0); (0, s); C0; C0; (0, s); (c, 0)].
Definition ecr_m : list C :=
  [C0; C0; (q2, 0); (0, q2); C0; C0; (0, q2); (q2, 0); (q2, 0); (0, - q2); C0; C0; (0, - q2); (q2, 0); C0; C0].
Lemma rzz_alg t : mul4 (mul4 (ctl01 gX) (kron2 I2 (gRZ t))) (ctl01 gX) = rzz_m (cos (t/2)) (sin (t/2)).
Proof.
  unfold rzz_m, gRZ. generalize (cos (t/2)) (sin (t/2)). intros c s. unfold ctl01 at 1, gX at 1 2 3 4. unfold at4. cbn [nth].
  rewrite right_d1, right_c01. lists; centry; ring.
Qed.
Lemma rxx_alg c s :
  mul4 (mul4 (mul4 (mul4 (kron2 gH I2) (kron2 I2 gH)) (rzz_m c s)) (kron2 I2 gH)) (kron2 gH I2) = rxx_m c s.
Proof.
  rewrite kron_t1 by reflexivity. rewrite mul2_Il by reflexivity. destruct q2_r as (r & Er & Q). unfold rxx_m, rzz_m, gH. rewrite Er.
  assert (E: kron2 [(r/2, 0); (r/2, 0); (r/2, 0); (- (r/2), 0)] [(r/2, 0); (r/2, 0); (r/2, 0); (- (r/2), 0)] =
    [(1/2, 0); (1/2, 0); (1/2, 0); (1/2, 0); (1/2, 0); (- (1/2), 0); (1/2, 0); (- (1/2), 0); (1/2, 0); (1/2, 0); (- (1/2), 0); (- (1/2), 0); (1/2, 0); (- (1/2), 0); (- (1/2), 0); (1/2, 0)]).
  { mcalc. lists; centry; field [Q]. }
  rewrite E, right_diag, right_t1, right_t0. lists; centry; field [Q].
Qed.
Lemma ryy_alg c s :
  mul4 (mul4 (mul4 (mul4 (kron2 (gRX (PI/2)) I2) (kron2 I2 (gRX (PI/2)))) (rzz_m c s)) (kron2 I2 (gRX (- (PI/2))))) (kron2 (gRX (- (PI/2))) I2) = ryy_m c s.
Proof.
  rewrite kron_t1 by reflexivity. rewrite mul2_Il by reflexivity. unfold gRX. rewrite cos_q2, sin_q2, cos_q2n, sin_q2n, Ropp_involutive.
  destruct q2_r as (r & Er & Q). unfold ryy_m, rzz_m. rewrite Er.
  assert (E: kron2 [(r/2, 0); (0, - (r/2)); (0, - (r/2)); (r/2, 0)] [(r/2, 0); (0, - (r/2)); (0, - (r/2)); (r/2, 0)] =
    [(1/2, 0); (0, - (1/2)); (0, - (1/2)); (- (1/2), 0); (0, - (1/2)); (1/2, 0); (- (1/2), 0); (0, - (1/2)); (0, - (1/2)); (- (1/2), 0); (1/2, 0); (0, - (1/2)); (- (1/2), 0); (0, - (1/2)); (0, - (1/2)); (1/2, 0)]).
  { mcalc. lists; centry; field [Q]. }
  rewrite E, right_diag, right_t1, right_t0. lists; centry; field [Q].
Qed.
Lemma rzx_alg c s : mul4 (mul4 (kron2 I2 gH) (rzz_m c s)) (kron2 I2 gH) = rzx_m c s.
Proof.
  destruct q2_r as (r & Er & Q). unfold rzx_m, rzz_m, gH. rewrite Er. rewrite kron_1 at 1. rewrite right_diag, right_t1. lists; centry; field [Q].
Qed.
Lemma ecr_alg : mul4 (mul4 (rzx_m (cos (- (PI/4)/2)) (sin (- (PI/4)/2))) (kron2 gX I2)) (rzx_m (cos (PI/4/2)) (sin (PI/4/2))) = ecr_m.
Proof.
  replace (- (PI/4)/2) with (- (PI/4/2)) by field. rewrite cos_neg, sin_neg.
  assert (Hc: cos (PI/4/2) * cos (PI/4/2) = q2 + sin (PI/4/2) * sin (PI/4/2)).
  { rewrite <- cos_q2. replace (PI/2/2) with (2 * (PI/4/2)) by field. rewrite cos_2a. ring. }
  assert (Hs: 2 * sin (PI/4/2) * cos (PI/4/2) = q2).
  { rewrite <- sin_q2. replace (PI/2/2) with (2 * (PI/4/2)) by field. rewrite sin_2a. ring. }
  revert Hc Hs. generalize (cos (PI/4/2)) (sin (PI/4/2)). unfold ecr_m. generalize q2. intros q c s Hc Hs. unfold rzx_m, gX. rewrite right_t0.
  mcalc. lists; centry; try ring [Hc]; rewrite <- ?Hs; ring.
Qed.

(** XXMinusYY and XXPlusYY. *)
Definition xxm_m (c s cb sb : R) : list C := [(c, 0); C0; C0; (sb * s, - cb * s); C0; C1; C0; C0; C0; C0; C1; C0; (- sb * s, - cb * s); C0; C0; (c, 0)].
Definition xxp_m (c s cb sb : R) : list C := [C1; C0; C0; C0; C0; (c, 0); (sb * s, - cb * s); C0; C0; (- sb * s, - cb * s); (c, 0); C0; C0; C0; C0; C1].
Definition sxA : list C := [(1/2, 1/2); (1/2, 1/2); (- (1/2), - (1/2)); (1/2, 1/2)].
Definition sxB : list C := [(1/2, - (1/2)); (- (1/2), 1/2); (1/2, - (1/2)); (1/2, - (1/2))].
Lemma sxA_alg : mul2 (mul2 (gRZ (- (PI/2))) gSX) (gRZ (PI/2)) = sxA.
Proof.
  unfold gRZ. rewrite cos_q2, sin_q2, cos_q2n, sin_q2n, Ropp_involutive. destruct q2_r as (r & Er & Q). unfold sxA. rewrite Er. mcalc. lists; centry; field [Q].
Qed.
Lemma sxB_alg : mul2 (mul2 (gRZ (- (PI/2))) gSXd) (gRZ (PI/2)) = sxB.
Proof.
  unfold gRZ. rewrite cos_q2, sin_q2, cos_q2n, sin_q2n, Ropp_involutive. destruct q2_r as (r & Er & Q). unfold sxB. rewrite Er. mcalc. lists; centry; field [Q].
Qed.
(** The product of the code, for gates [A] and [B] in the middle on the two qubits. *)
Definition xx_chain (b b' : R) (A B : list C) : list C :=
  mul4 (mul4 (mul4 (mul4 (mul4 (mul4 (mul4 (mul4 (mul4 (mul4 (mul4 (mul4 (mul4 (kron2 I2 (gRZ b)) (kron2 (gRZ (- (PI/2))) I2)) (kron2 gSX I2)) (kron2 (gRZ (PI/2)) I2)) (kron2 I2 gS)) (ctl01 gX))
    (kron2 A I2)) (kron2 I2 B)) (ctl01 gX)) (kron2 I2 gSd)) (kron2 (gRZ (- (PI/2))) I2)) (kron2 gSXd I2)) (kron2 (gRZ (PI/2)) I2)) (kron2 I2 (gRZ b')).

Lemma xx_chain_eq b b' A B : length A = 4%nat -> length B = 4%nat ->
  xx_chain b b' A B = mul4 (mul4 (mul4 (mul4 (mul4 (kron2 sxA (mul2 (gRZ b) gS)) (ctl01 gX)) (kron2 A I2)) (kron2 I2 B)) (ctl01 gX)) (kron2 sxB (mul2 gSd (gRZ b'))).
Proof.
  intros HA HB. unfold xx_chain. assert (HM: forall l r, length (mul4 l r) = 16%nat) by reflexivity.
  rewrite !kron_t0 by reflexivity. rewrite kron_t1 by reflexivity.
  rewrite (right_00 _ I2 gSd) by (auto; reflexivity). rewrite (right_00 _ _ gSd gSXd) by (auto; reflexivity). rewrite (right_00 _ _ gSd (gRZ (PI/2))) by (auto; reflexivity).
  rewrite (right_11 _ _ gSd) by (auto; reflexivity). rewrite !mul2_Il by (auto; reflexivity). now rewrite sxA_alg, sxB_alg.
Qed.

Lemma zB b : mul2 (gRZ b) gS = [(cos (b/2), - sin (b/2)); C0; C0; (- sin (b/2), cos (b/2))].
Proof. unfold gRZ. mcalc. lists; centry; ring. Qed.
Lemma zB' b : mul2 gSd (gRZ b) = [(cos (b/2), - sin (b/2)); C0; C0; (sin (b/2), - cos (b/2))].
Proof. unfold gRZ. mcalc. lists; centry; ring. Qed.
Lemma cosb b : cos b = cos (b/2) * cos (b/2) - sin (b/2) * sin (b/2).
Proof. rewrite <- cos_2a. f_equal. field. Qed.
Lemma sinb b : sin b = 2 * sin (b/2) * cos (b/2).
Proof. rewrite <- sin_2a. f_equal. field. Qed.
(** The product with symbols for the entries: [w], [w1] for the outer gates, [e], [h], [e1], [h1] for
    the phases and [P], [S], [S1] for the rotations in the middle. *)
Lemma xx_sym (w w1 e h e1 h1 P S S1 : C) :
  (mul4 (mul4 (mul4 (mul4 (mul4 (kron2 [w; w; - w; w] [e; C0; C0; h]) (ctl01 gX)) (kron2 [P; - S1; S1; P] I2)) (kron2 I2 [P; - S; S; P])) (ctl01 gX)) (kron2 [w1; - w1; w1; w1] [e1; C0; C0; h1]) =
  [(w * w1 + w * w1) * (e * e1) * (P * P + S * S1); C0; C0; (w * w1 + w * w1) * (e * h1) * (P * S - P * S1); C0; (w * w1 + w * w1) * (h * h1) * (P * P - S * S1); (w * w1 + w * w1) * (h * e1) * (- (P * S) - P * S1); C0; C0; (w * w1 + w * w1) * (e * h1) * (P * S + P * S1); (w * w1 + w * w1) * (e * e1) * (P * P - S * S1); C0; (w * w1 + w * w1) * (h * e1) * (P * S1 - P * S); C0; C0; (w * w1 + w * w1) * (h * h1) * (P * P + S * S1)])%C.
Proof. rewrite kron_d, right_c01, right_t0, right_t1, right_c01, right_kd. lists; ring. Qed.
Definition xx_mid (p s s' c d : R) : list C :=
  mul4 (mul4 (mul4 (mul4 (mul4 (kron2 sxA [(c, d); C0; C0; (d, c)]) (ctl01 gX)) (kron2 [(p, 0); (- s', 0); (s', 0); (p, 0)] I2)) (kron2 I2 [(p, 0); (- s, 0); (s, 0); (p, 0)])) (ctl01 gX))
    (kron2 sxB [(c, - d); C0; C0; (d, - c)]).
Lemma xx_mid_sym p s s' c d : xx_mid p s s' c d =
  [Cmul (c * c + d * d, 0) (p * p + s * s', 0); C0; C0; Cmul (2 * c * d, d * d - c * c) (p * s - p * s', 0); C0; Cmul (c * c + d * d, 0) (p * p - s * s', 0); Cmul (2 * c * d, c * c - d * d) (- (p * s) - p * s', 0); C0; C0; Cmul (2 * c * d, d * d - c * c) (p * s + p * s', 0); Cmul (c * c + d * d, 0) (p * p - s * s', 0); C0; Cmul (2 * c * d, c * c - d * d) (p * s' - p * s, 0); C0; C0; Cmul (c * c + d * d, 0) (p * p + s * s', 0)].
Proof.
  unfold xx_mid. assert (A: sxA = [(1/2, 1/2); (1/2, 1/2); Copp (1/2, 1/2); (1/2, 1/2)]) by reflexivity.
  assert (B: sxB = [(1/2, - (1/2)); Copp (1/2, - (1/2)); (1/2, - (1/2)); (1/2, - (1/2))]) by (unfold sxB, Copp; lists; centry; ring).
  assert (Rt: forall x, (- x, 0) = Copp (x, 0)) by (intros; centry; ring).
  rewrite A, B, !Rt, xx_sym. clear. lists; centry; field.
Qed.
Lemma xx_mid_minus p s c d : p * p = 1 - s * s -> c * c = 1 - d * d ->
  xx_mid p s (- s) c d = xxm_m (p * p - s * s) (2 * s * p) (c * c - d * d) (2 * d * c).
Proof. intros Hp Hc. rewrite xx_mid_sym. unfold xxm_m. lists; centry; ring [Hp Hc]. Qed.
Lemma xx_mid_plus p s c d : p * p = 1 - s * s -> c * c = 1 - d * d ->
  xx_mid p s s c d = xxp_m (p * p - s * s) (2 * s * p) (c * c - d * d) (- (2 * d * c)).
Proof. intros Hp Hc. rewrite xx_mid_sym. unfold xxp_m. lists; centry; ring [Hp Hc]. Qed.
Lemma xx_mid_id c d : c * c = 1 - d * d -> xx_mid 1 0 0 c d = I4.
Proof. intros Hc. rewrite xx_mid_sym. unfold I4. lists; centry; ring [Hc]. Qed.
Lemma xxm_alg t b : xx_chain (- b) b (gRY (- t/2)) (gRY (t/2)) = xxm_m (cos (t/2)) (sin (t/2)) (cos b) (sin b).
Proof.
  rewrite xx_chain_eq, zB, zB' by reflexivity. rewrite (cosb (t/2)), (sinb (t/2)), (cosb b), (sinb b). rewrite <- xx_mid_minus by apply cs1.
  unfold xx_mid, gRY. replace (- b / 2) with (- (b/2)) by field. replace (- t / 2 / 2) with (- (t/2/2)) by field. now rewrite !cos_neg, !sin_neg, !Ropp_involutive.
Qed.
Lemma xxp_alg t b : xx_chain b (- b) (gRY (t/2)) (gRY (t/2)) = xxp_m (cos (t/2)) (sin (t/2)) (cos b) (sin b).
Proof.
  rewrite xx_chain_eq, zB, zB' by reflexivity. rewrite (cosb (t/2)), (sinb (t/2)), (cosb b), (sinb b).
  replace (2 * sin (b/2) * cos (b/2)) with (- (2 * (- sin (b/2)) * cos (b/2))) by ring.
  replace (cos (b/2) * cos (b/2) - sin (b/2) * sin (b/2)) with (cos (b/2) * cos (b/2) - (- sin (b/2)) * (- sin (b/2))) by ring.
  rewrite <- xx_mid_plus; [|apply cs1|rewrite cs1; ring].
  unfold xx_mid, gRY. replace (- b / 2) with (- (b/2)) by field. now rewrite !cos_neg, !sin_neg, !Ropp_involutive.
Qed.
Lemma xx_id b : xx_chain b (- b) I2 I2 = I4.
Proof.
  rewrite xx_chain_eq, zB, zB' by reflexivity. rewrite <- (xx_mid_id (cos (b/2)) (- sin (b/2))) by (rewrite cs1; ring).
  unfold xx_mid, I2, C0, C1. replace (- b / 2) with (- (b/2)) by field. now rewrite !cos_neg, !sin_neg, !Ropp_involutive, !Ropp_0.
Qed.
(** The uncontrolled outer gates of RXX, RYY and RZX cancel. *)
Lemma hh_id : mul4 (mul4 (mul4 (mul4 (kron2 gH I2) (kron2 I2 gH)) I4) (kron2 I2 gH)) (kron2 gH I2) = I4.
Proof.
  assert (E: rzz_m 1 0 = I4) by (unfold rzz_m, I4; lists; centry; ring). rewrite <- E at 1. rewrite rxx_alg. unfold rxx_m, rzz_m, I4. lists; centry; ring.
Qed.
Lemma rr_id : mul4 (mul4 (mul4 (mul4 (kron2 (gRX (PI/2)) I2) (kron2 I2 (gRX (PI/2)))) I4) (kron2 I2 (gRX (- (PI/2))))) (kron2 (gRX (- (PI/2))) I2) = I4.
Proof.
  assert (E: rzz_m 1 0 = I4) by (unfold rzz_m, I4; lists; centry; ring). rewrite <- E at 1. rewrite ryy_alg. unfold ryy_m, rzz_m, I4. lists; centry; ring.
Qed.
Lemma h1_id : mul4 (mul4 (kron2 I2 gH) I4) (kron2 I2 gH) = I4.
Proof.
  assert (E: rzz_m 1 0 = I4) by (unfold rzz_m, I4; lists; centry; ring). rewrite <- E at 1. rewrite rzx_alg. unfold rzx_m, rzz_m, I4. lists; centry; ring.
Qed.
