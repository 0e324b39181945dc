(** isCloseToIdentity, fidelityOfMeasurementOutcomes and extend (C59, C60, C61). *)
From Coq Require Import ZArith List Bool Lia Arith Reals Lra.
From Verif Require Import Num Base CTable Cx State Pkg Read Reduce Check Close Inv InvL PrimL MkL NormL CanonL StateL ReadL Run Inst PropBase PropSem PropState PropRefute.
Import ListNotations.
Local Open Scope Z_scope.

(** ** Complex numbers near one *)
Section Near.
Local Open Scope R_scope.
(** std::atan2 over the reals: the angle of the point (x, y). *)
Definition atan2R (y x : R) : R :=
  if Rlt_dec 0 x then atan (y / x)
  else if Rlt_dec x 0 then (if Rle_dec 0 y then atan (y / x) + PI else atan (y / x) - PI)
  else if Rlt_dec 0 y then PI / 2 else if Rlt_dec y 0 then - (PI / 2) else 0.
(** The magnitude. *)
Definition Cm (a : C) : R := sqrt (Cmag2 a).
Lemma Cm_nonneg a : 0 <= Cm a.
Proof. apply sqrt_pos. Qed.
Lemma Cm_sq a : Cm a * Cm a = Cmag2 a.
Proof. apply sqrt_sqrt, Cmag2_nonneg. Qed.
Lemma Cm_mul a b : Cm (a * b)%C = Cm a * Cm b.
Proof. unfold Cm. rewrite Cmag2_mul. apply sqrt_mult; apply Cmag2_nonneg. Qed.
Lemma Cm_le a r : 0 <= r -> Cmag2 a <= r * r -> Cm a <= r.
Proof. intros H L. unfold Cm. rewrite <- (sqrt_square r) by auto. now apply sqrt_le_1_alt. Qed.
Lemma Cm_tri a b : Cm (a + b)%C <= Cm a + Cm b.
Proof.
  apply Cm_le; [pose proof (Cm_nonneg a); pose proof (Cm_nonneg b); lra|].
  replace ((Cm a + Cm b) * (Cm a + Cm b)) with (Cm a * Cm a + Cm b * Cm b + 2 * (Cm a * Cm b)) by ring. rewrite !Cm_sq.
  assert (L: fst a * fst b + snd a * snd b <= Cm a * Cm b).
  { rewrite <- Cm_mul. apply Rle_trans with (Rabs (fst a * fst b + snd a * snd b)); [apply Rle_abs|].
    unfold Cm. rewrite <- sqrt_Rsqr_abs. apply sqrt_le_1_alt. rewrite Cmag2_mul. unfold Rsqr, Cmag2.
    pose proof (Rle_0_sqr (fst a * snd b - snd a * fst b)) as Q. unfold Rsqr in Q. nra. }
  unfold Cmag2, Cadd. cbn. unfold Cmag2 in L. nra.
Qed.
(** A complex number in terms of magnitude and angle. *)
Lemma polar a : fst a = Cm a * cos (atan2R (snd a) (fst a)) /\ snd a = Cm a * sin (atan2R (snd a) (fst a)).
Proof.
  destruct a as [x y]. cbn [fst snd]. unfold atan2R.
  assert (At: x <> 0 -> cos (atan (y / x)) = Rabs x / Cm (x, y) /\ sin (atan (y / x)) = (if Rlt_dec 0 x then y else - y) / Cm (x, y)).
  { intros Nx. assert (Pm: 0 < Cm (x, y)). { apply sqrt_lt_R0. apply Cmag2_pos. intros [= E _]. auto. }
    assert (Sq: sqrt (1 + Rsqr (y / x)) = Cm (x, y) / Rabs x).
    { replace (1 + Rsqr (y / x)) with (Cmag2 (x, y) / Rsqr x) by (unfold Cmag2, Rsqr; cbn; field; auto).
      rewrite sqrt_div_alt by (apply Rsqr_pos_lt; auto). rewrite sqrt_Rsqr_abs. reflexivity. }
    assert (Pa: 0 < Rabs x) by (apply Rabs_pos_lt; auto). rewrite cos_atan, sin_atan, Sq. split.
    - field. split; lra.
    - destruct (Rlt_dec 0 x); [rewrite (Rabs_right x) by lra|rewrite (Rabs_left x) by lra]; field; split; lra. }
  assert (Pz: x <> 0 \/ y <> 0 -> 0 < Cm (x, y)).
  { intros H. apply sqrt_lt_R0. apply Cmag2_pos. intros [= E1 E2]. destruct H; auto. }
  destruct (Rlt_dec 0 x) as [Px|Px].
  { destruct At as [A B]; [lra|]. assert (Pm: 0 < Cm (x, y)) by (apply Pz; left; lra). rewrite A, B. rewrite Rabs_right by lra. split; field; lra. }
  destruct (Rlt_dec x 0) as [Qx|Qx].
  { destruct At as [A B]; [lra|]. assert (Pm: 0 < Cm (x, y)) by (apply Pz; left; lra). rewrite Rabs_left in A by lra.
    destruct (Rle_dec 0 y).
    - rewrite neg_cos, neg_sin, A, B. split; field; lra.
    - replace (atan (y / x) - PI) with (- (- atan (y / x) + PI)) by ring. rewrite cos_neg, sin_neg, neg_cos, neg_sin, cos_neg, sin_neg, A, B. split; field; lra. }
  assert (x = 0) by lra. subst x.
  assert (E: Cm (0, y) = Rabs y). { unfold Cm, Cmag2. cbn. replace (0 * 0 + y * y) with (Rsqr y) by (unfold Rsqr; ring). apply sqrt_Rsqr_abs. }
  rewrite E. destruct (Rlt_dec 0 y); [|destruct (Rlt_dec y 0)].
  - rewrite cos_PI2, sin_PI2, Rabs_right by lra. lra.
  - rewrite cos_neg, sin_neg, cos_PI2, sin_PI2, Rabs_left by lra. lra.
  - assert (y = 0) by lra. subst. rewrite Rabs_R0. lra.
Qed.
Lemma sin_abs t : Rabs (sin t) <= Rabs t.
Proof.
  assert (P: forall t, 0 <= t -> Rabs (sin t) <= t).
  { clear. intros t [P|<-]; [|rewrite sin_0, Rabs_R0; lra]. destruct (Rle_dec 1 t) as [L|L].
    - pose proof (SIN_bound t). apply Rabs_le. lra.
    - assert (0 < sin t). { apply sin_gt_0; auto. pose proof PI_RGT_0. pose proof PI2_1. lra. }
      rewrite Rabs_right by lra. left. now apply sin_lt_x. }
  destruct (Rle_dec 0 t); [rewrite (Rabs_right t) by lra; auto|]. rewrite (Rabs_left t) by lra.
  replace (sin t) with (- sin (- t)) by (rewrite sin_neg; ring). rewrite Rabs_Ropp. apply P. lra.
Qed.
Lemma chord t : Cm (cos t - 1, sin t) <= Rabs t.
Proof.
  apply Cm_le; [apply Rabs_pos|]. unfold Cmag2. cbn [fst snd].
  replace ((cos t - 1) * (cos t - 1) + sin t * sin t) with (4 * Rsqr (sin (t / 2))).
  - pose proof (sin_abs (t / 2)) as H. rewrite <- (Rsqr_abs (sin (t / 2))) || idtac.
    assert (Q: Rsqr (sin (t / 2)) <= Rsqr (t / 2)). { rewrite (Rsqr_abs (sin (t / 2))), (Rsqr_abs (t / 2)). apply Rsqr_incr_1; auto; apply Rabs_pos. }
    replace (Rabs t * Rabs t) with (Rsqr t) by (rewrite (Rsqr_abs t); reflexivity). unfold Rsqr in *. lra.
  - assert (D: forall h, (cos (2 * h) - 1) * (cos (2 * h) - 1) + sin (2 * h) * sin (2 * h) = 4 * Rsqr (sin h)).
    { clear. intros h. rewrite cos_2a_sin, sin_2a. pose proof (sin2_cos2 h) as P. unfold Rsqr in *.
      set (a := sin h) in *. set (b := cos h) in *. replace ((1 - 2 * a * a - 1) * (1 - 2 * a * a - 1) + 2 * a * b * (2 * a * b)) with (4 * (a * a) * (a * a + b * b)) by ring. rewrite P. ring. }
    specialize (D (t / 2)). replace (2 * (t / 2)) with t in D by field. symmetry. exact D.
Qed.
(** Magnitude and angle near those of one: the number is near one. *)
Lemma near_one a tol : Rabs (Cmag2 a - 1) <= tol -> Rabs (atan2R (snd a) (fst a)) <= tol -> Cm (a - C1)%C <= 2 * tol.
Proof.
  intros H1 H2. destruct (polar a) as [E1 E2]. set (r := Cm a) in *. set (t := atan2R (snd a) (fst a)) in *.
  assert (Hr: Rabs (r - 1) <= tol).
  { apply Rle_trans with (Rabs (Cmag2 a - 1)); auto. rewrite <- Cm_sq. fold r. pose proof (Cm_nonneg a) as P. fold r in P.
    replace (r * r - 1) with ((r - 1) * (r + 1)) by ring. rewrite Rabs_mult. rewrite (Rabs_right (r + 1)) by lra. pose proof (Rabs_pos (r - 1)). nra. }
  replace (a - C1)%C with (Cadd (Cmul (RtoC (r - 1)) (cos t, sin t)) (cos t - 1, sin t)).
  - apply Rle_trans with (1 := Cm_tri _ _). pose proof (chord t). rewrite Cm_mul.
    replace (Cm (RtoC (r - 1))) with (Rabs (r - 1)).
    + replace (Cm (cos t, sin t)) with 1; [lra|]. unfold Cm, Cmag2. cbn. replace (cos t * cos t + sin t * sin t) with (Rsqr (sin t) + Rsqr (cos t)) by (unfold Rsqr; ring). now rewrite sin2_cos2, sqrt_1.
    + unfold Cm. rewrite Cmag2_RtoC. symmetry. apply sqrt_Rsqr_abs.
  - apply C_eq; unfold Csub, Cadd, Cmul, RtoC, Copp, C1; cbn [fst snd]; [replace (fst a) with (r * cos t) by (symmetry; exact E1)|replace (snd a) with (r * sin t) by (symmetry; exact E2)]; ring.
Qed.
End Near.

(** ** isCloseToIdentity *)

(** The entry is on the diagonal. *)
Definition ondiag (p : list nat) : bool := forallb (fun i => Nat.eqb i 0 || Nat.eqb i 3) p.
(** [F] is, up to [tol], the identity on the qubits 0..l, except that diagonal blocks other than upper left ones may vanish
    (the case of ancillary qubits): entries off the diagonal have squared magnitude at most [tol]; in every block, all entries
    have squared magnitude at most [tol] or the upper left one is within [2 (l + 1) tol] of one; so is the one of the whole
    matrix. *)
Definition near_id (tol : R) (l : Z) (F : list nat -> C) : Prop :=
  (forall p, vpath KM l p -> ondiag p = false -> (Cmag2 (F p) <= tol)%R) /\
  (forall a b, vpath KM l (a ++ b) ->
     (forall b', length b' = length b -> Forall (fun i => (i < 4)%nat) b' -> (Cmag2 (F (a ++ b')) <= tol)%R) \/
     (Cm (F (a ++ repeat 0%nat (length b)) - C1)%C <= 2 * (IZR l + 1) * tol)%R) /\
  (Cm (F (repeat 0%nat (Z.to_nat (l + 1))) - C1)%C <= 2 * (IZR l + 1) * tol)%R.
(** The same without tolerance. *)
Definition idlike (l : Z) (F : list nat -> C) : Prop :=
  (forall p, vpath KM l p -> ondiag p = false -> F p = C0) /\
  (forall a b, vpath KM l (a ++ b) ->
     (forall b', length b' = length b -> Forall (fun i => (i < 4)%nat) b' -> F (a ++ b') = C0) \/
     F (a ++ repeat 0%nat (length b)) = C1) /\
  F (repeat 0%nat (Z.to_nat (l + 1))) = C1.

Lemma Cm_0 : Cm C0 = 0%R.
Proof. unfold Cm. rewrite Cmag2_0. apply sqrt_0. Qed.
Lemma Cm_sub0 a b : (Cm (a - b)%C <= 0)%R -> a = b.
Proof.
  intros H. assert (E: Cmag2 (a - b)%C = 0%R) by (rewrite <- Cm_sq; pose proof (Cm_nonneg (a - b)%C); nra).
  apply Cmag2_zero in E. replace a with (Cadd (a - b)%C b) by ring. rewrite E. ring.
Qed.
Lemma Cmag2_le0 a : (Cmag2 a <= 0)%R -> a = C0.
Proof. intros H. apply Cmag2_zero. pose proof (Cmag2_nonneg a). lra. Qed.
Lemma near_id_0 l F : near_id 0 l F <-> idlike l F.
Proof.
  unfold near_id, idlike. rewrite Rmult_0_r. split; intros (A & B & D); repeat split.
  - intros p V O. apply Cmag2_le0. auto.
  - intros a b V. destruct (B a b V) as [H|H]; [left; intros; apply Cmag2_le0; auto|right; now apply Cm_sub0].
  - now apply Cm_sub0.
  - intros p V O. rewrite A by auto. rewrite Cmag2_0. lra.
  - intros a b V. destruct (B a b V) as [H|H]; [left; intros; rewrite H by auto; rewrite Cmag2_0; lra|right]. rewrite H. replace (C1 - C1)%C with C0 by ring. rewrite Cm_0. lra.
  - rewrite D. replace (C1 - C1)%C with C0 by ring. rewrite Cm_0. lra.
Qed.
Lemma Cm_1 (a : C) : (Cmag2 a <= 1)%R -> (Cm a <= 1)%R.
Proof. intros H. apply Cm_le; lra. Qed.

(** One node. *)
Lemma near_id_step tol l (w : nat -> C) (f : nat -> list nat -> C) F : 0 <= l -> (0 <= tol)%R ->
  (forall i p, (i < 4)%nat -> vpath KM (l - 1) p -> F (i :: p) = (w i * f i p)%C) ->
  (forall i, (i < 4)%nat -> (Cmag2 (w i) <= 1)%R) ->
  (forall i p, (i < 4)%nat -> vpath KM (l - 1) p -> (Cmag2 (f i p) <= 1)%R) ->
  (Cmag2 (w 1%nat) <= tol)%R -> (Cmag2 (w 2%nat) <= tol)%R ->
  (Cm (w 0%nat - C1)%C <= 2 * tol)%R -> (Cmag2 (w 3%nat) <= tol \/ Cm (w 3%nat - C1)%C <= 2 * tol)%R ->
  (w 0%nat = C0 \/ near_id tol (l - 1) (f 0%nat)) -> (w 3%nat = C0 \/ near_id tol (l - 1) (f 3%nat)) -> near_id tol l F.
Proof.
  intros Hl Ht EF Hw Hf H1 H2 H0 H3 N0 N3.
  assert (Sm: forall i p, (i < 4)%nat -> vpath KM (l - 1) p -> (Cmag2 (w i) <= tol -> Cmag2 (F (i :: p)) <= tol)%R).
  { intros i p Hi V H. rewrite EF, Cmag2_mul by auto. pose proof (Hf i p Hi V). pose proof (Cmag2_nonneg (f i p)). pose proof (Cmag2_nonneg (w i)). nra. }
  assert (Sf: forall i p, (i < 4)%nat -> vpath KM (l - 1) p -> (Cmag2 (f i p) <= tol -> Cmag2 (F (i :: p)) <= tol)%R).
  { intros i p Hi V H. rewrite EF, Cmag2_mul by auto. pose proof (Hw i Hi). pose proof (Cmag2_nonneg (f i p)). pose proof (Cmag2_nonneg (w i)). nra. }
  assert (Nr: forall i p, (i < 4)%nat -> vpath KM (l - 1) p -> (Cm (w i - C1)%C <= 2 * tol -> Cm (f i p - C1)%C <= 2 * (IZR (l - 1) + 1) * tol -> Cm (F (i :: p) - C1)%C <= 2 * (IZR l + 1) * tol)%R).
  { intros i p Hi V A B. rewrite EF by auto. replace (w i * f i p - C1)%C with (Cadd (w i * (f i p - C1))%C (w i - C1)%C) by ring.
    apply Rle_trans with (1 := Cm_tri _ _). rewrite Cm_mul. pose proof (Cm_1 _ (Hw i Hi)). pose proof (Cm_nonneg (w i)). pose proof (Cm_nonneg (f i p - C1)%C). rewrite minus_IZR in B. nra. }
  assert (V0: forall p, Z.of_nat (length p) = l -> Forall (fun i => (i < 4)%nat) p -> vpath KM (l - 1) p) by (intros p A B; split; [lia|exact B]).
  assert (Fz: forall m, Forall (fun i => (i < 4)%nat) (repeat 0%nat m)) by (intros m; apply Forall_forall; intros x Hx; apply repeat_spec in Hx; lia).
  (* a block of a successor on the diagonal *)
  assert (Bl: forall i, (i = 0 \/ i = 3)%nat -> (w i = C0 \/ near_id tol (l - 1) (f i)) -> (Cmag2 (w i) <= tol \/ Cm (w i - C1)%C <= 2 * tol)%R ->
    forall a b, vpath KM (l - 1) (a ++ b) ->
     (forall b', length b' = length b -> Forall (fun i => (i < 4)%nat) b' -> (Cmag2 (F (i :: a ++ b')) <= tol)%R) \/
     (Cm (F (i :: a ++ repeat 0%nat (length b)) - C1)%C <= 2 * (IZR l + 1) * tol)%R).
  { intros i Hi Ni Wi a b V. assert (i < 4)%nat by lia.
    assert (Vb: forall b', length b' = length b -> Forall (fun i => (i < 4)%nat) b' -> vpath KM (l - 1) (a ++ b')).
    { intros b' Lb Fb. destruct V as [V1 V2]. apply Forall_app in V2. split; [rewrite app_length in *; lia|apply Forall_app; split; [apply V2|exact Fb]]. }
    destruct Wi as [Wi|Wi]; [left; intros; apply Sm; auto|].
    destruct Ni as [Ni|Ni].
    - left. intros b' Lb Fb. rewrite EF by auto. rewrite Ni, Cmul_0_l, Cmag2_0. exact Ht.
    - destruct Ni as (_ & Nb & _). destruct (Nb a b V) as [H'|H']; [left; intros; apply Sf; auto|right].
      apply Nr; auto. apply Vb; auto. apply repeat_length. }
  assert (Pz: (Cm (F (0%nat :: repeat 0%nat (Z.to_nat l)) - C1)%C <= 2 * (IZR l + 1) * tol)%R).
  { assert (Vz: vpath KM (l - 1) (repeat 0%nat (Z.to_nat l))) by (apply V0; [rewrite repeat_length; lia|auto]).
    assert (IZR l >= 0)%R by (apply Rle_ge; now apply IZR_le).
    destruct N0 as [N0|N0].
    - rewrite EF by (auto; lia). rewrite N0 in *. rewrite Cmul_0_l. apply Rle_trans with (1 := H0). nra.
    - apply Nr; auto. destruct N0 as (_ & _ & N0). replace (Z.to_nat (l - 1 + 1)) with (Z.to_nat l) in N0 by lia. exact N0. }
  split; [|split].
  - intros p V O. destruct p as [|i p]; [discriminate|]. pose proof (proj1 (vpath_cons _ _ _ _) V) as [Hi Vp]. cbn in Hi.
    destruct i as [|[|[|[|i]]]]; [| | | |lia].
    + destruct N0 as [N0|N0]; [rewrite EF, N0, Cmul_0_l, Cmag2_0 by auto; exact Ht|]. apply Sf; auto. apply N0; auto.
    + apply Sm; auto.
    + apply Sm; auto.
    + destruct N3 as [N3|N3]; [rewrite EF, N3, Cmul_0_l, Cmag2_0 by auto; exact Ht|]. apply Sf; auto. apply N3; auto.
  - intros [|i a] b V.
    + right. cbn [app]. destruct V as [V _]. cbn [app] in V. replace (length b) with (S (Z.to_nat l)) by lia. exact Pz.
    + cbn [app] in *. pose proof (proj1 (vpath_cons _ _ _ _) V) as [Hi Vp]. cbn in Hi.
      assert (Vb: forall b', length b' = length b -> Forall (fun i => (i < 4)%nat) b' -> vpath KM (l - 1) (a ++ b')).
      { intros b' Lb Fb. destruct Vp as [V1 V2]. apply Forall_app in V2. split; [rewrite app_length in *; lia|apply Forall_app; split; [apply V2|exact Fb]]. }
      destruct i as [|[|[|[|i]]]]; [| | | |lia].
      * apply Bl; auto.
      * left. intros. apply Sm; auto.
      * left. intros. apply Sm; auto.
      * apply Bl; auto.
  - replace (Z.to_nat (l + 1)) with (S (Z.to_nat l)) by lia. exact Pz.
Qed.

Section Close.
Context (g : cfg R0) (nb : kind -> Z) (G : gok g).
Local Notation X := (XR g G).
Local Notation entry := (entry g G).
Local Notation reachedR := (reachedR g nb G).
Local Notation co := (co R0).
Local Notation dn := (dn R0 g X).
Local Notation etn := (etn R0).
Local Notation inv := (inv R0 g nb X).
Local Notation Cw := (Cw R0 g X).

Lemma inv_cinv s : inv s -> cinv R0 g nb X (co s).
Proof. intros I. apply I. Qed.
Lemma succ_t s n i : inv s -> linked R0 (co s) KM n -> (i < 4)%nat -> tedge R0 g X (co s) KM (nv (nod s KM n) - 1) (nthe (ne (nod s KM n)) i).
Proof. intros I L Hi. apply (child_ok (nb:=nb)); auto. apply I. Qed.
Lemma succ_norm s n : inv s -> linked R0 (co s) KM n -> nnorm R0 g X (co s) KM (ne (nod s KM n)).
Proof. intros I L. destruct (linked_ok (nb:=nb) (X:=X) _ _ _ (inv_cinv s I) L) as (b & K & _). apply (no_norm _ _ _ _ _ _ _ _ _ K). exact Logic.I. Qed.
Lemma lvl0 s n : inv s -> linked R0 (co s) KM n -> 0 <= nv (nod s KM n) < s_nq s.
Proof. intros I L. destruct (linked_ok (nb:=nb) (X:=X) _ _ _ (inv_cinv s I) L) as (b & K & _). apply (no_v _ _ _ _ _ _ _ _ _ K). Qed.

(** Normalisation: no entry below a node is larger than one. *)
Lemma dn_le1 s : inv s -> forall path l p, etn (co s) KM l p -> vpath KM l path -> (Cmag2 (dn (co s) KM p path) <= 1)%R.
Proof.
  intros I. induction path as [|i r IH]; intros l p T V; [cbn; rewrite Cmag2_1; lra|].
  destruct p as [| |n]; [contradiction|cbn; rewrite Cmag2_1; lra|]. destruct T as [L Nv]. cbn [Inv.dn].
  apply vpath_cons in V. destruct V as [Hi V]. cbn in Hi. pose proof (succ_t s n i I L Hi) as Te. change (nv (nod s KM n)) with (nv (qn R0 (co s) KM n)) in Te. rewrite Nv in Te.
  rewrite Cmag2_mul. pose proof (IH (l - 1) _ (te_n _ _ _ _ _ _ _ Te) V) as Q.
  destruct (succ_norm s n I L) as (am & _ & _ & W & _). specialize (W i Hi).
  pose proof (Cmag2_nonneg (dn (co s) KM (ep (nthe (ne (qn R0 (co s) KM n)) i)) r)). pose proof (Cmag2_nonneg (Cw (co s) (ew (nthe (ne (qn R0 (co s) KM n)) i)))).
  change (nod s KM n) with (qn R0 (co s) KM n) in *. nra.
Qed.
(** If the upper left entry has magnitude one, it is one. *)
Lemma dn_zero1 s : inv s -> forall m l p, etn (co s) KM l p -> Z.of_nat m = l + 1 ->
  Cmag2 (dn (co s) KM p (repeat 0%nat m)) = 1%R -> dn (co s) KM p (repeat 0%nat m) = C1.
Proof.
  intros I. induction m as [|m IH]; intros l p T Hm E; [reflexivity|].
  destruct p as [| |n]; [contradiction|reflexivity|]. destruct T as [L Nv]. cbn [repeat Inv.dn] in *.
  assert (Te: tedge R0 g X (co s) KM (l - 1) (nthe (ne (qn R0 (co s) KM n)) 0)) by (rewrite <- Nv; apply succ_t; auto; lia).
  rewrite Cmag2_mul in E. assert (Q: (Cmag2 (dn (co s) KM (ep (nthe (ne (qn R0 (co s) KM n)) 0)) (repeat 0%nat m)) <= 1)%R).
  { apply (dn_le1 s I _ (l - 1)); [apply Te|]. replace (l - 1) with (Z.of_nat m - 1) by lia. apply vpath_zeros. }
  destruct (succ_norm s n I L) as (am & Ha & Wa & W & Wl). change (nod s KM n) with (qn R0 (co s) KM n) in *. pose proof (W 0%nat ltac:(lia)) as W0.
  set (a := Cmag2 (Cw (co s) (ew (nthe (ne (qn R0 (co s) KM n)) 0)))) in *. set (b := Cmag2 (dn (co s) KM (ep (nthe (ne (qn R0 (co s) KM n)) 0)) (repeat 0%nat m))) in *.
  assert (0 <= a)%R by apply Cmag2_nonneg. assert (0 <= b)%R by apply Cmag2_nonneg. assert (a = 1 /\ b = 1)%R as [Ea Eb] by (split; nra).
  destruct am as [|am]; [|pose proof (Wl 0%nat ltac:(lia)) as Wl0; fold a in Wl0; lra].
  rewrite Wa, Cw_one by exact Logic.I. rewrite Cmul_1_l. apply (IH (l - 1)); auto; [apply Te|lia].
Qed.
(** Some entry has magnitude one. *)
Lemma dn_some1 s : inv s -> forall m l p, Z.of_nat m = l + 1 -> etn (co s) KM l p -> (p = PTerm -> l = -1) ->
  exists path, vpath KM l path /\ Cmag2 (dn (co s) KM p path) = 1%R.
Proof.
  intros I. induction m as [|m IH]; intros l p Hm T Np.
  - exists []. replace l with (-1) by lia. split; [apply vpath_nil|]. cbn. apply Cmag2_1.
  - destruct p as [| |n]; [contradiction|specialize (Np eq_refl); lia|]. destruct T as [L Nv].
    destruct (succ_norm s n I L) as (am & Ha & Wa & W & Wl). change (nod s KM n) with (qn R0 (co s) KM n) in *.
    assert (Te: tedge R0 g X (co s) KM (l - 1) (nthe (ne (qn R0 (co s) KM n)) am)) by (rewrite <- Nv; apply succ_t; auto).
    destruct (IH (l - 1) (ep (nthe (ne (qn R0 (co s) KM n)) am))) as (path & V & E); [lia|apply Te| |].
    { intros Q. destruct (te_t _ _ _ _ _ _ _ Te Q) as [|Q']; [auto|]. rewrite Wa in Q'. discriminate. }
    exists (am :: path). split; [apply vpath_cons; split; auto|]. cbn [Inv.dn]. rewrite Wa, Cw_one by exact Logic.I. now rewrite Cmul_1_l.
Qed.

(** The tests of a node, on the values of the weights. *)
Lemma wmag2_C s w : wtab R0 g X (co s) w -> wmag2 s w = Cmag2 (Cw (co s) w).
Proof. intros W. pose proof (x_wmag2 (X:=X) s w Logic.I) as E. change (toR X (wmag2 s w)) with (wmag2 s w) in E. rewrite E. now rewrite Cv_Cw by (auto; exact Logic.I). Qed.
Lemma warg_C s w : wtab R0 g X (co s) w -> warg R0 atan2R s w = atan2R (snd (Cw (co s) w)) (fst (Cw (co s) w)).
Proof. intros W. rewrite <- Cv_Cw by (auto; exact Logic.I). reflexivity. Qed.
Lemma ltbF (a b : R) : @nltb R0 a b = false <-> (b <= a)%R.
Proof. unfold nltb, NumR. rewrite <- not_true_iff_false. rewrite Rltb_iff. lra. Qed.
Lemma ltbT (a b : R) : @nltb R0 a b = true <-> (a < b)%R.
Proof. apply Rltb_iff. Qed.
Lemma closeNode_iff s tol es : (forall i, (i < 4)%nat -> wtab R0 g X (co s) (ew (nthe es i))) ->
  let w i := Cw (co s) (ew (nthe es i)) in
  closeNode R0 atan2R s tol es = true <->
  ((Cmag2 (w 1%nat) <= tol /\ Cmag2 (w 2%nat) <= tol) /\ Rabs (Cmag2 (w 0%nat) - 1) <= tol /\ Rabs (atan2R (snd (w 0%nat)) (fst (w 0%nat))) <= tol /\
   (Cmag2 (w 3%nat) <= tol \/ Rabs (Cmag2 (w 3%nat) - 1) <= tol /\ Rabs (atan2R (snd (w 3%nat)) (fst (w 3%nat))) <= tol))%R.
Proof.
  intros W w. unfold closeNode. rewrite !wmag2_C, !warg_C by (apply W; lia). fold (w 0%nat) (w 1%nat) (w 2%nat) (w 3%nat).
  cbn [nabs nsub n1 NumR T]. 
  repeat match goal with |- context [nltb ?a ?b] => let E := fresh in destruct (nltb a b) eqn:E; [apply ltbT in E|apply ltbF in E] end;
  cbn [orb negb]; split; intros H'; try discriminate; try reflexivity; try lra.
  all: repeat split; try lra.
Qed.

(** A visited node. *)
Definition goodp (s : st R0) (tol : R) (p : nptr) : Prop :=
  match p with PNode n => near_id tol (nv (nod s KM n)) (dn (co s) KM (PNode n)) | _ => False end.
Lemma vmem_in p vis : vmem p vis = true -> In p vis.
Proof.
  unfold vmem. rewrite existsb_exists. intros (x & H & E). destruct p, x; cbn in E; try discriminate; auto. apply Nat.eqb_eq in E. now subst.
Qed.
Lemma idm_idlike l F : 0 <= l -> (forall p, vpath KM l p -> F p = idm p) -> idlike l F.
Proof.
  intros Hl H. assert (Fz: forall a m, ondiag a = true -> ondiag (a ++ repeat 0%nat m) = true).
  { intros a m A. unfold ondiag in *. rewrite forallb_app, A. cbn. induction m; auto. }
  split; [|split].
  - intros p V O. rewrite H by auto. unfold idm. unfold ondiag in O. now rewrite O.
  - intros a b V. assert (Vb: forall b', length b' = length b -> Forall (fun i => (i < 4)%nat) b' -> vpath KM l (a ++ b')).
    { intros b' Lb Fb. destruct V as [V1 V2]. apply Forall_app in V2. split; [rewrite app_length in *; lia|apply Forall_app; split; [apply V2|exact Fb]]. }
    destruct (ondiag a) eqn:A.
    + right. rewrite H. { pose proof (Fz a (length b) A) as Q. unfold ondiag in Q. unfold idm. now rewrite Q. }
      apply Vb; [apply repeat_length|]. apply Forall_forall. intros x Hx. apply repeat_spec in Hx. lia.
    + left. intros b' Lb Fb. rewrite H by auto. unfold idm. unfold ondiag in A. now rewrite forallb_app, A.
  - rewrite H. { pose proof (Fz [] (Z.to_nat (l + 1)) eq_refl) as Q. unfold ondiag in Q. cbn [app] in Q. unfold idm. now rewrite Q. }
    split; [rewrite repeat_length; lia|]. apply Forall_forall. intros x Hx. apply repeat_spec in Hx. cbn. lia.
Qed.
Lemma idlike_near tol l F : (0 <= tol)%R -> 0 <= l -> idlike l F -> near_id tol l F.
Proof.
  intros Ht Hl H. apply near_id_0 in H. destruct H as (A & B & D). rewrite Rmult_0_r in *. assert (0 <= 2 * (IZR l + 1) * tol)%R by (apply IZR_le in Hl; nra).
  split; [|split].
  - intros p V O. specialize (A p V O). lra.
  - intros a b V. destruct (B a b V) as [H'|H']; [left; intros b' L F'; specialize (H' b' L F'); lra|right; lra].
  - lra.
Qed.

Lemma closeF_sound s tol : inv s -> (0 <= tol)%R -> forall f l p vis, etn (co s) KM l p -> -1 <= l -> l + 2 <= Z.of_nat f -> Forall (goodp s tol) vis ->
  exists b vis', closeF R0 atan2R f tol p vis s = Ok (b, vis') s /\ (b = true -> Forall (goodp s tol) vis' /\ (p = PTerm \/ goodp s tol p)).
Proof.
  intros I Ht. induction f as [|f IH]; intros l p vis T Hl Hf Gv; [lia|]. cbn [closeF].
  destruct (vmem p vis) eqn:Vm.
  { exists true, vis. split; [reflexivity|]. intros _. split; auto. right. apply vmem_in in Vm. rewrite Forall_forall in Gv. auto. }
  destruct p as [| |n]; [contradiction| |].
  { exists true, vis. split; [reflexivity|]. auto. }
  destruct T as [L Nv]. change (qn R0 (co s) KM n) with (nod s KM n) in Nv. unfold bind at 1, get. pose proof (lvl0 s n I L) as Hn.
  destruct (nid (nod s KM n)) eqn:Nid.
  { exists true, vis. split; [reflexivity|]. intros _. split; auto. right. cbn [goodp]. apply idlike_near; auto; [lia|]. apply idm_idlike; [lia|].
    destruct (linked_ok (nb:=nb) (X:=X) _ _ _ (inv_cinv s I) L) as (b & K & _). apply (no_id _ _ _ _ _ _ _ _ _ K); auto. exact Logic.I. }
  assert (Te: forall i, (i < 4)%nat -> tedge R0 g X (co s) KM (l - 1) (nthe (ne (nod s KM n)) i)) by (intros i Hi; rewrite <- Nv; now apply succ_t).
  assert (Wt: forall i, (i < 4)%nat -> wtab R0 g X (co s) (ew (nthe (ne (nod s KM n)) i))) by (intros i Hi; apply (Te i Hi)).
  pose proof (closeNode_iff s tol _ Wt) as Cn. cbv zeta in Cn. destruct (closeNode R0 atan2R s tol (ne (nod s KM n))) eqn:E; cbn [negb].
  2:{ exists false, (PNode n :: vis). split; [reflexivity|discriminate]. }
  destruct (proj1 Cn eq_refl) as ((C1' & C2') & Ca & Cb & C3'). clear Cn.
  destruct (IH (l - 1) (ep (nthe (ne (nod s KM n)) 0)) vis) as (b0 & v0 & E0 & G0); [apply Te; lia|lia|lia|auto|].
  unfold bind at 1. rewrite E0. cbn [fst snd]. destruct b0; cbn [negb]; [|exists false, (PNode n :: v0); split; [reflexivity|discriminate]].
  destruct (G0 eq_refl) as [Gv0 P0].
  destruct (IH (l - 1) (ep (nthe (ne (nod s KM n)) 3)) v0) as (b3 & v3 & E3 & G3); [apply Te; lia|lia|lia|auto|].
  unfold bind. rewrite E3. unfold ret. cbn [fst snd]. exists b3, (PNode n :: v3). split; [reflexivity|]. intros ->. destruct (G3 eq_refl) as [Gv3 P3].
  assert (Gd: goodp s tol (PNode n)); [|split; [constructor; auto|auto]].
  assert (Pq: forall i, (i < 4)%nat -> ep (nthe (ne (nod s KM n)) i) = PTerm \/ goodp s tol (ep (nthe (ne (nod s KM n)) i)) ->
    Cw (co s) (ew (nthe (ne (nod s KM n)) i)) = C0 \/ near_id tol (l - 1) (dn (co s) KM (ep (nthe (ne (nod s KM n)) i)))).
  { intros i Hi [Q|Q].
    - destruct (te_t _ _ _ _ _ _ _ (Te i Hi) Q) as [Q'|Q']; [|left; rewrite Q'; apply Cw_zero; exact Logic.I].
      right. rewrite Q, Q'. split; [|split].
      + intros p V O. apply vpath_m1 in V. subst. discriminate.
      + intros a b V. right. apply vpath_m1 in V. apply app_eq_nil in V. destruct V as [-> ->]. cbn. replace (C1 - C1)%C with C0 by ring. rewrite Cm_0. nra.
      + cbn. replace (C1 - C1)%C with C0 by ring. rewrite Cm_0. nra.
    - right. pose proof (te_n _ _ _ _ _ _ _ (Te i Hi)) as Tn. destruct (ep (nthe (ne (nod s KM n)) i)) as [| |m]; [contradiction|contradiction|].
      destruct Tn as [_ Tn]. change (qn R0 (co s) KM m) with (nod s KM m) in Tn. cbn [goodp] in Q. now rewrite Tn in Q. }
  cbn [goodp]. rewrite Nv.
  apply (near_id_step tol l (fun i => Cw (co s) (ew (nthe (ne (nod s KM n)) i))) (fun i => dn (co s) KM (ep (nthe (ne (nod s KM n)) i)))); auto; try lia.
  - intros i Hi. destruct (succ_norm s n I L) as (am & _ & _ & W & _). apply W; auto.
  - intros i p Hi V. apply (dn_le1 s I p (l - 1)); auto. apply Te; auto.
  - apply near_one; auto.
  - destruct C3' as [C3'|[C3' C4']]; [now left|right; now apply near_one].
  - apply Pq; [lia|exact P0].
Qed.

(** The exact case is accepted with every tolerance. *)
Lemma idlike_sub l F i f : idlike l F -> 0 <= l -> (i = 0 \/ i = 3)%nat -> (forall p, vpath KM (l - 1) p -> F (i :: p) = f p) ->
  f (repeat 0%nat (Z.to_nat l)) = C1 -> idlike (l - 1) f.
Proof.
  intros (A & B & D) Hl Hi E Z. assert (Hi4: (i < 4)%nat) by lia. split; [|split].
  - intros p V O. rewrite <- E by auto. apply A; [apply vpath_cons; split; auto|]. cbn. unfold ondiag in O. rewrite O. apply andb_false_r.
  - intros a b V. assert (Vb: forall b', length b' = length b -> Forall (fun i => (i < 4)%nat) b' -> vpath KM (l - 1) (a ++ b')).
    { intros b' Lb Fb. destruct V as [V1 V2]. apply Forall_app in V2. split; [rewrite app_length in *; lia|apply Forall_app; split; [apply V2|exact Fb]]. }
    destruct (B (i :: a) b) as [H|H]; [apply vpath_cons; split; auto|left|right].
    + intros b' Lb Fb. rewrite <- E by auto. apply H; auto.
    + rewrite <- E; [exact H|]. apply Vb; [apply repeat_length|]. apply Forall_forall. intros x Hx. apply repeat_spec in Hx. lia.
  - now replace (l - 1 + 1) with l by lia.
Qed.

Lemma closeF_complete s tol : inv s -> (0 <= tol)%R -> forall f l p vis, etn (co s) KM l p -> -1 <= l -> l + 2 <= Z.of_nat f ->
  (p = PTerm \/ idlike l (dn (co s) KM p)) -> exists vis', closeF R0 atan2R f tol p vis s = Ok (true, vis') s.
Proof.
  intros I Ht. induction f as [|f IH]; intros l p vis T Hl Hf Hp; [lia|]. cbn [closeF].
  destruct (vmem p vis) eqn:Vm; [eexists; reflexivity|].
  destruct p as [| |n]; [contradiction|eexists; reflexivity|]. destruct Hp as [Hp|Hp]; [discriminate|].
  destruct T as [L Nv]. change (qn R0 (co s) KM n) with (nod s KM n) in Nv. unfold bind at 1, get. pose proof (lvl0 s n I L) as Hn.
  destruct (nid (nod s KM n)) eqn:Nid; [eexists; reflexivity|].
  assert (Te: forall i, (i < 4)%nat -> tedge R0 g X (co s) KM (l - 1) (nthe (ne (nod s KM n)) i)) by (intros i Hi; rewrite <- Nv; now apply succ_t).
  assert (Wt: forall i, (i < 4)%nat -> wtab R0 g X (co s) (ew (nthe (ne (nod s KM n)) i))) by (intros i Hi; apply (Te i Hi)).
  destruct (succ_norm s n I L) as (am & Ha & Wa & W & Wl).
  set (w := fun i => Cw (co s) (ew (nthe (ne (nod s KM n)) i))). set (h := fun i => dn (co s) KM (ep (nthe (ne (nod s KM n)) i))).
  assert (EF: forall i p, dn (co s) KM (PNode n) (i :: p) = (w i * h i p)%C) by reflexivity.
  assert (Vz: vpath KM (l - 1) (repeat 0%nat (Z.to_nat l))). { pose proof (vpath_zeros KM (Z.to_nat l)) as Q. now replace (Z.of_nat (Z.to_nat l) - 1) with (l - 1) in Q by lia. }
  assert (Le: forall i q, (i < 4)%nat -> vpath KM (l - 1) q -> (Cmag2 (h i q) <= 1)%R).
  { intros i q Hi V. apply (dn_le1 s I q (l - 1)); auto. apply Te; auto. }
  (* a product of magnitude one *)
  assert (Pr: forall i, (i < 4)%nat -> (w i * h i (repeat 0%nat (Z.to_nat l)))%C = C1 -> Cmag2 (w i) = 1%R /\ w i = C1 /\ h i (repeat 0%nat (Z.to_nat l)) = C1).
  { intros i Hi Q. pose proof (f_equal Cmag2 Q) as Q2. rewrite Cmag2_mul, Cmag2_1 in Q2. pose proof (W i Hi) as Wi. fold (w i) in Wi. pose proof (Le i _ Hi Vz) as Li.
    pose proof (Cmag2_nonneg (w i)). pose proof (Cmag2_nonneg (h i (repeat 0%nat (Z.to_nat l)))).
    assert (Hz: h i (repeat 0%nat (Z.to_nat l)) = C1).
    { apply (dn_zero1 s I _ (l - 1)); [apply Te; auto|lia|]. fold (h i). nra. }
    rewrite Hz in *. rewrite Cmul_1_r in Q. rewrite Q. rewrite Cmag2_1. auto. }
  assert (Zr: forall i, (i < 4)%nat -> (forall q, vpath KM (l - 1) q -> (w i * h i q)%C = C0) -> w i = C0).
  { intros i Hi Q. assert (D: w i = C0 \/ (ep (nthe (ne (nod s KM n)) i) = PTerm -> l - 1 = -1)).
    { destruct (nptr_dec (ep (nthe (ne (nod s KM n)) i)) PTerm) as [Pt|Pt]; [|right; intros; contradiction].
      destruct (te_t _ _ _ _ _ _ _ (Te i Hi) Pt) as [D|D]; [now right|left]. unfold w. rewrite D. apply Cw_zero. exact Logic.I. }
    destruct D as [D|D]; [exact D|].
    destruct (dn_some1 s I (Z.to_nat l) (l - 1) (ep (nthe (ne (nod s KM n)) i))) as (q & V & M1); [lia|apply Te; auto|exact D|].
    specialize (Q q V). pose proof (f_equal Cmag2 Q) as Q2. rewrite Cmag2_mul, Cmag2_0 in Q2. unfold h in Q2. rewrite M1, Rmult_1_r in Q2. now apply Cmag2_zero. }
  pose proof Hp as (Ho & Hb & Hz). replace (Z.to_nat (l + 1)) with (S (Z.to_nat l)) in Hz by lia. cbn [repeat] in Hz. rewrite EF in Hz.
  destruct (Pr 0%nat ltac:(lia) Hz) as (_ & W0 & H0).
  assert (W1: w 1%nat = C0). { apply Zr; [lia|]. intros q V. rewrite <- EF. apply Ho; [apply vpath_cons; split; [cbn; lia|auto]|reflexivity]. }
  assert (W2: w 2%nat = C0). { apply Zr; [lia|]. intros q V. rewrite <- EF. apply Ho; [apply vpath_cons; split; [cbn; lia|auto]|reflexivity]. }
  assert (W3: w 3%nat = C0 \/ w 3%nat = C1 /\ h 3%nat (repeat 0%nat (Z.to_nat l)) = C1).
  { destruct (Hb [3%nat] (repeat 0%nat (Z.to_nat l))) as [H|H]; [apply vpath_cons; split; [cbn; lia|auto]|left|right].
    - apply Zr; [lia|]. intros q V. rewrite <- EF. apply (H q); [rewrite repeat_length, (InvL.vpath_len _ _ _ V); lia|apply V].
    - rewrite repeat_length in H. cbn [app] in H. rewrite EF in H. destruct (Pr 3%nat ltac:(lia) H) as (_ & A & B). auto. }
  assert (Z1: Rabs (1 - 1) = 0%R) by (rewrite Rminus_diag_eq by reflexivity; apply Rabs_R0).
  assert (A1: Rabs (atan2R (snd C1) (fst C1)) = 0%R).
  { unfold atan2R, C1. cbn [fst snd]. destruct (Rlt_dec 0 1); [|lra]. replace (0 / 1)%R with 0%R by field. rewrite atan_0. apply Rabs_R0. }
  pose proof (closeNode_iff s tol _ Wt) as Cn. cbv zeta in Cn.
  rewrite (proj2 Cn); cbn [negb].
  2:{ change (((Cmag2 (w 1%nat) <= tol /\ Cmag2 (w 2%nat) <= tol) /\ Rabs (Cmag2 (w 0%nat) - 1) <= tol /\ Rabs (atan2R (snd (w 0%nat)) (fst (w 0%nat))) <= tol /\
        (Cmag2 (w 3%nat) <= tol \/ Rabs (Cmag2 (w 3%nat) - 1) <= tol /\ Rabs (atan2R (snd (w 3%nat)) (fst (w 3%nat))) <= tol))%R).
      rewrite W0, W1, W2, Cmag2_0, Cmag2_1, Z1, A1. split; [lra|]. split; [lra|]. split; [lra|]. destruct W3 as [W3|[W3 _]]; rewrite W3; [left; rewrite Cmag2_0; lra|right]. rewrite Cmag2_1, Z1, A1. lra. }
  destruct (IH (l - 1) (ep (nthe (ne (nod s KM n)) 0)) vis) as (v0 & E0); [apply Te; lia|lia|lia| |].
  { right. apply (idlike_sub l (dn (co s) KM (PNode n)) 0); auto; [lia|]. intros q V. rewrite EF, W0. apply Cmul_1_l. }
  unfold bind at 1. rewrite E0. cbn [fst snd negb].
  destruct (IH (l - 1) (ep (nthe (ne (nod s KM n)) 3)) v0) as (v3 & E3); [apply Te; lia|lia|lia| |].
  { destruct W3 as [W3|[W3 H3]].
    - left. apply (te_z _ _ _ _ _ _ _ (Te 3%nat ltac:(lia))); [exact Logic.I|]. apply (Cw_eq0 (nb:=nb) (X:=X) (co s)); [exact Logic.I|now apply inv_cinv|apply Wt; lia|exact W3].
    - right. apply (idlike_sub l (dn (co s) KM (PNode n)) 3); auto; [lia|]. intros q V. rewrite EF, W3. apply Cmul_1_l. }
  unfold bind. rewrite E3. unfold ret. cbn [fst snd]. eexists. reflexivity.
Qed.

Lemma nonzero_term nq s V D l x : reachedR nq s V D -> usr V D KM l x -> (exists p, vpath KM l p /\ entry s KM x p <> C0) -> ep x = PTerm -> l = -1.
Proof.
  intros H U (p & _ & E) P. destruct (usr_t g nb G _ _ _ _ _ _ _ H U) as [_ T]. destruct (te_t _ _ _ _ _ _ _ T P) as [|Z]; auto.
  exfalso. apply E. unfold PropBase.entry, Inv.de. rewrite Z, Cw_zero by exact Logic.I. apply Cmul_0_l.
Qed.
Lemma idlike_m1 F : F [] = C1 -> idlike (-1) F.
Proof.
  intros E. split; [|split; [|exact E]].
  - intros p V. apply vpath_m1 in V. subst. discriminate.
  - intros a b V. apply vpath_m1 in V. apply app_eq_nil in V. destruct V as [-> ->]. now right.
Qed.
Lemma isClose_run s l x tol : inv s -> -1 <= l < s_nq s -> etn (co s) KM l (ep x) -> (0 <= tol)%R ->
  exists b, isCloseToIdentity R0 atan2R x tol s = Ok b s /\ (b = true -> ep x = PTerm \/ goodp s tol (ep x)) /\
    (ep x = PTerm \/ idlike l (dn (co s) KM (ep x)) -> b = true).
Proof.
  intros I Hl T Ht. assert (Hf: l + 2 <= Z.of_nat (fuelof R0 s)) by (unfold fuelof; lia).
  destruct (closeF_sound s tol I Ht (fuelof R0 s) l (ep x) [] T ltac:(lia) Hf ltac:(constructor)) as (b & vis & E & S).
  exists b. unfold isCloseToIdentity, bind. rewrite E. split; [reflexivity|]. split; [intros B; apply (S B)|].
  intros Q. destruct (closeF_complete s tol I Ht (fuelof R0 s) l (ep x) [] T ltac:(lia) Hf Q) as (v & E'). congruence.
Qed.

(** * C59 *)
(** An accepted matrix other than zero is a multiple of one near the identity. *)
Theorem accepted_is_near_identity nq s V D l x tol : reachedR nq s V D -> usr V D KM l x -> (0 <= tol)%R ->
  exists b, isCloseToIdentity R0 atan2R x tol s = Ok b s /\
    (b = true -> (exists p, vpath KM l p /\ entry s KM x p <> C0) ->
     exists c F, near_id tol l F /\ (forall p, vpath KM l p -> Cmag2 (F p) <= 1)%R /\ forall p, vpath KM l p -> entry s KM x p = (c * F p)%C).
Proof.
  intros H U Ht. destruct (usr_t g nb G _ _ _ _ _ _ _ H U) as [Hl T]. destruct (reached_inv _ _ _ _ _ _ _ H) as (I & _ & _).
  destruct (isClose_run s l x tol I Hl (te_n _ _ _ _ _ _ _ T) Ht) as (b & E & S & _). exists b. split; [exact E|]. intros B Nz.
  exists (Cw (co s) (ew x)), (dn (co s) KM (ep x)). split; [|split; [|reflexivity]].
  - destruct (S B) as [P|Gp].
    + rewrite (nonzero_term _ _ _ _ _ _ H U Nz P), P. assert (Z: near_id 0 (-1) (dn (co s) KM PTerm)) by (apply near_id_0, idlike_m1; reflexivity).
      destruct Z as (A & B' & D'). rewrite !Rmult_0_r in *. split; [|split].
      * intros p Vp. apply vpath_m1 in Vp. subst. discriminate.
      * intros a c Vp. apply vpath_m1 in Vp. apply app_eq_nil in Vp. destruct Vp as [-> ->]. right. cbn. replace (C1 - C1)%C with C0 by ring. rewrite Cm_0. lra.
      * cbn. replace (C1 - C1)%C with C0 by ring. rewrite Cm_0. lra.
    + pose proof (te_n _ _ _ _ _ _ _ T) as Tn. destruct (ep x) as [| |n]; [contradiction|contradiction|]. cbn [goodp] in Gp. destruct Tn as [_ Tn]. change (qn R0 (co s) KM n) with (nod s KM n) in Tn. now rewrite Tn in Gp.
  - intros p Vp. apply (dn_le1 s I p l); auto. apply T.
Qed.
(** Multiples of the identity, also with ancillary qubits in the zero state, are accepted with every tolerance. *)
Theorem identity_is_accepted nq s V D l x tol c F : reachedR nq s V D -> usr V D KM l x -> (0 <= tol)%R -> idlike l F ->
  (forall p, vpath KM l p -> entry s KM x p = (c * F p)%C) -> isCloseToIdentity R0 atan2R x tol s = Ok true s.
Proof.
  intros H U Ht Id EF. destruct (usr_t g nb G _ _ _ _ _ _ _ H U) as [Hl T]. destruct (reached_inv _ _ _ _ _ _ _ H) as (I & _ & _).
  destruct (isClose_run s l x tol I Hl (te_n _ _ _ _ _ _ _ T) Ht) as (b & E & _ & S). rewrite E. rewrite S; auto.
  destruct (nptr_dec (ep x) PTerm) as [P|P]; [now left|right].
  set (d := dn (co s) KM (ep x)). set (w := Cw (co s) (ew x)).
  assert (Ex: forall p, vpath KM l p -> (w * d p = c * F p)%C) by (intros p Vp; exact (EF p Vp)).
  assert (Wn: w <> C0). { intros W. apply P. apply (te_z _ _ _ _ _ _ _ T); [exact Logic.I|]. apply (Cw_eq0 (nb:=nb) (X:=X) (co s)); [exact Logic.I|now apply inv_cinv|apply T|exact W]. }
  set (k := (Cinv w * c)%C). assert (Ed: forall p, vpath KM l p -> d p = (k * F p)%C).
  { intros p Vp. unfold k. replace (Cinv w * c * F p)%C with (Cinv w * (c * F p))%C by ring. rewrite <- Ex by auto. replace (Cinv w * (w * d p))%C with ((Cinv w * w) * d p)%C by ring. rewrite Cinv_l by auto. now rewrite Cmul_1_l. }
  pose proof Id as (Io & Ib & Iz).
  assert (Vz: vpath KM l (repeat 0%nat (Z.to_nat (l + 1)))). { pose proof (vpath_zeros KM (Z.to_nat (l + 1))) as Q. now replace (Z.of_nat (Z.to_nat (l + 1)) - 1) with l in Q by lia. }
  assert (K1: k = C1).
  { assert (Kz: d (repeat 0%nat (Z.to_nat (l + 1))) = k) by (rewrite Ed by auto; rewrite Iz; apply Cmul_1_r).
    rewrite <- Kz. apply (dn_zero1 s I _ l); [apply T|lia|]. fold d. rewrite Kz.
    destruct (dn_some1 s I (Z.to_nat (l + 1)) l (ep x)) as (p & Vp & M1); [lia|apply T|intros; contradiction|].
    fold d in M1. rewrite Ed in M1 by auto. destruct (Ib p []) as [Q|Q]; [now rewrite app_nil_r| |].
    - specialize (Q [] eq_refl ltac:(constructor)). rewrite app_nil_r in Q. rewrite Q, Cmul_0_r, Cmag2_0 in M1. lra.
    - cbn in Q. rewrite app_nil_r in Q. now rewrite Q, Cmul_1_r in M1. }
  assert (Ed1: forall p, vpath KM l p -> d p = F p) by (intros p Vp; rewrite Ed, K1 by auto; apply Cmul_1_l).
  split; [|split].
  - intros p Vp O. rewrite Ed1 by auto. now apply Io.
  - intros a b' Vp. assert (Vb: forall b'', length b'' = length b' -> Forall (fun i => (i < 4)%nat) b'' -> vpath KM l (a ++ b'')).
    { intros b'' Lb Fb. destruct Vp as [V1 V2]. apply Forall_app in V2. split; [rewrite app_length in *; lia|apply Forall_app; split; [apply V2|exact Fb]]. }
    destruct (Ib a b' Vp) as [Q|Q]; [left|right].
    + intros b'' Lb Fb. rewrite Ed1 by auto. now apply Q.
    + rewrite Ed1; auto. apply Vb; [apply repeat_length|]. apply Forall_forall. intros y Hy. apply repeat_spec in Hy. lia.
  - now rewrite Ed1.
Qed.
(** Without tolerance: exactly these matrices, and zero. *)
Theorem exactly_identity nq s V D l x : reachedR nq s V D -> usr V D KM l x ->
  isCloseToIdentity R0 atan2R x 0%R s = Ok true s <->
  exists c F, idlike l F /\ forall p, vpath KM l p -> entry s KM x p = (c * F p)%C.
Proof.
  intros H U. split; [|intros (c & F & Id & EF); eapply identity_is_accepted; eauto; lra].
  intros E. destruct (usr_t g nb G _ _ _ _ _ _ _ H U) as [Hl T]. destruct (reached_inv _ _ _ _ _ _ _ H) as (I & _ & _).
  destruct (isClose_run s l x 0%R I Hl (te_n _ _ _ _ _ _ _ T) ltac:(lra)) as (b & E' & S & _). assert (b = true) as B by congruence.
  destruct (S B) as [P|Gp].
  - destruct (te_t _ _ _ _ _ _ _ T P) as [->|Z].
    + exists (Cw (co s) (ew x)), (dn (co s) KM (ep x)). split; [apply idlike_m1; reflexivity|reflexivity].
    + exists C0, idm. split.
      * destruct (Z.eq_dec l (-1)) as [->|Nl]; [apply idlike_m1; reflexivity|apply idm_idlike; [lia|auto]].
      * intros p Vp. unfold PropBase.entry, Inv.de. rewrite Z, Cw_zero by exact Logic.I. now rewrite !Cmul_0_l.
  - exists (Cw (co s) (ew x)), (dn (co s) KM (ep x)). split; [|reflexivity]. apply near_id_0.
    pose proof (te_n _ _ _ _ _ _ _ T) as Tn. destruct (ep x) as [| |n]; [contradiction|contradiction|]. cbn [goodp] in Gp. destruct Tn as [_ Tn]. change (qn R0 (co s) KM n) with (nod s KM n) in Tn. now rewrite Tn in Gp.
Qed.

(** * C60 *)
(** The square root of the given probability of the basis state with the number [i]. *)
Definition root_prob (probs : list (Z * R)) (i : Z) : R :=
  match find (fun kp => fst kp =? i) probs with Some kp => sqrt (snd kp) | None => 0%R end.
Lemma prfind_find (probs : list (Z * R)) i : prfind R0 probs i = option_map snd (find (fun kp => fst kp =? i) probs).
Proof. induction probs as [|[k p] l IH]; cbn [prfind find fst]; auto. destruct (k =? i); auto. Qed.
(** Sum over the basis states of [n] qubits. *)
Definition Rsum (f : list nat -> R) (n : nat) : R := fold_right Rplus 0%R (map f (bits n)).
Lemma Rsum_S f n : Rsum f (S n) = (Rsum (fun p => f (0%nat :: p)) n + Rsum (fun p => f (1%nat :: p)) n)%R.
Proof. unfold Rsum. cbn [bits]. now rewrite map_app, rsum_app, !map_map. Qed.
Lemma Rsum_ext f h n : (forall p, In p (bits n) -> f p = h p) -> Rsum f n = Rsum h n.
Proof. intros E. unfold Rsum. f_equal. apply map_ext_in. exact E. Qed.
Lemma Rsum_scale c f n : (c * Rsum f n)%R = Rsum (fun p => c * f p)%R n.
Proof. unfold Rsum. induction (bits n) as [|p r IH]; cbn; [ring|]. rewrite <- IH. ring. Qed.
Lemma Rsum_0 n : Rsum (fun _ => 0%R) n = 0%R.
Proof. unfold Rsum. induction (bits n) as [|p r IH]; cbn; [ring|]. rewrite IH. ring. Qed.

Lemma fidF_sp s probs : inv s -> forall f l e i, tedge R0 g X (co s) KV l e -> -1 <= l < 64 -> l + 2 <= Z.of_nat f -> 0 <= i -> i mod 2 ^ (l + 1) = 0 ->
  ew e <> Czero ->
  fidF R0 f probs e i s = Ok (Rsum (fun p => Cm (de R0 g X (co s) KV e p) * root_prob probs (i + Z.of_nat (vidx p)))%R (Z.to_nat (l + 1))) s.
Proof.
  intros I. induction f as [|f IH]; intros l e i T Hl Hf Hi Mi Nz; [lia|]. cbn [fidF]. unfold bind at 1, get.
  assert (Tw: @nsqrt R0 (wmag2 s (ew e)) = Cm (Cw (co s) (ew e))) by (rewrite wmag2_C by apply T; reflexivity).
  pose proof (te_n _ _ _ _ _ _ _ T) as Tn. destruct (ep e) as [| |n] eqn:P; [contradiction| |].
  - destruct (te_t _ _ _ _ _ _ _ T P) as [->|Z]; [|contradiction]. unfold ret. f_equal. rewrite Tw. cbn. unfold Rsum. cbn. unfold Inv.de, root_prob. rewrite P. cbn [Inv.dn]. rewrite Cmul_1_r, Z.add_0_r.
    change (prfind (NumR 0) probs i) with (prfind R0 probs i). rewrite prfind_find. match goal with |- context [find ?h ?l] => destruct (find h l) end; cbn; ring.
  - destruct Tn as [L Nv]. destruct (linked_ok (nb:=nb) (X:=X) _ _ _ (inv_cinv s I) L) as (b & K & _).
    pose proof (no_v _ _ _ _ _ _ _ _ _ K) as Hn. change (qn R0 (co s) KV n) with (nod s KV n) in *.
    assert (Te: forall j, (j < 2)%nat -> tedge R0 g X (co s) KV (l - 1) (nthe (ne (nod s KV n)) j)).
    { intros j Hj. rewrite <- Nv. apply (child_ok (nb:=nb)); auto. apply I. }
    assert (Br: forall j k, (j < 2)%nat -> 0 <= k -> k mod 2 ^ l = 0 ->
      (if negb (wapx0 s (ew (nthe (ne (nod s KV n)) j))) then fidF R0 f probs (nthe (ne (nod s KV n)) j) k else ret n0) s =
      Ok (Rsum (fun p => Cm (de R0 g X (co s) KV (nthe (ne (nod s KV n)) j) p) * root_prob probs (k + Z.of_nat (vidx p)))%R (Z.to_nat l)) s).
    { intros j k Hj Hk Mk. destruct (wapx0 s (ew (nthe (ne (nod s KV n)) j))) eqn:Wz; cbn [negb].
      - unfold ret. f_equal. transitivity (Rsum (fun _ => 0%R) (Z.to_nat l)); [symmetry; apply Rsum_0|]. apply Rsum_ext. intros p _. unfold Inv.de.
        apply (x_wapx0 (g:=g) (X:=X) s) in Wz; [|exact Logic.I]. rewrite Cv_Cw in Wz by (try exact Logic.I; apply (Te j Hj)). rewrite Wz, Cmul_0_l, Cm_0. cbn. ring.
      - rewrite (IH (l - 1)); auto; try lia; [now replace (l - 1 + 1) with l by lia|now replace (l - 1 + 1) with l by lia|].
        intros Z. assert (wapx0 s (ew (nthe (ne (nod s KV n)) j)) = true); [|congruence]. apply (x_wapx0 (g:=g) (X:=X) s); [exact Logic.I|].
        rewrite Z. rewrite Cv_Cw by (try exact Logic.I; apply wtab_zero). apply Cw_zero. exact Logic.I. }
    assert (M0: i mod 2 ^ l = 0). { apply Z.mod_divide; [lia|]. apply Z.mod_divide in Mi; [|lia]. destruct Mi as [q ->]. exists (2 * q). rewrite Z.pow_add_r by lia. ring. }
    unfold bind at 1. rewrite Br by (auto; lia).
    replace ((0 <=? nv (nod s KV n)) && (nv (nod s KV n) <? 64)) with true by (symmetry; apply andb_true_iff; split; [apply Z.leb_le|apply Z.ltb_lt]; lia). cbn [negb].
    rewrite Nv, Z.shiftl_1_l, lor_pow by (auto; lia). unfold bind. rewrite Br; [|lia|lia|].
    2:{ rewrite <- Z.add_mod_idemp_l, M0 by lia. cbn [Z.add]. apply Z.mod_same. lia. }
    unfold ret. f_equal. cbn [nmul nadd NumR]. rewrite Tw. replace (Z.to_nat (l + 1)) with (S (Z.to_nat l)) by lia. rewrite Rsum_S, Rmult_plus_distr_l, !Rsum_scale.
    f_equal; apply Rsum_ext; intros p Hp; unfold Inv.de; rewrite P; cbn [Inv.dn vidx]; rewrite !Cm_mul; change (qn R0 (co s) KV n) with (nod s KV n).
    + cbn [Nat.mul Nat.add]. ring.
    + replace (i + Z.of_nat (1 * 2 ^ length p + vidx p)) with (i + 2 ^ l + Z.of_nat (vidx p)); [ring|]. apply bits_len in Hp. rewrite Hp. rewrite Nat2Z.inj_add, Nat.mul_1_l, Nat2Z.inj_pow. rewrite Z2Nat.id by lia. cbn. ring.
Qed.
(** The fidelity is the sum of the amplitudes' magnitudes weighted with the roots of the probabilities; states that are
    not listed count as impossible. *)
Theorem outcome_fidelity nq s V D n x probs : reachedR nq s V D -> usr V D KV (Z.of_nat n - 1) x -> (n <= 64)%nat ->
  fidelityOfMeasurementOutcomes R0 x probs s = Ok (Rsum (fun p => Cm (entry s KV x p) * root_prob probs (Z.of_nat (vidx p)))%R n) s.
Proof.
  intros H U Hn. destruct (usr_t g nb G _ _ _ _ _ _ _ H U) as [Hl T]. destruct (reached_inv _ _ _ _ _ _ _ H) as (I & _ & _).
  unfold fidelityOfMeasurementOutcomes. destruct (wapx0 s (ew x)) eqn:Wz.
  - unfold ret. f_equal. transitivity (Rsum (fun _ => 0%R) n); [symmetry; apply Rsum_0|]. apply Rsum_ext. intros p _.
    apply (x_wapx0 (g:=g) (X:=X) s) in Wz; [|exact Logic.I]. rewrite Cv_Cw in Wz by (try exact Logic.I; apply T). unfold PropBase.entry, Inv.de. rewrite Wz, Cmul_0_l, Cm_0. ring.
  - rewrite (fidF_sp s probs I (fuelof R0 s) (Z.of_nat n - 1)); auto; try lia.
    + do 2 f_equal. lia.
    + unfold fuelof. lia.
    + intros Z. assert (wapx0 s (ew x) = true); [|congruence]. apply (x_wapx0 (g:=g) (X:=X) s); [exact Logic.I|].
      rewrite Z. rewrite Cv_Cw by (try exact Logic.I; apply wtab_zero). apply Cw_zero. exact Logic.I.
Qed.

(** * C61 *)
Lemma noident_ext l a b : (forall p, vpath KM l p -> a p = b p) -> noident l a -> noident l b.
Proof.
  intros E N pre m z Hm Pm Fp Nz Q. apply (N pre m z Hm Pm Fp Nz). intros p Vp. rewrite E; [now apply Q|].
  destruct Vp as [L F]. split; [rewrite app_length; lia|apply Forall_app; auto].
Qed.
(** [x] has the identity on [lo] further qubits below. *)
Definition below (lx : Z) (A : list nat -> C) (p : list nat) : C := (A (firstn (Z.to_nat (lx + 1)) p) * idm (skipn (Z.to_nat (lx + 1)) p))%C.
(** [x] has the identity on [h] further qubits above. *)
Definition above (h : Z) (A : list nat -> C) (p : list nat) : C := (idm (firstn (Z.to_nat h) p) * A (skipn (Z.to_nat h) p))%C.
Lemma skipn_vpath k l m p : 0 <= m -> -1 <= l -> vpath k (l + m) p -> vpath k (m - 1) (firstn (Z.to_nat m) p) /\ vpath k l (skipn (Z.to_nat m) p).
Proof.
  intros Hm Hl [L F]. rewrite <- (firstn_skipn (Z.to_nat m) p) in F. apply Forall_app in F. destruct F as [F1 F2]. split; split; auto; [rewrite firstn_length|rewrite skipn_length]; lia.
Qed.
Definition later (V : list edge) (D : denv) (s : st R0) (nq : Z) (V' : list edge) (D' : denv) (s' : st R0) : Prop :=
  reachedR nq s' V' D' /\ (forall k l e, usr V D k l e -> usr V' D' k l e) /\ unchanged g G V D s s'.
Lemma gives_later nq V D s k l r s' f : reachedR nq s V D -> gives g nb G nq V D s k l r s' f ->
  exists V' D', later V D s nq V' D' s' /\ usr V' D' k l r /\ forall p, vpath k l p -> entry s' k r p = f p.
Proof.
  intros H ((f0 & R') & F & U). exists (V ++ [r]), (D ++ [dnew k l f0]). split; [split; [exact R'|split; auto]|].
  - intros k' l' e Ue. eapply usr_app; eauto.
  - split; auto. apply usr_new. eapply reached_len; eauto.
Qed.
Lemma later_trans nq V D s V1 D1 s1 V2 D2 s2 : later V D s nq V1 D1 s1 -> later V1 D1 s1 nq V2 D2 s2 -> later V D s nq V2 D2 s2.
Proof.
  intros (_ & A1 & B1) (R2 & A2 & B2). split; [exact R2|]. split; [intros; auto|]. intros k l e U p Vp. rewrite (B2 k l e) by auto. now apply (B1 k l e).
Qed.
Lemma ident_later nq s V D m : reachedR nq s V D -> 0 < m <= nq ->
  exists r s' V' D', makeIdent R0 g nb 0 (m - 1) s = Ok r s' /\ later V D s nq V' D' s' /\ usr V' D' KM (m - 1) r /\ forall p, vpath KM (m - 1) p -> entry s' KM r p = idm p.
Proof.
  intros H Hm. destruct (makeIdent_is_identity_partial g nb G nq s V D (m - 1) H) as (r & s' & E & Gv); [lia|].
  destruct (gives_later _ _ _ _ _ _ _ _ _ H Gv) as (V' & D' & Lt & U & F). exists r, s', V', D'. split; auto. split; auto. split; auto.
  intros p Vp. rewrite F by auto. symmetry. apply idm_rc. apply Vp.
Qed.
Lemma extend_low nq s V D lx x lo : reachedR nq s V D -> usr V D KM lx x -> 0 <= lo -> lx + lo < nq ->
  lo = 0 \/ noident lx (entry s KM x) \/ (forall p, vpath KM lx p -> entry s KM x p = idm p) ->
  exists f s' V' D', (if 0 <? lo then (let* i := makeIdent R0 g nb 0 (lo - 1) in kronecker R0 g nb KM x i true) else ret x) s = Ok f s' /\
    later V D s nq V' D' s' /\ usr V' D' KM (lx + lo) f /\ forall p, vpath KM (lx + lo) p -> entry s' KM f p = below lx (entry s KM x) p.
Proof.
  intros H U Hlo Hn Hi. destruct (usr_t g nb G _ _ _ _ _ _ _ H U) as [Hl T]. destruct (0 <? lo) eqn:El.
  - apply Z.ltb_lt in El. destruct (ident_later nq s V D lo H) as (i & s1 & V1 & D1 & E1 & Lt1 & U1 & F1); [lia|].
    pose proof Lt1 as (R1 & A1 & B1). unfold bind. rewrite E1.
    destruct (kronecker_matrices_partial g nb G nq s1 V1 D1 lx (lo - 1) x i R1 (A1 _ _ _ U) U1) as (r & s2 & E2 & Gv); [lia| |].
    { destruct Hi as [Hi|[Hi|Hi]]; [lia| |].
      - left. apply (noident_ext lx (entry s KM x)); auto. intros p Vp. symmetry. now apply (B1 KM lx x).
      - right. intros p Vp. rewrite (B1 KM lx x) by auto. now apply Hi. }
    replace (lx + (lo - 1) + 1) with (lx + lo) in Gv by lia.
    destruct (gives_later _ _ _ _ _ _ _ _ _ R1 Gv) as (V2 & D2 & Lt2 & U2 & F2). exists r, s2, V2, D2. split; auto. split; [eapply later_trans; eauto|]. split; auto.
    intros p Vp. rewrite F2 by auto. unfold below. destruct (skipn_vpath KM (lo - 1) (lx + 1) p) as [P1 P2]; [lia|lia|now replace (lo - 1 + (lx + 1)) with (lx + lo) by lia|].
    replace (lx + 1 - 1) with lx in P1 by lia. rewrite (B1 KM lx x) by auto. now rewrite F1.
  - apply Z.ltb_ge in El. assert (lo = 0) by lia. subst lo. exists x, s, V, D. split; [reflexivity|]. split; [split; [exact H|split; auto]|].
    + intros k l e Ue p Vp. reflexivity.
    + rewrite Z.add_0_r. split; auto. intros p Vp. unfold below. assert (Lp: length p = Z.to_nat (lx + 1)) by (apply (InvL.vpath_len KM); auto).
      rewrite <- Lp, firstn_all, skipn_all. cbn. now rewrite Cmul_1_r.
Qed.
(** The identity goes above for every matrix; below only where the Kronecker product is right: see
    [extend_below_refuted]. *)
Theorem extend_partial nq s V D lx x h lo : reachedR nq s V D -> usr V D KM lx x -> 0 <= lo -> 0 <= h -> lx + lo + h < nq ->
  lo = 0 \/ noident lx (entry s KM x) \/ (forall p, vpath KM lx p -> entry s KM x p = idm p) ->
  exists r s' V' D', extend R0 g nb x h lo s = Ok r s' /\ reachedR nq s' V' D' /\ usr V' D' KM (lx + lo + h) r /\ unchanged g G V D s s' /\
    forall p, vpath KM (lx + lo + h) p -> entry s' KM r p = above h (below lx (entry s KM x)) p.
Proof.
  intros H U Hlo Hh Hn Hi. destruct (usr_t g nb G _ _ _ _ _ _ _ H U) as [Hl T].
  destruct (extend_low nq s V D lx x lo H U Hlo ltac:(lia) Hi) as (f & s1 & V1 & D1 & E1 & Lt1 & U1 & F1). pose proof Lt1 as (R1 & A1 & B1).
  unfold extend. unfold bind at 1. 
  match goal with |- context [match ?m with Ok _ _ => _ | Thr _ _ => _ | Bad _ => _ end] => replace m with (Ok f s1) by (symmetry; exact E1) end.
  destruct (0 <? h) eqn:Eh.
  - apply Z.ltb_lt in Eh. destruct (ident_later nq s1 V1 D1 h R1) as (i & s2 & V2 & D2 & E2 & Lt2 & U2 & F2); [lia|].
    pose proof Lt2 as (R2 & A2 & B2). unfold bind. rewrite E2.
    destruct (kronecker_matrices_partial g nb G nq s2 V2 D2 (h - 1) (lx + lo) i f R2 U2 (A2 _ _ _ U1)) as (r & s3 & E3 & Gv); [lia|right; exact F2|].
    replace (h - 1 + (lx + lo) + 1) with (lx + lo + h) in Gv by lia.
    destruct (gives_later _ _ _ _ _ _ _ _ _ R2 Gv) as (V3 & D3 & Lt3 & U3 & F3). exists r, s3, V3, D3. split; auto.
    destruct (later_trans _ _ _ _ _ _ _ _ _ _ (later_trans _ _ _ _ _ _ _ _ _ _ Lt1 Lt2) Lt3) as (R3 & _ & B3). split; auto. split; auto. split; auto.
    intros p Vp. rewrite F3 by auto. replace (h - 1 + 1) with h by lia. unfold above. destruct (skipn_vpath KM (lx + lo) h p) as [P1 P2]; [lia|lia|auto|].
    rewrite F2 by auto. rewrite (B2 KM (lx + lo) f) by auto. now rewrite F1.
  - apply Z.ltb_ge in Eh. assert (h = 0) by lia. subst h. exists f, s1, V1, D1. rewrite Z.add_0_r. split; [reflexivity|]. split; auto. split; auto. split; auto.
    intros p Vp. rewrite F1 by auto. unfold above. cbn. now rewrite Cmul_1_l.
Qed.
End Close.

(** * Examples *)
(** The identity on two qubits is accepted with the tolerance 1/10; [[1, 2], [3i, 4]] is not accepted exactly. *)
Lemma idm_like l : 0 <= l -> idlike l idm.
Proof. intros H. now apply idm_idlike. Qed.
Example close_example : exists s V, reachedR gR nbdef GR 3 s V D0 /\
  isCloseToIdentity R0 atan2R (var V 8) (1 / 10)%R s = Ok true s /\ isCloseToIdentity R0 atan2R (var V 7) 0%R s <> Ok true s.
Proof.
  destruct reached0 as (s & V & H). exists s, V. split; auto. split.
  - apply (identity_is_accepted gR nbdef GR 3 s V D0 1 (var V 8) (1 / 10)%R C1 idm H (usr0_i V)); [lra|apply idm_like; lia|]. intros p Vp. rewrite val_i by auto. now rewrite Cmul_1_l.
  - intros E. apply (exactly_identity gR nbdef GR 3 s V D0 0 (var V 7) H (usr0_m V)) in E. destruct E as (c & F & (Fo & _ & _) & EF).
    pose proof (EF [1]%nat ltac:(vp)) as A. rewrite (Fo [1]%nat ltac:(vp) eq_refl), Cmul_0_r in A. revert A. vals. cval. intros A. injection A. intros. lra.
Qed.
Example near_example : exists s V, reachedR gR nbdef GR 3 s V D0 /\ exists c F, near_id (1 / 10) 1 F /\ forall p, vpath KM 1 p -> entry gR GR s KM (var V 8) p = (c * F p)%C.
Proof.
  destruct reached0 as (s & V & H). exists s, V. split; auto.
  destruct (accepted_is_near_identity gR nbdef GR 3 s V D0 1 (var V 8) (1 / 10)%R H (usr0_i V) ltac:(lra)) as (b & E & A).
  assert (E': isCloseToIdentity R0 atan2R (var V 8) (1 / 10)%R s = Ok true s).
  { apply (identity_is_accepted gR nbdef GR 3 s V D0 1 (var V 8) (1 / 10)%R C1 idm H (usr0_i V)); [lra|apply idm_like; lia|]. intros p Vp. rewrite val_i by auto. now rewrite Cmul_1_l. }
  assert (B: b = true) by congruence. destruct (A B) as (c & F & N & _ & EF); [|exists c, F; auto].
  exists [0; 0]%nat. split; [vp|]. rewrite val_i by (auto; vp). cbn. apply C1_neq_0.
Qed.
(** The result does not depend on the weight of the root edge: 2 I counts as close to the identity, with no tolerance at all. *)
Definition mat2I : list (list (R0 * R0)) := [[(2, 0); (0, 0)]; [(0, 0); (2, 0)]]%R.
Theorem scaled_identity_refuted : exists s V D x, reachedR gR nbdef GR 3 s V D /\ usr V D KM 0 x /\
  isCloseToIdentity R0 atan2R x 0%R s = Ok true s /\ entry gR GR s KM x [0]%nat = RtoC 2.
Proof.
  destruct reached0 as (s & V & H).
  destruct (matrix_round_trip gR nbdef GR 3 s V D0 1 mat2I H) as (r & s' & E & Gv & _); [reflexivity| |lia|].
  { intros row [<-|[<-|[]]]; reflexivity. }
  destruct (gives_later gR nbdef GR _ _ _ _ _ _ _ _ _ H Gv) as (V' & D' & (R' & _ & _) & U & F). change (Z.of_nat 1 - 1) with 0 in *.
  exists s', V', D', r. split; auto. split; auto. split.
  - apply (identity_is_accepted gR nbdef GR 3 s' V' D' 0 r 0%R (RtoC 2) idm R' U); [lra|apply idm_like; lia|].
    intros p Vp. rewrite F by auto. destruct p as [|i [|j p]]; [destruct Vp as [Vl _]; cbn in Vl; lia| |destruct Vp as [Vl _]; cbn [length] in Vl; lia].
    destruct Vp as [_ Vf]. inversion Vf as [|? ? Hi _]; subst. cbn in Hi. destruct i as [|[|[|[|i]]]]; [| | | |lia]; cbn; unfold Cmul, RtoC, C0, C1; cbn; apply f_equal2; lra.
  - rewrite F by vp. reflexivity.
Qed.
(** A small block is compared with the identity although it vanishes within the tolerance. *)
Definition atF (y x : NumF) : NumF := if nltb x n0 then f2 else n0.
Definition fhundredth : NumF := ndiv f1 (nmul (nadd (nadd f2 f2) f1) (nmul (nadd (nadd f2 f2) f1) (nmul f2 f2))).
Definition small_block (e : NumF) : list (list (NumF * NumF)) :=
  [[(f1, f0); (f0, f0); (f0, f0); (f0, f0)]; [(f0, f0); (f1, f0); (f0, f0); (f0, f0)];
   [(f0, f0); (f0, f0); (f0, f0); (e, f0)]; [(f0, f0); (f0, f0); (e, f0); (f0, f0)]].
Definition close_run (m : list (list (NumF * NumF))) (tol : NumF) : option bool :=
  match (let* x := makeDDFromMatrix NumF gF nbdef m in isCloseToIdentity NumF atF x tol) (pkg_init NumF gF 2) with Ok b _ => Some b | _ => None end.
Theorem small_block_refuted : exists e tol, close_run (small_block f0) tol = Some true /\ nltb (nmul e e) tol = true /\ close_run (small_block e) tol = Some false.
Proof. exists (nmul fhundredth fhundredth), fhundredth. split; [|split]; vm_compute; reflexivity. Qed.
(** |0> has the amplitude 1, |2> the amplitude 2; their probabilities are given as 4 and 9: 1 * 2 + 2 * 3. *)
Example outcome_fidelity_example : exists s V, reachedR gR nbdef GR 3 s V D0 /\
  fidelityOfMeasurementOutcomes R0 (var V 1) [(0, 4%R); (2, 9%R)] s = Ok 8%R s.
Proof.
  destruct reached0 as (s & V & H). exists s, V. split; auto. rewrite (outcome_fidelity gR nbdef GR 3 s V D0 2 (var V 1) _ H (usr0_v V)) by lia. f_equal.
  assert (S: forall x, (0 <= x)%R -> sqrt (x * x) = x) by (intros; now apply sqrt_square).
  unfold Rsum. cbn [bits map app fold_right]. rewrite !val_v by (auto; vp). unfold root_prob. cbn [vidx find fst snd length Nat.mul Nat.add Nat.pow Z.of_nat Z.eqb Pos.of_succ_nat Pos.succ Pos.eqb].
  unfold fV, vec1. cbn [vidx length Nat.mul Nat.add Nat.pow nth]. unfold Inv.Cv2, Cm, Cmag2. cbn [fst snd toR].
  replace 4%R with (2 * 2)%R by lra. replace 9%R with (3 * 3)%R by lra. rewrite !S by lra.
  change (toR (XR gR GR) 1%R) with 1%R. change (toR (XR gR GR) 2%R) with 2%R. change (toR (XR gR GR) 0%R) with 0%R.
  replace (1 * 1 + 0 * 0)%R with (1 * 1)%R by lra. replace (2 * 2 + 0 * 0)%R with (2 * 2)%R by lra. rewrite !S by lra. lra.
Qed.
(** [[1, 2], [3i, 4]] with the identity above and below. *)
Example extend_example : exists s V r s', reachedR gR nbdef GR 3 s V D0 /\
  extend R0 gR nbdef (var V 7) 1 1 s = Ok r s' /\ entry gR GR s' KM r [3; 2; 0]%nat = (0, 3)%R /\ entry gR GR s' KM r [3; 2; 1]%nat = C0.
Proof.
  destruct reached0 as (s & V & H).
  destruct (extend_partial gR nbdef GR 3 s V D0 0 (var V 7) 1 1 H (usr0_m V)) as (r & s' & V' & D' & E & _ & _ & _ & F); [lia|lia|lia|right; left; now apply noident_m|].
  exists s, V, r, s'. split; auto. split; auto. split; rewrite F by vp; unfold above, below; change (Z.to_nat 1) with 1%nat; change (Z.to_nat (0 + 1)) with 1%nat; cbn [firstn skipn]; vals; cval.
Qed.
(** Below, the factor of 2 I is lost. *)
Theorem extend_below_refuted : exists m, mentry m 0 0 = (f2, f0) /\
  match (let* x := makeDDFromMatrix NumF gF nbdef m in let* r := extend NumF gF nbdef x 0 1 in getValueM NumF gF r 0 0) (pkg_init NumF gF 2) with
  | Ok v _ => v = (f1, f0) | _ => False end.
Proof. exists (PropRefute.diag f2). split; vm_compute; reflexivity. Qed.

Print Assumptions accepted_is_near_identity.
Print Assumptions identity_is_accepted.
Print Assumptions exactly_identity.
Print Assumptions scaled_identity_refuted.
Print Assumptions small_block_refuted.
Print Assumptions outcome_fidelity.
Print Assumptions extend_partial.
Print Assumptions extend_below_refuted.
