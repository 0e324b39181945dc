(** Measurement: probabilities, sampling and collapse, in every reachable state, in exact
    arithmetic (C34-C36). *)
From Coq Require Import ZArith List Bool Lia Arith Reals Lra.
From Verif Require Import Num Base CTable CTableWf Cx State Pkg Control Gate Meas Inv InvL PrimL NormL MkL TrL AddL MulL CanonL IdentL StateL TraceL GateL GateAct DelL MeasL SampL Run Inst PropBase PropSem PropRefute.
Import ListNotations.
Local Open Scope Z_scope.

(** Squared norm of the vector [a] on [n] qubits; the probability of digit [b] at qubit [q] times it. *)
Definition norm2 (n : nat) (a : list nat -> C) : R := fold_right Rplus 0%R (map (fun p => Cmag2 (a p)) (bits n)).
Definition prob (n : nat) (a : list nat -> C) (q : Z) (b : nat) : R :=
  fold_right Rplus 0%R (map (fun p => if Nat.eqb (dig q p) b then Cmag2 (a p) else 0%R) (bits n)).
Lemma prob_proj n a q b : prob n a q b = nrm2 n (proj q b a).
Proof. unfold prob, nrm2. f_equal. apply map_ext. intros p. unfold proj. destruct (Nat.eqb _ _); auto. now rewrite Cmag2_0. Qed.
Lemma prob_sum n a q : 0 <= q < Z.of_nat n -> (prob n a q 0 + prob n a q 1)%R = norm2 n a.
Proof. intros H. rewrite !prob_proj. now apply proj_sum. Qed.

Section MeasP.
Context (g : cfg R0) (nb : kind -> Z) (G : gok g).
Local Notation X := (XR g G).
Local Notation entry := (entry g G).
Local Notation reachedR := (reachedR g nb G).
Local Notation unchanged := (unchanged g G).
Local Notation co := (co R0).

(** All diagrams the user may use, with their entries in [s]. *)
Definition full (s : st R0) (V : list edge) (D : denv) : denv :=
  map (fun x => match fst x with Some v => Some (DV (dk v) (dl v) (dc v) (Some (entry s (dk v) (snd x)))) | None => None end) (combine D V).
Lemma claim_app : forall A v D f, claim (A ++ Some v :: D) (length A) f = A ++ Some (DV (dk v) (dl v) (dc v) f) :: D.
Proof. induction A as [|x A IH]; intros v D f; [now destruct v|]. cbn [app length claim]. now rewrite IH. Qed.
Lemma full_reached nq s V D : reachedR nq s V D -> reachedR nq s V (full s V D).
Proof.
  intros H. pose proof (reached_len _ _ _ _ _ _ _ H) as L.
  assert (Gn: forall D2 V2 D1 V1, length D1 = length V1 -> length D2 = length V2 -> V = V1 ++ V2 -> reachedR nq s V (D1 ++ D2) -> reachedR nq s V (D1 ++ full s V2 D2)).
  { clear. induction D2 as [|x D2 IH]; intros [|e V2] D1 V1 L1 L2 EV H; cbn [length] in L2; try lia; auto.
    unfold full. cbn [combine map fst snd]. fold (full s V2 D2).
    set (x' := match x with Some v => Some (DV (dk v) (dl v) (dc v) (Some (entry s (dk v) e))) | None => None end).
    replace (D1 ++ x' :: full s V2 D2) with ((D1 ++ [x']) ++ full s V2 D2) by (now rewrite <- app_assoc).
    apply (IH V2 (D1 ++ [x']) (V1 ++ [e])); [rewrite !app_length; cbn; lia|lia|now rewrite <- app_assoc|]. rewrite <- app_assoc. cbn [app].
    destruct x as [v|]; [|exact H]. unfold x'. rewrite <- claim_app.
    assert (Ev: var V (length D1) = e) by (subst V; unfold var; rewrite L1, app_nth2, Nat.sub_diag by lia; reflexivity).
    eapply (rc_claim (X:=X) nq s V _ (length D1) (dk v) (dl v) (df v)); [exact H|exact Logic.I| |].
    - exists (dc v). rewrite nth_error_app2, Nat.sub_diag by lia. now destruct v.
    - rewrite Ev. intros h [= <-] p _. reflexivity. }
  apply (Gn D V [] []); auto.
Qed.
Lemma full_nth s : forall V D i k l c f, length D = length V -> nth_error D i = Some (Some (DV k l c f)) -> nth_error (full s V D) i = Some (Some (DV k l c (Some (entry s k (var V i))))).
Proof.
  intros V D. revert V. induction D as [|x D IH]; intros [|e V] [|i] k l c f L E; cbn [length] in L; try lia; try discriminate.
  - cbn in E. injection E as ->. reflexivity.
  - cbn [nth_error] in E. apply (IH V i k l c f) in E; [|lia]. exact E.
Qed.
Lemma full_live s V D i k l f : length D = length V -> live D i k l f -> live (full s V D) i k l (Some (entry s k (var V i))).
Proof. intros L (c & E). exists c. eapply full_nth; eauto. Qed.
(** One call from a reachable state. *)
Lemma call nq s V D c D' os : reachedR nq s V D -> dstep (X:=X) nq (full s V D) c D' os ->
  exists V' outs s', exec R0 g nb c V s = Ok (V', outs) s' /\ reachedR nq s' V' D' /\ Forall2 (outok (X:=X)) outs os.
Proof.
  intros H Ds. pose proof (full_reached _ _ _ _ H) as H1.
  pose proof (exec_sp G [] nq s V _ _ _ _ (fun _ => eq_refl) (reached_sim G _ _ _ _ H1) Ds) as W.
  destruct (wp_ok g G _ s _ _ (al1_1 g G) W) as ([V' outs] & s' & E & _ & F & _).
  exists V', outs, s'. split; auto. eapply reached_exec; eauto.
Qed.
Lemma upde_live : forall D i c j k l f, live D j k l f -> live (upde D i c) j k l f.
Proof.
  induction D as [|x D IH]; intros [|i] c [|j] k l f (n & E); try discriminate; cbn in E.
  - injection E as ->. eexists. reflexivity.
  - destruct x; eexists; exact E.
  - destruct x; eexists; exact E.
  - destruct (IH i c j k l f (ex_intro _ n E)) as (m & Em). destruct x; eexists; exact Em.
Qed.

(** * C34 *)
(** For every vector other than zero; [norm] says whether the code may assume that the vectors
    below each node have norm one. *)
Theorem measurement_probabilities nq s V D l x q norm p : reachedR nq s V D -> usr V D KV l x -> vpath KV l p -> entry s KV x p <> C0 -> 0 <= q <= l ->
  measureProbs R0 x q norm s = Ok (prob (Z.to_nat (l + 1)) (entry s KV x) q 0, prob (Z.to_nat (l + 1)) (entry s KV x) q 1) s.
Proof.
  intros H Hx Vp Np Hq. destruct (usr_t _ _ _ _ _ _ _ _ _ _ H Hx) as [L Tx]. destruct (reached_inv _ _ _ _ _ _ _ H) as (I & Ow & Q).
  destruct (measureProbs_sp (g:=g) (nb:=nb) (X:=X) Logic.I s l x q norm I Tx) as (u & v & E & Eu & Ev); auto.
  { intros Z. apply Np. unfold PropBase.entry, Inv.de. rewrite Z, Cw_zero by exact Logic.I. ring. }
  rewrite E, !prob_proj. change (toR X u) with u in Eu. change (toR X v) with v in Ev. now rewrite Eu, Ev.
Qed.

(** * C35 *)
(** Every run of measureAll returns an outcome with nonzero amplitude. *)
Theorem sampling_nonzero nq s V D l x eps ts p : reachedR nq s V D -> usr V D KV l x -> vpath KV l p -> entry s KV x p <> C0 -> (0 <= eps)%R ->
  (Z.to_nat (l + 1) <= length ts)%nat -> Forall (fun t => (0 <= t < 1)%R) ts ->
  exists bs, measureAll R0 g nb eps x false ts s = Ok (bs, x) s /\ length bs = Z.to_nat (l + 1) /\ entry s KV x (map b2n bs) <> C0.
Proof.
  intros H Hx Vp Np He Lt Ft. destruct (usr_t _ _ _ _ _ _ _ _ _ _ H Hx) as [L Tx]. destruct (reached_inv _ _ _ _ _ _ _ H) as (I & Ow & Q).
  assert (Nz: ew x <> Czero) by (intros Z; apply Np; unfold PropBase.entry, Inv.de; rewrite Z, Cw_zero by exact Logic.I; ring).
  destruct (measureAll_draw (g:=g) (nb:=nb) (X:=X) Logic.I s eps l x ts) as (B1 & B2 & B3 & B4); auto; [lia|].
  exists (dsample (Z.to_nat (l + 1)) (entry s KV x) (map (toR X) ts)). split; [|split].
  - unfold measureAll, bind, get, ret. now rewrite B3, andb_false_r, B2, B1, B4.
  - apply dsample_len. now rewrite map_length.
  - apply dsample_nz; [now rewrite map_length|cbn; now rewrite map_id|]. intros Z. apply Np. destruct Vp as [Lp Fp].
    assert (Ib: In p (bits (Z.to_nat (l + 1)))) by (apply bits_all; [lia|exact Fp]). clear - Z Ib. unfold nrm2 in Z.
    induction (bits (Z.to_nat (l + 1))) as [|q r IH]; [destruct Ib|]. cbn [map fold_right] in Z.
    assert (0 <= fold_right Rplus 0%R (map (fun p => Cmag2 (entry s KV x p)) r))%R by (clear; induction r as [|y r IH]; cbn [map fold_right]; [lra|]; pose proof (Cmag2_nonneg (entry s KV x y)); lra).
    pose proof (Cmag2_nonneg (entry s KV x q)). destruct Ib as [<-|Ib]; [apply Cmag2_zero; lra|apply IH; auto; lra].
Qed.
(** The thresholds that lead to the outcome [bs] form a box whose volume is the probability of [bs]. *)
Theorem sampling_born nq s V D l x eps p bs : reachedR nq s V D -> usr V D KV l x -> vpath KV l p -> entry s KV x p <> C0 -> (0 <= eps)%R -> length bs = Z.to_nat (l + 1) ->
  exists I : list (R * R), length I = Z.to_nat (l + 1) /\ Forall (fun i => (0 <= fst i <= snd i)%R /\ (snd i <= 1)%R) I /\
    fold_right Rmult 1%R (map (fun i => (snd i - fst i)%R) I) = (Cmag2 (entry s KV x (map b2n bs)) / norm2 (Z.to_nat (l + 1)) (entry s KV x))%R /\
    forall ts, length ts = Z.to_nat (l + 1) -> Forall (fun t => (0 <= t < 1)%R) ts ->
      (measureAll R0 g nb eps x false ts s = Ok (bs, x) s <-> Forall2 (fun t i => (fst i <= t < snd i)%R) ts I).
Proof.
  intros H Hx Vp Np He Lb. destruct (usr_t _ _ _ _ _ _ _ _ _ _ H Hx) as [L Tx]. destruct (reached_inv _ _ _ _ _ _ _ H) as (I & Ow & Q).
  assert (Nz: ew x <> Czero) by (intros Z; apply Np; unfold PropBase.entry, Inv.de; rewrite Z, Cw_zero by exact Logic.I; ring).
  destruct (dsample_box (Z.to_nat (l + 1)) (entry s KV x) bs) as (J & J1 & J2 & J3 & J4); auto.
  { intros Z. apply Np. destruct Vp as [Lp Fp].
    assert (Ib: In p (bits (Z.to_nat (l + 1)))) by (apply bits_all; [lia|exact Fp]). clear - Z Ib. unfold nrm2 in Z.
    induction (bits (Z.to_nat (l + 1))) as [|q r IH]; [destruct Ib|]. cbn [map fold_right] in Z.
    assert (0 <= fold_right Rplus 0%R (map (fun p => Cmag2 (entry s KV x p)) r))%R by (clear; induction r as [|y r IH]; cbn [map fold_right]; [lra|]; pose proof (Cmag2_nonneg (entry s KV x y)); lra).
    pose proof (Cmag2_nonneg (entry s KV x q)). destruct Ib as [<-|Ib]; [apply Cmag2_zero; lra|apply IH; auto; lra]. }
  exists J. split; auto. split; auto. split; auto. intros ts Lt Ft. rewrite <- J4 by auto.
  destruct (measureAll_draw (g:=g) (nb:=nb) (X:=X) Logic.I s eps l x ts) as (B1 & B2 & B3 & B4); auto; [lia|exact (Nat.eq_le_incl _ _ (eq_sym Lt))|].
  assert (E: measureAll R0 g nb eps x false ts s = Ok (dsample (Z.to_nat (l + 1)) (entry s KV x) (map (toR X) ts), x) s).
  { unfold measureAll, bind, get, ret. now rewrite B3, andb_false_r, B2, B1, B4. }
  rewrite E. cbn. rewrite map_id. split; [now intros [= ->]|now intros ->].
Qed.

(** The collapse: [x], held with a reference, is replaced by the basis state of the outcome; the call
    ends with a garbage collection, so only referenced diagrams remain usable. *)
Theorem sampling_collapse nq s V D l i c f eps ts p : reachedR nq s V D -> nth_error D i = Some (Some (DV KV l (S c) f)) -> vpath KV l p -> entry s KV (var V i) p <> C0 -> (0 <= eps)%R ->
  (Z.to_nat (l + 1) <= length ts)%nat -> Forall (fun t => (0 <= t < 1)%R) ts ->
  exists bs r s' D', measureAll R0 g nb eps (var V i) false ts s = Ok (bs, var V i) s /\
    measureAll R0 g nb eps (var V i) true ts s = Ok (bs, r) s' /\ reachedR nq s' (V ++ [r]) D' /\ referenced (V ++ [r]) D' KV l r /\
    (forall p, vpath KV l p -> entry s' KV r p = if list_eq_dec Nat.eq_dec p (map b2n bs) then C1 else C0) /\
    (forall j k m c' f', nth_error D j = Some (Some (DV k m (S c') f')) -> (j = i -> 0 < c')%nat -> forall p, vpath k m p -> entry s' k (var V j) p = entry s k (var V j) p).
Proof.
  intros H E0 Vp Np He Lt Ft. pose proof (reached_len _ _ _ _ _ _ _ H) as LD.
  assert (U: usr V D KV l (var V i)) by (exists i, f; split; [eexists; eauto|auto]).
  destruct (usr_t _ _ _ _ _ _ _ _ _ _ H U) as [L Tx].
  destruct (reached_inv _ _ _ _ _ _ _ H) as (I & Ow & Q).
  assert (Nz: ew (var V i) <> Czero) by (intros Z; apply Np; unfold PropBase.entry, Inv.de; rewrite Z, Cw_zero by exact Logic.I; ring).
  destruct (measureAll_draw (g:=g) (nb:=nb) (X:=X) Logic.I s eps l (var V i) ts) as (B1 & B2 & B3 & B4); auto; [lia|].
  set (bs := dsample (Z.to_nat (l + 1)) (entry s KV (var V i)) (map (toR X) ts)).
  destruct (call nq s V D (@IMeasAll R0 i true eps ts) _ _ H (d_measall (X:=X) nq (full s V D) l i c (entry s KV (var V i)) p eps ts bs Logic.I (full_nth _ _ _ _ _ _ _ _ LD E0) Vp Np He Lt Ft eq_refl)) as (V' & outs & s' & E & R' & F).
  cbn [exec] in E. unfold bind at 1 in E. destruct (measureAll R0 g nb eps (var V i) true ts s) as [[bs' r] s1| |] eqn:Em; try discriminate. cbn in E. injection E as <- <- <-.
  inversion_clear F as [|o d os ds Fo Fr]. specialize (Fo Logic.I). cbn in Fo. injection Fo as ->.
  set (D' := kept (upde (full s V D) i pred) ++ [Some (DV KV l 1 (Some (delta (map b2n bs))))]) in *.
  assert (LF: length (full s V D) = length V) by (unfold full; rewrite map_length, combine_length; lia).
  assert (LK: length (kept (upde (full s V D) i pred)) = length V) by (unfold kept; now rewrite map_length, upde_len).
  exists bs, r, s1, D'. split; [|split; [auto|split; [auto|split; [|split]]]].
  - unfold measureAll, bind, get, ret. now rewrite B3, andb_false_r, B2, B1, B4.
  - exists (length V), 0%nat, (Some (delta (map b2n bs))). unfold D'. rewrite nth_error_app2, LK, Nat.sub_diag by lia. split; auto. apply var_last.
  - intros p0 Vp0. rewrite <- (var_last V r) at 1. apply (usr_entry g nb G nq s1 (V ++ [r]) D' (length V) KV l (delta (map b2n bs)) R'); auto.
    exists 1%nat. unfold D'. rewrite nth_error_app2, LK, Nat.sub_diag by lia. reflexivity.
  - intros j k m c' f' Ej Hj p0 Vp0. assert (Lj: (j < length V)%nat) by (rewrite <- LD; apply nth_error_Some; congruence).
    rewrite <- (var_app V r j) by auto. rewrite (var_app V r j) at 2 by auto.
    apply (usr_entry g nb G nq s1 (V ++ [r]) D' j k m _ R'); auto. unfold D'. pose proof (full_nth s _ _ _ _ _ _ _ LD Ej) as Fj.
    destruct (Nat.eq_dec j i) as [->|Ne].
    + specialize (Hj eq_refl). exists (pred (S c')). rewrite nth_error_app1 by lia. unfold kept. rewrite nth_error_map. erewrite upde_nth by exact Fj. cbn [dk dl dc df option_map pred].
      destruct c'; [lia|reflexivity].
    + exists (S c'). rewrite nth_error_app1 by lia. unfold kept. rewrite nth_error_map.
      replace (nth_error (upde (full s V D) i pred) j) with (nth_error (full s V D) j); [rewrite Fj; reflexivity|].
      clear - Ne. revert i j Ne. induction (full s V D) as [|x A IH]; intros [|i] [|j] Ne; cbn; auto; try congruence; destruct x; cbn; auto.
Qed.

(** * C36 *)
(** [t] is the random number; the code checks that the norm is one up to [eps].  The qubit count is
    limited by the gate construction (C30). *)
Theorem collapsing_measurement nq s V D l i c f q norm eps t : reachedR nq s V D -> nth_error D i = Some (Some (DV KV l (S c) f)) ->
  0 <= q <= l -> l < 128 -> (0 <= t < 1)%R ->
  let n := Z.to_nat (l + 1) in let a := entry s KV (var V i) in
  (0 < norm2 n a)%R -> (Rabs (norm2 n a - 1) <= eps)%R ->
  let b := if Rlt_dec t (prob n a q 0 / norm2 n a) then false else true in
  exists r s' D', measureOne R0 g nb eps (var V i) q norm t s = Ok (b, r) s' /\ reachedR nq s' (V ++ [r]) D' /\ referenced (V ++ [r]) D' KV l r /\
    (0 < prob n a q (b2n b))%R /\
    (forall p, vpath KV l p -> entry s' KV r p = if Nat.eqb (dig q p) (b2n b) then (RtoC (1 / sqrt (prob n a q (b2n b))) * a p)%C else C0) /\
    unchanged V D s s'.
Proof.
  intros H E0 Hq Hl Ht n a Hn He b. pose proof (reached_len _ _ _ _ _ _ _ H) as LD.
  assert (Pb: (0 < prob n a q (b2n b))%R).
  { assert (Sm: (prob n a q 0 + prob n a q 1)%R = norm2 n a) by (apply prob_sum; unfold n; lia).
    assert (P0: (0 <= prob n a q 0)%R) by (rewrite prob_proj; apply nrm2_nonneg). assert (P1: (0 <= prob n a q 1)%R) by (rewrite prob_proj; apply nrm2_nonneg).
    unfold b. destruct Rlt_dec as [Lt|Ge]; cbn [b2n].
    - apply Rnot_le_lt. intros Z. assert (Z0: prob n a q 0 = 0%R) by lra. rewrite Z0 in Lt. unfold Rdiv in Lt. rewrite Rmult_0_l in Lt. lra.
    - apply Rnot_le_lt. intros Z. apply Ge. assert (Z0: prob n a q 0 = norm2 n a) by lra. rewrite Z0. unfold Rdiv. rewrite Rinv_r by lra. lra. }
  assert (Ds: dstep (X:=X) nq (full s V D) (@IMeasOne R0 i q norm eps t)
        (upde (full s V D) i pred ++ [Some (DV KV l 1 (Some (fun p => (RtoC (1 / sqrt (nrm2 n (proj q (b2n b) a))) * proj q (b2n b) a p)%C)))]) [Some (DB [b])]).
  { apply (d_meas1 (X:=X) nq (full s V D) l i c a q norm eps t b Logic.I); auto. apply (full_nth _ _ _ _ _ _ _ _ LD E0). unfold b. rewrite prob_proj. reflexivity. }
  destruct (call nq s V D _ _ _ H Ds) as (V' & outs & s' & E & R' & F).
  cbn [exec] in E. unfold bind at 1 in E. destruct (measureOne R0 g nb eps (var V i) q norm t s) as [[b' r] s1| |] eqn:Em; try discriminate. cbn in E. injection E as <- <- <-.
  inversion_clear F as [|o d os ds Fo Fr]. specialize (Fo Logic.I). cbn in Fo. injection Fo as ->.
  set (D' := upde (full s V D) i pred ++ _) in *.
  assert (LF: length (full s V D) = length V) by (unfold full; rewrite map_length, combine_length; lia).
  assert (LK: length (upde (full s V D) i pred) = length V) by (now rewrite upde_len).
  exists r, s1, D'. split; [reflexivity|split; [auto|split; [|split; [auto|split]]]].
  - eexists (length V), 0%nat, _. unfold D'. rewrite nth_error_app2, LK, Nat.sub_diag by lia. split; [reflexivity|]. apply var_last.
  - intros p0 Vp0. rewrite <- (var_last V r) at 1. rewrite (usr_entry g nb G nq s1 (V ++ [r]) D' (length V) KV l (fun p => (RtoC (1 / sqrt (nrm2 n (proj q (b2n b) a))) * proj q (b2n b) a p)%C) R'); auto.
    2:{ exists 1%nat. unfold D'. rewrite nth_error_app2, LK, Nat.sub_diag by lia. reflexivity. }
    cbv beta. rewrite prob_proj. unfold proj at 2. destruct (Nat.eqb _ _); [reflexivity|ring].
  - intros k m e (j & fj & Lj & <-) p0 Vp0. assert (Hj: (j < length V)%nat) by (rewrite <- LD; now apply live_lt in Lj).
    rewrite <- (var_app V r j) at 1 by auto.
    apply (usr_entry g nb G nq s1 (V ++ [r]) D' j k m _ R'); auto. unfold D'. apply live_app, upde_live. eapply full_live; eauto.
Qed.
End MeasP.

(** ** Example: the state (3/5, 4i/5), held with one reference *)
Definition vec3 : list (R0 * R0) := [(3 / 5, 0); (0, 4 / 5)]%R.
Definition prog3 : list (ins R0) := [@IVec R0 vec3; IInc KV 0].
Definition fQ : list nat -> C := fun p => Cv2 R0 gR (XR gR GR) (nth (vidx p) vec3 (n0, n0)).
Definition D3 : denv := [Some (DV KV 0 1 (Some fQ))].
Lemma reached3 : exists s V, reachedR gR nbdef GR 2 s V D3.
Proof.
  destruct (runs gR nbdef GR 2 prog3 D3 []) as (s & V & outs & _ & H & _); [lia|apply nbdef_pos| |eauto].
  unfold prog3. change (@nil (option dout)) with ([] ++ [] ++ @nil (option dout)).
  eapply dr_cons; [apply (d_vec (N:=R0) 2 _ 1 vec3); [reflexivity|cbn; lia]|].
  eapply dr_cons; [eapply d_inc; exists 0%nat; reflexivity|]. apply dr_nil.
Qed.
Lemma usr3 V : usr V D3 KV 0 (var V 0).
Proof. exists 0%nat, (Some fQ). split; auto. exists 1%nat. reflexivity. Qed.
Lemma val3 s V : reachedR gR nbdef GR 2 s V D3 -> entry gR GR s KV (var V 0) [0]%nat = (3 / 5, 0)%R /\ entry gR GR s KV (var V 0) [1]%nat = (0, 4 / 5)%R.
Proof.
  intros H. assert (L: live D3 0 KV 0 (Some fQ)) by (exists 1%nat; reflexivity).
  split; rewrite (usr_entry gR nbdef GR 2 s V D3 0 KV 0 fQ H L) by vp; reflexivity.
Qed.
Lemma probs3 s V : reachedR gR nbdef GR 2 s V D3 -> prob 1 (entry gR GR s KV (var V 0)) 0 0 = (9 / 25)%R /\ prob 1 (entry gR GR s KV (var V 0)) 0 1 = (16 / 25)%R /\
  norm2 1 (entry gR GR s KV (var V 0)) = 1%R.
Proof.
  intros H. destruct (val3 s V H) as [A B]. unfold prob, norm2. cbn [bits map app fold_right]. change (dig 0 [0%nat]) with 0%nat. change (dig 0 [1%nat]) with 1%nat. cbn [Nat.eqb].
  rewrite A, B. unfold Cmag2. cbn [fst snd]. repeat split; field.
Qed.
Lemma nz3 s V : reachedR gR nbdef GR 2 s V D3 -> entry gR GR s KV (var V 0) [0]%nat <> C0.
Proof. intros H. rewrite (proj1 (val3 s V H)). intros [= E]. lra. Qed.

Example measurement_probabilities_example : exists s V, reachedR gR nbdef GR 2 s V D3 /\
  measureProbs R0 (var V 0) 0 true s = Ok ((9 / 25)%R, (16 / 25)%R) s /\ measureProbs R0 (var V 0) 0 false s = Ok ((9 / 25)%R, (16 / 25)%R) s.
Proof.
  destruct reached3 as (s & V & H). exists s, V. split; auto. destruct (probs3 s V H) as (P0 & P1 & _).
  split; rewrite (measurement_probabilities gR nbdef GR 2 s V D3 0 (var V 0) 0 _ [0]%nat H (usr3 V)); try (now apply nz3); try lia; try vp; change (Z.to_nat (0 + 1)) with 1%nat; now rewrite P0, P1.
Qed.
(** With the threshold 1/2 the outcome is 1. *)
Example sampling_example : exists s V r s' D', reachedR gR nbdef GR 2 s V D3 /\
  measureAll R0 gR nbdef 0%R (var V 0) true [(1 / 2)%R] s = Ok ([true], r) s' /\ reachedR gR nbdef GR 2 s' (V ++ [r]) D' /\ entry gR GR s' KV r [1]%nat = C1.
Proof.
  destruct reached3 as (s & V & H). destruct (val3 s V H) as [A B].
  destruct (sampling_collapse gR nbdef GR 2 s V D3 0 0 0 (Some fQ) 0%R [(1 / 2)%R] [0]%nat H) as (bs & r & s' & D' & E1 & E2 & R' & _ & F & _); [reflexivity|vp|now apply nz3|lra|cbn; lia|repeat constructor; lra|].
  destruct (sampling_born gR nbdef GR 2 s V D3 0 (var V 0) 0%R [0]%nat bs H (usr3 V)) as (I & I1 & I2 & I3 & I4); [vp|now apply nz3|lra| |].
  { destruct (sampling_nonzero gR nbdef GR 2 s V D3 0 (var V 0) 0%R [(1 / 2)%R] [0]%nat H (usr3 V)) as (bs' & E' & Lb & _); [vp|now apply nz3|lra|cbn; lia|repeat constructor; lra|].
    rewrite E1 in E'. now injection E' as <-. }
  assert (Eb: bs = [true]); [|subst bs; exists s, V, r, s', D'; split; auto; split; auto; split; auto; rewrite F by vp; reflexivity].
  destruct (measureAll_draw (g:=gR) (nb:=nbdef) (X:=XR gR GR) Logic.I s 0%R 0 (var V 0) [(1 / 2)%R]) as (B1 & B2 & B3 & B4).
  { apply (reached_inv _ _ _ _ _ _ _ H). } { cbn. lra. } { lia. } { apply (usr_t _ _ _ _ _ _ _ _ _ _ H (usr3 V)). }
  { intros Z. apply (nz3 s V H). unfold PropBase.entry, Inv.de. rewrite Z, Cw_zero by exact Logic.I. ring. } { cbn. lia. } { repeat constructor; cbn; lra. }
  unfold measureAll, bind, get, ret in E1. rewrite B3, andb_false_r, B2, B1, B4 in E1. injection E1 as <-. change (Z.to_nat (0 + 1)) with 1%nat. cbn [map dsample].
  destruct (probs3 s V H) as (P0 & P1 & P2). unfold norm2 in P2. destruct Rlt_dec as [Lt|]; [|reflexivity]. exfalso. revert Lt.
  change (nrm2 1 (de R0 gR (XR gR GR) (co R0 s) KV (var V 0))) with (fold_right Rplus 0%R (map (fun p => Cmag2 (entry gR GR s KV (var V 0) p)) (bits 1))). rewrite P2.
  unfold nrm2. cbn [bits map fold_right]. change (de R0 gR (XR gR GR) (co R0 s) KV (var V 0) [0%nat]) with (entry gR GR s KV (var V 0) [0%nat]). rewrite A. unfold Cmag2. cbn. lra.
Qed.
(** Measuring qubit 0 with t = 1/2 yields 1 and the state i |1>. *)
Example collapsing_measurement_example : exists s V r s' D', reachedR gR nbdef GR 2 s V D3 /\
  measureOne R0 gR nbdef 0%R (var V 0) 0 true (1 / 2)%R s = Ok (true, r) s' /\ reachedR gR nbdef GR 2 s' (V ++ [r]) D' /\
  entry gR GR s' KV r [1]%nat = (0, 1)%R /\ entry gR GR s' KV r [0]%nat = C0.
Proof.
  destruct reached3 as (s & V & H). destruct (val3 s V H) as [A B]. destruct (probs3 s V H) as (P0 & P1 & P2).
  pose proof (collapsing_measurement gR nbdef GR 2 s V D3 0 0 0 (Some fQ) 0 true 0%R (1 / 2)%R H eq_refl ltac:(lia) ltac:(lia) ltac:(lra)) as W.
  cbv zeta in W. change (Z.to_nat (0 + 1)) with 1%nat in W. rewrite P0, P2 in W.
  destruct W as (r & s' & D' & E & R' & _ & _ & F & _); [lra|rewrite Rminus_eq_0, Rabs_R0; lra|].
  destruct Rlt_dec as [Lt|_] in E, F; [exfalso; lra|]. cbn [b2n] in F. rewrite P1 in F.
  exists s, V, r, s', D'. split; auto. split; auto. split; auto. split; rewrite F by vp; [|reflexivity]. change (dig 0 [1%nat]) with 1%nat. cbn [Nat.eqb]. rewrite B.
  assert (Sq: sqrt (16 / 25) = (4 / 5)%R) by (replace (16 / 25)%R with ((4 / 5) * (4 / 5))%R by field; apply sqrt_square; lra).
  rewrite Sq. unfold Cmul, RtoC. cbn. apply f_equal2; field.
Qed.

(** The probabilities of the zero vector, or of a qubit above the root, cannot be asked for: the queue
    runs empty and front() is called on it (Package.hpp:1188-1190). *)
Theorem measurement_probabilities_zero_refuted : exists v : list (NumF * NumF), length v = 2%nat /\
  run NumF gF nbdef [IVec v; IProbs 0 0 true] [] (pkg_init NumF gF 1) = Bad BadNull.
Proof. exists [(f0, f0); (f0, f0)]. split; [reflexivity|]. apply watch_bad. vm_compute. reflexivity. Qed.
Theorem measurement_probabilities_range_refuted : exists v : list (NumF * NumF), length v = 2%nat /\
  run NumF gF nbdef [IVec v; IProbs 0 1 true] [] (pkg_init NumF gF 2) = Bad BadNull.
Proof. exists [(f1, f0); (f0, f0)]. split; [reflexivity|]. apply watch_bad. vm_compute. reflexivity. Qed.

Print Assumptions measurement_probabilities.
Print Assumptions sampling_nonzero.
Print Assumptions sampling_born.
Print Assumptions sampling_collapse.
Print Assumptions collapsing_measurement.
Print Assumptions measurement_probabilities_zero_refuted.
Print Assumptions measurement_probabilities_range_refuted.
