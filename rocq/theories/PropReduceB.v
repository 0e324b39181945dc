(** Reduction of ancillary and garbage qubits where it is exact (C62-C64): matrices whose entries are zero
    or one fixed value, such as permutation matrices, and multiples of basis states. *)
From Coq Require Import ZArith List Bool Lia Arith Reals Lra.
From Verif Require Import Num Base CTable CTableWf Cx State Pkg Control Gate Meas Reduce Close Inv InvL PrimL NormL MkL TrL AddL MulL CanonL IdentL StateL TraceL GateL GateAct DelL MeasL SampL ReduceL ReduceB Run Inst PropBase PropSem PropRefute PropMeas PropReduce PropClose.
Import ListNotations.
Local Open Scope Z_scope.

(** What is left of the index digit of a garbage qubit: for a vector nothing; for a matrix the column bit
    if [regular], and the row bit otherwise. *)
Definition vleft (d : nat) : nat := 0.
Definition mleft (regular : bool) (d : nat) : nat := if regular then (d mod 2)%nat else (2 * (d / 2))%nat.
(** The index [p] (digits from the top qubit downwards) with [z] applied to the digits of the garbage qubits *)
Fixpoint cleared (z : nat -> nat) (gar : list bool) (p : list nat) : list nat :=
  match p with [] => [] | d :: q => (if nth (length q) gar false then z d else d) :: cleared z gar q end.

Lemma clr_cleared z gar p : clr (flag gar) z p = cleared z gar p.
Proof. induction p as [|d p IH]; cbn [clr cleared]; auto. rewrite IH. unfold flag. now rewrite Nat2Z.id. Qed.
Lemma kept_iff anc regular : forall p l, vpath KM l p -> ReduceB.kept (flag anc) (ancbd regular) p = true <->
  (forall q, 0 <= q <= l -> nth (Z.to_nat q) anc false = true -> excluded regular (digit q p) = false).
Proof.
  induction p as [|d p IH]; intros l V.
  - cbn. split; auto. intros _ q Hq. destruct V as [V _]. cbn in V. lia.
  - apply vpath_cons in V. destruct V as [Hd V]. cbn [ReduceB.kept]. rewrite andb_true_iff, (IH (l - 1) V). assert (Ll: l = Z.of_nat (length p)) by (destruct V; lia).
    unfold flag. rewrite Nat2Z.id.
    assert (Dt: digit l (d :: p) = d). { unfold digit. cbn [length]. replace (S (length p) - 1 - Z.to_nat l)%nat with 0%nat by lia. reflexivity. }
    assert (Db: forall q, 0 <= q <= l - 1 -> digit q (d :: p) = digit q p).
    { intros q Hq. unfold digit. cbn [length]. replace (S (length p) - 1 - Z.to_nat q)%nat with (S (length p - 1 - Z.to_nat q)) by lia. reflexivity. }
    split.
    + intros [A B] q Hq Nq. destruct (Z.eq_dec q l) as [-> |Ne].
      * rewrite Dt. rewrite Ll, Nat2Z.id in Nq. rewrite Nq, excluded_bd in A by auto. now apply negb_true_iff in A.
      * rewrite Db by lia. apply B; auto. lia.
    + intros H. split.
      * rewrite excluded_bd by auto. destruct (nth (length p) anc false) eqn:E; auto. specialize (H l). rewrite Dt in H. rewrite H; [reflexivity|lia|]. now rewrite Ll, Nat2Z.id.
      * intros q Hq Nq. rewrite <- Db by lia. apply H; auto. lia.
Qed.
Lemma flat_of k (P : Z -> (list nat -> C) -> Prop) cap l h c : 
  (forall p, vpath k l p -> h p = C0 \/ h p = c) -> (cap = true -> (Cmag2 c <= 1)%R) ->
  (forall F, (forall p, vpath k l p -> F p = C0 \/ F p = C1) -> (forall p, vpath k l p -> F p <> C0 -> h p <> C0) -> P l F) -> flat k P cap l h.
Proof.
  intros H Hc HP. destruct (Ceq_dec c C0) as [Z|Z].
  - exists c, (fun _ => C0). split; [apply HP; auto; intros p _ F; contradiction|]. split; auto. intros p Vp. rewrite Cmul_0_r. destruct (H p Vp) as [-> | ->]; auto.
  - exists c, (fun p => Cinv c * h p)%C. split; [|split; auto].
    + apply HP.
      * intros p Vp. destruct (H p Vp) as [-> | ->]; [left; ring|right]. now apply Cinv_l.
      * intros p Vp F E. apply F. rewrite E. ring.
    + intros p Vp. transitivity ((Cinv c * c) * h p)%C; [rewrite Cinv_l by auto; ring|ring].
Qed.

Section RedB.
Context (g : cfg R0) (nb : kind -> Z) (G : gok g).
Local Notation X := (XR g G).
Local Notation entry := (entry g G).
Local Notation reachedR := (reachedR g nb G).
Local Notation unchanged := (unchanged g G).
Local Notation later := (later g nb G).

(** * C62 *)
(** Any number of ancillary qubits: entries excluded by one of them become zero, the others are kept. *)
Theorem ancillary_reduction_of_flat nq s V D i l c f anc regular x : reachedR nq s V D -> nth_error D i = Some (Some (DV KM l (S c) f)) ->
  nq <= Z.of_nat (length anc) -> (length anc <= 128)%nat -> (forall p, vpath KM l p -> entry s KM (var V i) p = C0 \/ entry s KM (var V i) p = x) ->
  exists r s' D', reduceAncillae R0 g nb (var V i) anc regular s = Ok r s' /\ reachedR nq s' (V ++ [r]) D' /\
    referenced (V ++ [r]) D' KM l r /\ unchanged V D s s' /\ forall p, vpath KM l p ->
      ((exists q, 0 <= q <= l /\ nth (Z.to_nat q) anc false = true /\ excluded regular (digit q p) = true) -> entry s' KM r p = C0) /\
      ((forall q, 0 <= q <= l -> nth (Z.to_nat q) anc false = true -> excluded regular (digit q p) = false) -> entry s' KM r p = entry s KM (var V i) p).
Proof.
  intros H E0 Ln L8 Hx. pose proof (reached_len _ _ _ _ _ _ _ H) as LD.
  destruct (red_call g nb G nq s V D (@IAnc R0 i anc regular) i KM l (Some (ancT anc regular (entry s KM (var V i)))) _ H (fun _ => eq_refl)) as (r & s' & D' & A & B & E & F & W).
  { eapply d_ancb; auto; [exact Logic.I|apply (full_nth g G _ _ _ _ _ _ _ _ LD E0)|]. apply (flat_of _ _ _ _ _ x); auto; [discriminate|].
    intros F HF _. split; auto. discriminate. }
  exists r, s', D'. repeat (split; [assumption|]). intros p Vp. rewrite (W _ eq_refl) by auto. unfold ancT.
  rewrite (Tr_kept (flag anc) (ancbd regular)) by reflexivity. pose proof (kept_iff anc regular p l Vp) as K. destruct (ReduceB.kept _ _ p).
  - split; auto. intros (q & Hq & Nq & Eq). rewrite (proj1 K eq_refl q Hq Nq) in Eq. discriminate.
  - split; auto. intros Q. apply K in Q. discriminate.
Qed.

(** * C63 *)
(** A multiple of a basis state: the garbage qubits are set to zero. *)
Theorem garbage_reduction_of_basis_state nq s V D i l c f gar b x : reachedR nq s V D -> nth_error D i = Some (Some (DV KV l (S c) f)) ->
  nq <= Z.of_nat (length gar) -> (length gar <= 128)%nat -> vpath KV l b -> (Cmag2 x <= 1)%R ->
  (forall p, vpath KV l p -> entry s KV (var V i) p = if list_eq_dec Nat.eq_dec p b then x else C0) ->
  exists r s' D', reduceGarbageV R0 g nb (var V i) gar s = Ok r s' /\ reachedR nq s' (V ++ [r]) D' /\
    referenced (V ++ [r]) D' KV l r /\ unchanged V D s s' /\ forall p, vpath KV l p ->
      entry s' KV r p = if list_eq_dec Nat.eq_dec p (cleared vleft gar b) then x else C0.
Proof.
  intros H E0 Ln L8 Vb Hm Hx. pose proof (reached_len _ _ _ _ _ _ _ H) as LD. set (h := entry s KV (var V i)) in *.
  set (dl := fun p : list nat => if list_eq_dec Nat.eq_dec p b then C1 else C0).
  assert (Pd: garVP gar l dl).
  { assert (One: forall p, dl p <> C0 -> p = b) by (unfold dl; intros p; destruct (list_eq_dec Nat.eq_dec p b); auto; contradiction).
    split; [split|].
    - intros p _. unfold dl. destruct (list_eq_dec Nat.eq_dec p b); auto.
    - intros _ p p' _ _ Np Np'. rewrite (One p), (One p'); auto.
    - intros p p' _ _ Np Np' _. rewrite (One p), (One p'); auto. }
  assert (Hd: forall p, vpath KV l p -> h p = (x * dl p)%C).
  { intros p Vp. rewrite Hx by auto. unfold dl. destruct (list_eq_dec Nat.eq_dec p b); ring. }
  destruct (red_call g nb G nq s V D (@IGarV R0 i gar) i KV l (Some (garVT gar h)) _ H (fun _ => eq_refl)) as (r & s' & D' & A & B & E & F & W).
  { eapply d_garvb; auto; [exact Logic.I|apply (full_nth g G _ _ _ _ _ _ _ _ LD E0)|]. exists x, dl. auto. }
  exists r, s', D'. repeat (split; [assumption|]). intros p Vp. rewrite (W _ eq_refl) by auto. unfold garVT.
  rewrite (Tr_ext KV (flag gar) garlocV garlocV_ext p l h _ Hd Vp). rewrite (Tr_scale KV (flag gar) garlocV garlocV_ext garlocV_scale x p l dl Vp).
  destruct (Tr_g KV (flag gar) zV garlocV garlocV_1 garlocV_2 p l dl Pd Vp) as [[Y Z]|(p' & Vp' & Ep & Np & Y)].
  - rewrite Y. destruct (list_eq_dec Nat.eq_dec p (cleared vleft gar b)) as [-> |]; [|ring].
    exfalso. specialize (Z b Vb). rewrite clr_cleared in Z. specialize (Z eq_refl). unfold dl in Z. destruct (list_eq_dec Nat.eq_dec b b); [|contradiction]. now apply C1_neq_0.
  - rewrite Y. unfold dl in *. destruct (list_eq_dec Nat.eq_dec p' b) as [-> |]; [|contradiction]. rewrite clr_cleared in Ep.
    destruct (list_eq_dec Nat.eq_dec p (cleared vleft gar b)) as [|Ne]; [ring|]. exfalso. apply Ne. symmetry. exact Ep.
Qed.
(** A matrix with entries zero or [x], |x| <= 1, where no two non-zero entries differ only in the rows (if
    [regular], otherwise the columns) of garbage qubits: every entry moves to row (column) zero of them. *)
Theorem garbage_reduction_of_flat nq s V D i l c f gar regular x : reachedR nq s V D -> nth_error D i = Some (Some (DV KM l (S c) f)) ->
  nq <= Z.of_nat (length gar) -> (length gar <= 128)%nat -> (Cmag2 x <= 1)%R ->
  (forall p, vpath KM l p -> entry s KM (var V i) p = C0 \/ entry s KM (var V i) p = x) ->
  (forall p p', vpath KM l p -> vpath KM l p' -> entry s KM (var V i) p <> C0 -> entry s KM (var V i) p' <> C0 ->
     cleared (mleft regular) gar p = cleared (mleft regular) gar p' -> p = p') ->
  exists r s' D', reduceGarbageM R0 g nb (var V i) gar regular s = Ok r s' /\ reachedR nq s' (V ++ [r]) D' /\
    referenced (V ++ [r]) D' KM l r /\ unchanged V D s s' /\
    (forall p, vpath KM l p -> entry s KM (var V i) p <> C0 -> entry s' KM r (cleared (mleft regular) gar p) = x) /\
    (forall q, vpath KM l q -> (forall p, vpath KM l p -> cleared (mleft regular) gar p = q -> entry s KM (var V i) p = C0) -> entry s' KM r q = C0).
Proof.
  intros H E0 Ln L8 Hm Hx Hi. pose proof (reached_len _ _ _ _ _ _ _ H) as LD. set (h := entry s KM (var V i)) in *.
  assert (Fl: flat KM (garMP gar regular) true l h).
  { apply (flat_of _ _ _ _ _ x); auto. intros F HF Hn. split; [split; auto; discriminate|]. intros p p' Vp Vp' Np Np' Ec. rewrite !clr_cleared in Ec. apply Hi; auto. }
  destruct (red_call g nb G nq s V D (@IGarM R0 i gar regular) i KM l (Some (garMT gar regular h)) _ H (fun _ => eq_refl)) as (r & s' & D' & A & B & E & F & W).
  { eapply d_garmb; auto; [exact Logic.I|apply (full_nth g G _ _ _ _ _ _ _ _ LD E0)]. }
  exists r, s', D'. repeat (split; [assumption|]). 
  destruct Fl as (y & F' & PF & Hy & _).
  assert (Tq: forall q, vpath KM l q -> (entry s' KM r q = C0 /\ forall p, vpath KM l p -> cleared (mleft regular) gar p = q -> h p = C0) \/
     (exists p, vpath KM l p /\ cleared (mleft regular) gar p = q /\ F' p <> C0 /\ entry s' KM r q = h p)).
  { intros q Vq. rewrite (W _ eq_refl) by auto. unfold garMT.
    rewrite (Tr_ext KM (flag gar) _ (garlocM_ext regular) q l h _ Hy Vq). rewrite (Tr_scale KM (flag gar) _ (garlocM_ext regular) (garlocM_scale regular) y q l F' Vq).
    destruct (Tr_g KM (flag gar) (zM regular) _ (garlocM_1 regular) (garlocM_2 regular) q l F' PF Vq) as [[Y Z]|(p & Vp & Ep & Np & Y)]; rewrite Y.
    - left. split; [ring|]. intros p Vp Ep. rewrite Hy by auto. rewrite Z; [ring|auto|]. now rewrite clr_cleared.
    - right. exists p. split; auto. rewrite clr_cleared in Ep. split; auto. split; auto. now rewrite Hy. }
  split.
  - intros p Vp Np. assert (Vq: vpath KM l (cleared (mleft regular) gar p)) by (rewrite <- clr_cleared; now apply (clr_vpath KM (flag gar) _ (zM_lt regular))).
    destruct (Tq _ Vq) as [[_ Z]|(p' & Vp' & Ep & Np' & ->)]; [exfalso; apply Np; now apply Z|].
    assert (Epp: p' = p).
    { assert (Fp: F' p <> C0) by (intros Z; apply Np; rewrite Hy, Z by auto; ring). destruct PF as [_ Inj]. apply Inj; auto. rewrite !clr_cleared. exact Ep. }
    subst p'. destruct (Hx p Vp) as [Z|Z]; auto. contradiction.
  - intros q Vq Z. destruct (Tq q Vq) as [[Y _]|(p & Vp & Ep & _ & ->)]; auto.
Qed.
(** In particular a matrix with at most one non-zero entry in every column, such as a permutation matrix *)
Corollary garbage_reduction_of_columns nq s V D i l c f gar x : reachedR nq s V D -> nth_error D i = Some (Some (DV KM l (S c) f)) ->
  nq <= Z.of_nat (length gar) -> (length gar <= 128)%nat -> (Cmag2 x <= 1)%R ->
  (forall p, vpath KM l p -> entry s KM (var V i) p = C0 \/ entry s KM (var V i) p = x) ->
  (forall p p', vpath KM l p -> vpath KM l p' -> entry s KM (var V i) p <> C0 -> entry s KM (var V i) p' <> C0 ->
     map (fun d => (d mod 2)%nat) p = map (fun d => (d mod 2)%nat) p' -> p = p') ->
  exists r s' D', reduceGarbageM R0 g nb (var V i) gar true s = Ok r s' /\ reachedR nq s' (V ++ [r]) D' /\
    referenced (V ++ [r]) D' KM l r /\ unchanged V D s s' /\
    (forall p, vpath KM l p -> entry s KM (var V i) p <> C0 -> entry s' KM r (cleared (fun d => d mod 2)%nat gar p) = x) /\
    (forall q, vpath KM l q -> (forall p, vpath KM l p -> cleared (fun d => d mod 2)%nat gar p = q -> entry s KM (var V i) p = C0) -> entry s' KM r q = C0).
Proof.
  intros H E0 Ln L8 Hm Hx Hi. apply (garbage_reduction_of_flat nq s V D i l c f gar true x); auto.
  intros p p' Vp Vp' Np Np' Ec. apply Hi; auto.
  assert (Col: forall p, map (fun d => (d mod 2)%nat) (cleared (mleft true) gar p) = map (fun d => (d mod 2)%nat) p).
  { induction p0 as [|d p0 IH]; [reflexivity|]. cbn [cleared map]. rewrite IH. f_equal. destruct (nth _ _ _); auto. unfold mleft. apply Nat.mod_mod. lia. }
  rewrite <- Col, Ec, Col. reflexivity.
Qed.

(** * C64 *)
(** The number of references to a diagram grows by one. *)
Lemma inc_later nq s V D k l e : reachedR nq s V D -> usr V D k l e ->
  exists s' D' i c f, incRef R0 k e s = Ok tt s' /\ later V D s nq V D' s' /\ nth_error D' i = Some (Some (DV k l (S c) f)) /\ var V i = e.
Proof.
  intros H (i & f & L & Ei). pose proof (reached_len _ _ _ _ _ _ _ H) as LD.
  assert (LF: length (full g G s V D) = length V) by (unfold full; rewrite map_length, combine_length; lia).
  pose proof (full_live g G s V D i k l f LD L) as L'.
  destruct (call g nb G nq s V D (@IInc R0 k i) _ _ H (d_inc (X:=X) nq (full g G s V D) k l i _ L')) as (V' & outs & s' & E & R' & _).
  cbn [exec] in E. rewrite Ei in E. unfold quiet, bind in E. destruct (incRef R0 k e s) as [[] s1| |] eqn:Em; try discriminate. unfold ret in E. injection E as <- <- <-.
  destruct L' as [c L']. exists s1, (upde (full g G s V D) i S), i, c, (Some (entry s k (var V i))). split; [reflexivity|]. split; [|split; auto].
  - split; auto. split.
    + intros k' l' e' (j & fj & Lj & <-). exists j, (Some (entry s k' (var V j))). split; auto. apply upde_live. eapply full_live; eauto.
    + intros k' l' e' (j & fj & Lj & <-) p Vp. apply (usr_entry g nb G nq s1 V _ j k' l' _ R'); auto. apply upde_live. eapply full_live; eauto.
  - exact (upde_nth _ _ S _ L').
Qed.
Lemma idm_digit : forall p l q, vpath KM l p -> 0 <= q <= l -> (digit q p = 1 \/ digit q p = 2)%nat -> idm p = C0.
Proof.
  intros p l q [Lp _] Hq Hd. unfold idm. destruct (forallb _ p) eqn:E; auto. rewrite forallb_forall in E. exfalso.
  assert (I: In (digit q p) p) by (unfold digit; apply nth_In; lia). apply E in I. destruct Hd as [Q|Q]; rewrite Q in I; discriminate.
Qed.
(** createInitialMatrix: the identity, with zero in place of one where an ancillary qubit is one. *)
Theorem initial_matrix nq s V D n anc : reachedR nq s V D -> 1 <= n <= nq -> nq <= Z.of_nat (length anc) -> (length anc <= 128)%nat ->
  exists r s' V' D', createInitialMatrix R0 g nb n anc s = Ok r s' /\ reachedR nq s' V' D' /\ referenced V' D' KM (n - 1) r /\ unchanged V D s s' /\
    forall p, vpath KM (n - 1) p ->
      ((exists q, 0 <= q < n /\ nth (Z.to_nat q) anc false = true /\ digit q p = 3%nat) -> entry s' KM r p = C0) /\
      ((forall q, 0 <= q < n -> nth (Z.to_nat q) anc false = true -> digit q p <> 3%nat) -> entry s' KM r p = idm p).
Proof.
  intros H Hn Ln L8. destruct (ident_later g nb G nq s V D n H) as (e & s1 & V1 & D1 & E1 & Lt1 & U1 & F1); [lia|].
  pose proof Lt1 as (R1 & _ & _). destruct (inc_later nq s1 V1 D1 KM (n - 1) e R1 U1) as (s2 & D2 & i & c & f & E2 & Lt2 & N2 & Vi).
  pose proof Lt2 as (R2 & A2 & B2).
  assert (F2: forall p, vpath KM (n - 1) p -> entry s2 KM (var V1 i) p = idm p) by (intros p Vp; rewrite Vi, (B2 KM (n - 1) e) by auto; auto).
  destruct (ancillary_reduction_of_flat nq s2 V1 D2 i (n - 1) c f anc true C1 R2 N2 Ln L8) as (r & s3 & D3 & E3 & R3 & Rf & B3 & W).
  { intros p Vp. rewrite F2 by auto. unfold idm. destruct (forallb _ p); auto. }
  exists r, s3, (V1 ++ [r]), D3. split.
  { unfold createInitialMatrix, bind. rewrite E1, E2. rewrite Vi in E3. exact E3. }
  split; auto. split; auto. split.
  { intros k l x Ux p Vp. destruct (later_trans g nb G _ _ _ _ _ _ _ _ _ _ Lt1 Lt2) as (_ & A & B). rewrite (B3 k l x) by auto. now apply (B k l x). }
  intros p Vp. destruct (W p Vp) as [W1 W2]. split.
  - intros (q & Hq & Nq & Dq). apply W1. exists q. split; [lia|]. split; auto. now rewrite Dq.
  - intros Hd. destruct (dec_lt (fun j => nth j anc false = true -> excluded true (digit (Z.of_nat j) p) = false)
        (fun j => nth j anc false = true /\ excluded true (digit (Z.of_nat j) p) = true) (Z.to_nat n)) as [Y|(j & Hj & Nj & Ej)].
    + intros j _. destruct (nth j anc false), (excluded true (digit (Z.of_nat j) p)); auto; left; discriminate.
    + rewrite W2, F2 by (auto; intros q Hq Nq; replace q with (Z.of_nat (Z.to_nat q)) by lia; apply Y; auto; lia). reflexivity.
    + rewrite W1 by (exists (Z.of_nat j); rewrite Nat2Z.id; split; [lia|auto]). symmetry. apply (idm_digit p (n - 1) (Z.of_nat j)); auto; [lia|].
      specialize (Hd (Z.of_nat j) ltac:(lia)). rewrite Nat2Z.id in Hd. specialize (Hd Nj).
      assert (Hlt: (digit (Z.of_nat j) p < 4)%nat). { destruct Vp as [Lp Fp]. rewrite Forall_forall in Fp. apply Fp. unfold digit. apply nth_In. lia. }
      destruct (digit (Z.of_nat j) p) as [|[|[|[|d]]]]; try lia; try discriminate; auto; exfalso; now apply Hd.
Qed.
End RedB.

(** ** Examples: the controlled-NOT with control 1 and target 0, and 3/5 of the basis state |11> *)
Definition matX : list (list (R0 * R0)) :=
  [[(1, 0); (0, 0); (0, 0); (0, 0)]; [(0, 0); (1, 0); (0, 0); (0, 0)]; [(0, 0); (0, 0); (0, 0); (1, 0)]; [(0, 0); (0, 0); (1, 0); (0, 0)]]%R.
Definition vecX : list (R0 * R0) := [(0, 0); (0, 0); (0, 0); (3 / 5, 0)]%R.
Definition progX : list (ins R0) := [@IMat R0 matX; IInc KM 0; @IVec R0 vecX; IInc KV 1].
Definition fMX : list nat -> C := fun p => Cv2 R0 gR (XR gR GR) (mentry matX (ridx p) (cidx p)).
Definition fVX : list nat -> C := fun p => Cv2 R0 gR (XR gR GR) (nth (vidx p) vecX (n0, n0)).
Definition DX : denv := [Some (DV KM 1 1 (Some fMX)); Some (DV KV 1 1 (Some fVX))].
Lemma reachedX : exists s V, reachedR gR nbdef GR 2 s V DX.
Proof.
  destruct (runs gR nbdef GR 2 progX DX []) as (s & V & outs & _ & H & _); [lia|apply nbdef_pos| |eauto].
  unfold progX. change (@nil (option dout)) with ([] ++ [] ++ [] ++ [] ++ @nil (option dout)).
  eapply dr_cons; [apply (d_mat (N:=R0) 2 _ 2 matX)|].
  - reflexivity.
  - intros r [<-|[<-|[<-|[<-|[]]]]]; reflexivity.
  - cbn. lia.
  - eapply dr_cons; [eapply d_inc; exists 0%nat; reflexivity|].
    eapply dr_cons; [apply (d_vec (N:=R0) 2 _ 2 vecX); [reflexivity|cbn; lia]|].
    eapply dr_cons; [eapply d_inc; exists 0%nat; reflexivity|]. apply dr_nil.
Qed.
Lemma valMX s V p : reachedR gR nbdef GR 2 s V DX -> vpath KM 1 p -> entry gR GR s KM (var V 0) p = fMX p.
Proof. intros H Vp. apply (usr_entry gR nbdef GR 2 s V DX 0 KM 1 fMX H); auto. exists 1%nat. reflexivity. Qed.
Lemma valVX s V p : reachedR gR nbdef GR 2 s V DX -> vpath KV 1 p -> entry gR GR s KV (var V 1) p = fVX p.
Proof. intros H Vp. apply (usr_entry gR nbdef GR 2 s V DX 1 KV 1 fVX H); auto. exists 1%nat. reflexivity. Qed.
(** The index digits of the entries equal to one *)
Definition oneX (i j : nat) : bool :=
  match i, j with 0%nat, 0%nat | 0%nat, 3%nat | 3%nat, 1%nat | 3%nat, 2%nat => true | _, _ => false end.
Lemma path2 k p : vpath k 1 p -> exists i j, p = [i; j] /\ (i < arity k)%nat /\ (j < arity k)%nat.
Proof.
  intros [L F]. destruct p as [|i [|j [|x p]]]; cbn [length] in L; try lia. inversion_clear F. inversion_clear H0. exists i, j. auto.
Qed.
Lemma fMX_val i j : (i < 4)%nat -> (j < 4)%nat -> fMX [i; j] = if oneX i j then C1 else C0.
Proof. intros Hi Hj. destruct i as [|[|[|[|i]]]]; try lia; destruct j as [|[|[|[|j]]]]; try lia; reflexivity. Qed.
Lemma flatX s V : reachedR gR nbdef GR 2 s V DX -> forall p, vpath KM 1 p -> entry gR GR s KM (var V 0) p = C0 \/ entry gR GR s KM (var V 0) p = C1.
Proof. intros H p Vp. rewrite valMX by auto. destruct (path2 KM p Vp) as (i & j & -> & Hi & Hj). rewrite fMX_val by auto. destruct (oneX i j); auto. Qed.

(** Both qubits ancillary: only the entry at row and column zero is left. *)
Example ancillary_reduction_flat_example : exists s V r s' D', reachedR gR nbdef GR 2 s V DX /\
  reduceAncillae R0 gR nbdef (var V 0) [true; true] true s = Ok r s' /\ reachedR gR nbdef GR 2 s' (V ++ [r]) D' /\
  entry gR GR s' KM r [0; 0]%nat = C1 /\ entry gR GR s KM (var V 0) [3; 1]%nat = C1 /\ entry gR GR s' KM r [3; 1]%nat = C0.
Proof.
  destruct reachedX as (s & V & H).
  destruct (ancillary_reduction_of_flat gR nbdef GR 2 s V DX 0 1 0 (Some fMX) [true; true] true C1 H) as (r & s' & D' & A & B & _ & _ & W); try reflexivity; try (cbn; lia).
  - now apply flatX.
  - exists s, V, r, s', D'. split; auto. split; auto. split; auto. split; [|split].
    + rewrite (proj2 (W [0; 0]%nat ltac:(vp))), valMX by (auto; try vp; intros q Hq _; assert (Eq: q = 0 \/ q = 1) by lia; destruct Eq as [-> | ->]; reflexivity). reflexivity.
    + rewrite valMX by (auto; vp). reflexivity.
    + apply (proj1 (W [3; 1]%nat ltac:(vp))). exists 0. split; [lia|]. split; reflexivity.
Qed.
(** Qubit 0 garbage: the entry one at row and column 1 moves to row 0. *)
Example garbage_reduction_flat_example : exists s V r s' D', reachedR gR nbdef GR 2 s V DX /\
  reduceGarbageM R0 gR nbdef (var V 0) [true; false] true s = Ok r s' /\ reachedR gR nbdef GR 2 s' (V ++ [r]) D' /\
  entry gR GR s' KM r [0; 1]%nat = C1 /\ entry gR GR s KM (var V 0) [0; 3]%nat = C1 /\ entry gR GR s' KM r [0; 3]%nat = C0.
Proof.
  destruct reachedX as (s & V & H).
  destruct (garbage_reduction_of_columns gR nbdef GR 2 s V DX 0 1 0 (Some fMX) [true; false] C1 H) as (r & s' & D' & A & B & _ & _ & W1 & W2); try reflexivity; try (cbn; lia).
  - rewrite Cmag2_1. lra.
  - now apply flatX.
  - intros p p' Vp Vp'. rewrite !valMX by auto. destruct (path2 KM p Vp) as (i & j & -> & Hi & Hj). destruct (path2 KM p' Vp') as (i' & j' & -> & Hi' & Hj').
    rewrite !fMX_val by auto. destruct (oneX i j) eqn:E; [|intros Q; contradiction]. destruct (oneX i' j') eqn:E'; [|intros _ Q; contradiction]. intros _ _.
    cbn in Hi, Hj, Hi', Hj'.
    destruct i as [|[|[|[|i]]]]; try lia; destruct j as [|[|[|[|j]]]]; try lia; try discriminate;
    destruct i' as [|[|[|[|i']]]]; try lia; destruct j' as [|[|[|[|j']]]]; try lia; try discriminate; cbn; intros Q; auto; discriminate.
  - exists s, V, r, s', D'. split; auto. split; auto. split; auto. split; [|split].
    + apply (W1 [0; 3]%nat ltac:(vp)). rewrite valMX by (auto; vp). rewrite fMX_val by lia. apply C1_neq_0.
    + rewrite valMX by (auto; vp). reflexivity.
    + apply W2; [vp|]. intros p Vp E. destruct (path2 KM p Vp) as (i & j & -> & Hi & Hj). cbn in E, Hi, Hj. injection E as Ei Ej.
      exfalso. destruct j as [|[|[|[|j]]]]; try lia; discriminate.
Qed.
Example garbage_reduction_basis_example : exists s V r s' D', reachedR gR nbdef GR 2 s V DX /\
  reduceGarbageV R0 gR nbdef (var V 1) [true; false] s = Ok r s' /\ reachedR gR nbdef GR 2 s' (V ++ [r]) D' /\
  entry gR GR s' KV r [1; 0]%nat = (3 / 5, 0)%R /\ entry gR GR s' KV r [1; 1]%nat = C0.
Proof.
  destruct reachedX as (s & V & H).
  destruct (garbage_reduction_of_basis_state gR nbdef GR 2 s V DX 1 1 0 (Some fVX) [true; false] [1; 1]%nat (3 / 5, 0)%R H) as (r & s' & D' & A & B & _ & _ & W); try reflexivity; try (cbn; lia); try vp.
  - unfold Cmag2. cbn. lra.
  - intros p Vp. rewrite valVX by auto. destruct (path2 KV p Vp) as (i & j & -> & Hi & Hj). cbn in Hi, Hj.
    destruct i as [|[|i]]; try lia; destruct j as [|[|j]]; try lia; reflexivity.
  - exists s, V, r, s', D'. split; auto. split; auto. split; auto. rewrite !W by vp. split; reflexivity.
Qed.
Example initial_matrix_example : exists s V r s' V' D', reachedR gR nbdef GR 2 s V DX /\
  createInitialMatrix R0 gR nbdef 2 [true; false] s = Ok r s' /\ reachedR gR nbdef GR 2 s' V' D' /\
  entry gR GR s' KM r [3; 0]%nat = C1 /\ entry gR GR s' KM r [0; 3]%nat = C0.
Proof.
  destruct reachedX as (s & V & H).
  destruct (initial_matrix gR nbdef GR 2 s V DX 2 [true; false] H) as (r & s' & V' & D' & A & B & _ & _ & W); try (cbn; lia).
  exists s, V, r, s', V', D'. split; auto. split; auto. split; auto. split.
  - rewrite (proj2 (W [3; 0]%nat ltac:(vp))); [reflexivity|]. intros q Hq Nq. assert (Eq: q = 0 \/ q = 1) by lia. destruct Eq as [-> | ->]; cbn in *; discriminate.
  - apply (proj1 (W [0; 3]%nat ltac:(vp))). exists 0. split; [lia|]. split; reflexivity.
Qed.
Print Assumptions ancillary_reduction_of_flat.
Print Assumptions garbage_reduction_of_basis_state.
Print Assumptions garbage_reduction_of_flat.
Print Assumptions garbage_reduction_of_columns.
Print Assumptions initial_matrix.
