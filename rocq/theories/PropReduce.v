(** Reduction of ancillary and garbage qubits (C39, C51): what holds in every reachable state in exact
    arithmetic, and what does not, with witnesses computed in doubles. *)
From Coq Require Import ZArith List Bool Lia Arith Reals Lra.
From Verif Require Import Num Base CTable CTableWf Cx State Pkg Control Gate Meas Reduce Inv InvL PrimL NormL MkL TrL AddL MulL CanonL IdentL StateL TraceL GateL GateAct DelL MeasL SampL ReduceL Run Inst PropBase PropSem PropRefute PropMeas.
Import ListNotations.
Local Open Scope Z_scope.

(** Index digit of an entry at qubit [q] (2 * row bit + column bit), from the digits [p] of all qubits
    from the top downwards. *)
Definition digit (q : Z) (p : list nat) : nat := nth (length p - 1 - Z.to_nat q) p 0%nat.
(** The entries excluded by an ancillary qubit with that digit: column one if [regular], row one otherwise. *)
Definition excluded (regular : bool) (d : nat) : bool := if regular then Nat.odd d else Nat.leb 2 d.

(** No block of the matrix [h] on qubits 0..l is a multiple, other than the zero and the onefold, of a
    non-zero block of the same parent, for parents with root qubit [q] or above. *)
Definition unscaled (q l : Z) (h : list nat -> C) : Prop := forall pre i j c,
  Z.max q 1 <= l - Z.of_nat (length pre) -> Forall (fun d => (d < 4)%nat) pre -> (i < 4)%nat -> (j < 4)%nat ->
  (forall p, vpath KM (l - Z.of_nat (length pre) - 1) p -> h (pre ++ j :: p) = (c * h (pre ++ i :: p))%C) ->
  (exists p, vpath KM (l - Z.of_nat (length pre) - 1) p /\ h (pre ++ i :: p) <> C0) -> c = C0 \/ c = C1.

Lemma excluded_bd regular d : (d < 4)%nat -> ancbd regular d = excluded regular d.
Proof. intros H. destruct regular, d as [|[|[|[|d]]]]; try lia; reflexivity. Qed.

Section RedP.
Context (g : cfg R0) (nb : kind -> Z) (G : gok g).
Local Notation X := (XR g G).
Local Notation entry := (entry g G).
Local Notation reachedR := (reachedR g nb G).
Local Notation unchanged := (unchanged g G).

(** What a reduction does to the variables: the reference held to the argument becomes one to the result. *)
Lemma red_call nq s V D c i k l f0 (m : M R0 edge) : reachedR nq s V D -> 
  (forall s0, exec R0 g nb c V s0 = push R0 V m s0) ->
  dstep (X:=X) nq (full g G s V D) c (upde (full g G s V D) i pred ++ [Some (DV k l 1 f0)]) [] ->
  exists r s' D', m s = Ok r s' /\ reachedR nq s' (V ++ [r]) D' /\ referenced (V ++ [r]) D' k l r /\ unchanged V D s s' /\
    (forall f, f0 = Some f -> forall p, vpath k l p -> entry s' k r p = f p).
Proof.
  intros H Ec Ds. pose proof (reached_len _ _ _ _ _ _ _ H) as LD.
  destruct (call g nb G nq s V D _ _ _ H Ds) as (V' & outs & s' & E & R' & _). rewrite Ec in E. unfold push, bind in E.
  destruct (m s) as [r s1| |] eqn:Em; try discriminate. cbn in E. injection E as <- <- <-.
  set (D' := upde (full g G s V D) i pred ++ _) in *.
  assert (LF: length (full g G s V D) = length V) by (unfold full; rewrite map_length, combine_length; lia).
  assert (LK: length (upde (full g G s V D) i pred) = length V) by (now rewrite upde_len).
  exists r, s1, D'. split; [reflexivity|]. split; [exact R'|]. split; [|split].
  - eexists (length V), 0%nat, _. unfold D'. rewrite nth_error_app2, LK, Nat.sub_diag by lia. split; [reflexivity|]. apply var_last.
  - intros k' m' e (j & fj & Lj & <-) p0 Vp0. assert (Hj: (j < length V)%nat) by (rewrite <- LD; now apply live_lt in Lj).
    rewrite <- (var_app V r j) at 1 by auto.
    apply (usr_entry g nb G nq s1 (V ++ [r]) D' j k' m' _ R'); auto. unfold D'. apply live_app, upde_live. eapply full_live; eauto.
  - intros f Ef p Vp. rewrite <- (var_last V r) at 1. apply (usr_entry g nb G nq s1 (V ++ [r]) D' (length V) k l f R'); auto.
    exists 1%nat. unfold D'. rewrite nth_error_app2, LK, Nat.sub_diag by lia. now rewrite Ef.
Qed.

(** * C39 *)
(** For every set of ancillary qubits the reduction is defined and only exchanges references; nothing is
    said about the entries of its result. *)
Theorem ancillary_reduction_safe nq s V D i l c f anc regular : reachedR nq s V D -> nth_error D i = Some (Some (DV KM l (S c) f)) ->
  nq <= Z.of_nat (length anc) -> (length anc <= 128)%nat ->
  exists r s' D', reduceAncillae R0 g nb (var V i) anc regular s = Ok r s' /\ reachedR nq s' (V ++ [r]) D' /\
    referenced (V ++ [r]) D' KM l r /\ unchanged V D s s'.
Proof.
  intros H E0 Ln L8. pose proof (reached_len _ _ _ _ _ _ _ H) as LD.
  destruct (red_call nq s V D (@IAnc R0 i anc regular) i KM l None _ H (fun _ => eq_refl)) as (r & s' & D' & A & B & E & F & _).
  { eapply d_anc; eauto; [apply (full_nth g G _ _ _ _ _ _ _ _ LD E0)|discriminate]. }
  exists r, s', D'. auto.
Qed.

(** Partial: one ancillary qubit [q], and a matrix without scaled copies of blocks (see [unscaled]). *)
Theorem ancillary_reduction_partial nq s V D i l c f anc q regular : reachedR nq s V D -> nth_error D i = Some (Some (DV KM l (S c) f)) ->
  nq <= Z.of_nat (length anc) -> (length anc <= 128)%nat -> 0 <= q -> (forall j, nth j anc false = true <-> j = Z.to_nat q) ->
  unscaled q l (entry s KM (var V i)) ->
  exists r s' D', reduceAncillae R0 g nb (var V i) anc regular s = Ok r s' /\ reachedR nq s' (V ++ [r]) D' /\
    referenced (V ++ [r]) D' KM l r /\ unchanged V D s s' /\
    forall p, vpath KM l p -> entry s' KM r p = if (q <=? l) && excluded regular (digit q p) then C0 else entry s KM (var V i) p.
Proof.
  intros H E0 Ln L8 Hq Hs U. pose proof (reached_len _ _ _ _ _ _ _ H) as LD.
  destruct (red_call nq s V D (@IAnc R0 i anc regular) i KM l (Some (mask q (ancbd regular) (entry s KM (var V i)))) _ H (fun _ => eq_refl)) as (r & s' & D' & A & B & E & F & W).
  { eapply d_anc; eauto; [apply (full_nth g G _ _ _ _ _ _ _ _ LD E0)|]. intros h [= <-] _. exists (entry s KM (var V i)), q.
    split; [reflexivity|]. split; [split; auto|]. split; [|reflexivity]. intros pre i' j c' A1 A2. apply U. lia. }
  exists r, s', D'. repeat (split; [assumption|]). intros p Vp. rewrite (W _ eq_refl) by auto. unfold mask. destruct Vp as [Lp Fp].
  replace (0 <=? q) with true by (symmetry; now apply Z.leb_le). cbn [andb].
  replace (q <? Z.of_nat (length p)) with (q <=? l) by (rewrite Lp; destruct (Z.leb_spec q l), (Z.ltb_spec q (l + 1)); auto; lia).
  destruct (Z.leb_spec q l); [|reflexivity]. cbn [andb]. change (dig q p) with (digit q p). rewrite excluded_bd; [reflexivity|].
  rewrite Forall_forall in Fp. apply Fp. unfold digit. apply nth_In. lia.
Qed.

(** * C51 *)
(** The reduction of garbage qubits is defined and only exchanges references. *)
Theorem garbage_reduction_safe nq s V D i k l c f gar regular : reachedR nq s V D -> k <> KD -> nth_error D i = Some (Some (DV k l (S c) f)) ->
  nq <= Z.of_nat (length gar) -> (length gar <= 128)%nat ->
  exists r s' D', (match k with KV => reduceGarbageV R0 g nb (var V i) gar | _ => reduceGarbageM R0 g nb (var V i) gar regular end) s = Ok r s' /\
    reachedR nq s' (V ++ [r]) D' /\ referenced (V ++ [r]) D' k l r /\ unchanged V D s s'.
Proof.
  intros H Hk E0 Ln L8. pose proof (reached_len _ _ _ _ _ _ _ H) as LD.
  assert (Lt: nltb n1 (mag2 (@n0 R0, @n0 R0)) = false).
  { apply not_true_is_false. intros Z. apply (x_ltb X Logic.I) in Z. revert Z. cbn. unfold mag2. cbn. lra. }
  destruct k; [| |congruence].
  - destruct (red_call nq s V D (@IGarV R0 i gar) i KV l None _ H (fun _ => eq_refl)) as (r & s' & D' & A & B & E & F & _).
    { eapply d_garv; eauto. apply (full_nth g G _ _ _ _ _ _ _ _ LD E0). }
    exists r, s', D'. auto.
  - destruct (red_call nq s V D (@IGarM R0 i gar regular) i KM l None _ H (fun _ => eq_refl)) as (r & s' & D' & A & B & E & F & _).
    { eapply d_garm; eauto. apply (full_nth g G _ _ _ _ _ _ _ _ LD E0). }
    exists r, s', D'. auto.
Qed.
End RedP.

(** ** Example: the matrix with the diagonal blocks ((1, 2), (3, 4)) and the identity, qubit 0 ancillary *)
Definition mat4 : list (list (R0 * R0)) :=
  [[(1, 0); (2, 0); (0, 0); (0, 0)]; [(3, 0); (4, 0); (0, 0); (0, 0)]; [(0, 0); (0, 0); (1, 0); (0, 0)]; [(0, 0); (0, 0); (0, 0); (1, 0)]]%R.
Definition prog4 : list (ins R0) := [@IMat R0 mat4; IInc KM 0].
Definition fM4 : list nat -> C := fun p => Cv2 R0 gR (XR gR GR) (mentry mat4 (ridx p) (cidx p)).
Definition D4 : denv := [Some (DV KM 1 1 (Some fM4))].
Lemma reached4 : exists s V, reachedR gR nbdef GR 2 s V D4.
Proof.
  destruct (runs gR nbdef GR 2 prog4 D4 []) as (s & V & outs & _ & H & _); [lia|apply nbdef_pos| |eauto].
  unfold prog4. change (@nil (option dout)) with ([] ++ [] ++ @nil (option dout)).
  eapply dr_cons; [apply (d_mat (N:=R0) 2 _ 2 mat4)|].
  - reflexivity.
  - intros r [<-|[<-|[<-|[<-|[]]]]]; reflexivity.
  - cbn. lia.
  - eapply dr_cons; [eapply d_inc; exists 0%nat; reflexivity|]. apply dr_nil.
Qed.
Lemma val4 s V p : reachedR gR nbdef GR 2 s V D4 -> vpath KM 1 p -> entry gR GR s KM (var V 0) p = fM4 p.
Proof. intros H Vp. apply (usr_entry gR nbdef GR 2 s V D4 0 KM 1 fM4 H); auto. exists 1%nat. reflexivity. Qed.
(** The four blocks, entry by entry *)
Definition tab4 (i j : nat) : R := nth j (nth i [[1; 2; 3; 4]; [0; 0; 0; 0]; [0; 0; 0; 0]; [1; 0; 0; 1]]%R []) 0%R.
Lemma fM4_tab i j : (i < 4)%nat -> (j < 4)%nat -> fM4 [i; j] = (tab4 i j, 0%R).
Proof. intros Hi Hj. destruct i as [|[|[|[|i]]]]; try lia; destruct j as [|[|[|[|j]]]]; try lia; reflexivity. Qed.
Lemma unscaled4 s V : reachedR gR nbdef GR 2 s V D4 -> unscaled 0 1 (entry gR GR s KM (var V 0)).
Proof.
  intros H pre i j c Hl _ Hi Hj Hc (p & Vp & Np). destruct pre; [|cbn [length] in Hl; lia]. cbn [length app] in *. change (1 - Z.of_nat 0 - 1) with 0 in *.
  assert (E: forall d, (d < 4)%nat -> (tab4 j d, 0%R) = (c * (tab4 i d, 0%R))%C).
  { intros d Hd. rewrite <- !fM4_tab by auto. rewrite <- !(val4 s V) by (auto; vp). apply Hc. vp. }
  destruct p as [|d [|d' p]]; [destruct Vp as [Vp _]; cbn in Vp; lia| |destruct Vp as [Vp _]; cbn [length] in Vp; lia].
  assert (Hd: (d < 4)%nat) by (destruct Vp as [_ Vp]; now inversion_clear Vp).
  rewrite (val4 s V) in Np by (auto; vp). rewrite fM4_tab in Np by auto.
  pose proof (E 0%nat ltac:(lia)) as E0. pose proof (E 1%nat ltac:(lia)) as E1. clear E Hc.
  destruct c as [x y]. unfold Cmul in E0, E1. cbn [fst snd] in E0, E1. injection E0 as A0 B0. injection E1 as A1 B1.
  assert (Eq: forall a b : R, a = b -> y = 0%R -> (a, y) = (b, 0%R)) by (intros; subst; reflexivity).
  destruct i as [|[|[|[|i]]]]; try lia.
  - destruct j as [|[|[|[|j]]]]; try lia; unfold tab4 in *; cbn in *; [right|left|left|exfalso]; try (unfold C1, C0, RtoC; apply f_equal2; lra); lra.
  - exfalso. apply Np. unfold tab4. destruct d as [|[|[|[|d]]]]; try lia; reflexivity.
  - exfalso. apply Np. unfold tab4. destruct d as [|[|[|[|d]]]]; try lia; reflexivity.
  - destruct j as [|[|[|[|j]]]]; try lia; unfold tab4 in *; cbn in *; [exfalso|left|left|right]; try (unfold C1, C0, RtoC; apply f_equal2; lra); lra.
Qed.
(** Column 2 is kept, column 1 becomes zero. *)
Example ancillary_reduction_example : exists s V r s' D', reachedR gR nbdef GR 2 s V D4 /\
  reduceAncillae R0 gR nbdef (var V 0) [true; false] true s = Ok r s' /\ reachedR gR nbdef GR 2 s' (V ++ [r]) D' /\
  entry gR GR s' KM r [0; 2]%nat = (3, 0)%R /\ entry gR GR s KM (var V 0) [0; 3]%nat = (4, 0)%R /\ entry gR GR s' KM r [0; 3]%nat = C0.
Proof.
  destruct reached4 as (s & V & H).
  destruct (ancillary_reduction_partial gR nbdef GR 2 s V D4 0 1 0 (Some fM4) [true; false] 0 true H) as (r & s' & D' & A & B & _ & _ & W); try reflexivity; try (cbn; lia).
  - intros [|[|[|j]]]; cbn; split; intros; try congruence; try lia.
  - now apply unscaled4.
  - exists s, V, r, s', D'. split; auto. split; auto. split; auto. rewrite !W by vp. rewrite !(val4 s V) by (auto; vp). rewrite !fM4_tab by lia. split; [reflexivity|]. split; reflexivity.
Qed.
Example garbage_reduction_example : exists s V r s' D', reachedR gR nbdef GR 2 s V D4 /\
  reduceGarbageM R0 gR nbdef (var V 0) [true; false] true s = Ok r s' /\ reachedR gR nbdef GR 2 s' (V ++ [r]) D'.
Proof.
  destruct reached4 as (s & V & H).
  destruct (garbage_reduction_safe gR nbdef GR 2 s V D4 0 KM 1 0 (Some fM4) [true; false] true H) as (r & s' & D' & A & B & _); try discriminate; try reflexivity; try (cbn; lia).
  exists s, V, r, s', D'. auto.
Qed.

(** ** What does not hold *)
Definition c0 : NumF * NumF := (f0, f0).
Definition c1 : NumF * NumF := (f1, f0).
Definition cm1 : NumF * NumF := (nsub f0 f1, f0).
Definition chalf : NumF * NumF := (ndiv f1 f2, f0).

(** Two successors that share a node are given the result for the first one, weight included
    (Package.hpp:2335-2341): Z (x) I with ancillary qubit 0 gets the entry 1 instead of -1 at row and
    column 2, which the ancillary qubit does not exclude. *)
Theorem ancillary_reduction_shared_refuted : exists (m : list (list (NumF * NumF))) anc V s,
  anc = [true; false] /\ run NumF gF nbdef [IMat m; IInc KM 0; IAnc 0 anc true; IValM 0 2 2; IValM 1 2 2] [] (pkg_init NumF gF 2) = Ok (V, [OC cm1; OC c1]) s.
Proof.
  exists [[c1; c0; c0; c0]; [c0; c1; c0; c0]; [c0; c0; cm1; c0]; [c0; c0; c0; cm1]], [true; false].
  match goal with |- exists V s, _ /\ run _ _ _ ?p _ _ = Ok (_, ?o) _ => destruct (watch_outs 2 p o) as (V & s & E); [vm_compute; reflexivity|] end. exists V, s. split; auto.
Qed.
(** With two ancillary qubits the weight of the rebuilt node is lost (Package.hpp:2346-2359): the entry at
    row and column 0, which is kept, becomes 1 instead of 1/2. *)
Theorem ancillary_reduction_two_refuted : exists (m : list (list (NumF * NumF))) anc V s,
  anc = [true; true] /\ run NumF gF nbdef [IMat m; IInc KM 0; IAnc 0 anc true; IValM 0 0 0; IValM 1 0 0] [] (pkg_init NumF gF 2) = Ok (V, [OC chalf; OC c1]) s.
Proof.
  exists [[chalf; c1; c0; c1]; [c0; c0; chalf; c0]; [c0; c0; c0; c0]; [c0; c0; c0; c0]], [true; true].
  match goal with |- exists V s, _ /\ run _ _ _ ?p _ _ = Ok (_, ?o) _ => destruct (watch_outs 2 p o) as (V & s & E); [vm_compute; reflexivity|] end. exists V, s. split; auto.
Qed.
(** The amplitudes of a garbage qubit are added up, but a weight above one is replaced by one
    (Package.hpp:2414-2417): (1, 1) becomes (1, 0), and so does (1, 0), although the sums differ. *)
Theorem garbage_reduction_refuted : exists (v w : list (NumF * NumF)) V s V' s',
  v = [c1; c1] /\ w = [c1; c0] /\
  run NumF gF nbdef [@IVec NumF v; IInc KV 0; IGarV 0 [true]; IGetVec 1] [] (pkg_init NumF gF 1) = Ok (V, [OV w]) s /\
  run NumF gF nbdef [@IVec NumF w; IInc KV 0; IGarV 0 [true]; IGetVec 1] [] (pkg_init NumF gF 1) = Ok (V', [OV w]) s'.
Proof.
  exists [c1; c1], [c1; c0].
  destruct (watch_outs 1 [@IVec NumF [c1; c1]; IInc KV 0; IGarV 0 [true]; IGetVec 1] [OV [c1; c0]]) as (V & s & E); [vm_compute; reflexivity|].
  destruct (watch_outs 1 [@IVec NumF [c1; c0]; IInc KV 0; IGarV 0 [true]; IGetVec 1] [OV [c1; c0]]) as (V' & s' & E'); [vm_compute; reflexivity|].
  exists V, s, V', s'. auto.
Qed.
(** The vectors of ancillary and garbage qubits are read without a check of their length (Package.hpp:2350,
    2396, 2449): a vector that does not cover the diagram is read past its end. *)
Theorem reduction_range_refuted : exists (m : list (list (NumF * NumF))) (v : list (NumF * NumF)) bits,
  length bits = 1%nat /\
  run NumF gF nbdef [IMat m; IInc KM 0; IAnc 0 bits true] [] (pkg_init NumF gF 2) = Bad BadIndex /\
  run NumF gF nbdef [IMat m; IInc KM 0; IGarM 0 bits true] [] (pkg_init NumF gF 2) = Bad BadIndex /\
  run NumF gF nbdef [@IVec NumF v; IInc KV 0; IGarV 0 bits] [] (pkg_init NumF gF 2) = Bad BadIndex.
Proof.
  exists [[c1; c1; c0; c0]; [c1; c1; c0; c0]; [c0; c0; c1; c1]; [c0; c0; c1; c1]], [c1; c1; c1; cm1], [true].
  split; [reflexivity|]. assert (Q: forall A (r : res NumF A), match r with Bad BadIndex => true | _ => false end = true -> r = Bad BadIndex) by (intros A [| |[]]; congruence).
  split; [|split]; apply Q; vm_compute; reflexivity.
Qed.
Print Assumptions ancillary_reduction_safe.
Print Assumptions ancillary_reduction_partial.
Print Assumptions garbage_reduction_safe.
Print Assumptions ancillary_reduction_shared_refuted.
Print Assumptions ancillary_reduction_two_refuted.
Print Assumptions garbage_reduction_refuted.
Print Assumptions reduction_range_refuted.
