(** Writing and reading diagrams, and copying them to another package (C40, C41): what holds in every pair
    of reachable states in exact arithmetic, and what does not, with witnesses computed in doubles. *)
From Coq Require Import ZArith List Bool Lia Arith Reals Lra.
From Verif Require Import Num Base CTable CTableWf Cx State Pkg Serial Inv InvL PrimL NormL MkL TrL AddL MulL CanonL IdentL StateL TraceL SerialL SerialW Run Inst PropBase PropSem PropRefute PropMeas.
Import ListNotations.
Local Open Scope Z_scope.

(** What is written for a vector or a matrix *)
Definition written (fuel : nat) (txt : option (R0 * R0 -> R0 * R0)) (k : kind) (e : edge) : M R0 (file (R0 * R0)) :=
  match k with KV => serializeV R0 fuel txt e | _ => serializeM R0 txt e end.
(** The numbers survive the text format ([None] is the binary format). *)
Definition exact_text (txt : option (R0 * R0 -> R0 * R0)) : Prop := forall t, txt = Some t -> forall v, t v = v.

Section Target.
Context (g : cfg R0) (nb : kind -> Z) (G : gok g).
Local Notation X := (XR g G).
Local Notation entry := (entry g G).
Local Notation reachedR := (reachedR g nb G).
Local Notation unchanged := (unchanged g G).

Lemma push_call nq s V D c k l f (m : M R0 edge) : reachedR nq s V D ->
  (forall s0, exec R0 g nb c V s0 = push R0 V m s0) ->
  dstep (X:=X) nq (full g G s V D) c (full g G s V D ++ [dnew k l (Some f)]) [] ->
  exists r s' D', m s = Ok r s' /\ reachedR nq s' (V ++ [r]) D' /\ usr (V ++ [r]) D' k l r /\ unchanged V D s s' /\
    forall p, vpath k l p -> entry s' k r p = f p.
Proof.
  intros H Ec Ds. pose proof (reached_len _ _ _ _ _ _ _ H) as LD.
  destruct (call g nb G nq s V D _ _ _ H Ds) as (V' & outs & s' & E & R' & _). rewrite Ec in E. unfold push, bind in E.
  destruct (m s) as [r s1| |] eqn:Em; try discriminate. cbn in E. injection E as <- <- <-.
  set (D' := full g G s V D ++ _) in *.
  assert (LF: length (full g G s V D) = length V) by (unfold full; rewrite map_length, combine_length; lia).
  assert (Lv: live D' (length V) k l (Some f)).
  { exists 0%nat. unfold D'. rewrite nth_error_app2, LF, Nat.sub_diag by lia. reflexivity. }
  exists r, s1, D'. split; [reflexivity|]. split; [exact R'|]. split; [|split].
  - exists (length V), (Some f). split; [exact Lv|apply var_last].
  - intros k' m' e (j & fj & Lj & <-) p0 Vp0. assert (Hj: (j < length V)%nat) by (rewrite <- LD; now apply live_lt in Lj).
    rewrite <- (var_app V r j) at 1 by auto.
    apply (usr_entry g nb G nq s1 (V ++ [r]) D' j k' m' _ R'); auto. unfold D'. apply live_app. eapply full_live; eauto.
  - intros p Vp. rewrite <- (var_last V r) at 1. now apply (usr_entry g nb G nq s1 (V ++ [r]) D' (length V) k l f R').
Qed.
End Target.

Section Pair.
(** The package written or copied from, and the one read or copied to *)
Context (ga : cfg R0) (nba : kind -> Z) (Ga : gok ga) (gb : cfg R0) (nbb : kind -> Z) (Gb : gok gb).

(** * C41 *)
(** Writing a diagram of one or more qubits and reading it in another package with enough qubits (or
    another state of the same package) gives the same entries, for every way the nodes are shared. *)
Theorem serialization_round_trip nqa sa Va Da nqb sb Vb Db k l e txt :
  reachedR ga nba Ga nqa sa Va Da -> reachedR gb nbb Gb nqb sb Vb Db -> usr Va Da k l e -> k <> KD -> 0 <= l < nqb -> exact_text txt ->
  exists fuel0 fl, (forall fuel, (fuel0 <= fuel)%nat -> written fuel txt k e sa = Ok fl sa) /\
  exists r s' D', deserialize R0 gb nbb k fl sb = Ok r s' /\ reachedR gb nbb Gb nqb s' (Vb ++ [r]) D' /\ usr (Vb ++ [r]) D' k l r /\
    unchanged gb Gb Vb Db sb s' /\ forall p, vpath k l p -> entry gb Gb s' k r p = entry ga Ga sa k e p.
Proof.
  intros Ha Hb U Hk Hl Ht. destruct (usr_ok _ _ _ _ _ _ _ _ _ _ Ha U) as [_ T]. destruct (reached_inv _ _ _ _ _ _ _ Ha) as (I & _).
  destruct (ep e) as [| |n] eqn:E; [exfalso; pose proof (te_n _ _ _ _ _ _ _ T) as Q; rewrite E in Q; exact Q| |].
  - assert (W0: forall p, vpath k l p -> entry ga Ga sa k e p = C0).
    { intros p _. destruct (te_t _ _ _ _ _ _ _ T E) as [Z|Z]; [lia|]. unfold PropBase.entry, Inv.de. rewrite Z, Cw_zero by exact Logic.I. ring. }
    exists 1%nat, (FL (match txt with Some t => t (cval sa (ew e)) | None => cval sa (ew e) end) []). split.
    + intros fuel _. unfold written, serializeV, serializeM. destruct k; [| |congruence]; rewrite ?E; unfold bind, get, ret; cbn.
      * destruct (ep e); try discriminate; reflexivity.
      * rewrite Nat.add_comm. cbn. rewrite E. reflexivity.
    + destruct (push_call gb nbb Gb nqb sb Vb Db (@IRead R0 k (FL (match txt with Some t => t (cval sa (ew e)) | None => cval sa (ew e) end) [])) k l
        (fun _ => C0) _ Hb (fun _ => eq_refl)) as (r & s' & D' & A & B & C & F & W).
      { apply d_read0; [exact Logic.I|lia]. }
      exists r, s', D'. repeat (split; [assumption|]). intros p Vp. now rewrite W, W0.
  - assert (Fk: exists f0 fl, (forall f, (f0 <= f)%nat -> written f txt k e sa = Ok fl sa) /\
        fileok (Cv2 R0 ga (XR ga Ga)) (fun _ => True) nqb k fl l (entry ga Ga sa k e)).
    { destruct k; [| |congruence].
      - apply (serializeV_sp (g:=ga) (nb:=nba) (X:=XR ga Ga) sa e l n txt nqb Logic.I I Ht T E). lia.
      - destruct (serializeM_sp (g:=ga) (nb:=nba) (X:=XR ga Ga) sa e l n txt nqb Logic.I I Ht T E) as (fl & A & B); [lia|].
        exists 0%nat, fl. split; auto. }
    destruct Fk as (f0 & fl & A0 & F0). exists f0, fl. split; [exact A0|].
    destruct (push_call gb nbb Gb nqb sb Vb Db (@IRead R0 k fl) k l (entry ga Ga sa k e) _ Hb (fun _ => eq_refl)) as (r & s' & D' & A & B & C & F & W).
    { apply d_read; [exact Hk|exact Logic.I|exact F0]. }
    exists r, s', D'. auto 10.
Qed.

(** * C40 *)
(** The vectors that are not copied: those of one qubit whose second amplitude is not zero, and those of two
    qubits that are a product of two vectors, both entries of the first and the second of the other not being zero. *)
Definition stuck (l : Z) (f : list nat -> C) : Prop :=
  (l = 0 /\ f [1%nat] <> C0) \/
  (l = 1 /\ f [0; 1]%nat <> C0 /\ f [1; 1]%nat <> C0 /\ (f [0; 0]%nat * f [1; 1]%nat = f [0; 1]%nat * f [1; 0]%nat)%C).
(** Partial: vectors that are not [stuck]; [transfer_stuck] is about the others. *)
Theorem transfer_same_partial nqa sa Va Da nqb sb Vb Db l e :
  reachedR ga nba Ga nqa sa Va Da -> reachedR gb nbb Gb nqb sb Vb Db -> usr Va Da KV l e -> l < nqb -> ~ stuck l (entry ga Ga sa KV e) ->
  exists fuel0 r s' D', (forall fuel, (fuel0 <= fuel)%nat -> transfer R0 gb nbb fuel KV sa e sb = Ok r s') /\
    reachedR gb nbb Gb nqb s' (Vb ++ [r]) D' /\ usr (Vb ++ [r]) D' KV l r /\
    unchanged gb Gb Vb Db sb s' /\ forall p, vpath KV l p -> entry gb Gb s' KV r p = entry ga Ga sa KV e p.
Proof.
  intros Ha Hb U Hl Hc. destruct (usr_ok _ _ _ _ _ _ _ _ _ _ Ha U) as [Hm T]. destruct (reached_inv _ _ _ _ _ _ _ Ha) as (I & _).
  destruct (ep e) as [| |n] eqn:E; [exfalso; pose proof (te_n _ _ _ _ _ _ _ T) as Q; rewrite E in Q; exact Q| |].
  - set (x := (ew e, cval sa (ew e))).
    assert (Vx: cvX (X:=XR gb Gb) x = Cw R0 ga (XR ga Ga) (co R0 sa) (ew e)) by (apply (stored_value (g:=ga) (X:=XR ga Ga) sa); first [exact Logic.I|apply T]).
    destruct (push_call gb nbb Gb nqb sb Vb Db (@ICopy R0 KV (FL x [])) KV l (fun _ => cvX (X:=XR gb Gb) x) _ Hb (fun _ => eq_refl)) as (r & s' & D' & A & B & C & F & W).
    { apply d_copy0; [exact Logic.I| | |lia].
      - split; cbn [fst x]; intros Q; rewrite Q in Vx; unfold cvX in Vx; cbn [snd x] in *.
        + rewrite Vx. now apply Cw_zero.
        + rewrite Vx. now apply Cw_one.
      - destruct (te_t _ _ _ _ _ _ _ T E) as [Z|Z]; [now left|right]. rewrite Vx, Z. now apply Cw_zero. }
    exists 0%nat, r, s', D'. split.
    { intros fuel _. unfold transfer. rewrite E. exact A. }
    repeat (split; [assumption|]). intros p Vp. rewrite W by auto. rewrite Vx. unfold PropBase.entry, Inv.de. rewrite E.
    destruct (te_t _ _ _ _ _ _ _ T E) as [Z|Z].
    + subst l. destruct p; [cbn; ring|]. destruct Vp as [Vp _]. cbn in Vp. lia.
    + rewrite Z, Cw_zero by exact Logic.I. ring.
  - destruct (transfer_file (g:=ga) (nb:=nba) (X:=XR ga Ga) sa e l n nqb Logic.I I T E) as (f0 & fl & A0 & F0); [|lia|].
    { intros U1. apply Hc. exact (proj1 (stuckv_iff (g:=ga) (nb:=nba) (X:=XR ga Ga) sa e l n Logic.I I T E) U1). }
    destruct (push_call gb nbb Gb nqb sb Vb Db (@ICopy R0 KV fl) KV l (entry ga Ga sa KV e) _ Hb (fun _ => eq_refl)) as (r & s' & D' & A & B & C & F & W).
    { apply d_copy; [discriminate|exact Logic.I|exact F0]. }
    exists f0, r, s', D'. split; [|auto]. intros fuel Hf. rewrite (A0 gb nbb) by auto. exact A.
Qed.
(** For the others the top of the empty stack is read (Package.hpp:2924), whatever the target is. *)
Theorem transfer_stuck nqa sa Va Da l e : reachedR ga nba Ga nqa sa Va Da -> usr Va Da KV l e -> stuck l (entry ga Ga sa KV e) ->
  forall fuel sb, (4 <= fuel)%nat -> transfer R0 gb nbb fuel KV sa e sb = Bad BadIndex.
Proof.
  intros Ha U Hs fuel sb Hf. destruct (usr_ok _ _ _ _ _ _ _ _ _ _ Ha U) as [Hm T]. destruct (reached_inv _ _ _ _ _ _ _ Ha) as (I & _).
  destruct (ep e) as [| |n] eqn:E; [exfalso; pose proof (te_n _ _ _ _ _ _ _ T) as Q; rewrite E in Q; exact Q| |].
  - exfalso. assert (Z: 0 <= l -> forall p, entry ga Ga sa KV e p = C0).
    { intros Hl p. unfold PropBase.entry, Inv.de. destruct (te_t _ _ _ _ _ _ _ T E) as [Z|Z]; [lia|]. rewrite Z, Cw_zero by exact Logic.I. ring. }
    destruct Hs as [[-> H]|(-> & H & _)]; apply H; apply Z; lia.
  - apply (transfer_bad (g:=ga) (nb:=nba) (X:=XR ga Ga) sa e l n Logic.I I T E); [|exact Hf].
    exact (proj2 (stuckv_iff (g:=ga) (nb:=nba) (X:=XR ga Ga) sa e l n Logic.I I T E) Hs).
Qed.
End Pair.

(** ** Example: a vector of three qubits, written, read and copied *)
Definition vec8 : list (R0 * R0) := [(1, 0); (2, 0); (3, 0); (4, 0); (1, 0); (2, 0); (0, 0); (0, 5)]%R.
Definition f8 : list nat -> C := fun p => Cv2 R0 gR (XR gR GR) (nth (vidx p) vec8 (n0, n0)).
Definition D8 : denv := [Some (DV KV 2 0 (Some f8))].
Lemma reached8 : exists s V, reachedR gR nbdef GR 3 s V D8.
Proof.
  destruct (runs gR nbdef GR 3 [@IVec R0 vec8] D8 []) as (s & V & outs & _ & H & _); [lia|apply nbdef_pos| |eauto].
  change (@nil (option dout)) with ([] ++ @nil (option dout)).
  eapply dr_cons; [apply (d_vec (N:=R0) 3 _ 3 vec8); [reflexivity|cbn; lia]|]. apply dr_nil.
Qed.
Lemma usr8 V : usr V D8 KV 2 (var V 0).
Proof. exists 0%nat, (Some f8). split; auto. exists 0%nat. reflexivity. Qed.
Lemma val8 s V : reachedR gR nbdef GR 3 s V D8 -> entry gR GR s KV (var V 0) [1; 1; 1]%nat = (0, 5)%R.
Proof.
  intros H. rewrite (usr_entry gR nbdef GR 3 s V D8 0 KV 2 f8 H); [reflexivity|exists 0%nat; reflexivity|vp].
Qed.
Lemma reached_new nq : 0 <= nq -> reachedR gR nbdef GR nq (pkg_init R0 gR nq) [] [].
Proof. intros H. now constructor. Qed.
(** Written in the first package, read in a new one: the last amplitude is 5i again. *)
Example serialization_round_trip_example : exists s V fuel fl r s', reachedR gR nbdef GR 3 s V D8 /\
  written fuel None KV (var V 0) s = Ok fl s /\ deserialize R0 gR nbdef KV fl (pkg_init R0 gR 4) = Ok r s' /\
  entry gR GR s' KV r [1; 1; 1]%nat = (0, 5)%R.
Proof.
  destruct reached8 as (s & V & H). assert (Z4: 0 <= 4) by lia.
  destruct (serialization_round_trip gR nbdef GR gR nbdef GR 3 s V D8 4 _ _ _ KV 2 (var V 0) None H (reached_new 4 Z4) (usr8 V)) as
    (f0 & fl & A & r & s' & D' & B & _ & _ & _ & W); [discriminate|lia|discriminate|].
  exists s, V, f0, fl, r, s'. split; [exact H|]. split; [now apply A|]. split; [exact B|]. rewrite W by vp. eapply val8; eauto.
Qed.
Example transfer_example : exists s V fuel r s', reachedR gR nbdef GR 3 s V D8 /\
  transfer R0 gR nbdef fuel KV s (var V 0) (pkg_init R0 gR 4) = Ok r s' /\ entry gR GR s' KV r [1; 1; 1]%nat = (0, 5)%R.
Proof.
  destruct reached8 as (s & V & H). assert (Z4: 0 <= 4) by lia.
  destruct (transfer_same_partial gR nbdef GR gR nbdef GR 3 s V D8 4 _ _ _ 2 (var V 0) H (reached_new 4 Z4) (usr8 V)) as
    (f0 & r & s' & D' & A & _ & _ & _ & W); [lia|intros [[? _]|[? _]]; lia|].
  exists s, V, f0, r, s'. split; [exact H|]. split; [now apply A|]. rewrite W by vp. eapply val8; eauto.
Qed.

(** A vector of two qubits that is copied, and one that is not: (1, 2, 3, 4) and (1, 2, 3, 6) *)
Definition vec4 (x : R) : list (R0 * R0) := [(1, 0); (2, 0); (3, 0); (x, 0)]%R.
Definition f4 (x : R) : list nat -> C := fun p => Cv2 R0 gR (XR gR GR) (nth (vidx p) (vec4 x) (n0, n0)).
Definition D4 (x : R) : denv := [Some (DV KV 1 0 (Some (f4 x)))].
Lemma reached4 (x : R) : exists s V, reachedR gR nbdef GR 2 s V (D4 x).
Proof.
  destruct (runs gR nbdef GR 2 [@IVec R0 (vec4 x)] (D4 x) []) as (s & V & outs & _ & H & _); [lia|apply nbdef_pos| |eauto].
  change (@nil (option dout)) with ([] ++ @nil (option dout)).
  eapply dr_cons; [apply (d_vec (N:=R0) 2 _ 2 (vec4 x)); [reflexivity|cbn; lia]|]. apply dr_nil.
Qed.
Lemma usr4 (x : R) V : usr V (D4 x) KV 1 (var V 0).
Proof. exists 0%nat, (Some (f4 x)). split; auto. exists 0%nat. reflexivity. Qed.
Lemma val4 (x : R) s V p : reachedR gR nbdef GR 2 s V (D4 x) -> vpath KV 1 p -> entry gR GR s KV (var V 0) p = f4 x p.
Proof. intros H Vp. rewrite (usr_entry gR nbdef GR 2 s V (D4 x) 0 KV 1 (f4 x) H); [reflexivity|exists 0%nat; reflexivity|exact Vp]. Qed.
Example transfer_two_example : exists s V fuel r s', reachedR gR nbdef GR 2 s V (D4 4) /\
  transfer R0 gR nbdef fuel KV s (var V 0) (pkg_init R0 gR 2) = Ok r s' /\ entry gR GR s' KV r [1; 1]%nat = (4, 0)%R.
Proof.
  destruct (reached4 4) as (s & V & H). assert (Z4: 0 <= 2) by lia.
  destruct (transfer_same_partial gR nbdef GR gR nbdef GR 2 s V (D4 4) 2 _ _ _ 1 (var V 0) H (reached_new 2 Z4) (usr4 4 V)) as
    (f0 & r & s' & D' & A & _ & _ & _ & W); [lia| |].
  { intros [[? _]|(_ & _ & _ & Q)]; [lia|]. rewrite !(val4 _ _ _ _ H) in Q by vp. injection Q. cbn. lra. }
  exists s, V, f0, r, s'. split; [exact H|]. split; [now apply A|]. rewrite W by vp. rewrite (val4 _ _ _ _ H) by vp. reflexivity.
Qed.
Example transfer_stuck_example : exists s V, reachedR gR nbdef GR 2 s V (D4 6) /\
  transfer R0 gR nbdef 100 KV s (var V 0) (pkg_init R0 gR 2) = Bad BadIndex.
Proof.
  destruct (reached4 6) as (s & V & H). exists s, V. split; [exact H|].
  apply (transfer_stuck gR nbdef GR gR nbdef 2 s V (D4 6) 1 (var V 0) H (usr4 6 V)); [|lia].
  right. split; [reflexivity|]. rewrite !(val4 _ _ _ _ H) by vp. split; [|split].
  - intros Q. injection Q. cbn. lra.
  - intros Q. injection Q. cbn. lra.
  - apply injective_projections; cbv [Cmul fst snd f4]; cbn; ring.
Qed.

(** * Computed in doubles *)
Definition reals (l : list NumF) : list (NumF * NumF) := map (fun x => (x, f0)) l.
(** The result of copying variable 0 of a program for [nq] qubits to a new package *)
Definition copied (nq : Z) (k : kind) (prog : list (ins NumF)) : option bad :=
  match run NumF gF nbdef prog [] (pkg_init NumF gF nq) with
  | Ok (V, _) s => match transfer NumF gF nbdef 200 k s (var V 0) (pkg_init NumF gF nq) with Bad b => Some b | _ => None end
  | _ => None
  end.
Lemma copied_bad nq k prog b : copied nq k prog = Some b -> exists V outs s,
  run NumF gF nbdef prog [] (pkg_init NumF gF nq) = Ok (V, outs) s /\ transfer NumF gF nbdef 200 k s (var V 0) (pkg_init NumF gF nq) = Bad b.
Proof.
  unfold copied. destruct (run NumF gF nbdef prog [] (pkg_init NumF gF nq)) as [[V outs] s| |]; try discriminate.
  destruct (transfer NumF gF nbdef 200 k s (var V 0) (pkg_init NumF gF nq)) as [| |b'] eqn:E; try discriminate. intros [= ->]. exists V, outs, s. auto.
Qed.
(** The top of the empty stack is read (Package.hpp:2924) when (1, 1) is copied, ... *)
Theorem transfer_one_qubit_refuted : exists (v : list (NumF * NumF)) V outs s, v = reals [f1; f1] /\
  run NumF gF nbdef [@IVec NumF v] [] (pkg_init NumF gF 1) = Ok (V, outs) s /\
  transfer NumF gF nbdef 200 KV s (var V 0) (pkg_init NumF gF 1) = Bad BadIndex.
Proof. exists (reals [f1; f1]). destruct (copied_bad 1 KV [@IVec NumF (reals [f1; f1])] BadIndex) as (V & o & s & A & B); [vm_compute; reflexivity|]. exists V, o, s. auto. Qed.
(** ... when the uniform vector of two qubits is copied, and when the identity of two qubits is copied. *)
Theorem transfer_two_qubits_refuted : exists (v : list (NumF * NumF)) V outs s, v = reals [f1; f1; f1; f1] /\
  run NumF gF nbdef [@IVec NumF v] [] (pkg_init NumF gF 2) = Ok (V, outs) s /\
  transfer NumF gF nbdef 200 KV s (var V 0) (pkg_init NumF gF 2) = Bad BadIndex.
Proof. exists (reals [f1; f1; f1; f1]). destruct (copied_bad 2 KV [@IVec NumF (reals [f1; f1; f1; f1])] BadIndex) as (V & o & s & A & B); [vm_compute; reflexivity|]. exists V, o, s. auto. Qed.
Theorem transfer_identity_refuted : exists V outs s,
  run NumF gF nbdef [IIdent 1] [] (pkg_init NumF gF 2) = Ok (V, outs) s /\
  transfer NumF gF nbdef 200 KM s (var V 0) (pkg_init NumF gF 2) = Bad BadIndex.
Proof. apply copied_bad. vm_compute. reflexivity. Qed.
(** A matrix with blocks (A, A; B, 0) in its first quarter: the second A, already copied, stays on the
    stack, so that B is not found there (Package.hpp:2915-2925) and the copied node gets a null successor. *)
Definition matAAB : list (list (NumF * NumF)) := map (fun r => reals (r ++ [f0; f0; f0; f0]))
  [[f1; f0; f1; f0]; [f0; f1; f0; f1]; [f1; f0; f0; f0]; [f0; f2; f0; f0]; [f0; f0; f0; f0]; [f0; f0; f0; f0]; [f0; f0; f0; f0]; [f0; f0; f0; f0]].
Theorem transfer_matrix_refuted : exists (m : list (list (NumF * NumF))) V outs s, m = matAAB /\
  run NumF gF nbdef [@IMat NumF m] [] (pkg_init NumF gF 3) = Ok (V, outs) s /\
  transfer NumF gF nbdef 200 KM s (var V 0) (pkg_init NumF gF 3) = Bad BadNull.
Proof. exists matAAB. destruct (copied_bad 3 KM [@IMat NumF matAAB] BadNull) as (V & o & s & A & B); [vm_compute; reflexivity|]. exists V, o, s. auto. Qed.

(** A scalar, that is an edge to the terminal with a weight other than zero, has no line; reading starts
    from zero (Package.hpp:2977), so that the weight 2 becomes 0. *)
Definition reread (v : list (NumF * NumF)) : option (NumF * NumF * edge) :=
  match run NumF gF nbdef [@IVec NumF v] [] (pkg_init NumF gF 1) with
  | Ok (V, _) s => match serializeV NumF 10 None (var V 0) s with
                   | Ok fl _ => match deserialize NumF gF nbdef KV fl s with Ok r _ => Some (cval s (ew (var V 0)), r) | _ => None end
                   | _ => None end
  | _ => None
  end.
Lemma reread_some v x r : reread v = Some (x, r) -> exists V outs s fl s1 s2,
  run NumF gF nbdef [@IVec NumF v] [] (pkg_init NumF gF 1) = Ok (V, outs) s /\ cval s (ew (var V 0)) = x /\
  serializeV NumF 10 None (var V 0) s = Ok fl s1 /\ deserialize NumF gF nbdef KV fl s = Ok r s2.
Proof.
  unfold reread. destruct (run NumF gF nbdef [@IVec NumF v] [] (pkg_init NumF gF 1)) as [[V outs] s| |]; try discriminate.
  destruct (serializeV NumF 10 None (var V 0) s) as [fl s1| |] eqn:E1; try discriminate.
  destruct (deserialize NumF gF nbdef KV fl s) as [r' s2| |] eqn:E2; try discriminate. intros H.
  exists V, outs, s, fl, s1, s2. split; auto. split; [congruence|]. split; auto. congruence.
Qed.
Theorem serialization_scalar_refuted : exists (v : list (NumF * NumF)) V outs s fl s1 s2, v = reals [f2] /\
  run NumF gF nbdef [@IVec NumF v] [] (pkg_init NumF gF 1) = Ok (V, outs) s /\ cval s (ew (var V 0)) = (f2, f0) /\
  serializeV NumF 10 None (var V 0) s = Ok fl s1 /\ deserialize NumF gF nbdef KV fl s = Ok Ezero s2.
Proof.
  exists (reals [f2]). destruct (reread_some (reals [f2]) (f2, f0) Ezero) as (V & o & s & fl & s1 & s2 & H); [vm_compute; reflexivity|].
  exists V, o, s, fl, s1, s2. split; [reflexivity|exact H].
Qed.
(** Reading does not compare the levels in the file with the qubits of the package: a vector of two
    qubits, read in a package for one, is looked up in a table that does not exist. *)
Definition readSmall (v : list (NumF * NumF)) : option bad :=
  match run NumF gF nbdef [@IVec NumF v] [] (pkg_init NumF gF 2) with
  | Ok (V, _) s => match serializeV NumF 20 None (var V 0) s with
                   | Ok fl _ => match deserialize NumF gF nbdef KV fl (pkg_init NumF gF 1) with Bad b => Some b | _ => None end
                   | _ => None end
  | _ => None
  end.
Lemma readSmall_bad v b : readSmall v = Some b -> exists V outs s fl s1,
  run NumF gF nbdef [@IVec NumF v] [] (pkg_init NumF gF 2) = Ok (V, outs) s /\
  serializeV NumF 20 None (var V 0) s = Ok fl s1 /\ deserialize NumF gF nbdef KV fl (pkg_init NumF gF 1) = Bad b.
Proof.
  unfold readSmall. destruct (run NumF gF nbdef [@IVec NumF v] [] (pkg_init NumF gF 2)) as [[V outs] s| |]; try discriminate.
  destruct (serializeV NumF 20 None (var V 0) s) as [fl s1| |] eqn:E1; try discriminate.
  destruct (deserialize NumF gF nbdef KV fl (pkg_init NumF gF 1)) as [| |b'] eqn:E2; try discriminate. intros H.
  exists V, outs, s, fl, s1. split; auto. split; auto. congruence.
Qed.
Theorem serialization_small_package_refuted : exists (v : list (NumF * NumF)) V outs s fl s1, v = reals [f1; f0; f0; f1] /\
  run NumF gF nbdef [@IVec NumF v] [] (pkg_init NumF gF 2) = Ok (V, outs) s /\
  serializeV NumF 20 None (var V 0) s = Ok fl s1 /\ deserialize NumF gF nbdef KV fl (pkg_init NumF gF 1) = Bad BadIndex.
Proof.
  exists (reals [f1; f0; f0; f1]). destruct (readSmall_bad (reals [f1; f0; f0; f1]) BadIndex) as (V & o & s & fl & s1 & H); [vm_compute; reflexivity|].
  exists V, o, s, fl, s1. split; [reflexivity|exact H].
Qed.

Print Assumptions serialization_round_trip.
Print Assumptions transfer_same_partial.
Print Assumptions transfer_stuck.
Print Assumptions transfer_one_qubit_refuted.
Print Assumptions transfer_two_qubits_refuted.
Print Assumptions transfer_identity_refuted.
Print Assumptions transfer_matrix_refuted.
Print Assumptions serialization_scalar_refuted.
Print Assumptions serialization_small_package_refuted.
