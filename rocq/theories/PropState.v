(** Nodes, canonicity, building diagrams and reading them back, in every reachable state, in
    exact arithmetic (C16-C20, C29, C44). *)
From Coq Require Import ZArith List Bool Lia Arith Reals Lra.
From Verif Require Import Num Base CTable CTableWf Cx State Pkg Read Inv InvL PrimL NormL MkL TrL AddL MulL InnerL KronL CanonL IdentL StateL Inst TraceL GcL RefL ReadL GateAct Run PropBase PropSem.
Import ListNotations.
Local Open Scope Z_scope.

(** ** Indices *)

Lemma bitV_nat m k : bitV (Z.of_nat m) (Z.of_nat k) = (m / 2 ^ k mod 2)%nat.
Proof.
  unfold bitV. pose proof (Z.testbit_spec' (Z.of_nat m) (Z.of_nat k) ltac:(lia)) as H.
  assert (E: (Z.of_nat m / 2 ^ Z.of_nat k) mod 2 = Z.of_nat (m / 2 ^ k mod 2)).
  { rewrite Nat2Z.inj_mod, Nat2Z.inj_div, Nat2Z.inj_pow. reflexivity. }
  rewrite E in H. destruct (Z.testbit _ _); cbn [Z.b2z] in H; lia.
Qed.
Lemma digp_pidx n m : digp (bitV (Z.of_nat m)) n = pidx n m.
Proof. induction n as [|n IH]; cbn [digp pidx]; auto. f_equal; auto. apply bitV_nat. Qed.
Lemma digp_mp n a b : digp (bitM (Z.of_nat a) (Z.of_nat b)) n = mp (pidx n a) (pidx n b).
Proof. induction n as [|n IH]; cbn [digp pidx mp]; auto. f_equal; auto. unfold bitM. now rewrite !bitV_nat. Qed.
Lemma vidx_pidx_lt n m : (m < 2 ^ n)%nat -> vidx (pidx n m) = m.
Proof. intros. rewrite vidx_pidx. now apply Nat.mod_small. Qed.
Lemma strpath_rev k l p : -1 <= l -> vpath k l p -> strpath l (rev p) = p.
Proof.
  intros Hl [L _]. unfold strpath. rewrite firstn_all2; [apply rev_involutive|]. rewrite rev_length. lia.
Qed.
Lemma rev_path_ok k l p : -1 <= l -> vpath k l p -> forall v, 0 <= v <= l -> exists d, nth_error (rev p) (Z.to_nat v) = Some d /\ (d < arity k)%nat.
Proof.
  intros Hl [L F] v Hv. destruct (nth_error (rev p) (Z.to_nat v)) as [d|] eqn:E.
  - exists d. split; auto. rewrite Forall_forall in F. apply F. apply in_rev. eapply nth_error_In; eauto.
  - apply nth_error_None in E. rewrite rev_length in E. lia.
Qed.
Lemma pidx_vidx n p : vpath KV (Z.of_nat n - 1) p -> pidx n (vidx p) = p.
Proof.
  intros Vp. pose proof (vpath_vidx n p Vp) as Lt. destruct Vp as [L F]. apply vidx_inj; auto.
  - rewrite pidx_len. lia.
  - apply Forall_forall. intros c Hc. eapply pidx_lt; eauto.
  - now apply vidx_pidx_lt.
Qed.

Lemma row_mp : forall a b, length a = length b -> Forall (fun c => (c < 2)%nat) b -> map (fun i => i / 2)%nat (mp a b) = a.
Proof.
  induction a as [|x a IH]; intros [|y b] L F; try discriminate; auto. cbn [mp map]. inversion F; subst. f_equal; [|apply IH; auto].
  rewrite Nat.mul_comm, Nat.div_add_l by lia. rewrite Nat.div_small; lia.
Qed.
Lemma col_mp : forall a b, length a = length b -> Forall (fun c => (c < 2)%nat) b -> map (fun i => i mod 2)%nat (mp a b) = b.
Proof.
  induction a as [|x a IH]; intros [|y b] L F; try discriminate; auto. cbn [mp map]. inversion F; subst. f_equal; [|apply IH; auto].
  rewrite Nat.add_comm, Nat.mul_comm, Nat.mod_add by lia. apply Nat.mod_small; lia.
Qed.
Lemma ridx_mp l a b : vpath KV l b -> length a = length b -> ridx (mp a b) = vidx a.
Proof. intros [_ F] L. unfold ridx. now rewrite row_mp by auto. Qed.
Lemma cidx_mp l a b : vpath KV l b -> length a = length b -> cidx (mp a b) = vidx b.
Proof. intros [_ F] L. unfold cidx. now rewrite col_mp by auto. Qed.

Section St.
Context (g : cfg R0) (nb : kind -> Z) (G : gok g).
Local Notation X := (XR g G).
Local Notation entry := (entry g G).
Local Notation reachedR := (reachedR g nb G).
Local Notation unchanged := (unchanged g G).
Local Notation gives := (gives g nb G).
Local Notation co := (co R0).

Lemma usr_tt nq s V D k l e : reachedR nq s V D -> usr V D k l e -> -1 <= l < s_nq s /\ tedge R0 g X (co s) k l e.
Proof. apply usr_ok. Qed.

(** * C44: reading entries *)

(** The entry at path [p]; the string lists the digits from qubit 0 upwards. *)
Theorem getValueByPath_reads nq s V D k l x p : reachedR nq s V D -> usr V D k l x -> vpath k l p ->
  exists s', getValueByPath R0 g k x (rev p) s = Ok (entry s k x p) s' /\ reachedR nq s' V D /\ unchanged V D s s'.
Proof.
  intros H Hx Vp. destruct (usr_tt _ _ _ _ _ _ _ H Hx) as [L Tx]. destruct Hx as (i & a & Li & <-). destruct (reached_inv _ _ _ _ _ _ _ H) as (I & Ow & Q).
  pose proof (rev_path_ok k l p ltac:(lia) Vp) as Hp.
  destruct (getValueByPath_sp (g:=g) (nb:=nb) (X:=X) G k (rev p) l s [] (var V i)) as (v & s' & E & S' & O' & V'); auto.
  exists s'. split; [|split].
  - rewrite E. f_equal. transitivity (Cv2 R0 g X v); [now destruct v|]. rewrite (V' Logic.I). now rewrite (strpath_rev k) by (auto; lia).
  - eapply (reached_exec (X:=X) G nq s V D (IPath k i (rev p)) D _ V [OC v] s' H); [apply (d_path (X:=X) nq D k l i a); auto|].
    cbn [exec]. unfold emit, bind, ret. now rewrite E.
  - eapply step_unchanged; eauto.
Qed.

(** By index, up to 64 qubits. *)
Theorem getValueByIndex_reads nq s V D n x i : reachedR nq s V D -> usr V D KV (Z.of_nat n - 1) x -> (n <= 64)%nat -> (i < 2 ^ n)%nat ->
  exists s', getValueV R0 g x (Z.of_nat i) s = Ok (entry s KV x (pidx n i)) s' /\ reachedR nq s' V D /\ unchanged V D s s'.
Proof.
  intros H Hx Hn Hi. destruct (usr_tt _ _ _ _ _ _ _ H Hx) as [L Tx]. destruct Hx as (j & a & Lj & <-). destruct (reached_inv _ _ _ _ _ _ _ H) as (I & Ow & Q).
  destruct (getValueV_sp (g:=g) (nb:=nb) (X:=X) G (Z.of_nat i) n s [] (var V j)) as (v & s' & E & S' & O' & V'); auto; [lia|].
  exists s'. split; [|split].
  - rewrite E. f_equal. transitivity (Cv2 R0 g X v); [now destruct v|]. rewrite (V' Logic.I). now rewrite digp_pidx.
  - eapply (reached_exec (X:=X) G nq s V D (IValV j (Z.of_nat i)) D _ V [OC v] s' H); [apply (d_valv (X:=X) nq D n j a); auto|].
    cbn [exec]. unfold emit, bind, ret. now rewrite E.
  - eapply step_unchanged; eauto.
Qed.
Theorem getValueByIndices_reads nq s V D n x i j : reachedR nq s V D -> usr V D KM (Z.of_nat n - 1) x -> (n <= 64)%nat -> (i < 2 ^ n)%nat -> (j < 2 ^ n)%nat ->
  exists s', getValueM R0 g x (Z.of_nat i) (Z.of_nat j) s = Ok (entry s KM x (mp (pidx n i) (pidx n j))) s' /\ reachedR nq s' V D /\ unchanged V D s s'.
Proof.
  intros H Hx Hn Hi Hj. destruct (usr_tt _ _ _ _ _ _ _ H Hx) as [L Tx]. destruct Hx as (m & a & Lm & <-). destruct (reached_inv _ _ _ _ _ _ _ H) as (I & Ow & Q).
  destruct (getValueM_sp (g:=g) (nb:=nb) (X:=X) G (Z.of_nat i) (Z.of_nat j) n s [] (var V m)) as (v & s' & E & S' & O' & V'); auto; [lia|].
  exists s'. split; [|split].
  - rewrite E. f_equal. transitivity (Cv2 R0 g X v); [now destruct v|]. rewrite (V' Logic.I). now rewrite digp_mp.
  - eapply (reached_exec (X:=X) G nq s V D (IValM m (Z.of_nat i) (Z.of_nat j)) D _ V [OC v] s' H); [apply (d_valm (X:=X) nq D n m a); auto|].
    cbn [exec]. unfold emit, bind, ret. now rewrite E.
  - eapply step_unchanged; eauto.
Qed.

Lemma nonzero_nt nq s V D k l e p : reachedR nq s V D -> usr V D k l e -> vpath k l p -> entry s k e p <> C0 -> 0 <= l -> ep e <> PTerm.
Proof.
  intros H Hx Vp Np Hl. destruct (usr_tt _ _ _ _ _ _ _ H Hx) as [L T]. destruct (reached_inv _ _ _ _ _ _ _ H) as (I & Ow & Q).
  destruct (nz_lvl (g:=g) (nb:=nb) (X:=X) s k l e (entry s k e) p) as [_ Z]; auto. exact Logic.I.
Qed.

Lemma list_of_paths (v : list (R0 * R0)) (w : list nat -> R0 * R0) n : length v = (2 ^ n)%nat ->
  (forall p, vpath KV (Z.of_nat n - 1) p -> nth (vidx p) v (n0, n0) = w p) -> v = map (fun i => w (pidx n i)) (seq 0 (2 ^ n)).
Proof.
  intros L H. apply (nth_ext _ _ (n0, n0) (w (pidx n 0))); [now rewrite map_length, seq_length|]. intros i Hi. rewrite L in Hi.
  rewrite (map_nth (fun i => w (pidx n i))), seq_nth by auto. cbn [Nat.add]. rewrite <- H by apply pidx_vpath. now rewrite vidx_pidx_lt.
Qed.
Lemma reads_reached nq s V D j k l a c os outs s' : reachedR nq s V D -> live D j k l a ->
  dstep (X:=X) nq (claim D j (Some (entry s k (var V j)))) c (claim D j (Some (entry s k (var V j)))) os ->
  exec R0 g nb c V s = Ok (V, outs) s' -> unchanged V D s s' -> reachedR nq s' V D.
Proof.
  intros H L Ds E U. pose proof (rc_claim (X:=X) nq s V D j k l a (Some (entry s k (var V j))) H Logic.I L (true_claim g G _ _ _ _)) as Hc.
  destruct (reached_exec G nq s V _ _ _ _ _ _ _ Hc Ds E) as [H1 _].
  rewrite <- (claim_back D j k l a (Some (entry s k (var V j))) L). eapply (rc_claim (X:=X) nq s' V _ j k l); [exact H1|exact Logic.I|eapply claim_live; eauto|].
  intros h -> p Vp. change (entry s' k (var V j) p = h p). rewrite (U k l (var V j)); auto; [|eexists; eauto]. now apply (usr_entry g nb G nq s V D j k l h H L).
Qed.
Lemma Cv2id (z : R0 * R0) : Cv2 R0 g X z = z.
Proof. now destruct z. Qed.

(** A non-zero vector on 1 to 63 qubits: all readers return the same list. *)
Theorem readers_agree_partial nq s V D n x p : reachedR nq s V D -> usr V D KV (Z.of_nat n - 1) x -> (0 < n <= 63)%nat ->
  vpath KV (Z.of_nat n - 1) p -> entry s KV x p <> C0 ->
  let v := map (fun i => entry s KV x (pidx n i)) (seq 0 (2 ^ n)) in
  (exists s', getVector R0 g x s = Ok v s' /\ reachedR nq s' V D /\ unchanged V D s s') /\
  (forall amps, length amps = (2 ^ n)%nat -> exists s', exportAmplitudes R0 g x amps (Z.of_nat n) s = Ok v s' /\ reachedR nq s' V D /\ unchanged V D s s') /\
  (exists s', exportStream R0 g x (Z.of_nat n) s = Ok v s' /\ unchanged V D s s') /\
  (forall amps, length amps = (2 ^ n)%nat ->
     addAmplitudes R0 x amps (Z.of_nat n) s = Ok (map (fun i => nth i amps (n0, n0) + entry s KV x (pidx n i))%C (seq 0 (2 ^ n))) s).
Proof.
  intros H Hx Hn Vp Np v. destruct (usr_tt _ _ _ _ _ _ _ H Hx) as [L Tx]. assert (Nt: ep x <> PTerm) by (eapply (nonzero_nt nq s V D); eauto; lia).
  destruct (reached_inv _ _ _ _ _ _ _ H) as (I & Ow & Q). destruct Hx as (j & a & Lj & <-).
  pose proof (claim_live D j KV _ a (Some (entry s KV (var V j))) Lj) as Lc.
  split; [|split; [|split]].
  - destruct (getVector_sp (g:=g) (nb:=nb) (X:=X) G n s [] (var V j)) as (r & s' & E & S' & O' & L' & V'); auto; try lia.
    assert (Ev: r = v). { apply list_of_paths; auto. intros q Vq. rewrite <- (Cv2id (nth _ _ _)). exact (V' Logic.I q Vq). }
    assert (U: unchanged V D s s') by (eapply step_unchanged; eauto).
    exists s'. split; [rewrite E; now f_equal|]. split; [|exact U].
    eapply (reads_reached nq s V D j KV _ a (IGetVec j)); eauto; [eapply (d_getvec (X:=X)); eauto; exact Logic.I|]. cbn [exec]. unfold emit, bind, ret. rewrite E. reflexivity.
  - intros amps La.
    destruct (exportAmplitudes_sp (g:=g) (nb:=nb) (X:=X) G n s [] (var V j) amps) as (r & s' & E & S' & O' & L' & V'); auto; try lia.
    assert (Ev: r = v). { apply list_of_paths; auto. intros q Vq. rewrite <- (Cv2id (nth _ _ _)). exact (V' Logic.I q Vq). }
    assert (U: unchanged V D s s') by (eapply step_unchanged; eauto).
    exists s'. split; [rewrite E; now f_equal|]. split; [|exact U].
    eapply (reads_reached nq s V D j KV _ a (IExport j amps (Z.of_nat n))); eauto; [eapply (d_export (X:=X)); eauto; exact Logic.I|]. cbn [exec]. unfold emit, bind, ret. rewrite E. reflexivity.
  - destruct (exportStream_sp (g:=g) (nb:=nb) (X:=X) G n s [] (var V j)) as (r & s' & E & S' & O' & L' & V'); auto; try lia.
    assert (Ev: r = v). { apply list_of_paths; auto. intros q Vq. rewrite <- (Cv2id (nth _ _ _)). exact (V' Logic.I q Vq). }
    exists s'. split; [rewrite E; now f_equal|]. eapply step_unchanged; eauto.
  - intros amps La. destruct (addAmplitudes_sp (g:=g) (nb:=nb) (X:=X) n s (var V j) amps) as (r & E & L' & V'); auto; try lia. rewrite E. f_equal.
    set (w := fun i => (nth i amps (n0, n0) + entry s KV (var V j) (pidx n i))%C : R0 * R0).
    apply (nth_ext _ _ (n0, n0) (w 0%nat)); [now rewrite map_length, seq_length|]. intros i Hi. rewrite L' in Hi.
    rewrite (map_nth w), seq_nth by auto. cbn [Nat.add]. unfold w.
    specialize (V' Logic.I (pidx n i) (pidx_vpath n i)). rewrite vidx_pidx_lt in V' by auto. rewrite !Cv2id in V'. exact V'.
Qed.

Theorem getMatrix_reads_partial nq s V D n x p : reachedR nq s V D -> usr V D KM (Z.of_nat n - 1) x -> (0 < n <= 63)%nat ->
  vpath KM (Z.of_nat n - 1) p -> entry s KM x p <> C0 ->
  exists s', getMatrix R0 g x s = Ok (map (fun i => map (fun j => entry s KM x (mp (pidx n i) (pidx n j))) (seq 0 (2 ^ n))) (seq 0 (2 ^ n))) s' /\
    reachedR nq s' V D /\ unchanged V D s s'.
Proof.
  intros H Hx Hn Vp Np. destruct (usr_tt _ _ _ _ _ _ _ H Hx) as [L Tx]. assert (Nt: ep x <> PTerm) by (eapply (nonzero_nt nq s V D); eauto; lia).
  destruct (reached_inv _ _ _ _ _ _ _ H) as (I & Ow & Q). destruct Hx as (j & a & Lj & <-).
  pose proof (claim_live D j KM _ a (Some (entry s KM (var V j))) Lj) as Lc.
  destruct (getMatrix_sp (g:=g) (nb:=nb) (X:=X) G n s [] (var V j)) as (r & s' & E & S' & O' & [L1 L2] & V'); auto; try lia.
  assert (U: unchanged V D s s') by (eapply step_unchanged; eauto).
  exists s'. split; [|split; [|exact U]].
  - rewrite E. f_equal. set (w := fun i j0 => entry s KM (var V j) (mp (pidx n i) (pidx n j0)) : R0 * R0).
    apply (nth_ext _ _ [] (map (w 0%nat) (seq 0 (2 ^ n)))); [now rewrite map_length, seq_length|]. intros i Hi. rewrite L1 in Hi.
    rewrite (map_nth (fun i => map (w i) (seq 0 (2 ^ n)))), seq_nth by auto. cbn [Nat.add].
    assert (Lr: length (nth i r []) = (2 ^ n)%nat). { rewrite Forall_forall in L2. apply L2. apply nth_In. lia. }
    apply (nth_ext _ _ (n0, n0) (w i 0%nat)); [now rewrite map_length, seq_length|]. intros i' Hi'. rewrite Lr in Hi'.
    rewrite (map_nth (w i)), seq_nth by auto. cbn [Nat.add]. unfold w.
    assert (Vm: vpath KM (Z.of_nat n - 1) (mp (pidx n i) (pidx n i'))) by (apply vpath_mp; apply pidx_vpath).
    specialize (V' Logic.I _ Vm). rewrite Cv2id in V'. unfold PropBase.entry. rewrite <- V'. unfold mentry.
    rewrite (ridx_mp (Z.of_nat n - 1)), (cidx_mp (Z.of_nat n - 1)) by (try apply pidx_vpath; rewrite !pidx_len; reflexivity). now rewrite !vidx_pidx_lt by auto.
  - eapply (reads_reached nq s V D j KM _ a (IGetMat j)); eauto; [eapply (d_getmat (X:=X)); eauto; exact Logic.I|]. cbn [exec]. unfold emit, bind, ret. rewrite E. reflexivity.
Qed.

(** * C16: nodes *)

Theorem makeDDNode_stacks nq s V D k v es : reachedR nq s V D -> k <> KD -> 0 <= v < nq -> length es = arity k ->
  (forall e, In e es -> usr V D k (v - 1) e) ->
  exists r s', makeDDNode R0 g nb k v es false s = Ok r s' /\
    gives nq V D s k v r s' (fun p => match p with [] => C0 | i :: q => entry s k (nthe es i) q end).
Proof.
  intros H Hk Hv Len Hes. destruct (reached_inv _ _ _ _ _ _ _ H) as (I & Ow & Q).
  assert (Ch: forall e, In e es -> tedge R0 g X (co s) k (v - 1) e) by (intros e He; eapply usr_tt; eauto).
  assert (J: exists js fs, map (var V) js = es /\ Forall2 (fun j f => live D j k (v - 1) f) js fs).
  { clear Len Ch. induction es as [|e es IH]; [exists [], []; split; auto|]. destruct IH as (js & fs & E & F); [intros e' He; apply Hes; now right|].
    destruct (Hes e (or_introl eq_refl)) as (j & f & L & Ej). exists (j :: js), (f :: fs). split; [cbn; congruence|]. constructor; auto. }
  destruct J as (js & fs & <- & F). rewrite map_length in Len.
  eapply (gives_push g nb G); [exact H|apply (d_mk (X:=X) nq D k v js fs); auto|reflexivity|apply al0_1|].
  eapply wp_mono; [apply (makeDDNode_t (g:=g) (nb:=nb) (X:=X) G k v s (map (var V) js) []); auto; [now rewrite map_length|lia]|].
  intros r s' (S' & O' & T' & _ & V'). split; auto. intros p Vp. destruct p as [|i q]; [destruct Vp as [Vl _]; cbn in Vl; lia|].
  apply vpath_cons in Vp. destruct Vp as [Hi Vq]. exact (V' Logic.I i q Hi Vq).
Qed.

(** The weight of an edge as a complex number. *)
Definition weight (s : st R0) (e : edge) : C := Cw R0 g X (co s) (ew e).

(** A vector node: a single non-zero successor has weight 1; otherwise the squared magnitudes
    add up to 1 and the first weight of larger magnitude is positive.  A matrix node: some
    weight is 1, none is larger, and those before it are smaller.  A zero weight is the zero
    edge. *)
Theorem stored_nodes_are_normalised nq s V D k n : reachedR nq s V D -> stored s k n ->
  let es := ne (nod s k n) in let w i := weight s (nthe es i) in
  (forall i, (i < arity k)%nat -> w i = C0 -> nthe es i = Ezero) /\
  match k with
  | KV => (w 0%nat = C0 /\ w 1%nat = C1) \/ (w 0%nat = C1 /\ w 1%nat = C0) \/
          (w 0%nat <> C0 /\ w 1%nat <> C0 /\ (Cmag2 (w 0%nat) + Cmag2 (w 1%nat) = 1)%R /\
           ((Cmag2 (w 1%nat) <= Cmag2 (w 0%nat))%R -> snd (w 0%nat) = 0%R /\ (0 < fst (w 0%nat))%R) /\
           ((Cmag2 (w 0%nat) < Cmag2 (w 1%nat))%R -> snd (w 1%nat) = 0%R /\ (0 < fst (w 1%nat))%R))
  | _ => exists m, (m < 4)%nat /\ w m = C1 /\ (forall i, (i < 4)%nat -> (Cmag2 (w i) <= 1)%R) /\ (forall i, (i < m)%nat -> (Cmag2 (w i) < 1)%R)
  end.
Proof.
  intros H (v & b & Hn). destruct (reached_inv _ _ _ _ _ _ _ H) as (I & _). destruct (ui_node _ _ _ _ _ _ (ci_ut _ _ _ _ _ (iv_c _ _ _ _ _ I) k) _ _ _ Hn) as [A B E F Gr K L S Id].
  change (Inv.qn R0 (co s) k n) with (nod s k n) in *. intros es w. split.
  - intros i Hi Hw. assert (T: tedge R0 g X (co s) k (v - 1) (nthe es i)). { apply K. unfold nthe. apply nth_In. unfold es. lia. }
    apply (Cw_eq0 (nb:=nb)) in Hw; [|exact Logic.I|apply I|apply T]. pose proof (te_z _ _ _ _ _ _ _ T Logic.I Hw) as P.
    destruct (nthe es i) as [pp ww]. cbn in *. now subst.
  - specialize (L Logic.I). unfold nnorm, real_pos in L. unfold w, weight, es in *. destruct k.
    + destruct L as [[L1 L2]|[[L1 L2]|L]]; [left|right; left|right; right; exact L]; rewrite L1, L2, Cw_zero, Cw_one by exact Logic.I; auto.
    + destruct L as (m & M1 & M2 & M3). exists m. split; auto. split; auto. rewrite M2. apply Cw_one. exact Logic.I.
    + destruct L as (m & M1 & M2 & M3). exists m. split; auto. split; auto. rewrite M2. apply Cw_one. exact Logic.I.
Qed.

(** * C17: canonicity *)
Theorem diagrams_are_canonical nq s V D k l x y : reachedR nq s V D -> k <> KD -> usr V D k l x -> usr V D k l y ->
  ((forall p, vpath k l p -> entry s k x p = entry s k y p) <-> x = y).
Proof.
  intros H Hk Hx Hy. destruct (usr_tt _ _ _ _ _ _ _ H Hx) as [L Tx]. destruct (usr_tt _ _ _ _ _ _ _ H Hy) as [_ Ty].
  destruct (reached_inv _ _ _ _ _ _ _ H) as (I & _). split; [|now intros ->].
  intros E. eapply (canon_edge (g:=g) (nb:=nb) (X:=X) (co s) k l); eauto; [exact Logic.I|apply I|lia].
Qed.

(** * C18: vectors *)
Theorem vector_round_trip nq s V D n (v : list (R0 * R0)) : reachedR nq s V D -> length v = (2 ^ n)%nat -> Z.of_nat n <= nq ->
  exists r s', makeStateFromVector R0 g nb v s = Ok r s' /\
    gives nq V D s KV (Z.of_nat n - 1) r s' (fun p => nth (vidx p) v (n0, n0)) /\
    (forall i, (i < 2 ^ n)%nat -> exists s'', getValueByPath R0 g KV r (rev (pidx n i)) s' = Ok (nth i v (n0, n0)) s'') /\
    ((n <= 64)%nat -> forall i, (i < 2 ^ n)%nat -> exists s'', getValueV R0 g r (Z.of_nat i) s' = Ok (nth i v (n0, n0)) s'').
Proof.
  intros H Len Hn. destruct (reached_inv _ _ _ _ _ _ _ H) as (I & Ow & Q).
  assert (K: exists r s', makeStateFromVector R0 g nb v s = Ok r s' /\ gives nq V D s KV (Z.of_nat n - 1) r s' (fun p => nth (vidx p) v (n0, n0))).
  { eapply (gives_push g nb G); [exact H|apply (d_vec (X:=X) nq D n v); auto|reflexivity|apply al0_1|].
    eapply wp_mono; [apply (makeStateFromVector_sp (g:=g) (nb:=nb) (X:=X) G n v s []); auto; lia|].
    intros r s' (O' & S' & T' & V'). split; auto. intros p Vp. rewrite <- (Cv2id (nth _ _ _)). exact (V' Logic.I p Vp). }
  destruct K as (r & s' & E & K). exists r, s'. split; auto. split; auto. destruct K as ((f0 & R') & F & _).
  assert (U: usr (V ++ [r]) (D ++ [dnew KV (Z.of_nat n - 1) f0]) KV (Z.of_nat n - 1) r) by (apply usr_new; eapply (reached_len g nb G); eauto). split.
  - intros i Hi. destruct (getValueByPath_reads _ _ _ _ _ _ _ (pidx n i) R' U (pidx_vpath n i)) as (s'' & E2 & _). exists s''. rewrite E2. f_equal.
    etransitivity; [apply F; apply pidx_vpath|]. now rewrite vidx_pidx_lt.
  - intros H64 i Hi. destruct (getValueByIndex_reads _ _ _ _ n _ i R' U H64 Hi) as (s'' & E2 & _). exists s''. rewrite E2. f_equal.
    etransitivity; [apply F; apply pidx_vpath|]. now rewrite vidx_pidx_lt.
Qed.

(** As a whole list, if not all entries are zero; see [getVector_zero_refuted]. *)
Theorem getVector_round_trip_partial nq s V D n (v : list (R0 * R0)) i : reachedR nq s V D -> length v = (2 ^ n)%nat -> Z.of_nat n <= nq ->
  (0 < n <= 63)%nat -> (i < 2 ^ n)%nat -> nth i v (n0, n0) <> C0 ->
  exists r s' s'', makeStateFromVector R0 g nb v s = Ok r s' /\ getVector R0 g r s' = Ok v s''.
Proof.
  intros H Len Hn Hn' Hi Hz. destruct (vector_round_trip nq s V D n v H Len Hn) as (r & s' & E & ((f0 & R') & F & _) & _).
  assert (U: usr (V ++ [r]) (D ++ [dnew KV (Z.of_nat n - 1) f0]) KV (Z.of_nat n - 1) r) by (apply usr_new; eapply (reached_len g nb G); eauto).
  destruct (readers_agree_partial _ _ _ _ n r (pidx n i) R' U Hn' (pidx_vpath n i)) as ((s'' & E2 & _) & _).
  { rewrite F by apply pidx_vpath. now rewrite vidx_pidx_lt. }
  exists r, s', s''. split; auto. rewrite E2. f_equal. symmetry. apply list_of_paths; auto. intros p Vp. symmetry. now apply F.
Qed.

(** * C19: matrices *)
Theorem matrix_round_trip nq s V D n (m : list (list (R0 * R0))) : reachedR nq s V D -> length m = (2 ^ n)%nat -> (forall row, In row m -> length row = length m) -> Z.of_nat n <= nq ->
  exists r s', makeDDFromMatrix R0 g nb m s = Ok r s' /\
    gives nq V D s KM (Z.of_nat n - 1) r s' (fun p => nth (vidx (cold p)) (nth (vidx (rowd p)) m []) (n0, n0)) /\
    (forall i j, (i < 2 ^ n)%nat -> (j < 2 ^ n)%nat ->
       exists s'', getValueByPath R0 g KM r (rev (mp (pidx n i) (pidx n j))) s' = Ok (nth j (nth i m []) (n0, n0)) s'') /\
    ((n <= 64)%nat -> forall i j, (i < 2 ^ n)%nat -> (j < 2 ^ n)%nat ->
       exists s'', getValueM R0 g r (Z.of_nat i) (Z.of_nat j) s' = Ok (nth j (nth i m []) (n0, n0)) s'').
Proof.
  intros H Len Hr Hn. destruct (reached_inv _ _ _ _ _ _ _ H) as (I & Ow & Q).
  assert (K: exists r s', makeDDFromMatrix R0 g nb m s = Ok r s' /\ gives nq V D s KM (Z.of_nat n - 1) r s' (fun p => nth (vidx (cold p)) (nth (vidx (rowd p)) m []) (n0, n0))).
  { eapply (gives_push g nb G); [exact H|apply (d_mat (X:=X) nq D n m); auto|reflexivity|apply al0_1|].
    eapply wp_mono; [apply (makeDDFromMatrix_sp (g:=g) (nb:=nb) (X:=X) G n m s []); auto; lia|].
    intros r s' (O' & S' & T' & V'). split; auto. intros p Vp. rewrite <- (Cv2id (nth _ _ _)). exact (V' Logic.I p Vp). }
  destruct K as (r & s' & E & K). exists r, s'. split; auto. split; auto. destruct K as ((f0 & R') & F & _).
  assert (U: usr (V ++ [r]) (D ++ [dnew KM (Z.of_nat n - 1) f0]) KM (Z.of_nat n - 1) r) by (apply usr_new; eapply (reached_len g nb G); eauto).
  assert (P: forall i j, (i < 2 ^ n)%nat -> (j < 2 ^ n)%nat -> vpath KM (Z.of_nat n - 1) (mp (pidx n i) (pidx n j)) /\ entry s' KM r (mp (pidx n i) (pidx n j)) = nth j (nth i m []) (n0, n0)).
  { intros i j Hi Hj. assert (Vm: vpath KM (Z.of_nat n - 1) (mp (pidx n i) (pidx n j))) by (apply vpath_mp; apply pidx_vpath). split; auto.
    rewrite F by auto. unfold rowd, cold. rewrite row_mp, col_mp by (try apply (proj2 (pidx_vpath n j)); now rewrite !pidx_len). now rewrite !vidx_pidx_lt. }
  split.
  - intros i j Hi Hj. destruct (P i j Hi Hj) as [Vm Em]. destruct (getValueByPath_reads _ _ _ _ _ _ _ _ R' U Vm) as (s'' & E2 & _). exists s''. rewrite E2. f_equal. exact Em.
  - intros H64 i j Hi Hj. destruct (P i j Hi Hj) as [Vm Em]. destruct (getValueByIndices_reads _ _ _ _ n _ i j R' U H64 Hi Hj) as (s'' & E2 & _). exists s''. rewrite E2. f_equal. exact Em.
Qed.

Theorem getMatrix_round_trip_partial nq s V D n (m : list (list (R0 * R0))) i j : reachedR nq s V D -> length m = (2 ^ n)%nat -> (forall row, In row m -> length row = length m) -> Z.of_nat n <= nq ->
  (0 < n <= 63)%nat -> (i < 2 ^ n)%nat -> (j < 2 ^ n)%nat -> nth j (nth i m []) (n0, n0) <> C0 ->
  exists r s' s'', makeDDFromMatrix R0 g nb m s = Ok r s' /\ getMatrix R0 g r s' = Ok m s''.
Proof.
  intros H Len Hr Hn Hn' Hi Hj Hz. destruct (matrix_round_trip nq s V D n m H Len Hr Hn) as (r & s' & E & ((f0 & R') & F & _) & _).
  assert (U: usr (V ++ [r]) (D ++ [dnew KM (Z.of_nat n - 1) f0]) KM (Z.of_nat n - 1) r) by (apply usr_new; eapply (reached_len g nb G); eauto).
  assert (P: forall i j, (i < 2 ^ n)%nat -> (j < 2 ^ n)%nat -> vpath KM (Z.of_nat n - 1) (mp (pidx n i) (pidx n j)) /\ entry s' KM r (mp (pidx n i) (pidx n j)) = nth j (nth i m []) (n0, n0)).
  { intros a b Ha Hb. assert (Vm: vpath KM (Z.of_nat n - 1) (mp (pidx n a) (pidx n b))) by (apply vpath_mp; apply pidx_vpath). split; auto.
    rewrite F by auto. unfold rowd, cold. rewrite row_mp, col_mp by (try apply (proj2 (pidx_vpath n b)); now rewrite !pidx_len). now rewrite !vidx_pidx_lt. }
  destruct (P i j Hi Hj) as [Vm Em]. destruct (getMatrix_reads_partial _ _ _ _ n r _ R' U Hn' Vm) as (s'' & E2 & _). { now rewrite Em. }
  exists r, s', s''. split; auto. rewrite E2. f_equal. symmetry.
  set (w := fun i j0 => entry s' KM r (mp (pidx n i) (pidx n j0)) : R0 * R0).
  apply (nth_ext _ _ [] (map (w 0%nat) (seq 0 (2 ^ n)))); [now rewrite map_length, seq_length|]. intros a Ha. rewrite Len in Ha.
  rewrite (map_nth (fun i => map (w i) (seq 0 (2 ^ n)))), seq_nth by auto. cbn [Nat.add].
  assert (Lr: length (nth a m []) = (2 ^ n)%nat). { rewrite <- Len. apply Hr. apply nth_In. lia. }
  apply (nth_ext _ _ (n0, n0) (w a 0%nat)); [now rewrite map_length, seq_length|]. intros b Hb. rewrite Lr in Hb.
  rewrite (map_nth (w a)), seq_nth by auto. cbn [Nat.add]. unfold w. symmetry. now apply P.
Qed.

(** * C20: basis and product states *)
Theorem zero_state nq s V D n : reachedR nq s V D -> 0 <= n ->
  (n <= nq -> exists r s', makeZeroState R0 g nb n 0 s = Ok r s' /\
     gives nq V D s KV (n - 1) r s' (fun p => if forallb (Nat.eqb 0) p then C1 else C0)) /\
  (nq < n -> makeZeroState R0 g nb n 0 s = Thr ERuntime s).
Proof.
  intros H Hn. destruct (reached_inv _ _ _ _ _ _ _ H) as (I & Ow & Q). split; intros Hq.
  - eapply (gives_push g nb G); [exact H|apply (d_zero (X:=X) nq D n); auto|reflexivity|apply al0_1|].
    eapply wp_mono; [apply (makeZeroState_sp (g:=g) (nb:=nb) (X:=X) G s [] n); auto; lia|].
    intros r s' (S' & O' & T' & V'). split; auto. intros p Vp. destruct (V' Logic.I) as [W Dn]. unfold Inv.de. rewrite W, Cw_one, Dn by (auto; exact Logic.I).
    assert (Z: bsval [] p = if forallb (Nat.eqb 0) p then C1 else C0).
    { clear. induction p as [|c p IH]; auto. cbn [bsval forallb]. rewrite IH. replace (nth (length p) [] BSzero) with BSzero by (now destruct (length p)). destruct c; cbn; destruct (forallb (Nat.eqb 0) p); ring. }
    rewrite Z. destruct (forallb (Nat.eqb 0) p); ring.
  - unfold makeZeroState. rewrite Q. replace (nq <? n + 0) with true; auto. symmetry. apply Z.ltb_lt. lia.
Qed.

(** The bit of a basis state as a path digit. *)
Definition digit (b : bool) : nat := if b then 1%nat else 0%nat.
Lemma bsval_bits bs : forall p, (length p <= length bs)%nat -> Forall (fun i => (i < 2)%nat) p ->
  bsval (bits_st bs) p = if list_eq_dec Nat.eq_dec (rev p) (map digit (firstn (length p) bs)) then C1 else C0.
Proof.
  induction p as [|c p IH]; intros L F; [reflexivity|]. cbn [length] in L. cbn [bsval rev length].
  inversion F as [|? ? Hc Fp]; subst. rewrite IH by (auto; lia).
  assert (Hn: exists b, nth_error bs (length p) = Some b). { destruct (nth_error bs (length p)) eqn:E; eauto. apply nth_error_None in E. lia. }
  destruct Hn as [b Hb].
  assert (Fs: firstn (S (length p)) bs = firstn (length p) bs ++ [b]). { clear -Hb. revert bs Hb. induction (length p) as [|m IH]; intros [|x bs] Hb; try discriminate; cbn in *; [congruence|]. now rewrite <- (IH bs). }
  rewrite Fs, map_app. cbn [map].
  replace (nth (length p) (bits_st bs) BSzero) with (if b then BSone else BSzero).
  2:{ symmetry. apply nth_error_nth. unfold bits_st. now rewrite nth_error_map, Hb. }
  destruct (list_eq_dec Nat.eq_dec (rev p) (map digit (firstn (length p) bs))) as [E|E];
    destruct (list_eq_dec Nat.eq_dec (rev p ++ [c]) (map digit (firstn (length p) bs) ++ [digit b])) as [E'|E'].
  - apply app_inj_tail in E'. destruct E' as [_ ->]. destruct b; cbn; ring.
  - assert (c <> digit b) by (intros ->; apply E'; now rewrite E). destruct b, c as [|[|c]]; cbn in *; try congruence; try lia; ring.
  - apply app_inj_tail in E'. destruct E' as [E' _]. congruence.
  - ring.
Qed.

(** [bs] lists the bits from qubit 0 upwards.  There is no check on its length; see
    [makeBasisState_short_refuted]. *)
Theorem basis_state_partial nq s V D n bs : reachedR nq s V D -> 0 <= n ->
  (n <= nq -> n <= Z.of_nat (length bs) -> exists r s', makeBasisState R0 g nb n bs 0 s = Ok r s' /\
     gives nq V D s KV (n - 1) r s' (fun p => if list_eq_dec Nat.eq_dec (rev p) (map digit (firstn (Z.to_nat n) bs)) then C1 else C0)) /\
  (nq < n -> makeBasisState R0 g nb n bs 0 s = Thr ERuntime s).
Proof.
  intros H Hn. destruct (reached_inv _ _ _ _ _ _ _ H) as (I & Ow & Q). split; [intros Hq Hl|intros Hq].
  - eapply (gives_push g nb G); [exact H|apply (d_basis (X:=X) nq D n bs); auto|reflexivity|apply al0_1|].
    eapply wp_mono; [apply (makeBasisState_sp (g:=g) (nb:=nb) (X:=X) G s [] n bs); auto; lia|].
    intros r s' (S' & O' & T' & V'). split; auto. intros p Vp. destruct (V' Logic.I) as [W Dn]. unfold Inv.de. rewrite W, Cw_one, Dn by (auto; exact Logic.I).
    destruct Vp as [Vl Vf]. rewrite bsval_bits; auto; [|lia]. replace (length p) with (Z.to_nat n) by lia. destruct (list_eq_dec _ _ _); ring.
  - unfold makeBasisState. rewrite Q. replace (nq <? n + 0) with true; auto. symmetry. apply Z.ltb_lt. lia.
Qed.

(** Amplitudes of the single-qubit states |0>, |1>, |+>, |->, |R>, |L>. *)
Definition qubit_amp (b : bstate) (i : nat) : C :=
  let h := (1 / sqrt 2)%R in
  match b, i with
  | BSzero, O => (1, 0)%R | BSzero, _ => (0, 0)%R
  | BSone, O => (0, 0)%R | BSone, _ => (1, 0)%R
  | BSplus, _ => (h, 0)%R
  | BSminus, O => (h, 0)%R | BSminus, _ => (- h, 0)%R
  | BSright, O => (h, 0)%R | BSright, _ => (0, h)%R
  | BSleft, O => (h, 0)%R | BSleft, _ => (0, - h)%R
  end.
Lemma amp_qubit b i : amp b i = qubit_amp b i.
Proof.
  assert (E: (sqrt 2 / 2 = 1 / sqrt 2)%R). { pose proof (sqrt_lt_R0 2 ltac:(lra)) as P. pose proof (sqrt_sqrt 2 ltac:(lra)) as Q. apply (Rmult_eq_reg_r (sqrt 2)); [|lra]. field_simplify; [|lra]. replace (sqrt 2 ^ 2)%R with 2%R by (simpl; lra). field. }
  unfold amp, qubit_amp. rewrite E. destruct b, i; reflexivity.
Qed.
Definition Cprod (l : list C) : C := fold_right Cmul C1 l.
Lemma bsval_prod sts p : (length p <= length sts)%nat -> bsval sts p = Cprod (map (fun q => qubit_amp (fst q) (snd q)) (combine sts (rev p))).
Proof.
  induction p as [|c p IH]; intros L; [now destruct sts|]. cbn [length] in L. cbn [bsval rev]. rewrite IH by lia. rewrite amp_qubit.
  assert (Lr: length (rev p) = length p) by apply rev_length.
  revert L Lr. generalize (rev p) (length p). clear. intros l. revert sts. induction l as [|x l IH]; intros [|b sts] m Lm Lr; cbn in *; try lia.
  - subst m. cbn. destruct sts; cbn; ring.
  - subst m. cbn [Cprod map combine fold_right fst snd nth app]. unfold Cprod in *. cbn [map combine fold_right fst snd]. specialize (IH sts (length l) ltac:(lia) eq_refl). rewrite <- IH. ring.
Qed.
(** The amplitude of a product state is the product of the amplitudes of its qubits. *)
Theorem product_state nq s V D n sts : reachedR nq s V D -> 0 <= n ->
  (n <= nq -> n <= Z.of_nat (length sts) -> exists r s', makeBasisStateB R0 g nb n sts 0 s = Ok r s' /\
     gives nq V D s KV (n - 1) r s' (fun p => Cprod (map (fun q => qubit_amp (fst q) (snd q)) (combine sts (rev p))))) /\
  (nq < n \/ Z.of_nat (length sts) < n -> makeBasisStateB R0 g nb n sts 0 s = Thr ERuntime s).
Proof.
  intros H Hn. destruct (reached_inv _ _ _ _ _ _ _ H) as (I & Ow & Q). split; [intros Hq Hl|intros Hq].
  - eapply (gives_push g nb G); [exact H|apply (d_prod (X:=X) nq D n sts); auto; left; exact Logic.I|reflexivity|apply al0_1|].
    eapply wp_mono; [apply (makeBasisStateB_sp (g:=g) (nb:=nb) (X:=X) G s [] n sts); auto; [left; exact Logic.I|lia]|].
    intros r s' (S' & O' & T' & V'). split; auto. intros p Vp. destruct (V' Logic.I) as [W Dn]. unfold Inv.de. rewrite W, Cw_one, Dn by (auto; exact Logic.I).
    destruct Vp as [Vl Vf]. rewrite bsval_prod by lia. ring.
  - unfold makeBasisStateB. rewrite Q. destruct (nq <? n + 0) eqn:E; auto. apply Z.ltb_ge in E. replace (Z.of_nat (length sts) <? n) with true; auto. symmetry. apply Z.ltb_lt. lia.
Qed.

(** * C29 *)
Lemma idm_rc p : Forall (fun i => (i < 4)%nat) p -> idm p = if list_eq_dec Nat.eq_dec (rowd p) (cold p) then C1 else C0.
Proof.
  intros F. unfold idm. induction F as [|c p Hc F IH]; [reflexivity|]. cbn [forallb]. unfold rowd, cold in *. cbn [map].
  set (a := map (fun i => (i / 2)%nat) p) in *. set (b := map (fun i => (i mod 2)%nat) p) in *.
  destruct c as [|[|[|[|c]]]]; try lia; cbn [Nat.eqb orb andb]; try rewrite IH.
  1, 4: destruct (list_eq_dec Nat.eq_dec a b) as [E|E]; destruct (list_eq_dec _ _ _) as [E'|E']; auto; exfalso; [apply E'; cbn; now rewrite E|apply E; cbn in E'; now injection E'].
  1, 2: destruct (list_eq_dec _ _ _) as [E'|E']; auto; discriminate.
Qed.
(** For ranges from qubit 0.  Other ranges depend on the history: [makeIdent_history_refuted]. *)
Theorem makeIdent_is_identity_partial nq s V D m : reachedR nq s V D -> -1 <= m < nq ->
  exists r s', makeIdent R0 g nb 0 m s = Ok r s' /\
    gives nq V D s KM m r s' (fun p => if list_eq_dec Nat.eq_dec (rowd p) (cold p) then C1 else C0).
Proof.
  intros H Hm. destruct (reached_inv _ _ _ _ _ _ _ H) as (I & Ow & Q).
  eapply (gives_push g nb G); [exact H|apply (d_ident (X:=X) nq D m); auto|reflexivity|apply al0_1|].
  eapply wp_mono; [apply (makeIdent_sp (g:=g) (nb:=nb) (X:=X) G s [] m); auto; lia|].
  intros r s' (S' & O' & T' & V'). split; auto. intros p Vp. rewrite <- idm_rc by apply Vp. destruct (proj2 V' Logic.I) as [W Dn]. unfold Inv.de. rewrite W, Cw_one, Dn by (auto; exact Logic.I). ring.
Qed.

(** The same request yields the same edge in every later state. *)
Theorem makeIdent_stable_partial nq s V D m r1 s1 s2 V2 D2 r2 s3 : reachedR nq s V D -> -1 <= m < nq ->
  makeIdent R0 g nb 0 m s = Ok r1 s1 -> reachedR nq s2 V2 D2 -> usr V2 D2 KM m r1 -> (forall p, vpath KM m p -> entry s2 KM r1 p = entry s1 KM r1 p) ->
  makeIdent R0 g nb 0 m s2 = Ok r2 s3 -> r2 = r1.
Proof.
  intros H Hm E1 H2 U2 Eq E2. destruct (makeIdent_is_identity_partial _ _ _ _ _ H Hm) as (r & s' & E & _ & F & _). rewrite E1 in E. injection E as <- <-.
  destruct (makeIdent_is_identity_partial _ _ _ _ _ H2 Hm) as (r & s' & E & (f0 & R') & F' & Un). rewrite E2 in E. injection E as <- <-.
  apply (diagrams_are_canonical nq s3 (V2 ++ [r2]) (D2 ++ [dnew KM m f0]) KM m); auto; [discriminate| |eapply (usr_app g nb G); eauto|].
  - apply usr_new. eapply (reached_len g nb G); eauto.
  - intros p Vp. rewrite F', (Un KM m), Eq, F; auto.
Qed.
(** Of a range that does not start at qubit 0, when the identity below its last qubit has been
    asked for before: the result is the identity on all qubits from 0 on, and the same edge as
    that of the range from 0. *)
Theorem makeIdent_shared_partial nq s V D l m r0 s0 : reachedR nq s V D -> 1 <= l <= m -> m < nq ->
  makeIdent R0 g nb 0 (m - 1) s = Ok r0 s0 ->
  exists r s', makeIdent R0 g nb l m s0 = Ok r s' /\ unchanged V D s s' /\
    (forall p, vpath KM m p -> entry s' KM r p = if list_eq_dec Nat.eq_dec (rowd p) (cold p) then C1 else C0) /\
    exists s'', makeIdent R0 g nb 0 m s' = Ok r s''.
Proof.
  intros H Hl Hm E0. destruct (makeIdent_is_identity_partial nq s V D (m - 1) H ltac:(lia)) as (r' & s' & E & (f0 & R') & _ & Un). rewrite E0 in E. injection E as <- <-.
  destruct (reached_inv _ _ _ _ _ _ _ H) as (I & Ow & Q). destruct (reached_inv _ _ _ _ _ _ _ R') as (I' & Ow' & Q').
  destruct (makeIdent_kept (g:=g) (nb:=nb) (X:=X) G s [] (m - 1) r0 s0) as [Kp Nn]; auto; [exact Logic.I|lia|].
  pose proof (makeIdent_above_sp (g:=g) (nb:=nb) (X:=X) G s0 [] l m I' Ow' Hl ltac:(lia) ltac:(now rewrite Kp)) as W.
  destruct (wp_ok g G _ s0 _ _ (al0_1 g G) W) as (r & s1 & E1 & S1 & O1 & H1 & K1).
  destruct (proj2 (proj2 H1) Logic.I) as [Hw Hd].
  exists r, s1. split; auto. split.
  - intros k l' e U p Vp. rewrite <- (Un k l' e U p Vp). eapply (step_unchanged g nb G _ _ _ _ _ _ R' S1); eauto. eapply (usr_app g nb G); eauto.
  - split.
    + intros p Vp. rewrite <- idm_rc by apply Vp. unfold PropBase.entry, Inv.de. rewrite Hw, Cw_one, Hd by (auto; exact Logic.I). ring.
    + exists s1. assert (Nq: s_nq s1 = s_nq s0) by apply (qe_nq _ _ _ (sp_ext _ _ _ _ _ _ _ S1)). transitivity (Ok (s_id s1 m) s1); [apply makeIdent_hit; [lia|]|now rewrite K1]. rewrite K1.
      pose proof (isid_node (g:=g) (nb:=nb) (X:=X) (co s1) m r Logic.I (iv_c _ _ _ _ _ (sp_inv _ _ _ _ _ _ _ S1)) ltac:(lia) H1) as [Et _]. destruct (ep r); auto. destruct Et.
Qed.
End St.

(** ** Concrete cases *)

(** Index 2 of (1, i, 2, 0). *)
Example getValueByPath_example : exists s V s', reachedR gR nbdef GR 3 s V D0 /\
  getValueByPath R0 gR KV (var V 1) [0; 1]%nat s = Ok (RtoC 2) s'.
Proof.
  destruct reached0 as (s & V & H). destruct (getValueByPath_reads gR nbdef GR 3 s V D0 KV 1 _ [1; 0]%nat H (usr0_v V)) as (s' & E & _); [vp|].
  exists s, V, s'. split; auto. cbn [rev app] in E. rewrite E. f_equal. vals. cval.
Qed.
Example getValueByIndex_example : exists s V s', reachedR gR nbdef GR 3 s V D0 /\
  getValueV R0 gR (var V 1) 2 s = Ok (RtoC 2) s'.
Proof.
  destruct reached0 as (s & V & H). destruct (getValueByIndex_reads gR nbdef GR 3 s V D0 2 _ 2 H (usr0_v V)) as (s' & E & _); [lia|simpl; lia|].
  exists s, V, s'. split; auto. change (Z.of_nat 2) with 2 in E. rewrite E. f_equal. change (pidx 2 2) with [1; 0]%nat. vals. cval.
Qed.
(** Row 1, column 0 of [[1, 2], [3i, 4]]. *)
Example getValueByIndices_example : exists s V s', reachedR gR nbdef GR 3 s V D0 /\
  getValueM R0 gR (var V 7) 1 0 s = Ok (0, 3)%R s'.
Proof.
  destruct reached0 as (s & V & H). destruct (getValueByIndices_reads gR nbdef GR 3 s V D0 1 _ 1 0 H (usr0_m V)) as (s' & E & _); [lia|simpl; lia|simpl; lia|].
  exists s, V, s'. split; auto. change (Z.of_nat 1) with 1 in E. change (Z.of_nat 0) with 0 in E. rewrite E. f_equal. change (mp (pidx 1 1) (pidx 1 0)) with [2]%nat. vals. cval.
Qed.
Example getVector_example : exists s V s', reachedR gR nbdef GR 3 s V D0 /\ getVector R0 gR (var V 1) s = Ok vec1 s'.
Proof.
  destruct reached0 as (s & V & H). destruct (readers_agree_partial gR nbdef GR 3 s V D0 2 _ [1; 0]%nat H (usr0_v V)) as ((s' & E & _) & _); [lia|vp| |].
  { vals. cval. intros A. injection A. intros. lra. }
  exists s, V, s'. split; auto. rewrite E. f_equal. cbn [seq Nat.pow Nat.mul Nat.add map]. unfold vec1.
  change (pidx 2 0) with [0; 0]%nat. change (pidx 2 1) with [0; 1]%nat. change (pidx 2 2) with [1; 0]%nat. change (pidx 2 3) with [1; 1]%nat.
  vals. repeat (apply f_equal2; [cval|]). reflexivity.
Qed.
Example getMatrix_example : exists s V s', reachedR gR nbdef GR 3 s V D0 /\ getMatrix R0 gR (var V 7) s = Ok mat1 s'.
Proof.
  destruct reached0 as (s & V & H). destruct (getMatrix_reads_partial gR nbdef GR 3 s V D0 1 _ [0]%nat H (usr0_m V)) as (s' & E & _); [lia|vp| |].
  { vals. cval. intros A. injection A. intros. lra. }
  exists s, V, s'. split; auto. rewrite E. f_equal. cbn [seq Nat.pow Nat.mul Nat.add map]. unfold mat1.
  change (mp (pidx 1 0) (pidx 1 0)) with [0]%nat. change (mp (pidx 1 0) (pidx 1 1)) with [1]%nat. change (mp (pidx 1 1) (pidx 1 0)) with [2]%nat. change (mp (pidx 1 1) (pidx 1 1)) with [3]%nat.
  vals. repeat (apply f_equal2; [repeat (apply f_equal2; [cval|]); reflexivity|]). reflexivity.
Qed.
(** Stacking the zero vector and (1, i, 2, 0). *)
Example makeDDNode_example : exists s V r s', reachedR gR nbdef GR 3 s V D0 /\
  makeDDNode R0 gR nbdef KV 2 [var V 6; var V 1] false s = Ok r s' /\ entry gR GR s' KV r [1; 0; 1]%nat = Ci.
Proof.
  destruct reached0 as (s & V & H).
  destruct (makeDDNode_stacks gR nbdef GR 3 s V D0 KV 2 [var V 6; var V 1] H) as (r & s' & E & _ & F & _); [discriminate|lia|reflexivity| |].
  { intros e [<-|[<-|[]]]; [apply usr0_p|apply usr0_v]. }
  exists s, V, r, s'. split; auto. split; auto. rewrite F by vp. cbn [nthe nth]. vals. cval.
Qed.
(** The root node of the vector (3, 4i) has two non-zero weights. *)
Example normalised_example : exists s V n, reachedR gR nbdef GR 3 s V D0 /\ ep (var V 9) = PNode n /\ stored s KV n /\
  weight gR GR s (nthe (ne (nod s KV n)) 0) <> C0 /\ weight gR GR s (nthe (ne (nod s KV n)) 1) <> C0.
Proof.
  destruct reached0 as (s & V & H). destruct (usr_ok gR nbdef GR 3 s V D0 KV 0 (var V 9) H (usr0_w V)) as [_ T].
  pose proof (val_w s V [0]%nat H ltac:(vp)) as F0'. pose proof (val_w s V [1]%nat H ltac:(vp)) as F1'. unfold entry, Inv.de in F0', F1'.
  assert (Z: ew (var V 9) <> Czero).
  { intros Z. rewrite Z, Cw_zero in F0' by exact Logic.I. revert F0'. cval. intros F. injection F. intros. lra. }
  destruct (tedge_nt (g:=gR) (X:=XR gR GR) _ _ _ _ T Z) as [[A B]|[A B]]; [|discriminate].
  destruct (ep (var V 9)) as [| |n] eqn:En; [contradiction|contradiction|]. exists s, V, n. split; auto. split; auto.
  split; [destruct A as [(v & b & A) _]; now exists v, b|].
  rewrite dn_cons in F0', F1'. unfold Inv.de in F0', F1'. unfold weight. change (Inv.qn R0 (Inv.co R0 s) KV n) with (nod s KV n) in *.
  split; intros W; [rewrite W in F0'; revert F0'|rewrite W in F1'; revert F1']; cval; intros F; injection F; intros; lra.
Qed.
(** The identity times (1, i, 2, 0) is the same edge again. *)
Example canonical_example : exists s V s', reachedR gR nbdef GR 3 s V D0 /\
  multiply R0 gR nbdef KV (var V 8) (var V 1) 0 s = Ok (var V 1) s'.
Proof.
  destruct reached0 as (s & V & H).
  destruct (multiply_is_matrix_vector_product gR nbdef GR 3 s V D0 1 _ _ H (usr0_i V) (usr0_v V)) as (r & s' & E & (f0 & R') & F & Un).
  exists s, V, s'. split; auto. rewrite E. f_equal.
  assert (U: usr (V ++ [r]) (D0 ++ [dnew KV 1 f0]) KV 1 r) by (apply usr_new; eapply (reached_len gR nbdef GR); eauto).
  apply (diagrams_are_canonical gR nbdef GR 3 s' (V ++ [r]) (D0 ++ [dnew KV 1 f0]) KV 1); auto; [discriminate|eapply (usr_app gR nbdef GR); eauto; apply usr0_v|].
  intros p Vp. rewrite F, (Un KV 1) by (auto; apply usr0_v).
  destruct Vp as [Vl Vf]. destruct p as [|a [|b [|c p]]]; try (cbn in Vl; lia). inversion Vf as [|? ? Ha Vf1]; subst. inversion Vf1 as [|? ? Hb _]; subst. cbn in Ha, Hb.
  unfold Csum; destruct a as [|[|a]], b as [|[|b]]; try lia; cbn [length bits map app fold_right mp Nat.mul Nat.add combine fst snd]; vals; cval.
Qed.
Example vector_round_trip_example : exists s V r s' s'', reachedR gR nbdef GR 3 s V D0 /\
  makeStateFromVector R0 gR nbdef vec1 s = Ok r s' /\ getVector R0 gR r s' = Ok vec1 s''.
Proof.
  destruct reached0 as (s & V & H).
  destruct (getVector_round_trip_partial gR nbdef GR 3 s V D0 2 vec1 2 H) as (r & s' & s'' & E1 & E2); [reflexivity|lia|lia|simpl; lia| |].
  { cbn. intros A. injection A. intros. lra. }
  exists s, V, r, s', s''. auto.
Qed.
Example vector_entry_example : exists s V r s' s'', reachedR gR nbdef GR 3 s V D0 /\
  makeStateFromVector R0 gR nbdef vec1 s = Ok r s' /\ getValueV R0 gR r 1 s' = Ok (0, 1)%R s''.
Proof.
  destruct reached0 as (s & V & H).
  destruct (vector_round_trip gR nbdef GR 3 s V D0 2 vec1 H) as (r & s' & E1 & _ & _ & E2); [reflexivity|lia|].
  destruct (E2 ltac:(lia) 1%nat ltac:(simpl; lia)) as (s'' & E3). exists s, V, r, s', s''. auto.
Qed.
Example matrix_round_trip_example : exists s V r s' s'', reachedR gR nbdef GR 3 s V D0 /\
  makeDDFromMatrix R0 gR nbdef mat1 s = Ok r s' /\ getMatrix R0 gR r s' = Ok mat1 s''.
Proof.
  destruct reached0 as (s & V & H).
  destruct (getMatrix_round_trip_partial gR nbdef GR 3 s V D0 1 mat1 0 0 H) as (r & s' & s'' & E1 & E2); [reflexivity| |lia|lia|simpl; lia|simpl; lia| |].
  { intros row [<-|[<-|[]]]; reflexivity. }
  { cbn. intros A. injection A. intros. lra. }
  exists s, V, r, s', s''. auto.
Qed.
Example matrix_entry_example : exists s V r s' s'', reachedR gR nbdef GR 3 s V D0 /\
  makeDDFromMatrix R0 gR nbdef mat1 s = Ok r s' /\ getValueM R0 gR r 1 0 s' = Ok (0, 3)%R s''.
Proof.
  destruct reached0 as (s & V & H).
  destruct (matrix_round_trip gR nbdef GR 3 s V D0 1 mat1 H) as (r & s' & E1 & _ & _ & E2); [reflexivity| |lia|].
  { intros row [<-|[<-|[]]]; reflexivity. }
  destruct (E2 ltac:(lia) 1%nat 0%nat ltac:(simpl; lia) ltac:(simpl; lia)) as (s'' & E3). exists s, V, r, s', s''. auto.
Qed.
Example zero_state_example : exists s V r s', reachedR gR nbdef GR 3 s V D0 /\
  makeZeroState R0 gR nbdef 3 0 s = Ok r s' /\ entry gR GR s' KV r [0; 0; 0]%nat = C1 /\ entry gR GR s' KV r [0; 1; 0]%nat = C0 /\
  makeZeroState R0 gR nbdef 4 0 s = Thr ERuntime s.
Proof.
  destruct reached0 as (s & V & H).
  destruct (zero_state gR nbdef GR 3 s V D0 3 H) as [Z _]; [lia|]. destruct Z as (r & s' & E & _ & F & _); [lia|].
  exists s, V, r, s'. split; auto. split; auto. split; [now rewrite F by vp|]. split; [now rewrite F by vp|]. now apply (zero_state gR nbdef GR 3 s V D0 4 H).
Qed.
(** |110>: qubit 0 is 0, qubits 1 and 2 are 1. *)
Example basis_state_example : exists s V r s', reachedR gR nbdef GR 3 s V D0 /\
  makeBasisState R0 gR nbdef 3 [false; true; true] 0 s = Ok r s' /\ entry gR GR s' KV r [1; 1; 0]%nat = C1 /\ entry gR GR s' KV r [0; 1; 1]%nat = C0.
Proof.
  destruct reached0 as (s & V & H).
  destruct (basis_state_partial gR nbdef GR 3 s V D0 3 [false; true; true] H) as [Z _]; [lia|]. destruct Z as (r & s' & E & _ & F & _); [lia|simpl; lia|].
  exists s, V, r, s'. split; auto. split; auto. split; now rewrite F by vp.
Qed.
(** Qubit 0 in |+>, qubit 1 in |R>. *)
Example product_state_example : exists s V r s', reachedR gR nbdef GR 3 s V D0 /\
  makeBasisStateB R0 gR nbdef 2 [BSplus; BSright] 0 s = Ok r s' /\ entry gR GR s' KV r [1; 0]%nat = (0, 1 / 2)%R /\
  makeBasisStateB R0 gR nbdef 2 [BSplus] 0 s = Thr ERuntime s.
Proof.
  destruct reached0 as (s & V & H).
  destruct (product_state gR nbdef GR 3 s V D0 2 [BSplus; BSright] H) as [Z _]; [lia|]. destruct Z as (r & s' & E & _ & F & _); [lia|simpl; lia|].
  exists s, V, r, s'. split; auto. split; auto. split.
  - rewrite F by vp. unfold Cprod, Cmul, C1. cbn. pose proof (sqrt_lt_R0 2 ltac:(lra)) as P. pose proof (sqrt_sqrt 2 ltac:(lra)) as Q.
    apply f_equal2; field_simplify; try lra. replace (sqrt 2 ^ 2)%R with 2%R by (simpl; lra). lra.
  - apply (product_state gR nbdef GR 3 s V D0 2 [BSplus] H); [lia|]. right. simpl. lia.
Qed.
Example makeIdent_example : exists s V r s', reachedR gR nbdef GR 3 s V D0 /\
  makeIdent R0 gR nbdef 0 2 s = Ok r s' /\ entry gR GR s' KM r [0; 3; 0]%nat = C1 /\ entry gR GR s' KM r [0; 1; 0]%nat = C0.
Proof.
  destruct reached0 as (s & V & H).
  destruct (makeIdent_is_identity_partial gR nbdef GR 3 s V D0 2 H) as (r & s' & E & _ & F & _); [lia|].
  exists s, V, r, s'. split; auto. split; auto. split; now rewrite F by vp.
Qed.
(** A second request yields the same edge. *)
Example makeIdent_shared_example : exists s V r0 s0 r s', reachedR gR nbdef GR 3 s V D0 /\
  makeIdent R0 gR nbdef 0 1 s = Ok r0 s0 /\ makeIdent R0 gR nbdef 2 2 s0 = Ok r s' /\ entry gR GR s' KM r [0; 1; 0]%nat = C0.
Proof.
  destruct reached0 as (s & V & H). destruct (makeIdent_is_identity_partial gR nbdef GR 3 s V D0 1 H) as (r0 & s0 & E0 & _); [lia|].
  destruct (makeIdent_shared_partial gR nbdef GR 3 s V D0 2 2 r0 s0 H) as (r & s' & E & _ & F & _); [lia|lia|exact E0|].
  exists s, V, r0, s0, r, s'. split; [auto|]. split; [auto|]. split; [auto|]. rewrite F by vp. reflexivity.
Qed.
Example makeIdent_stable_example : exists s V r s', reachedR gR nbdef GR 3 s V D0 /\
  makeIdent R0 gR nbdef 0 2 s = Ok r s' /\ exists s'', makeIdent R0 gR nbdef 0 2 s' = Ok r s''.
Proof.
  destruct reached0 as (s & V & H).
  destruct (makeIdent_is_identity_partial gR nbdef GR 3 s V D0 2 H) as (r & s' & E & (f0 & R') & F & _); [lia|].
  destruct (makeIdent_is_identity_partial gR nbdef GR 3 s' _ _ 2 R') as (r2 & s2 & E2 & _); [lia|].
  exists s, V, r, s'. split; auto. split; auto. exists s2. rewrite E2. f_equal.
  eapply (makeIdent_stable_partial gR nbdef GR 3 s V D0 2 r s' s'); eauto; [lia|]. apply usr_new. eapply (reached_len gR nbdef GR); eauto.
Qed.

Print Assumptions getValueByPath_reads.
Print Assumptions getValueByIndex_reads.
Print Assumptions getValueByIndices_reads.
Print Assumptions readers_agree_partial.
Print Assumptions getMatrix_reads_partial.
Print Assumptions makeDDNode_stacks.
Print Assumptions stored_nodes_are_normalised.
Print Assumptions diagrams_are_canonical.
Print Assumptions vector_round_trip.
Print Assumptions getVector_round_trip_partial.
Print Assumptions matrix_round_trip.
Print Assumptions getMatrix_round_trip_partial.
Print Assumptions zero_state.
Print Assumptions basis_state_partial.
Print Assumptions product_state.
Print Assumptions makeIdent_is_identity_partial.
Print Assumptions makeIdent_stable_partial.
Print Assumptions makeIdent_shared_partial.
