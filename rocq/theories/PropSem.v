(** What the operations of the package compute, in every reachable state, in exact
    arithmetic (C16-C29). *)
From Coq Require Import ZArith List Bool Lia Arith Reals Lra.
From Verif Require Import Num Base CTable CTableWf Cx State Pkg Inv InvL PrimL NormL MkL TrL AddL MulL InnerL KronL CanonL IdentL StateL Inst TraceL GcL RefL GateAct Run PropBase.
Import ListNotations.
Local Open Scope Z_scope.

Section Sem.
Context (g : cfg R0) (nb : kind -> Z) (G : gok g).
Local Notation X := (XR g G).
Local Notation entry := (entry g G).
Local Notation reachedR := (reachedR g nb G).
Local Notation unchanged := (unchanged g G).
Local Notation co := (co R0).

(** The call returned the diagram [r] over qubits 0..l, which denotes [f]; the package is in
    a reachable state in which [r] may be used, and no other diagram changed. *)
Definition gives (nq : Z) (V : list edge) (D : denv) (s : st R0) (k : kind) (l : Z) (r : edge) (s' : st R0) (f : list nat -> C) : Prop :=
  (exists f0, reachedR nq s' (V ++ [r]) (D ++ [dnew k l f0])) /\
  (forall p, vpath k l p -> entry s' k r p = f p) /\
  unchanged V D s s'.

Lemma gives_push nq V D s c k l f0 (m : M R0 edge) (f : list nat -> C) (al : bad -> Prop) :
  reachedR nq s V D -> dstep (X:=X) nq D c (D ++ [dnew k l f0]) [] -> exec R0 g nb c V = push R0 V m ->
  (forall b, al b -> al1 R0 g X b) ->
  Inv.wp R0 al m s (fun r s' => step R0 g nb X [] s s' /\ (forall p, vpath k l p -> de R0 g X (co s') k r p = f p)) ->
  exists r s', m s = Ok r s' /\ gives nq V D s k l r s' f.
Proof.
  intros H Ds Ec Al W. destruct (wp_ok g G m s _ al Al W) as (r & s' & E & St & F). exists r, s'. split; auto. split; [|split; auto].
  - exists f0. eapply (reached_exec (X:=X) G nq s V D c _ [] (V ++ [r]) [] s' H Ds). rewrite Ec. unfold push, bind, ret. now rewrite E.
  - eapply step_unchanged; eauto.
Qed.

Lemma usr_t nq s V D k l e : reachedR nq s V D -> usr V D k l e -> -1 <= l < s_nq s /\ tedge R0 g X (co s) k l e.
Proof. apply usr_ok. Qed.

(** * C21 *)
Theorem add_is_addition nq s V D k l x y : reachedR nq s V D -> k <> KD -> usr V D k l x -> usr V D k l y ->
  exists r s', add R0 g nb k x y s = Ok r s' /\
    gives nq V D s k l r s' (fun p => entry s k x p + entry s k y p)%C.
Proof.
  intros H Hk Hx Hy. destruct (usr_t _ _ _ _ _ _ _ H Hx) as [L Tx]. destruct (usr_t _ _ _ _ _ _ _ H Hy) as [_ Ty].
  destruct Hx as (i & a & Li & <-), Hy as (j & b & Lj & <-). destruct (reached_inv _ _ _ _ _ _ _ H) as (I & Ow & Q).
  eapply gives_push; [exact H|apply (d_add (X:=X) nq D k l i j a b); auto; try discriminate|reflexivity|apply al0_1|].
  eapply wp_mono; [apply (add_sp (g:=g) (nb:=nb) (X:=X) G s [] k l); auto; now apply (tedge_gedge (nb:=nb))|].
  intros r s' (O' & S' & T' & V'). split; auto. intros p Vp. rewrite V' by (auto; exact Logic.I).
  unfold Inv.dg, PropBase.entry, Inv.de. rewrite !Cv_Cw; auto; try exact Logic.I; [apply Ty|apply Tx].
Qed.

(** * C22 *)
Theorem multiply_is_matrix_vector_product nq s V D l x y : reachedR nq s V D -> usr V D KM l x -> usr V D KV l y ->
  exists r s', multiply R0 g nb KV x y 0 s = Ok r s' /\
    gives nq V D s KV l r s' (fun rs => Csum (fun cs => entry s KM x (mp rs cs) * entry s KV y cs)%C (bits (length rs))).
Proof.
  intros H Hx Hy. destruct (usr_t _ _ _ _ _ _ _ H Hx) as [L Tx]. destruct (usr_t _ _ _ _ _ _ _ H Hy) as [_ Ty].
  destruct Hx as (i & a & Li & <-), Hy as (j & b & Lj & <-). destruct (reached_inv _ _ _ _ _ _ _ H) as (I & Ow & Q).
  eapply gives_push; [exact H|apply (d_mul (X:=X) nq D KV l i j a b); auto; try discriminate|reflexivity|apply al0_1|].
  eapply wp_mono; [apply (multiply_sp (g:=g) (nb:=nb) (X:=X) G s [] KV l); auto; discriminate|].
  intros r s' (O' & S' & T' & V'). split; auto. intros p Vp. specialize (V' Logic.I). apply (mvsem_psem (g:=g) (X:=X)) in V'. apply V'; auto.
Qed.

(** * C23 *)
Theorem multiply_is_matrix_product nq s V D l x y : reachedR nq s V D -> usr V D KM l x -> usr V D KM l y ->
  exists r s', multiply R0 g nb KM x y 0 s = Ok r s' /\
    gives nq V D s KM l r s' (fun p => Csum (fun ks => entry s KM x (mp (rowd p) ks) * entry s KM y (mp ks (cold p)))%C (bits (length p))).
Proof.
  intros H Hx Hy. destruct (usr_t _ _ _ _ _ _ _ H Hx) as [L Tx]. destruct (usr_t _ _ _ _ _ _ _ H Hy) as [_ Ty].
  destruct Hx as (i & a & Li & <-), Hy as (j & b & Lj & <-). destruct (reached_inv _ _ _ _ _ _ _ H) as (I & Ow & Q).
  eapply gives_push; [exact H|apply (d_mul (X:=X) nq D KM l i j a b); auto; try discriminate|reflexivity|apply al0_1|].
  eapply wp_mono; [apply (multiply_sp (g:=g) (nb:=nb) (X:=X) G s [] KM l); auto; discriminate|].
  intros r s' (O' & S' & T' & V'). split; auto. intros p Vp. specialize (V' Logic.I). apply (mmsem_psem (g:=g) (X:=X)) in V'.
  destruct (mp_rc l p Vp) as (E & Vr & Vc). rewrite <- E at 1. rewrite V' by auto.
  rewrite (InvL.vpath_len _ _ _ Vp), (InvL.vpath_len _ _ _ Vr). reflexivity.
Qed.

(** * C24 *)
Theorem transpose_is_transposition nq s V D l x : reachedR nq s V D -> usr V D KM l x ->
  exists r s', transpose R0 g nb x s = Ok r s' /\
    gives nq V D s KM l r s' (fun p => entry s KM x (mp (cold p) (rowd p))).
Proof.
  intros H Hx. destruct (usr_t _ _ _ _ _ _ _ H Hx) as [L Tx].
  destruct Hx as (i & a & Li & <-). destruct (reached_inv _ _ _ _ _ _ _ H) as (I & Ow & Q).
  eapply gives_push; [exact H|apply (d_tr (X:=X) nq D l i a); auto; try discriminate|reflexivity|apply al0_1|].
  eapply wp_mono; [apply (transpose_sp (g:=g) (nb:=nb) (X:=X) G l (proj1 L) s [] (var V i) I Ow Tx)|].
  intros r s' (S' & O' & T' & V'). split; [exact S'|]. intros p Vp. destruct (mp_rc l p Vp) as (E & Vr & Vc).
  specialize (V' Logic.I _ (vpath_tr4 _ _ Vp)). rewrite map_tr4_tr4 in V'. rewrite V'. cbn [uval]. unfold PropBase.entry. f_equal.
  rewrite <- E at 1. apply tr4_mp; [apply Vr|apply Vc].
Qed.

Theorem conjugateTranspose_is_adjoint nq s V D l x : reachedR nq s V D -> usr V D KM l x ->
  exists r s', conjugateTranspose R0 g nb x s = Ok r s' /\
    gives nq V D s KM l r s' (fun p => Cconj (entry s KM x (mp (cold p) (rowd p)))).
Proof.
  intros H Hx. destruct (usr_t _ _ _ _ _ _ _ H Hx) as [L Tx].
  destruct Hx as (i & a & Li & <-). destruct (reached_inv _ _ _ _ _ _ _ H) as (I & Ow & Q).
  eapply gives_push; [exact H|apply (d_ct (X:=X) nq D l i a); auto|reflexivity|apply al0_1|].
  eapply wp_mono; [apply (conjTrans_sp (g:=g) (nb:=nb) (X:=X) G l (proj1 L) s [] (var V i) I Ow Tx)|].
  intros r s' (S' & O' & T' & V'). split; [exact S'|]. intros p Vp. destruct (mp_rc l p Vp) as (E & Vr & Vc).
  specialize (V' Logic.I _ (vpath_tr4 _ _ Vp)). rewrite map_tr4_tr4 in V'. rewrite V'. cbn [uval]. unfold PropBase.entry. do 2 f_equal.
  rewrite <- E at 1. apply tr4_mp; [apply Vr|apply Vc].
Qed.

(** [n] is a node in the unique table of kind [k]. *)
Definition stored (s : st R0) (k : kind) (n : nat) : Prop := exists v b, In n (ut_tab (s_ut s k) v b).

Theorem marks_are_right nq s V D n : reachedR nq s V D -> stored s KM n ->
  (nsym (nod s KM n) = true -> forall p, vpath KM (nv (nod s KM n)) p ->
     entry s KM (Ed (PNode n) Cone) (mp (cold p) (rowd p)) = entry s KM (Ed (PNode n) Cone) p) /\
  (nid (nod s KM n) = true -> forall p, vpath KM (nv (nod s KM n)) p ->
     entry s KM (Ed (PNode n) Cone) p = if forallb (fun i => Nat.eqb i 0 || Nat.eqb i 3) p then C1 else C0).
Proof.
  intros H (v & b & Hn). destruct (reached_inv _ _ _ _ _ _ _ H) as (I & _). destruct (ui_node _ _ _ _ _ _ (ci_ut _ _ _ _ _ (iv_c _ _ _ _ _ I) KM) _ _ _ Hn) as [A B E F Gr K L S Id].
  change (Inv.qn R0 (co s) KM n) with (nod s KM n) in *. unfold PropBase.entry, Inv.de. cbn [ew ep]. split; intros Hf p Vp; rewrite B in Vp.
  - f_equal. destruct (mp_rc v p Vp) as (Ep & Vr & Vc). rewrite <- (S Logic.I eq_refl Hf p Vp). f_equal. rewrite <- Ep at 3. symmetry. apply tr4_mp; [apply Vr|apply Vc].
  - rewrite Cw_one by exact Logic.I. rewrite (Id Logic.I eq_refl Hf p Vp). unfold idm. destruct (forallb _ p); ring.
Qed.

(** * C25 *)
Theorem kronecker_vectors nq s V D lx ly x y : reachedR nq s V D -> usr V D KV lx x -> usr V D KV ly y -> lx + ly + 1 < nq ->
  exists r s', kronecker R0 g nb KV x y true s = Ok r s' /\
    gives nq V D s KV (lx + ly + 1) r s' (fun p => entry s KV x (firstn (Z.to_nat (lx + 1)) p) * entry s KV y (skipn (Z.to_nat (lx + 1)) p))%C.
Proof.
  intros H Hx Hy Hl. destruct (usr_t _ _ _ _ _ _ _ H Hx) as [L Tx]. destruct (usr_t _ _ _ _ _ _ _ H Hy) as [L' Ty].
  destruct Hx as (i & a & Li & <-), Hy as (j & b & Lj & <-). destruct (reached_inv _ _ _ _ _ _ _ H) as (I & Ow & Q).
  eapply gives_push; [exact H|apply (d_kronv (X:=X) nq D lx ly i j a b); auto|reflexivity|apply al1_1|].
  eapply wp_mono; [apply (kronecker_sp (g:=g) (nb:=nb) (X:=X) G s [] KV lx ly); auto; try lia; discriminate|].
  intros r s' (S' & O' & T' & V'). split; auto. intros p Vp. destruct (vpath_split KV lx ly p) as [V1 V2]; auto; [lia|lia|].
  unfold PropBase.entry. rewrite <- V'; auto; [now rewrite firstn_skipn|exact Logic.I|discriminate].
Qed.

(** * C26 *)
(** Only where no aligned block of the first matrix is a multiple of the identity (other
    than the first matrix being the identity itself); see [kronecker_matrices_refuted]. *)
Theorem kronecker_matrices_partial nq s V D lx ly x y : reachedR nq s V D -> usr V D KM lx x -> usr V D KM ly y -> lx + ly + 1 < nq ->
  noident lx (entry s KM x) \/ (forall p, vpath KM lx p -> entry s KM x p = if forallb (fun i => Nat.eqb i 0 || Nat.eqb i 3) p then C1 else C0) ->
  exists r s', kronecker R0 g nb KM x y true s = Ok r s' /\
    gives nq V D s KM (lx + ly + 1) r s' (fun p => entry s KM x (firstn (Z.to_nat (lx + 1)) p) * entry s KM y (skipn (Z.to_nat (lx + 1)) p))%C.
Proof.
  intros H Hx Hy Hl Hi. destruct (usr_t _ _ _ _ _ _ _ H Hx) as [L Tx]. destruct (usr_t _ _ _ _ _ _ _ H Hy) as [L' Ty].
  destruct Hx as (i & a & Li & <-), Hy as (j & b & Lj & <-). destruct (reached_inv _ _ _ _ _ _ _ H) as (I & Ow & Q).
  eapply gives_push; [exact H|apply (d_kronx (X:=X) nq D lx ly i j a b); auto|reflexivity|apply al1_1|].
  eapply wp_mono; [apply (kronecker_sp (g:=g) (nb:=nb) (X:=X) G s [] KM lx ly); auto; try lia; discriminate|].
  intros r s' (S' & O' & T' & V'). split; auto. intros p Vp. destruct (vpath_split KM lx ly p) as [V1 V2]; auto; [lia|lia|].
  unfold PropBase.entry. rewrite <- V'; auto; [now rewrite firstn_skipn|exact Logic.I|]. intros _. set (x := var V i) in *.
  assert (Tx': tedge R0 g X (co s) KM (Z.of_nat (Z.to_nat (lx + 1)) - 1) x) by (replace (Z.of_nat (Z.to_nat (lx + 1)) - 1) with lx by lia; exact Tx).
  destruct Hi as [NI|Id].
  - apply (kgood_noident (g:=g) (nb:=nb) (X:=X) (co s) Logic.I (iv_c _ _ _ _ _ I) _ _ (entry s KM x) C1); auto; [apply C1_neq_0| |]; replace (Z.of_nat (Z.to_nat (lx + 1)) - 1) with lx by lia; auto.
    intros q Vq. unfold PropBase.entry. ring.
  - apply (kgood_ident (g:=g) (nb:=nb) (X:=X) (co s) Logic.I (iv_c _ _ _ _ _ I)); auto. replace (Z.of_nat (Z.to_nat (lx + 1)) - 1) with lx by lia. exact Id.
Qed.

(** * C27 *)
Theorem innerProduct_is_inner_product nq s V D l x y : reachedR nq s V D -> usr V D KV l x -> usr V D KV l y ->
  exists v s', innerProduct R0 g x y s = Ok v s' /\
    v = Csum (fun cs => Cconj (entry s KV x cs) * entry s KV y cs)%C (bits (Z.to_nat (l + 1))) /\
    reachedR nq s' V D /\ unchanged V D s s'.
Proof.
  intros H Hx Hy. destruct (usr_t _ _ _ _ _ _ _ H Hx) as [L Tx]. destruct (usr_t _ _ _ _ _ _ _ H Hy) as [_ Ty].
  destruct Hx as (i & a & Li & <-), Hy as (j & b & Lj & <-). destruct (reached_inv _ _ _ _ _ _ _ H) as (I & Ow & Q).
  destruct (innerProduct_sp (g:=g) (nb:=nb) (X:=X) G s [] l (var V i) (var V j)) as (v & s' & E & S' & O' & V'); auto.
  exists v, s'. split; auto. split; [|split].
  - transitivity (Cv2 R0 g X v); [now destruct v|exact (V' Logic.I)].
  - eapply (reached_exec (X:=X) G nq s V D (IInner i j) D _ V [OC v] s' H); [apply (d_inner (X:=X) nq D l i j a b); auto|].
    cbn [exec]. unfold emit, bind, ret. now rewrite E.
  - eapply step_unchanged; eauto.
Qed.

Theorem fidelity_is_squared_overlap nq s V D l x y : reachedR nq s V D -> usr V D KV l x -> usr V D KV l y ->
  exists v s', fidelity R0 g x y s = Ok v s' /\
    v = Cmag2 (Csum (fun cs => Cconj (entry s KV x cs) * entry s KV y cs)%C (bits (Z.to_nat (l + 1)))) /\
    reachedR nq s' V D /\ unchanged V D s s'.
Proof.
  intros H Hx Hy. destruct (usr_t _ _ _ _ _ _ _ H Hx) as [L Tx]. destruct (usr_t _ _ _ _ _ _ _ H Hy) as [_ Ty].
  destruct Hx as (i & a & Li & <-), Hy as (j & b & Lj & <-). destruct (reached_inv _ _ _ _ _ _ _ H) as (I & Ow & Q).
  destruct (fidelity_sp (g:=g) (nb:=nb) (X:=X) G s [] l (var V i) (var V j)) as (v & s' & E & S' & O' & V'); auto.
  exists v, s'. split; auto. split; [|split].
  - exact (V' Logic.I).
  - eapply (reached_exec (X:=X) G nq s V D (IFid i j) D _ V [OR v] s' H); [apply (d_fid (X:=X) nq D l i j a b); auto|].
    cbn [exec]. unfold emit, bind, ret. now rewrite E.
  - eapply step_unchanged; eauto.
Qed.

Lemma live_app D i k l f x : live D i k l f -> live (D ++ x) i k l f.
Proof. intros (c & L). exists c. rewrite nth_error_app1; auto. apply nth_error_Some. congruence. Qed.
Lemma nth_app_l {A} (l m : list A) i d : (i < length l)%nat -> nth i (l ++ m) d = nth i l d.
Proof. apply app_nth1. Qed.
Lemma reached_len nq s V D : reachedR nq s V D -> length D = length V.
Proof. intros H. pose proof (reached_sim G _ _ _ _ H) as S. eapply F2_len. apply S. Qed.
Lemma live_lt D i k l f : live D i k l f -> (i < length D)%nat.
Proof. intros (c & L). apply nth_error_Some. congruence. Qed.
Lemma usr_app nq s V D k l e r x : reachedR nq s V D -> usr V D k l e -> usr (V ++ [r]) (D ++ [x]) k l e.
Proof.
  intros H (i & f & L & <-). exists i, f. split; [now apply live_app|]. unfold var. apply app_nth1. rewrite <- (reached_len _ _ _ _ H). now apply live_lt in L.
Qed.
Lemma usr_new V D k l r f : length D = length V -> usr (V ++ [r]) (D ++ [dnew k l f]) k l r.
Proof.
  intros L. exists (length D), f. split; [exists 0%nat; rewrite nth_error_app2, Nat.sub_diag by lia; reflexivity|].
  unfold var. rewrite app_nth2 by lia. replace (length D - length V)%nat with 0%nat by lia. reflexivity.
Qed.
Lemma nonzero_lvl s k l e p : tedge R0 g X (co s) k l e -> entry s k e p <> C0 -> lvl s k (ep e) = l.
Proof.
  intros [A B E F] H. destruct (ep e) as [| |n] eqn:P.
  - contradiction.
  - destruct (E eq_refl) as [->|Z]; auto. exfalso. apply H. unfold PropBase.entry, Inv.de. rewrite Z, Cw_zero by exact Logic.I. ring.
  - apply A.
Qed.

(** The user holds a reference to [e]. *)
Definition referenced (V : list edge) (D : denv) (k : kind) (l : Z) (e : edge) : Prop :=
  exists i c f, nth_error D i = Some (Some (DV k l (S c) f)) /\ var V i = e.

Lemma true_claim s k l e h : Some (entry s k e) = Some h -> forall p, vpath k l p -> entry s k e p = h p.
Proof. now intros [= <-]. Qed.
Lemma referenced_kept V D k l e : referenced V D k l e -> referenced V (kept D) k l e.
Proof.
  intros (i & c & f & E & <-). exists i, c, f. split; auto. unfold kept. rewrite nth_error_map, E. reflexivity.
Qed.
Lemma claim_nth : forall D m i k l c f0 f, nth_error D i = Some (Some (DV k l c f0)) -> exists f1, nth_error (claim D m f) i = Some (Some (DV k l c f1)) /\ (m <> i -> f1 = f0) /\ (m = i -> f1 = f).
Proof.
  induction D as [|x D IH]; intros [|m] [|i] k l c f0 f E; try discriminate; cbn [claim nth_error] in *.
  - injection E as ->. exists f. split; auto. split; [intros H; now destruct H|auto].
  - exists f0. split; auto. split; auto; discriminate.
  - exists f0. split; auto. split; auto; discriminate.
  - destruct (IH m i k l c f0 f E) as (f1 & A & B1 & B2). exists f1. split; auto. split; intros Hm; [apply B1|apply B2]; congruence.
Qed.
Lemma kept_entries nq s V D c s' outs os : reachedR nq s V D ->
  (forall m k l f0, live D m k l f0 -> let D1 := claim D m (Some (entry s k (var V m))) in dstep (X:=X) nq D1 c (kept D1) os) ->
  exec R0 g nb c V s = Ok (V, outs) s' ->
  forall k l e, referenced V D k l e -> forall p, vpath k l p -> entry s' k e p = entry s k e p.
Proof.
  intros H Ds E k l e (m & cc & f & Em & <-) p Vp. set (D1 := claim D m (Some (entry s k (var V m)))).
  assert (L: live D m k l f) by (eexists; exact Em).
  pose proof (rc_claim (X:=X) nq s V D m k l f (Some (entry s k (var V m))) H Logic.I L (true_claim _ _ _ _)) as H1.
  destruct (reached_exec G nq s V D1 _ _ _ _ _ _ H1 (Ds m k l f L) E) as [H3 _].
  apply (usr_entry g nb G nq s' V (kept D1) m k l (entry s k (var V m)) H3); auto.
  destruct (claim_nth D m m k l (S cc) f (Some (entry s k (var V m))) Em) as (f1 & A & _ & B). rewrite (B eq_refl) in A.
  exists (S cc). unfold kept. rewrite nth_error_map. fold D1 in A. now rewrite A.
Qed.

(** The imaginary part must be zero (otherwise an assertion of the code fails), and the
    operands must not be zero.  The call ends with a garbage collection. *)
Theorem expectationValue_is_expectation nq s V D l x y p q : reachedR nq s V D -> usr V D KM l x -> usr V D KV l y ->
  vpath KM l p -> entry s KM x p <> C0 -> vpath KV l q -> entry s KV y q <> C0 ->
  let z := Csum (fun rs => Cconj (entry s KV y rs) * Csum (fun cs => entry s KM x (mp rs cs) * entry s KV y cs) (bits (length rs)))%C (bits (Z.to_nat (l + 1))) in
  snd z = 0%R ->
  exists s' D', expectationValue R0 g nb x y s = Ok (fst z) s' /\ reachedR nq s' V D' /\
    (forall k l e, referenced V D k l e -> referenced V D' k l e /\ forall p, vpath k l p -> entry s' k e p = entry s k e p).
Proof.
  intros H Hx Hy Vp Np Vq Nq z Hz. destruct (usr_t _ _ _ _ _ _ _ H Hx) as [L Tx]. destruct (usr_t _ _ _ _ _ _ _ H Hy) as [_ Ty].
  destruct Hx as (i & a & Li & <-), Hy as (j & b & Lj & <-).
  assert (Hij: j <> i). { intros ->. destruct Li as (c & Li), Lj as (c' & Lj). congruence. }
  pose proof (rc_claim (X:=X) nq s V D i KM l a (Some (entry s KM (var V i))) H Logic.I Li (true_claim _ _ _ _)) as H1.
  pose proof (claim_live D i KM l a (Some (entry s KM (var V i))) Li) as Li1.
  pose proof (claim_live_ne D i j KV l b (Some (entry s KM (var V i))) Hij Lj) as Lj1.
  assert (RD1: forall k l e, referenced V D k l e -> referenced V (claim D i (Some (entry s KM (var V i)))) k l e).
  { intros k0 l0 e (m & cc & f & Em & <-). destruct (claim_nth D i m k0 l0 (S cc) f (Some (entry s KM (var V i))) Em) as (f1 & A & _). exists m, cc, f1. auto. }
  set (D1 := claim D i (Some (entry s KM (var V i)))) in *.
  pose proof (rc_claim (X:=X) nq s V D1 j KV l b (Some (entry s KV (var V j))) H1 Logic.I Lj1 (true_claim _ _ _ _)) as H2.
  pose proof (claim_live D1 j KV l b (Some (entry s KV (var V j))) Lj1) as Lj2.
  pose proof (claim_live_ne D1 j i KM l _ (Some (entry s KV (var V j))) (not_eq_sym Hij) Li1) as Li2.
  assert (RD2: forall k l e, referenced V D k l e -> referenced V (claim D1 j (Some (entry s KV (var V j)))) k l e).
  { intros k0 l0 e U. destruct (RD1 _ _ _ U) as (m & cc & f & Em & <-). destruct (claim_nth D1 j m k0 l0 (S cc) f (Some (entry s KV (var V j))) Em) as (f1 & A & _). exists m, cc, f1. auto. }
  set (D2 := claim D1 j (Some (entry s KV (var V j)))) in *.
  assert (Ds0: forall D3, live D3 i KM l (Some (entry s KM (var V i))) -> live D3 j KV l (Some (entry s KV (var V j))) -> dstep (X:=X) nq D3 (IExp i j) (kept D3) [Some (DR (fst z))]).
  { intros D3 L3 L3'. apply (d_exp (X:=X) nq D3 l i j _ _ p q Logic.I L3 L3' Vp Np Vq Nq Hz). }
  pose proof (Ds0 D2 Li2 Lj2) as Ds.
  pose proof (exec_sp G [] nq s V D2 _ _ _ (fun _ => eq_refl) (reached_sim G _ _ _ _ H2) Ds) as W.
  destruct (wp_ok g G _ s _ _ (al1_1 g G) W) as ([V' outs] & s' & E & _ & F & _).
  destruct (reached_exec G nq s V D2 _ _ _ _ _ _ H2 Ds E) as [H3 _]. pose proof E as E0.
  cbn [exec] in E. unfold emit, bind, ret in E. destruct (expectationValue _ _ _ _ _ _) as [v s1| |] eqn:E1; try discriminate. injection E as <- <- <-.
  exists s1, (kept D2). split; [|split; auto].
  - inversion F as [|o d os ds Fo Fr]; subst. destruct (Fo Logic.I) as (v' & Ev & Hv). injection Ev as <-. f_equal. exact Hv.
  - intros k0 l0 e U. split; [now apply referenced_kept, RD2|]. apply (kept_entries nq s V D2 (IExp i j) s1 [OR v] [Some (DR (fst z))] H2); auto.
    intros m k1 l1 f0 Lm. apply Ds0.
    + destruct (Nat.eq_dec m i) as [->|Nm]; [|apply claim_live_ne; auto]. assert (k1 = KM). { destruct Lm as (c1 & Lm), Li2 as (c2 & Li2). congruence. } subst k1. eapply claim_live; eauto.
    + destruct (Nat.eq_dec m j) as [->|Nm]; [|apply claim_live_ne; auto]. assert (k1 = KV). { destruct Lm as (c1 & Lm), Lj2 as (c2 & Lj2). congruence. } subst k1. eapply claim_live; eauto.
Qed.

(** * C28 *)
Theorem trace_is_trace nq s V D n x : reachedR nq s V D -> usr V D KM (Z.of_nat n - 1) x ->
  exists v s', trace R0 g nb x s = Ok v s' /\ v = Csum (fun bs => entry s KM x (mp bs bs)) (bits n) /\
    reachedR nq s' V D /\ unchanged V D s s'.
Proof.
  intros H Hx. destruct (usr_t _ _ _ _ _ _ _ H Hx) as [L Tx].
  destruct Hx as (i & a & Li & <-). destruct (reached_inv _ _ _ _ _ _ _ H) as (I & Ow & Q).
  destruct (wp_ok g G _ s _ _ (al0_1 g G) (trace_sp (g:=g) (nb:=nb) (X:=X) G n s [] (var V i) ltac:(lia) I Ow Tx)) as (v & s' & E & O' & S' & V').
  exists v, s'. split; auto. split; [|split].
  - transitivity (Cv2 R0 g X v); [now destruct v|exact (V' Logic.I)].
  - eapply (reached_exec (X:=X) G nq s V D (ITrace i) D _ V [OC v] s' H); [apply (d_trace (X:=X) nq D n i a); auto|].
    cbn [exec]. unfold emit, bind, ret. now rewrite E.
  - eapply step_unchanged; eauto.
Qed.

(** [elim] lists, from qubit 0 upwards, which qubits are eliminated; [fill] inserts the
    summed digits at the eliminated positions. *)
Theorem partialTrace_is_partial_trace nq s V D n x elim : reachedR nq s V D -> usr V D KM (Z.of_nat n - 1) x ->
  (n <= length elim)%nat -> ntrue (skipn n elim) = 0%nat ->
  let el := rev (firstn n elim) in
  exists r s', partialTrace R0 g nb x elim s = Ok r s' /\
    gives nq V D s KM (Z.of_nat (n - ntrue el) - 1) r s' (fun p => Csum (fun bs => entry s KM x (fill el bs p)) (bits (ntrue el))).
Proof.
  intros H Hx He He' el. destruct (usr_t _ _ _ _ _ _ _ H Hx) as [L Tx].
  destruct Hx as (i & a & Li & <-). destruct (reached_inv _ _ _ _ _ _ _ H) as (I & Ow & Q).
  eapply gives_push; [exact H|apply (d_ptr (X:=X) nq D n i a elim); auto|reflexivity|apply al0_1|].
  eapply wp_mono; [apply (partialTrace_sp (g:=g) (nb:=nb) (X:=X) G elim n s []); auto; lia|].
  intros r s' (O' & S' & T' & V'). split; auto. intros p Vp. apply (V' Logic.I p). rewrite elimtop_len by auto. exact Vp.
Qed.

End Sem.

(** ** Concrete cases *)

Lemma vp_kv0 a : (a < 2)%nat -> vpath KV 0 [a].
Proof. intros. split; [reflexivity|]. repeat (constructor; auto). Qed.
Lemma vp_kv1 a b : (a < 2)%nat -> (b < 2)%nat -> vpath KV 1 [a; b].
Proof. intros. split; [reflexivity|]. repeat (constructor; auto). Qed.
Lemma vp_kv2 a b c : (a < 2)%nat -> (b < 2)%nat -> (c < 2)%nat -> vpath KV 2 [a; b; c].
Proof. intros. split; [reflexivity|]. repeat (constructor; auto). Qed.
Lemma vp_km0 a : (a < 4)%nat -> vpath KM 0 [a].
Proof. intros. split; [reflexivity|]. repeat (constructor; auto). Qed.
Lemma vp_km1 a b : (a < 4)%nat -> (b < 4)%nat -> vpath KM 1 [a; b].
Proof. intros. split; [reflexivity|]. repeat (constructor; auto). Qed.
Lemma vp_km2 a b c : (a < 4)%nat -> (b < 4)%nat -> (c < 4)%nat -> vpath KM 2 [a; b; c].
Proof. intros. split; [reflexivity|]. repeat (constructor; auto). Qed.
Lemma val_v s V p : reachedR gR nbdef GR 3 s V D0 -> vpath KV 1 p -> entry gR GR s KV (var V 1) p = fV p.
Proof. intros H. apply (usr_entry gR nbdef GR 3 s V D0 1 KV 1 fV H). exists 1%nat. reflexivity. Qed.
Lemma val_p s V p : reachedR gR nbdef GR 3 s V D0 -> vpath KV 1 p -> entry gR GR s KV (var V 6) p = fP p.
Proof. intros H. apply (usr_entry gR nbdef GR 3 s V D0 6 KV 1 fP H). exists 0%nat. reflexivity. Qed.
Lemma val_m s V p : reachedR gR nbdef GR 3 s V D0 -> vpath KM 0 p -> entry gR GR s KM (var V 7) p = fM p.
Proof. intros H. apply (usr_entry gR nbdef GR 3 s V D0 7 KM 0 fM H). exists 0%nat. reflexivity. Qed.
Lemma val_i s V p : reachedR gR nbdef GR 3 s V D0 -> vpath KM 1 p -> entry gR GR s KM (var V 8) p = idm p.
Proof. intros H. apply (usr_entry gR nbdef GR 3 s V D0 8 KM 1 idm H). exists 0%nat. reflexivity. Qed.
Lemma val_w s V p : reachedR gR nbdef GR 3 s V D0 -> vpath KV 0 p -> entry gR GR s KV (var V 9) p = fW p.
Proof. intros H. apply (usr_entry gR nbdef GR 3 s V D0 9 KV 0 fW H). exists 0%nat. reflexivity. Qed.
Ltac vp := solve [apply vp_kv0; lia | apply vp_kv1; lia | apply vp_kv2; lia | apply vp_km0; lia | apply vp_km1; lia | apply vp_km2; lia].
Ltac vals := rewrite ?val_v, ?val_p, ?val_m, ?val_i, ?val_w by (auto; vp).
Ltac cval := unfold fV, fW, fM, fP, idm, mentry, Csum; cbn; unfold Cv2; cbn; unfold Cadd, Cmul, Cconj, Cmag2, C0, C1, RtoC, Ci; cbn; try (match goal with |- (_, _) = (_, _) => apply f_equal2 end); try reflexivity; try lra.

(** A vector plus itself: the amplitude of |10> is 2 + 2. *)
Example add_example : exists s V r s', reachedR gR nbdef GR 3 s V D0 /\
  add R0 gR nbdef KV (var V 1) (var V 1) s = Ok r s' /\ entry gR GR s' KV r [1; 0]%nat = RtoC 4.
Proof.
  destruct reached0 as (s & V & H).
  destruct (add_is_addition gR nbdef GR 3 s V D0 KV 1 _ _ H ltac:(discriminate) (usr0_v V) (usr0_v V)) as (r & s' & E & _ & F & _).
  exists s, V, r, s'. split; auto. split; auto. rewrite F by vp. vals. cval.
Qed.

(** [[1, 2], [3i, 4]] times (3, 4i) is (3 + 8i, 25i). *)
Example multiply_vector_example : exists s V r s', reachedR gR nbdef GR 3 s V D0 /\
  multiply R0 gR nbdef KV (var V 7) (var V 9) 0 s = Ok r s' /\ entry gR GR s' KV r [1]%nat = (0, 25)%R.
Proof.
  destruct reached0 as (s & V & H).
  destruct (multiply_is_matrix_vector_product gR nbdef GR 3 s V D0 0 _ _ H (usr0_m V) (usr0_w V)) as (r & s' & E & _ & F & _).
  exists s, V, r, s'. split; auto. split; auto. rewrite F by vp. unfold Csum; cbn [length bits map app fold_right mp Nat.mul Nat.add combine fst snd]. vals. cval.
Qed.

(** The square of [[1, 2], [3i, 4]] has the entry 16 + 6i in the lower right corner. *)
Example multiply_matrix_example : exists s V r s', reachedR gR nbdef GR 3 s V D0 /\
  multiply R0 gR nbdef KM (var V 7) (var V 7) 0 s = Ok r s' /\ entry gR GR s' KM r [3]%nat = (16, 6)%R.
Proof.
  destruct reached0 as (s & V & H).
  destruct (multiply_is_matrix_product gR nbdef GR 3 s V D0 0 _ _ H (usr0_m V) (usr0_m V)) as (r & s' & E & _ & F & _).
  exists s, V, r, s'. split; auto. split; auto. rewrite F by vp. unfold Csum; cbn. vals. cval.
Qed.

(** The entry 3i moves to the upper right corner, conjugated in the adjoint. *)
Example transpose_example : exists s V r s', reachedR gR nbdef GR 3 s V D0 /\
  transpose R0 gR nbdef (var V 7) s = Ok r s' /\ entry gR GR s' KM r [1]%nat = (0, 3)%R.
Proof.
  destruct reached0 as (s & V & H).
  destruct (transpose_is_transposition gR nbdef GR 3 s V D0 0 _ H (usr0_m V)) as (r & s' & E & _ & F & _).
  exists s, V, r, s'. split; auto. split; auto. rewrite F by vp. cbn. vals. cval.
Qed.
Example adjoint_example : exists s V r s', reachedR gR nbdef GR 3 s V D0 /\
  conjugateTranspose R0 gR nbdef (var V 7) s = Ok r s' /\ entry gR GR s' KM r [1]%nat = (0, -3)%R.
Proof.
  destruct reached0 as (s & V & H).
  destruct (conjugateTranspose_is_adjoint gR nbdef GR 3 s V D0 0 _ H (usr0_m V)) as (r & s' & E & _ & F & _).
  exists s, V, r, s'. split; auto. split; auto. rewrite F by vp. cbn. vals. cval.
Qed.

(** The sample state stores a matrix node that is not a multiple of the identity. *)
Example marks_example : exists s V n, reachedR gR nbdef GR 3 s V D0 /\ stored s KM n /\ ep (var V 7) = PNode n.
Proof.
  destruct reached0 as (s & V & H). destruct (usr_ok gR nbdef GR 3 s V D0 KM 0 (var V 7) H (usr0_m V)) as [_ T].
  assert (Z: ew (var V 7) <> Czero).
  { intros Z. pose proof (val_m s V [0]%nat H ltac:(vp)) as F. unfold entry, de in F. rewrite Z, Cw_zero in F by exact Logic.I. revert F. cval. intros F. injection F. intros. lra. }
  destruct (tedge_nt (g:=gR) (X:=XR gR GR) _ _ _ _ T Z) as [[A B]|[A B]]; [|discriminate].
  destruct (ep (var V 7)) as [| |n] eqn:En; [contradiction|contradiction|]. exists s, V, n. split; auto. split; auto.
  destruct A as [(v & b & A) _]. now exists v, b.
Qed.

(** (1, i, 2, 0) (x) (3, 4i): amplitude of |01>|1> is i * 4i. *)
Example kronecker_vectors_example : exists s V r s', reachedR gR nbdef GR 3 s V D0 /\
  kronecker R0 gR nbdef KV (var V 1) (var V 9) true s = Ok r s' /\ entry gR GR s' KV r [0; 1; 1]%nat = RtoC (-4).
Proof.
  destruct reached0 as (s & V & H).
  destruct (kronecker_vectors gR nbdef GR 3 s V D0 1 0 _ _ H (usr0_v V) (usr0_w V)) as (r & s' & E & _ & F & _); [lia|].
  exists s, V, r, s'. split; auto. split; auto. rewrite F by vp. change (Z.to_nat (1 + 1)) with 2%nat; cbn [firstn skipn]. vals. cval.
Qed.

Lemma noident_m s V : reachedR gR nbdef GR 3 s V D0 -> noident 0 (entry gR GR s KM (var V 7)).
Proof.
  intros H pre k z Hl Hk Fp Hz Hd. assert (k = 1%nat /\ pre = []) as [-> ->]. { destruct pre as [|? pre]; cbn [length] in Hl; [split; auto; lia|exfalso; lia]. }
  pose proof (Hd [1]%nat ltac:(vp)) as A. cbn [app] in A. rewrite val_m in A by (auto; vp). revert A. cval. intros A. injection A. intros. lra.
Qed.
(** [[1, 2], [3i, 4]] (x) identity. *)
Example kronecker_matrices_example : exists s V r s', reachedR gR nbdef GR 3 s V D0 /\
  kronecker R0 gR nbdef KM (var V 7) (var V 8) true s = Ok r s' /\ entry gR GR s' KM r [2; 3; 0]%nat = (0, 3)%R.
Proof.
  destruct reached0 as (s & V & H).
  destruct (kronecker_matrices_partial gR nbdef GR 3 s V D0 0 1 _ _ H (usr0_m V) (usr0_i V)) as (r & s' & E & _ & F & _); [lia|left; now apply noident_m|].
  exists s, V, r, s'. split; auto. split; auto. rewrite F by vp. change (Z.to_nat (0 + 1)) with 1%nat; cbn [firstn skipn]. vals. cval.
Qed.

(** <(3, 4i), (3, 4i)> = 25 *)
Example innerProduct_example : exists s V v s', reachedR gR nbdef GR 3 s V D0 /\
  innerProduct R0 gR (var V 9) (var V 9) s = Ok v s' /\ v = RtoC 25.
Proof.
  destruct reached0 as (s & V & H).
  destruct (innerProduct_is_inner_product gR nbdef GR 3 s V D0 0 _ _ H (usr0_w V) (usr0_w V)) as (v & s' & E & F & _).
  exists s, V, v, s'. split; auto. split; auto. rewrite F. change (Z.to_nat (0 + 1)) with 1%nat. unfold Csum; cbn. vals. cval.
Qed.
Example fidelity_example : exists s V v s', reachedR gR nbdef GR 3 s V D0 /\
  fidelity R0 gR (var V 9) (var V 9) s = Ok v s' /\ v = 625%R.
Proof.
  destruct reached0 as (s & V & H).
  destruct (fidelity_is_squared_overlap gR nbdef GR 3 s V D0 0 _ _ H (usr0_w V) (usr0_w V)) as (v & s' & E & F & _).
  exists s, V, v, s'. split; auto. split; auto. rewrite F. change (Z.to_nat (0 + 1)) with 1%nat. unfold Csum; cbn. vals. cval.
Qed.
(** <(1, i, 2, 0), I (1, i, 2, 0)> = 6; the vector is referenced and survives. *)
Example expectation_example : exists s V s', reachedR gR nbdef GR 3 s V D0 /\ referenced V D0 KV 1 (var V 1) /\
  expectationValue R0 gR nbdef (var V 8) (var V 1) s = Ok 6%R s'.
Proof.
  destruct reached0 as (s & V & H).
  edestruct (expectationValue_is_expectation gR nbdef GR 3 s V D0 1 _ _ [0; 0]%nat [0; 0]%nat H (usr0_i V) (usr0_v V)) as (s' & D' & E & _).
  - vp.
  - vals. cval. intros A. injection A. intros. lra.
  - vp.
  - vals. cval. intros A. injection A. intros. lra.
  - change (Z.to_nat (1 + 1)) with 2%nat. unfold Csum; cbn. vals. cval.
  - exists s, V, s'. split; auto. split; [exists 1%nat, 0%nat, (Some fV); auto|]. rewrite E. f_equal. change (Z.to_nat (1 + 1)) with 2%nat. unfold Csum; cbn. vals. cval.
Qed.
(** trace of [[1, 2], [3i, 4]] *)
Example trace_example : exists s V v s', reachedR gR nbdef GR 3 s V D0 /\
  trace R0 gR nbdef (var V 7) s = Ok v s' /\ v = RtoC 5.
Proof.
  destruct reached0 as (s & V & H).
  destruct (trace_is_trace gR nbdef GR 3 s V D0 1 _ H (usr0_m V)) as (v & s' & E & F & _).
  exists s, V, v, s'. split; auto. split; auto. rewrite F. change (Z.to_nat (0 + 1)) with 1%nat. unfold Csum; cbn. vals. cval.
Qed.
(** Eliminating qubit 1 of the identity on two qubits leaves twice the identity. *)
Example partialTrace_example : exists s V r s', reachedR gR nbdef GR 3 s V D0 /\
  partialTrace R0 gR nbdef (var V 8) [false; true; false] s = Ok r s' /\ entry gR GR s' KM r [3]%nat = RtoC 2.
Proof.
  destruct reached0 as (s & V & H).
  destruct (partialTrace_is_partial_trace gR nbdef GR 3 s V D0 2 _ [false; true; false] H (usr0_i V)) as (r & s' & E & _ & F & _); [simpl; lia|reflexivity|].
  exists s, V, r, s'. split; auto. split; auto. rewrite F by vp. unfold Csum; cbn. vals. cval.
Qed.

Print Assumptions add_is_addition.
Print Assumptions multiply_is_matrix_vector_product.
Print Assumptions multiply_is_matrix_product.
Print Assumptions transpose_is_transposition.
Print Assumptions conjugateTranspose_is_adjoint.
Print Assumptions marks_are_right.
Print Assumptions kronecker_vectors.
Print Assumptions kronecker_matrices_partial.
Print Assumptions innerProduct_is_inner_product.
Print Assumptions fidelity_is_squared_overlap.
Print Assumptions expectationValue_is_expectation.
Print Assumptions trace_is_trace.
Print Assumptions partialTrace_is_partial_trace.
