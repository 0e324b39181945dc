(** Specifications of the named two-qubit gates. *)
From Coq Require Import ZArith List Bool Lia Arith Reals Lra Permutation.
From Verif Require Import Num Base CTable CTableWf Cx State Pkg Control Gate Named Inv InvL PrimL NormL MkL TrL AddL MulL KronL CanonL IdentL StateL TraceL GateL GateAct GateAlg.
Import ListNotations.
Local Open Scope Z_scope.

(** [F] on the qubits [ts] where the controls are satisfied, [F'] elsewhere. *)
Definition gatem2 (cs : list control) (ts : list Z) (F F' : list nat -> C) (p : list nat) : C :=
  if diagx ts p then (if ctl_sat cs p then F else F') (map (fun t => dig t p) ts) else C0.

Lemma gatem2_idm cs ts F p : gatem cs ts F p = gatem2 cs ts F idm p.
Proof. reflexivity. Qed.
Lemma gatem2_all cs ts F p : gatem [] ts F p = gatem2 cs ts F F p.
Proof. unfold gatem, gatem2. cbn [ctl_sat forallb]. now destruct (ctl_sat cs p). Qed.
Lemma gatem2_row n cs ts F F' a b : tgok n cs ts -> Z.of_nat (length a) = n -> length a = length b -> Forall (fun i => (i < 2)%nat) a -> Forall (fun i => (i < 2)%nat) b ->
  gatem2 cs ts F F' (mp a b) = gatem [] ts (if csat cs a then F else F') (mp a b).
Proof.
  intros (Nd & Ht & Hc) La L Fa Fb. unfold gatem2, gatem. destruct (diagx ts (mp a b)) eqn:D; auto. cbn [ctl_sat forallb]. rewrite ctl_csat; auto.
  intros c Hcc. destruct (Hc c Hcc) as [R I]. split; [lia|]. rewrite diagx_iff, mp_len in D by auto. destruct (D (cqb c) ltac:(lia)) as [?|A]; [contradiction|].
  rewrite dig_mp in A by (auto; lia). pose proof (bitd a (cqb c) Fa). pose proof (bitd b (cqb c) Fb). lia.
Qed.
Lemma csat_diag n cs ts a b : tgok n cs ts -> Z.of_nat (length a) = n -> length a = length b -> Forall (fun i => (i < 2)%nat) a -> Forall (fun i => (i < 2)%nat) b ->
  diagx ts (mp a b) = true -> csat cs a = csat cs b.
Proof.
  intros (Nd & Ht & Hc) La L Fa Fb D. rewrite diagx_iff, mp_len in D by auto. unfold csat. revert Hc. induction cs as [|c cs IH]; intros Hc; auto. cbn [forallb]. rewrite IH by (intros; apply Hc; now right).
  do 2 f_equal. destruct (Hc c (or_introl eq_refl)) as [R I]. destruct (D (cqb c) ltac:(lia)) as [?|A]; [contradiction|].
  rewrite dig_mp in A by (auto; lia). pose proof (bitd a (cqb c) Fa). pose proof (bitd b (cqb c) Fb). lia.
Qed.
Lemma tgok_nil n cs ts : tgok n cs ts -> tgok n [] ts.
Proof. intros (A & B & _). split; auto. split; auto. intros c []. Qed.

(** Products of such matrices. *)
Theorem gate_mul2 n cs ts F F' H H' a b : tgok n cs ts -> Z.of_nat (length a) = n -> length a = length b -> Forall (fun i => (i < 2)%nat) a -> Forall (fun i => (i < 2)%nat) b ->
  Csum (fun c => (gatem2 cs ts F F' (mp a c) * gatem2 cs ts H H' (mp c b))%C) (bits (length a)) = gatem2 cs ts (mprod (length ts) F H) (mprod (length ts) F' H') (mp a b).
Proof.
  intros T La L Fa Fb. rewrite (gatem2_row n) by auto.
  transitivity (Csum (fun c => (gatem [] ts (if csat cs a then F else F') (mp a c) * gatem [] ts (if csat cs a then H else H') (mp c b))%C) (bits (length a))).
  - apply Csum_ext. intros c Hc. apply bits_In in Hc. destruct Hc as [Lc Fc]. rewrite !(gatem2_row n) by (auto; lia).
    destruct (diagx ts (mp a c)) eqn:D.
    + rewrite (csat_diag n cs ts a c); auto.
    + unfold gatem at 1 3. rewrite D. ring.
  - rewrite (gate_mul n) by (auto; now apply (tgok_nil n cs)). destruct (csat cs a); reflexivity.
Qed.

(** The 4x4 matrix [l], entries row by row, as a function of the digits of the two qubits. *)
Definition m4 (l : list C) (ds : list nat) : C := nth (4 * ridx ds + cidx ds) l C0.
Lemma dd2 ds : length ds = 2%nat -> Forall (fun i => (i < 4)%nat) ds -> exists x y, ds = [x; y] /\ (x < 4)%nat /\ (y < 4)%nat.
Proof. intros L F. destruct ds as [|x [|y [|]]]; try discriminate. inversion_clear F as [|? ? A B]. inversion_clear B. now exists x, y. Qed.
Ltac d4 x := destruct x as [|[|[|[|x]]]]; [| | | |lia].
Lemma m4_mul F H ds : length F = 16%nat -> length H = 16%nat -> length ds = 2%nat -> Forall (fun i => (i < 4)%nat) ds -> mprod 2 (m4 F) (m4 H) ds = m4 (mul4 F H) ds.
Proof.
  intros LF LH L Fd. destruct (dd2 _ L Fd) as (x & y & -> & Hx & Hy).
  destruct (len16 _ LF) as (? & ? & ? & ? & ? & ? & ? & ? & ? & ? & ? & ? & ? & ? & ? & ? & ->). destruct (len16 _ LH) as (? & ? & ? & ? & ? & ? & ? & ? & ? & ? & ? & ? & ? & ? & ? & ? & ->).
  clear - Hx Hy. unfold mprod, m4, mul4, at4. d4 x; d4 y; cbn; ring.
Qed.
Lemma gatem2_ext cs ts F F' H H' p : (forall t, In t ts -> 0 <= t < Z.of_nat (length p)) -> Forall (fun i => (i < 4)%nat) p ->
  (forall ds, length ds = length ts -> Forall (fun i => (i < 4)%nat) ds -> F ds = H ds) -> (forall ds, length ds = length ts -> Forall (fun i => (i < 4)%nat) ds -> F' ds = H' ds) ->
  gatem2 cs ts F F' p = gatem2 cs ts H H' p.
Proof.
  intros R Fp E E'. unfold gatem2. destruct (diagx ts p); auto.
  assert (Q: length (map (fun t => dig t p) ts) = length ts /\ Forall (fun i => (i < 4)%nat) (map (fun t => dig t p) ts)).
  { split; [apply map_length|]. apply Forall_forall. intros x Hx. apply in_map_iff in Hx. destruct Hx as (t & <- & Ht). unfold dig. rewrite Forall_forall in Fp. apply Fp. apply nth_In. specialize (R t Ht). lia. }
  destruct Q as [Q1 Q2]. destruct (ctl_sat cs p); auto.
Qed.

(** ** Control sets *)
Lemma ctl_ltb_lt a b : cqb a < cqb b -> ctl_ltb a b = true.
Proof. intros H. unfold ctl_ltb. apply Z.ltb_lt in H. now rewrite H. Qed.
Lemma ctl_ltb_ge a b : cqb b < cqb a -> ctl_ltb a b = false.
Proof. intros H. unfold ctl_ltb. replace (cqb a <? cqb b) with false by (symmetry; apply Z.ltb_ge; lia). replace (cqb a =? cqb b) with false; auto. symmetry. apply Z.eqb_neq. lia. Qed.
Lemma ctl_ltb_irr a : ctl_ltb a a = false.
Proof. unfold ctl_ltb. rewrite Z.ltb_irrefl. destruct (cpos a); cbn; now rewrite andb_false_r. Qed.
Lemma ins_ctls a : forall l z, ctls z l -> z <= cqb a -> (forall c, In c l -> cqb c <> cqb a) -> ctls z (cs_insert a l).
Proof.
  induction l as [|b r IH]; intros z Hl Ha Hn; cbn [cs_insert]; [cbn; auto|]. destruct Hl as [A B]. pose proof (Hn b (or_introl eq_refl)) as Nb.
  destruct (Z.lt_ge_cases (cqb a) (cqb b)) as [L|L].
  - rewrite ctl_ltb_lt by auto. cbn. split; auto. split; auto. lia.
  - rewrite ctl_ltb_ge, ctl_ltb_lt by lia. split; auto. apply IH; auto; [lia|]. intros c Hc. apply Hn. now right.
Qed.
Lemma ins_perm a : forall l, (forall c, In c l -> cqb c <> cqb a) -> Permutation (cs_insert a l) (a :: l).
Proof.
  induction l as [|b r IH]; intros Hn; cbn [cs_insert]; [auto|]. pose proof (Hn b (or_introl eq_refl)) as Nb.
  destruct (Z.lt_ge_cases (cqb a) (cqb b)) as [L|L]; [rewrite ctl_ltb_lt by auto; auto|]. rewrite ctl_ltb_ge, ctl_ltb_lt by lia.
  eapply perm_trans; [apply perm_skip, IH; intros c Hc; apply Hn; now right|]. apply perm_swap.
Qed.
Lemma ers_ins a : forall l, (forall c, In c l -> cqb c <> cqb a) -> cs_erase a (cs_insert a l) = l.
Proof.
  induction l as [|b r IH]; intros Hn; cbn [cs_insert]; [cbn; now rewrite ctl_ltb_irr|]. pose proof (Hn b (or_introl eq_refl)) as Nb.
  destruct (Z.lt_ge_cases (cqb a) (cqb b)) as [L|L].
  - rewrite ctl_ltb_lt by auto. cbn [cs_erase]. now rewrite ctl_ltb_irr.
  - rewrite ctl_ltb_ge, (ctl_ltb_lt b a) by lia. cbn [cs_erase]. rewrite ctl_ltb_ge, (ctl_ltb_lt b a) by lia. rewrite IH; auto. intros c Hc. apply Hn. now right.
Qed.

(** Sine, cosine and the constants are the real ones where numbers are exact. *)
Definition trigok {N : num} {cf : ctcfg} (X : numx N cf) (T : trig N) : Prop :=
  ex X -> (forall x, toR X (tcos T x) = cos (toR X x)) /\ (forall x, toR X (tsin T x) = sin (toR X x)) /\
          toR X (tpi2 T) = (PI / 2)%R /\ toR X (tpi4 T) = (PI / 4)%R.

Section NamedL.
Context {N : num} {g : cfg N} {nb : kind -> Z} {X : numx N (g_ct g)} (G : gok g).
Local Notation cf := (g_ct g).
Local Notation co := (co N).
Local Notation qn := (qn N).
Local Notation linked := (linked N).
Local Notation c_ut := (c_ut N).
Local Notation Cw := (Cw N g X).
Local Notation Cv := (Cv N g X).
Local Notation Cv2 := (Cv2 N g X).
Local Notation dn := (dn N g X).
Local Notation de := (de N g X).
Local Notation dg := (dg N g X).
Local Notation wtab := (wtab N g X).
Local Notation etn := (etn N).
Local Notation isnode := (isnode N).
Local Notation tedge := (tedge N g X).
Local Notation gedge := (gedge N g X).
Local Notation cinv := (cinv N g nb X).
Local Notation uinv := (uinv N g nb X).
Local Notation nodeok := (nodeok N g nb X).
Local Notation inv := (inv N g nb X).
Local Notation step := (step N g nb X).
Local Notation qext := (qext N).
Local Notation owns := (owns N).
Local Notation wok := (wok N g X).
Local Notation wp := (wp N).
Local Notation al0 := (al0 N g X).
Local Notation nnorm := (nnorm N g X).
Local Notation iedge := (iedge (g:=g) (X:=X)).
Local Notation trsp := (trsp (nb:=nb) (X:=X)).
Local Notation unok := (unok N g X).
Local Notation binok := (binok N g X).
Local Notation addok := (addok N g X).
Local Notation tinv := (tinv N g X).
Local Notation vres := (vres N g X).
Local Notation dv := (dv N g X).
Local Notation mkpost := (mkpost (nb:=nb) (X:=X)).
Local Notation mulCached_sp := (mulCached_sp (nb:=nb) (X:=X) G).
Local Notation addCached_sp := (addCached_sp (nb:=nb) (X:=X) G).
Local Notation getCached_sp := (getCached_sp (nb:=nb) (X:=X) G).
Local Notation makeDDNode_sp := (makeDDNode_sp (nb:=nb) (X:=X) G).
Local Notation lookupC_sp := (lookupC_sp (nb:=nb) (X:=X) G).
Local Notation tedge_gedge := (tedge_gedge (nb:=nb) (X:=X)).
Local Notation child_ok := (child_ok (nb:=nb) (X:=X)).
Local Notation dn_ext := (dn_ext (nb:=nb) (X:=X)).
Local Notation Cw_eq0 := (Cw_eq0 (nb:=nb) (X:=X)).
Local Notation addInsert_sp := (addInsert_sp (g:=g) (nb:=nb) (X:=X)).
Local Notation binInsert_sp := (binInsert_sp (g:=g) (nb:=nb) (X:=X)).
Local Notation unInsert_sp := (unInsert_sp (g:=g) (nb:=nb) (X:=X)).
Local Notation addLookup_sp := (addLookup_sp (g:=g) (nb:=nb) (X:=X)).
Local Notation binLookup_sp := (binLookup_sp (g:=g) (nb:=nb) (X:=X)).
Local Notation unLookup_sp := (unLookup_sp (g:=g) (nb:=nb) (X:=X)).
Local Notation cres := (cres (g:=g) (X:=X)).
Local Notation addsp := (addsp (g:=g) (nb:=nb) (X:=X)).
Local Notation rel_sp := (rel_sp (g:=g) (nb:=nb) (X:=X)).
Local Notation relif_sp := (relif_sp (g:=g) (nb:=nb) (X:=X)).
Local Notation mapM_cres := (mapM_cres (g:=g) (nb:=nb) (X:=X)).
Local Notation de_step := (de_step (g:=g) (nb:=nb) (X:=X)).
Local Notation dg_step := (dg_step (g:=g) (nb:=nb) (X:=X)).
Local Notation mulSelf_sp := (mulSelf_sp (g:=g) (nb:=nb) (X:=X)).
Local Notation finish_sp := (finish_sp (g:=g) (nb:=nb) (X:=X) G).
Local Notation add2F_sp := (add2F_sp (g:=g) (nb:=nb) (X:=X) G).
Implicit Types (s : st N).

Local Notation dn_nz := (dn_nz (g:=g) (nb:=nb) (X:=X)).
Local Notation idok := (idok N g X).
Local Notation makeDDNode_t := (makeDDNode_t (nb:=nb) (X:=X) G).
Local Notation mk_weight := (mk_weight (nb:=nb) (X:=X)).

(** ** Values of the gate matrices *)
Local Ltac xs Ex := unfold Inv.Cv2; cbn [fst snd]; rewrite ?(x_neg X Ex), ?(x_0 X Ex), ?(x_1 X Ex), ?(x_sq2 X Ex), ?(x_half X Ex); try reflexivity.
Local Ltac ms Ex := cbn [map]; unfold c_one, c_mone, c_zero, c_i, c_mi, c_sq, c_msq, c_isq, c_misq, c_1pi, c_1mi, c_1pi2, c_1mi2;
  repeat match goal with |- ?a = ?b => change (@eq (list C) a b); apply (f_equal2 (@cons C)); [|] end; xs Ex.
Lemma vX : ex X -> map Cv2 Xmat = gX.
Proof. intros Ex. unfold Xmat, gX. ms Ex. Qed.
Lemma vH : ex X -> map Cv2 Hmat = gH.
Proof. intros Ex. unfold Hmat, gH. ms Ex. Qed.
Lemma vS : ex X -> map Cv2 Smat = gS.
Proof. intros Ex. unfold Smat, gS. ms Ex. Qed.
Lemma vSd : ex X -> map Cv2 Sdagmat = gSd.
Proof. intros Ex. unfold Sdagmat, gSd. ms Ex. Qed.
Lemma vSX : ex X -> map Cv2 SXmat = gSX.
Proof. intros Ex. unfold SXmat, gSX. ms Ex. Qed.
Lemma vSXd : ex X -> map Cv2 SXdagmat = gSXd.
Proof. intros Ex. unfold SXdagmat, gSXd. ms Ex. Qed.
Lemma vhalf x : ex X -> toR X (half2 x) = (toR X x / 2)%R.
Proof. intros Ex. unfold half2. rewrite (x_div X Ex), (x_add X Ex), (x_1 X Ex). reflexivity. Qed.
Context (Tr : trig N) (TK : trigok X Tr).
Lemma vRX x : ex X -> map Cv2 (RXmat Tr x) = gRX (toR X x).
Proof. intros Ex. destruct (TK Ex) as (C & S & _). unfold RXmat, gRX. ms Ex; rewrite ?C, ?S, ?vhalf by auto; reflexivity. Qed.
Lemma vRY x : ex X -> map Cv2 (RYmat Tr x) = gRY (toR X x).
Proof. intros Ex. destruct (TK Ex) as (C & S & _). unfold RYmat, gRY. ms Ex; rewrite ?C, ?S, ?vhalf by auto; reflexivity. Qed.
Lemma vRZ x : ex X -> map Cv2 (RZmat Tr x) = gRZ (toR X x).
Proof. intros Ex. destruct (TK Ex) as (C & S & _). unfold RZmat, gRZ. ms Ex; rewrite ?C, ?S, ?vhalf by auto; reflexivity. Qed.

(** ** Chains of gates on two qubits *)
Context (n t0 t1 : Z) (cs : list control).
Context (H0 : 0 <= t0 < n) (H1 : 0 <= t1 < n) (Ne : t0 <> t1) (Hm : n <= 128) (Hc : ctlok n [t0; t1] cs).
Lemma tgok2 : tgok n cs [t0; t1].
Proof.
  split; [repeat constructor; cbn; [intros [->|[]]; congruence|tauto]|]. split; [intros x [<-|[<-|[]]]; lia|].
  intros c Hi. destruct Hc as [A B]. destruct (B c Hi). pose proof (ctls_in _ _ _ A Hi). split; auto.
Qed.
Definition gv (s : st N) (e : edge) (F F' : list C) : Prop :=
  tedge (co s) KM (n - 1) e /\ (ex X -> forall p, vpath KM (n - 1) p -> de (co s) KM e p = gatem2 cs [t0; t1] (m4 F) (m4 F') p).
Definition post (O : list nat) (s : st N) (F F' : list C) (r : edge) (s' : st N) : Prop := step O s s' /\ owns (s_cc s') O /\ gv s' r F F'.
Definition makes (m : M N edge) (F F' : list C) : Prop :=
  (length F = 16%nat /\ length F' = 16%nat) /\ forall s O, inv s -> owns (s_cc s) O -> n <= s_nq s -> wp al0 m s (post O s F F').
Definition from (F F' : list C) (k : edge -> M N edge) (K K' : list C) : Prop :=
  length F = 16%nat -> length F' = 16%nat -> (length K = 16%nat /\ length K' = 16%nat) /\
  forall e s O, inv s -> owns (s_cc s) O -> n <= s_nq s -> gv s e F F' -> wp al0 (k e) s (post O s K K').

Local Notation makeGateDD := (makeGateDD N g nb).
Local Notation gmul := (gmul N g nb).
Local Notation multiply := (multiply N g nb KM).

Lemma gv_step O s s' e F F' : inv s -> step O s s' -> gv s e F F' -> gv s' e F F'.
Proof.
  intros I S [T V]. split; [eapply tedge_ext; [apply (sp_ext _ _ _ _ _ _ _ S)|exact T]|]. intros Ex p Vp. rewrite <- V by auto. now apply (de_step O s s' KM (n - 1)).
Qed.
Lemma mul_gv s O e x F F' K K' : inv s -> owns (s_cc s) O -> n <= s_nq s -> gv s e F F' -> gv s x K K' ->
  length F = 16%nat /\ length F' = 16%nat -> length K = 16%nat /\ length K' = 16%nat ->
  wp al0 (multiply e x 0) s (post O s (mul4 F K) (mul4 F' K')).
Proof.
  intros I Ow Hn [Te Ve] [Tx Vx] [L1 L2] [L3 L4]. eapply wp_mono; [apply (multiply_sp (g:=g) (nb:=nb) (X:=X) G s O KM (n - 1)); auto; try discriminate; lia|].
  intros r s' (O' & S' & T' & V'). split; auto. split; auto. split; auto. intros Ex p Vp. specialize (V' Ex). apply (mmsem_psem (g:=g) (X:=X)) in V'.
  destruct (mp_rc (n - 1) p Vp) as (E & Vr & Vc). set (a := rowd p) in *. set (b := cold p) in *. rewrite <- E. rewrite V' by auto.
  pose proof (InvL.vpath_len _ _ _ Vr) as La. pose proof (InvL.vpath_len _ _ _ Vc) as Lb.
  rewrite (Csum_ext _ (fun c => (gatem2 cs [t0; t1] (m4 F) (m4 F') (mp a c) * gatem2 cs [t0; t1] (m4 K) (m4 K') (mp c b))%C)).
  - rewrite (gate_mul2 n cs [t0; t1] _ _ _ _ a b tgok2); [|lia|lia|apply Vr|apply Vc].
    apply gatem2_ext.
    + rewrite E. destruct Vp as [Lp _]. intros t [<-|[<-|[]]]; lia.
    + rewrite E. apply Vp.
    + intros ds Ld Fd. apply m4_mul; auto.
    + intros ds Ld Fd. apply m4_mul; auto.
  - intros c Hcc. assert (Vv: vpath KV (n - 1) c) by (apply bits_vpath in Hcc; now replace (n - 1) with (Z.of_nat (length a) - 1) by lia). rewrite Ve, Vx by (auto; apply vpath_mp; auto). reflexivity.
Qed.

Lemma from_mul F F' m K K' : makes m K K' -> from F F' (fun e => let* x := m in multiply e x 0) (mul4 F K) (mul4 F' K').
Proof.
  intros [Lk Hk] L L'. split; [split; reflexivity|]. intros e s O I Ow Hn Ge. apply wp_bind. eapply wp_mono; [apply (Hk s O); auto|].
  intros x s1 (S1 & O1 & G1). eapply wp_mono; [apply (mul_gv s1 O e x F F' K K'); auto; [apply S1|rewrite (stp_nq _ _ _ S1); auto|now apply (gv_step O s)]|].
  intros r s2 (S2 & O2 & G2). split; [eapply step_trans; eauto|]. split; auto.
Qed.
Lemma from_gmul F F' mat c t K K' : makes (makeGateDD mat n c t 0) K K' -> from F F' (fun e => gmul e mat n c t 0) (mul4 F K) (mul4 F' K').
Proof. intros H. exact (from_mul F F' _ K K' H). Qed.
Lemma from_bind F F' k1 K K' k2 H H' : from F F' k1 K K' -> from K K' k2 H H' -> from F F' (fun e => let* r := k1 e in k2 r) H H'.
Proof.
  intros A B L L'. destruct (A L L') as [[Lk Lk'] A']. destruct (B Lk Lk') as [Lh B']. split; auto. intros e s O I Ow Hn Ge. apply wp_bind. eapply wp_mono; [apply (A' e s O); auto|].
  intros x s1 (S1 & O1 & G1). eapply wp_mono; [apply (B' x s1 O); auto; [apply S1|rewrite (stp_nq _ _ _ S1); auto]|].
  intros r s2 (S2 & O2 & G2). split; [eapply step_trans; eauto|]. split; auto.
Qed.
Lemma makes_bind m F F' k K K' : makes m F F' -> from F F' k K K' -> makes (let* e := m in k e) K K'.
Proof.
  intros [[L L'] A] B. destruct (B L L') as [Lk B']. split; auto. intros s O I Ow Hn. apply wp_bind. eapply wp_mono; [apply (A s O); auto|].
  intros x s1 (S1 & O1 & G1). eapply wp_mono; [apply (B' x s1 O); auto; [apply S1|rewrite (stp_nq _ _ _ S1); auto]|].
  intros r s2 (S2 & O2 & G2). split; [eapply step_trans; eauto|]. split; auto.
Qed.
(** [let* e := m in let* x := m' in multiply x e 0] *)
Lemma makes_rmul m F F' m' K K' : makes m F F' -> makes m' K K' -> makes (let* e := m in let* x := m' in multiply x e 0) (mul4 K F) (mul4 K' F').
Proof.
  intros [Lf A] [Lk B]. split; [split; reflexivity|]. intros s O I Ow Hn. apply wp_bind. eapply wp_mono; [apply (A s O); auto|].
  intros e s1 (S1 & O1 & G1). assert (N1: n <= s_nq s1) by (rewrite (stp_nq _ _ _ S1); auto). apply wp_bind. eapply wp_mono; [apply (B s1 O); auto; apply S1|].
  intros x s2 (S2 & O2 & G2). eapply wp_mono; [apply (mul_gv s2 O x e K K' F F'); auto; [apply S2|rewrite (stp_nq _ _ _ S2); auto|apply (gv_step O s1); auto; apply S1]|].
  intros r s3 (S3 & O3 & G3). split; [eapply step_trans; [exact S1|]; eapply step_trans; eauto|]. split; auto.
Qed.
Lemma makes_cast m F F' K K' : makes m F F' -> F = K -> F' = K' -> makes m K K'.
Proof. intros H -> ->. exact H. Qed.

(** ** The single gates *)
Lemma ctl_ne t c : In t [t0; t1] -> In c cs -> cqb c <> t.
Proof. intros Ht Hi E. destruct Hc as [_ B]. destruct (B c Hi) as [_ B']. apply B'. now rewrite E. Qed.
Lemma ctlok_sub t : In t [t0; t1] -> ctlok n [t] cs.
Proof. intros Ht. destruct Hc as [A B]. split; auto. intros c Hi. split; [apply (B c Hi)|]. intros [E|[]]. symmetry in E. revert E. now apply ctl_ne. Qed.
Lemma ctlok_nil t : ctlok n [t] [].
Proof. split; [exact Logic.I|]. intros c []. Qed.
Lemma ctlok_one a b : 0 <= a < n -> a <> b -> ctlok n [b] [pc a].
Proof. intros Ha Nab. split; [cbn; lia|]. intros c [<-|[]]. split; [cbn; lia|]. intros [E|[]]. cbn in E. congruence. Qed.
Lemma ctlok_ins a b : In a [t0; t1] -> In b [t0; t1] -> a <> b -> ctlok n [b] (cs_insert (pc a) cs).
Proof.
  intros Ha Hb Nab. assert (Ra: 0 <= a < n) by (destruct Ha as [<-|[<-|[]]]; auto). destruct (ctlok_sub b Hb) as [A B].
  assert (Nn: forall c, In c cs -> cqb c <> cqb (pc a)) by (intros c Hi; now apply ctl_ne).
  split; [apply ins_ctls; auto; cbn; lia|]. intros c Hi. apply (Permutation_in _ (ins_perm (pc a) cs Nn)) in Hi. destruct Hi as [<-|Hi]; [|now apply B].
  split; [cbn; lia|]. intros [E|[]]. cbn in E. congruence.
Qed.

(** A diagram with the entries of a gate on one of the two qubits. *)
Lemma gate_makes mat c t K K' : length mat = 4%nat -> 0 <= t < n -> ctlok n [t] c -> length K = 16%nat -> length K' = 16%nat ->
  (ex X -> forall p, vpath KM (n - 1) p -> gatem c [t] (fun ds => nth (nth 0 ds 0%nat) (map Cv2 mat) C0) p = gatem2 cs [t0; t1] (m4 K) (m4 K') p) ->
  makes (makeGateDD mat n c t 0) K K'.
Proof.
  intros Lm Ht Ok L L' E. split; [auto|]. intros s O I Ow Hn. eapply wp_mono; [apply (makeGateDD_sp (g:=g) (nb:=nb) (X:=X) G mat n c t s O); auto|].
  intros r s' (S' & O' & T' & V'). split; auto. split; auto. split; auto. intros Ex p Vp. rewrite V', <- E by auto.
  apply (GateAct.gatem_ext c [t]).
  - destruct Vp as [Lp _]. intros x [<-|[]]. lia.
  - apply Vp.
  - intros ds Ld Fd. destruct ds as [|i [|]]; try discriminate. inversion_clear Fd as [|? ? Hi _]. cbn [nth].
    rewrite nth_indep with (d' := Cv2 (n0, n0)) by (rewrite map_length; lia). now rewrite map_nth.
Qed.
Local Ltac gm Lu := destruct (len4 _ Lu) as (?u & ?u & ?u & ?u & ->); apply gatem2_ext;
  [intros ? [<-|[<-|[]]]; lia|assumption| |]; intros ds Ld Fd; destruct (dd2 _ Ld Fd) as (x & y & -> & Hx & Hy);
  unfold tens, cond0, cond1, m4, kron2, ctl01, ctl10, I2, I4, at4; d4 x; d4 y; cbn; unfold idm; cbn; ring.
Section One.
Context (mat : list (N * N)) (U : list C) (Lm : length mat = 4%nat) (Lu : length U = 4%nat) (EU : ex X -> map Cv2 mat = U).
Local Ltac gstart := apply gate_makes; auto using ctlok_nil; [..|intros Ex p Vp; rewrite (EU Ex); destruct Vp as [Lp Fp]; cbn [arity] in Fp].
Lemma g_t0 : makes (makeGateDD mat n cs t0 0) (kron2 U I2) I4.
Proof. gstart; [apply ctlok_sub; cbn; auto|]. rewrite (gatem_t0 cs t0 t1), gatem2_idm by (auto; lia). gm Lu. Qed.
Lemma g_t1 : makes (makeGateDD mat n cs t1 0) (kron2 I2 U) I4.
Proof. gstart; [apply ctlok_sub; cbn; auto|]. rewrite (gatem_t1 cs t0 t1), gatem2_idm by (auto; lia). gm Lu. Qed.
Lemma f_t0 : makes (makeGateDD mat n [] t0 0) (kron2 U I2) (kron2 U I2).
Proof. gstart. rewrite (gatem_t0 [] t0 t1), (gatem2_all cs) by (auto; lia). gm Lu. Qed.
Lemma f_t1 : makes (makeGateDD mat n [] t1 0) (kron2 I2 U) (kron2 I2 U).
Proof. gstart. rewrite (gatem_t1 [] t0 t1), (gatem2_all cs) by (auto; lia). gm Lu. Qed.
Lemma ins_t a : In a [t0; t1] -> Permutation (cs_insert (pc a) cs) (Ctl a true :: cs).
Proof. intros Ha. apply ins_perm. intros c Hi. now apply ctl_ne. Qed.
Lemma c_01 : makes (makeGateDD mat n (cs_insert (pc t0) cs) t1 0) (ctl01 U) I4.
Proof. gstart; [apply ctlok_ins; cbn; auto|]. rewrite (gatem_perm _ _ _ _ _ (ins_t t0 ltac:(cbn; auto))), gatem_c0, gatem2_idm by (auto; lia). gm Lu. Qed.
Lemma c_10 : makes (makeGateDD mat n (cs_insert (pc t1) cs) t0 0) (ctl10 U) I4.
Proof. gstart; [apply ctlok_ins; cbn; auto|]. rewrite (gatem_perm _ _ _ _ _ (ins_t t1 ltac:(cbn; auto))), (gatem_c1 cs t0 t1), gatem2_idm by (auto; lia). gm Lu. Qed.
Lemma fc_01 : makes (makeGateDD mat n [pc t0] t1 0) (ctl01 U) (ctl01 U).
Proof. gstart; [apply ctlok_one; auto|]. unfold pc. rewrite gatem_c0, (gatem2_all cs) by (auto; lia). gm Lu. Qed.
End One.

(** ** The named gates *)
Lemma makes_castx m F F' K K' : makes m F F' -> length K = 16%nat -> length K' = 16%nat -> (ex X -> F = K /\ F' = K') -> makes m K K'.
Proof.
  intros [L A] L1 L2 E. split; auto. intros s O I Ow Hn. eapply wp_mono; [apply (A s O); auto|]. intros r s' (S' & O' & T' & V').
  split; auto. split; auto. split; auto. intros Ex. destruct (E Ex) as [<- <-]. now apply V'.
Qed.
Lemma makes_swap m m' F F' K K' : makes m F F' -> makes m' K K' ->
  makes (let* e := m in let* x := m' in let* y := multiply x e 0 in multiply e y 0) (mul4 F (mul4 K F)) (mul4 F' (mul4 K' F')).
Proof.
  intros [Lf A] [Lk B]. split; [split; reflexivity|]. intros s O I Ow Hn. apply wp_bind. eapply wp_mono; [apply (A s O); auto|].
  intros e s1 (S1 & O1 & G1). assert (N1: n <= s_nq s1) by (rewrite (stp_nq _ _ _ S1); auto). apply wp_bind. eapply wp_mono; [apply (B s1 O); auto; apply S1|].
  intros x s2 (S2 & O2 & G2). assert (N2: n <= s_nq s2) by (rewrite (stp_nq _ _ _ S2); auto). assert (G1': gv s2 e F F') by (apply (gv_step O s1); auto; apply S1).
  apply wp_bind. eapply wp_mono; [apply (mul_gv s2 O x e K K' F F'); auto; apply S2|]. intros y s3 (S3 & O3 & G3).
  eapply wp_mono; [apply (mul_gv s3 O e y F F' (mul4 K F) (mul4 K' F')); auto; [apply S3|rewrite (stp_nq _ _ _ S3); auto|apply (gv_step O s2); auto; apply S2]|].
  intros r s4 (S4 & O4 & G4). split; [eapply step_trans; [exact S1|]; eapply step_trans; [exact S2|]; eapply step_trans; eauto|]. split; auto.
Qed.
Lemma vR mk gk x y : (forall x, ex X -> map Cv2 (mk x) = gk (toR X x)) -> (ex X -> toR X x = y) -> ex X -> map Cv2 (mk x) = gk y.
Proof. intros H E Ex. rewrite H by auto. now rewrite E. Qed.
Lemma vpi2 : ex X -> toR X (tpi2 Tr) = (PI / 2)%R.
Proof. intros Ex. now destruct (TK Ex) as (_ & _ & A & _). Qed.
Lemma vpi2n : ex X -> toR X (nneg (tpi2 Tr)) = (- (PI / 2))%R.
Proof. intros Ex. rewrite (x_neg X Ex). now rewrite vpi2. Qed.
Lemma vpi4 : ex X -> toR X (tpi4 Tr) = (PI / 4)%R.
Proof. intros Ex. now destruct (TK Ex) as (_ & _ & _ & A). Qed.
Lemma vpi4n : ex X -> toR X (nneg (tpi4 Tr)) = (- (PI / 4))%R.
Proof. intros Ex. rewrite (x_neg X Ex). now rewrite vpi4. Qed.
Lemma vneg x : ex X -> toR X (nneg x) = (- toR X x)%R.
Proof. intros Ex. apply (x_neg X Ex). Qed.
Lemma vhn x : ex X -> toR X (half2 (nneg x)) = (- toR X x / 2)%R.
Proof. intros Ex. rewrite vhalf by auto. now rewrite (x_neg X Ex). Qed.
Lemma er01 : cs_erase (pc t0) (cs_insert (pc t0) cs) = cs.
Proof. apply ers_ins. intros c Hi. apply ctl_ne; cbn; auto. Qed.
Lemma er10 : cs_erase (pc t1) (cs_insert (pc t1) cs) = cs.
Proof. apply ers_ins. intros c Hi. apply ctl_ne; cbn; auto. Qed.
Local Ltac mI := rewrite ?mul4_I by reflexivity; reflexivity.
Local Ltac fin := first [reflexivity|intros Ex; split; [|try mI]].
Lemma vRXp : ex X -> map Cv2 (RXmat Tr (tpi2 Tr)) = gRX (PI / 2).
Proof. apply (vR (RXmat Tr) gRX); [exact vRX|exact vpi2]. Qed.
Lemma vRXn : ex X -> map Cv2 (RXmat Tr (nneg (tpi2 Tr))) = gRX (- (PI / 2)).
Proof. apply (vR (RXmat Tr) gRX); [exact vRX|exact vpi2n]. Qed.
Lemma vRZp : ex X -> map Cv2 (RZmat Tr (tpi2 Tr)) = gRZ (PI / 2).
Proof. apply (vR (RZmat Tr) gRZ); [exact vRZ|exact vpi2]. Qed.
Lemma vRZn : ex X -> map Cv2 (RZmat Tr (nneg (tpi2 Tr))) = gRZ (- (PI / 2)).
Proof. apply (vR (RZmat Tr) gRZ); [exact vRZ|exact vpi2n]. Qed.
Lemma vRZm x : ex X -> map Cv2 (RZmat Tr (nneg x)) = gRZ (- toR X x).
Proof. apply (vR (RZmat Tr) gRZ); [exact vRZ|apply vneg]. Qed.
Lemma vRYh x : ex X -> map Cv2 (RYmat Tr (half2 x)) = gRY (toR X x / 2).
Proof. apply (vR (RYmat Tr) gRY); [exact vRY|apply vhalf]. Qed.
Lemma vRYm x : ex X -> map Cv2 (RYmat Tr (half2 (nneg x))) = gRY (- toR X x / 2).
Proof. apply (vR (RYmat Tr) gRY); [exact vRY|apply vhn]. Qed.
Local Ltac one L := eapply L; [reflexivity| |first [exact vX|exact vH|exact vS|exact vSd|exact vSX|exact vSXd|exact vRXp|exact vRXn|exact vRZp|exact vRZn|apply vRYm|apply vRYh|apply vRZm|apply vRZ]]; reflexivity.
Local Ltac gate := first [one g_t0|one g_t1|one f_t0|one f_t1|one c_01|one c_10|one fc_01].
Local Ltac chain := first [apply from_gmul; gate|eapply from_bind; [apply from_gmul; gate|chain]].

Lemma swap_sp : makes (makeSWAPDD N g nb n cs t0 t1 0) swap_m I4.
Proof.
  unfold makeSWAPDD. rewrite er01. eapply makes_castx; [apply makes_swap; gate|fin..]. apply swap_alg.
Qed.
Lemma iswap_sp : makes (makeiSWAPDD N g nb n cs t0 t1 0) (iswap_m 1) I4.
Proof.
  unfold makeiSWAPDD. rewrite er01. eapply makes_castx; [eapply makes_bind; [gate|chain]|fin..]. apply iswap_alg.
Qed.
Lemma iswapinv_sp : makes (makeiSWAPinvDD N g nb n cs t0 t1 0) (iswap_m (- 1)) I4.
Proof.
  unfold makeiSWAPinvDD. rewrite er10. eapply makes_castx; [eapply makes_bind; [gate|chain]|fin..]. apply iswapinv_alg.
Qed.
Lemma dcx_sp : makes (makeDCXDD N g nb n cs t0 t1 0) dcx_m I4.
Proof.
  unfold makeDCXDD. rewrite er01. eapply makes_castx; [eapply makes_bind; [gate|chain]|fin..]. apply dcx_alg.
Qed.
Lemma peres_sp : makes (makePeresDD N g nb n cs t0 t1 0) (mul4 (kron2 I2 gX) (ctl10 gX)) I4.
Proof. unfold makePeresDD. eapply makes_castx; [apply makes_rmul; gate|fin..]. reflexivity. Qed.
Lemma peresdag_sp : makes (makePeresdagDD N g nb n cs t0 t1 0) (mul4 (ctl10 gX) (kron2 I2 gX)) I4.
Proof. unfold makePeresdagDD. eapply makes_castx; [apply makes_rmul; gate|fin..]. reflexivity. Qed.
Section Angle.
Context (theta : N).
Local Notation th := (toR X theta).
Lemma rzz_sp : makes (makeRZZDD N g nb Tr n cs t0 t1 theta 0) (rzz_m (cos (th/2)) (sin (th/2))) I4.
Proof.
  unfold makeRZZDD. rewrite er01. eapply makes_castx; [eapply makes_bind; [gate|chain]|fin..]. apply rzz_alg.
Qed.
End Angle.
Lemma from_zz th F F' : from F F' (fun e => zzmul N g nb Tr e n cs t0 t1 th 0) (mul4 F (rzz_m (cos (toR X th/2)) (sin (toR X th/2)))) (mul4 F' I4).
Proof. apply (from_mul F F' _ _ _ (rzz_sp th)). Qed.
Local Ltac chainz := first [apply from_gmul; gate|eapply from_bind; [first [apply from_gmul; gate|apply from_zz]|chainz]].
Section Angle2.
Context (theta : N).
Local Notation th := (toR X theta).
Lemma ryy_sp : makes (makeRYYDD N g nb Tr n cs t0 t1 theta 0) (ryy_m (cos (th/2)) (sin (th/2))) I4.
Proof.
  unfold makeRYYDD. eapply makes_castx; [eapply makes_bind; [gate|chainz]|fin..]; [apply ryy_alg|apply rr_id].
Qed.
Lemma rxx_sp : makes (makeRXXDD N g nb Tr n cs t0 t1 theta 0) (rxx_m (cos (th/2)) (sin (th/2))) I4.
Proof.
  unfold makeRXXDD. eapply makes_castx; [eapply makes_bind; [gate|chainz]|fin..]; [apply rxx_alg|apply hh_id].
Qed.
Lemma rzx_sp : makes (makeRZXDD N g nb Tr n cs t0 t1 theta 0) (rzx_m (cos (th/2)) (sin (th/2))) I4.
Proof.
  unfold makeRZXDD. eapply makes_castx; [eapply makes_bind; [gate|chainz]|fin..]; [apply rzx_alg|apply h1_id].
Qed.
Context (beta : N).
Local Notation be := (toR X beta).
Lemma xxm_sp : makes (makeXXMinusYYDD N g nb Tr n cs t0 t1 theta beta 0) (xxm_m (cos (th/2)) (sin (th/2)) (cos be) (sin be)) I4.
Proof.
  unfold makeXXMinusYYDD. eapply makes_castx; [eapply makes_bind; [gate|chainz]|try reflexivity..]. intros Ex. split; [apply xxm_alg|].
  transitivity (xx_chain (- be) (- - be) I2 I2); [|apply xx_id]. unfold xx_chain. now rewrite kron_I, Ropp_involutive.
Qed.
Lemma xxp_sp : makes (makeXXPlusYYDD N g nb Tr n cs t0 t1 theta beta 0) (xxp_m (cos (th/2)) (sin (th/2)) (cos be) (sin be)) I4.
Proof.
  unfold makeXXPlusYYDD. eapply makes_castx; [eapply makes_bind; [gate|chainz]|try reflexivity..]. intros Ex. split; [apply xxp_alg|].
  transitivity (xx_chain be (- be) I2 I2); [|apply xx_id]. unfold xx_chain. now rewrite kron_I.
Qed.
End Angle2.
Lemma ecr_sp : makes (makeECRDD N g nb Tr n cs t0 t1 0) ecr_m I4.
Proof.
  unfold makeECRDD. eapply makes_castx; [eapply makes_bind; [apply rzx_sp|eapply from_bind; [apply from_gmul; gate|apply from_mul, rzx_sp]]|fin..].
  rewrite vpi4, vpi4n by auto. apply ecr_alg.
Qed.

(** The matrix of a named gate, row by row. *)
Definition named_m (w : ngate N) : list C :=
  match w with
  | GSwap => swap_m
  | GPeres => mul4 (kron2 I2 gX) (ctl10 gX)
  | GPeresdag => mul4 (ctl10 gX) (kron2 I2 gX)
  | GiSwap => iswap_m 1
  | GiSwapinv => iswap_m (- 1)
  | GDcx => dcx_m
  | GRzz t => rzz_m (cos (toR X t/2)) (sin (toR X t/2))
  | GRyy t => ryy_m (cos (toR X t/2)) (sin (toR X t/2))
  | GRxx t => rxx_m (cos (toR X t/2)) (sin (toR X t/2))
  | GRzx t => rzx_m (cos (toR X t/2)) (sin (toR X t/2))
  | GEcr => ecr_m
  | GXXmYY t b => xxm_m (cos (toR X t/2)) (sin (toR X t/2)) (cos (toR X b)) (sin (toR X b))
  | GXXpYY t b => xxp_m (cos (toR X t/2)) (sin (toR X t/2)) (cos (toR X b)) (sin (toR X b))
  end.
Theorem named_sp w : makes (makeNamed N g nb Tr w n cs t0 t1 0) (named_m w) I4.
Proof.
  destruct w; cbn [makeNamed named_m]; [apply swap_sp|apply peres_sp|apply peresdag_sp|apply iswap_sp|apply iswapinv_sp|apply dcx_sp|apply rzz_sp|apply ryy_sp|apply rxx_sp|apply rzx_sp|apply ecr_sp|apply xxm_sp|apply xxp_sp].
Qed.

Lemma named_gate_sp w s O : inv s -> owns (s_cc s) O -> n <= s_nq s ->
  wp al0 (makeNamed N g nb Tr w n cs t0 t1 0) s (fun r s' => step O s s' /\ owns (s_cc s') O /\ tedge (co s') KM (n - 1) r /\
    (ex X -> forall p, vpath KM (n - 1) p -> de (co s') KM r p = gatem cs [t0; t1] (m4 (named_m w)) p)).
Proof.
  intros I Ow Hn. destruct (named_sp w) as [_ H]. eapply wp_mono; [apply (H s O); auto|]. intros r s' (S' & O' & T' & V'). split; auto. split; auto. split; auto.
  intros Ex p Vp. rewrite V' by auto. rewrite gatem2_idm. destruct Vp as [Lp Fp]. apply gatem2_ext; auto; [intros t [<-|[<-|[]]]; lia|].
  intros ds Ld Fd. destruct (dd2 _ Ld Fd) as (x & y & -> & Hx & Hy). clear - Hx Hy. d4 x; d4 y; reflexivity.
Qed.

End NamedL.
