(** Specifications of the partial trace and the trace. *)
From Coq Require Import ZArith List Bool Lia Arith Reals Lra Permutation.
From Verif Require Import Num Base CTable CTableWf Cx State Pkg Inv InvL PrimL NormL MkL TrL AddL MulL KronL CanonL IdentL StateL.
Import ListNotations.
Local Open Scope Z_scope.

(** The index that has the digits of [p] at the qubits that are kept and the diagonal
    digits [3 * b] at the qubits that are eliminated; [els] lists the qubits from the top. *)
Fixpoint fill (els : list bool) (bs p : list nat) : list nat :=
  match els with
  | [] => []
  | true :: els' => (3 * hd 0 bs)%nat :: fill els' (tl bs) p
  | false :: els' => hd 0%nat p :: fill els' bs (tl p)
  end.
Definition ntrue (els : list bool) : nat := length (filter (fun b => b) els).
(** The flags of the qubits below [n], from the top. *)
Definition elimtop (elim : list bool) (n : nat) : list bool := rev (firstn n elim).

Lemma firstn_S_nth {A} (d : A) : forall l n, (n < length l)%nat -> firstn (S n) l = firstn n l ++ [nth n l d].
Proof.
  induction l as [|x l IH]; intros n H; simpl in H; [lia|]. destruct n as [|n]; [reflexivity|].
  change (firstn (S (S n)) (x :: l)) with (x :: firstn (S n) l). rewrite IH by lia. reflexivity.
Qed.
Lemma elimtop_S elim n : (n < length elim)%nat -> elimtop elim (S n) = nth n elim false :: elimtop elim n.
Proof. intros H. unfold elimtop. rewrite (firstn_S_nth false) by auto. now rewrite rev_app_distr. Qed.
Lemma ntrue_cons b els : ntrue (b :: els) = ((if b then 1 else 0) + ntrue els)%nat.
Proof. unfold ntrue. destruct b; reflexivity. Qed.
Lemma ntrue_app a b : ntrue (a ++ b) = (ntrue a + ntrue b)%nat.
Proof. unfold ntrue. now rewrite filter_app, app_length. Qed.
Lemma ntrue_rev a : ntrue (rev a) = ntrue a.
Proof. induction a as [|x a IH]; auto. simpl rev. rewrite ntrue_app, IH, !ntrue_cons. unfold ntrue at 2. simpl. lia. Qed.
Lemma ntrue_split elim n : ntrue elim = (ntrue (elimtop elim n) + ntrue (skipn n elim))%nat.
Proof. unfold elimtop. rewrite ntrue_rev, <- ntrue_app. now rewrite firstn_skipn. Qed.
Lemma ntrue_le els : (ntrue els <= length els)%nat.
Proof. induction els as [|b els IH]; auto. rewrite ntrue_cons. simpl length. destruct b; lia. Qed.
Lemma elimtop_len elim n : (n <= length elim)%nat -> length (elimtop elim n) = n.
Proof. intros. unfold elimtop. rewrite rev_length, firstn_length. lia. Qed.
Lemma ntrue_none els : existsb (fun b => b) els = false -> ntrue els = 0%nat.
Proof. induction els as [|[] els IH]; simpl; auto; discriminate. Qed.
Lemma fill_none : forall els bs p, ntrue els = 0%nat -> length p = length els -> fill els bs p = p.
Proof.
  induction els as [|b els IH]; intros bs [|i p] H L; simpl in L; try lia; auto. rewrite ntrue_cons in H. destruct b; [simpl in H; lia|].
  cbn [fill hd tl]. now rewrite IH by (simpl in H; lia).
Qed.
Lemma ntrue_all els : forallb (fun b => b) els = true -> ntrue els = length els.
Proof. induction els as [|[] els IH]; simpl; auto; try discriminate. intros H. rewrite ntrue_cons, IH by auto. reflexivity. Qed.
Lemma skipn_nth {A} (d : A) : forall l n, (n < length l)%nat -> skipn n l = nth n l d :: skipn (S n) l.
Proof. induction l as [|x l IH]; intros n H; simpl in H; [lia|]. destruct n; auto. simpl. rewrite IH by lia. reflexivity. Qed.

Section TraceL.
Context {N : num} {g : cfg N} {nb : kind -> Z} {X : numx N (g_ct g)} (G : gok g).
Local Notation cf := (g_ct g).
Local Notation co := (co N).
Local Notation qn := (qn N).
Local Notation linked := (linked N).
Local Notation c_ut := (c_ut N).
Local Notation Cw := (Cw N g X).
Local Notation Cv := (Cv N g X).
Local Notation Cv2 := (Cv2 N g X).
Local Notation dn := (dn N g X).
Local Notation de := (de N g X).
Local Notation dg := (dg N g X).
Local Notation wtab := (wtab N g X).
Local Notation etn := (etn N).
Local Notation isnode := (isnode N).
Local Notation tedge := (tedge N g X).
Local Notation gedge := (gedge N g X).
Local Notation cinv := (cinv N g nb X).
Local Notation uinv := (uinv N g nb X).
Local Notation nodeok := (nodeok N g nb X).
Local Notation inv := (inv N g nb X).
Local Notation step := (step N g nb X).
Local Notation qext := (qext N).
Local Notation owns := (owns N).
Local Notation wok := (wok N g X).
Local Notation wp := (wp N).
Local Notation al0 := (al0 N g X).
Local Notation nnorm := (nnorm N g X).
Local Notation iedge := (iedge (g:=g) (X:=X)).
Local Notation trsp := (trsp (nb:=nb) (X:=X)).
Local Notation unok := (unok N g X).
Local Notation binok := (binok N g X).
Local Notation addok := (addok N g X).
Local Notation tinv := (tinv N g X).
Local Notation vres := (vres N g X).
Local Notation dv := (dv N g X).
Local Notation mkpost := (mkpost (nb:=nb) (X:=X)).
Local Notation mulCached_sp := (mulCached_sp (nb:=nb) (X:=X) G).
Local Notation addCached_sp := (addCached_sp (nb:=nb) (X:=X) G).
Local Notation getCached_sp := (getCached_sp (nb:=nb) (X:=X) G).
Local Notation makeDDNode_sp := (makeDDNode_sp (nb:=nb) (X:=X) G).
Local Notation lookupC_sp := (lookupC_sp (nb:=nb) (X:=X) G).
Local Notation tedge_gedge := (tedge_gedge (nb:=nb) (X:=X)).
Local Notation child_ok := (child_ok (nb:=nb) (X:=X)).
Local Notation dn_ext := (dn_ext (nb:=nb) (X:=X)).
Local Notation Cw_eq0 := (Cw_eq0 (nb:=nb) (X:=X)).
Local Notation addInsert_sp := (addInsert_sp (g:=g) (nb:=nb) (X:=X)).
Local Notation binInsert_sp := (binInsert_sp (g:=g) (nb:=nb) (X:=X)).
Local Notation unInsert_sp := (unInsert_sp (g:=g) (nb:=nb) (X:=X)).
Local Notation addLookup_sp := (addLookup_sp (g:=g) (nb:=nb) (X:=X)).
Local Notation binLookup_sp := (binLookup_sp (g:=g) (nb:=nb) (X:=X)).
Local Notation unLookup_sp := (unLookup_sp (g:=g) (nb:=nb) (X:=X)).
Local Notation cres := (cres (g:=g) (X:=X)).
Local Notation addsp := (addsp (g:=g) (nb:=nb) (X:=X)).
Local Notation rel_sp := (rel_sp (g:=g) (nb:=nb) (X:=X)).
Local Notation relif_sp := (relif_sp (g:=g) (nb:=nb) (X:=X)).
Local Notation mapM_cres := (mapM_cres (g:=g) (nb:=nb) (X:=X)).
Local Notation de_step := (de_step (g:=g) (nb:=nb) (X:=X)).
Local Notation dg_step := (dg_step (g:=g) (nb:=nb) (X:=X)).
Local Notation mulSelf_sp := (mulSelf_sp (g:=g) (nb:=nb) (X:=X)).
Local Notation finish_sp := (finish_sp (g:=g) (nb:=nb) (X:=X) G).
Local Notation add2F_sp := (add2F_sp (g:=g) (nb:=nb) (X:=X) G).
Implicit Types (s : st N).

Local Notation dn_nz := (dn_nz (g:=g) (nb:=nb) (X:=X)).
Local Notation idok := (idok N g X).
Local Notation makeDDNode_t := (makeDDNode_t (nb:=nb) (X:=X) G).
Local Notation mk_weight := (mk_weight (nb:=nb) (X:=X)).
Local Notation c_nq := (c_nq N).

Definition ptsem (q : core N) (els : list bool) (a : edge) (f : list nat -> C) : Prop :=
  forall p, vpath KM (Z.of_nat (length els - ntrue els) - 1) p ->
    f p = Csum (fun bs => de q KM a (fill els bs p)) (bits (ntrue els)).

Lemma trw_sp s O r a : inv s -> owns (s_cc s) O -> wokT (g:=g) (X:=X) s O r -> wtab (co s) a ->
  wp al0 (if wone r then ret a else let* c := getTemp g in mulInto c r a ;;; cn_lookupC g c) s
    (fun w s' => step O s s' /\ owns (s_cc s') O /\ wtab (co s') w /\ (ex X -> Cw (co s') w = (Cv s r * Cw (co s) a)%C) /\
      (r = Czero -> w = Czero)).
Proof.
  intros I Ow Wr Wa. destruct (wone r) eqn:W.
  - apply ceqb_spec in W. subst r. apply wp_ret. split; [now apply step_refl|]. split; auto. split; auto. split; [|discriminate].
    intros Ex. rewrite Cv_one by auto. ring.
  - apply (wp_eq al0 _ (let* c := getTemp g in mulInto c r a ;;; let* w := cn_lookupC g c in ret w)).
    { unfold bind, ret. destruct (getTemp g s) as [c s0| |]; auto. destruct (mulInto c r a s0) as [u s1| |]; auto. destruct (cn_lookupC g c s1); auto. }
    apply (wp_tmul (nb:=nb) (X:=X) G al0 O); auto; [intros b; auto|left; left; exact Wa|].
    intros w s' S' O' Ww Vw Zw. apply wp_ret. split; auto. split; auto. split; auto. split; [|auto].
    intros Ex. rewrite Vw by auto. f_equal. apply Cv_Cw; auto.
Qed.

(** A list of stored results. *)
Lemma mapM_t al k l (f : edge -> M N edge) (V : edge -> list nat -> C) : forall es s O,
  inv s -> owns (s_cc s) O ->
  (forall e s1, In e es -> inv s1 -> step O s s1 -> owns (s_cc s1) O ->
     wp al (f e) s1 (fun r s2 => step O s1 s2 /\ owns (s_cc s2) O /\ tedge (co s2) k l r /\
       (ex X -> forall path, vpath k l path -> de (co s2) k r path = V e path))) ->
  wp al (mapM N f es) s (fun rs s' => step O s s' /\ length rs = length es /\ owns (s_cc s') O /\
    (forall e, In e rs -> tedge (co s') k l e) /\
    (ex X -> forall j path, (j < length es)%nat -> vpath k l path -> de (co s') k (nthe rs j) path = V (nthe es j) path)).
Proof.
  induction es as [|e es IH]; intros s O I Ow H; cbn [mapM].
  - apply wp_ret. split; [now apply step_refl|]. split; auto. split; auto. split; [intros e []|]. simpl. intros; lia.
  - apply wp_bind. eapply wp_mono; [apply (H e s); auto; [now left|now apply step_refl]|].
    intros r s1 (S1 & O1 & T1 & V1). apply wp_bind. assert (I1: inv s1) by apply S1.
    eapply wp_mono; [apply (IH s1 O); auto|].
    { intros e2 s2 Hj I2 S2 Ow2. apply H; auto; [now right|]. eapply step_trans; eauto. }
    intros rs s2 (S2 & L2 & Ow2 & W2 & V2). apply wp_ret.
    split; [eapply step_trans; eauto|]. split; [simpl; congruence|]. split; auto. split.
    + intros e' [<-|He]; auto. eapply tedge_ext; [apply S2|auto].
    + intros Ex [|j] path Hj Vp.
      * cbn [nthe nth]. rewrite (de_step O s1 s2 k l); auto.
      * cbn [nthe nth]. apply V2; auto. simpl in Hj. lia.
Qed.

Lemma fill_vpath : forall els bs p, length bs = ntrue els -> Forall (fun i => (i < 2)%nat) bs ->
  vpath KM (Z.of_nat (length els - ntrue els) - 1) p -> vpath KM (Z.of_nat (length els) - 1) (fill els bs p).
Proof.
  induction els as [|b els IH]; intros bs p Lb Fb [Lp Fp].
  - simpl in *. split; auto. 
  - pose proof (ntrue_le els) as Le. rewrite ntrue_cons in *. destruct b; cbn [fill].
    + destruct bs as [|b bs]; simpl in Lb; [lia|]. inversion Fb; subst. cbn [hd tl].
      assert (V: vpath KM (Z.of_nat (length els) - 1) (fill els bs p)).
      { apply IH; auto. split; auto.  }
      destruct V as [V1 V2]. split; [simpl length; lia|]. constructor; auto. simpl. lia.
    + destruct p as [|i p]; [cbn [length] in Lp, Lb; lia|]. inversion Fp; subst. cbn [hd tl].
      assert (V: vpath KM (Z.of_nat (length els) - 1) (fill els bs p)).
      { apply IH; auto. split; auto. cbn [length] in Lp. lia. }
      destruct V as [V1 V2]. split; [simpl length; lia|]. constructor; auto.
Qed.
Lemma bits_In : forall n b, In b (bits n) -> length b = n /\ Forall (fun i => (i < 2)%nat) b.
Proof.
  induction n as [|n IH]; intros b H; simpl in H.
  - destruct H as [<-|[]]. auto.
  - apply in_app_or in H. destruct H as [H|H]; apply in_map_iff in H; destruct H as (c & <- & Hc); apply IH in Hc; destruct Hc; split; simpl; auto.
Qed.

Definition elok (elim : list bool) (n : nat) (already : Z) : Prop :=
  already = Z.of_nat (ntrue (skipn n elim)) \/ forallb (fun b => b) (elimtop elim n) = true.

Lemma traceF_sp elim : forall f n already s O a, Z.of_nat n < Z.of_nat f -> (n <= length elim)%nat -> elok elim n already ->
  inv s -> owns (s_cc s) O -> tedge (co s) KM (Z.of_nat n - 1) a -> Z.of_nat n <= s_nq s ->
  wp al0 (traceF N g nb f a elim already) s (fun r s' => step O s s' /\ owns (s_cc s') O /\
    tedge (co s') KM (Z.of_nat (n - ntrue (elimtop elim n)) - 1) r /\
    (ex X -> ptsem (co s) (elimtop elim n) a (de (co s') KM r))).
Proof.
  induction f as [|f IH]; intros n already s O a Hf Hn Ha I Ow T Hq; [lia|]. cbn [traceF].
  assert (Len: length (elimtop elim n) = n) by now apply elimtop_len.
  unfold Inv.wp. destruct (wapx0 s (ew a)) eqn:Z0.
  { split; [now apply step_refl|]. split; auto. split; [apply tedge_zero|].
    intros Ex p Vp. rewrite de_zero by auto. apply (x_wapx0 (X:=X)) in Z0; auto. rewrite Cv_Cw in Z0; auto; [|apply T].
    rewrite (Csum_ext _ (fun _ => C0)); [now rewrite Csum_0|]. intros bs _. unfold Inv.de. rewrite Z0. ring. }
  destruct (existsb (fun b => b) elim) eqn:EX; cbn [negb].
  2:{ assert (N0: ntrue (elimtop elim n) = 0%nat). { apply ntrue_none in EX. rewrite (ntrue_split elim n) in EX. lia. }
    split; [now apply step_refl|]. split; auto. rewrite N0, Nat.sub_0_r. split; auto.
    intros Ex p Vp. rewrite N0. simpl bits. unfold Csum. simpl fold_right. rewrite fill_none; auto; [ring|].
    destruct Vp as [Vp _]. rewrite N0 in Vp. lia. }
  destruct (ep a) as [| |nn] eqn:Ea.
  { destruct T as [A _ _ _]. rewrite Ea in A. contradiction. }
  { assert (n = 0)%nat. { destruct (te_t _ _ _ _ _ _ _ T Ea) as [H|H]; [lia|]. rewrite H, wapx0_zero in Z0. discriminate. }
    subst n. split; [now apply step_refl|]. split; auto. simpl elimtop. split; auto.
    intros Ex p Vp. unfold elimtop. simpl. destruct Vp as [Vp _]. simpl in Vp. destruct p; simpl in Vp; [|lia]. ring. }
  pose proof (tedge_lvl _ _ _ _ _ (iv_c _ _ _ _ _ I) T Ea) as Hlv.
  assert (Tn: linked (co s) KM nn /\ nv (nod s KM nn) = Z.of_nat n - 1). { destruct T as [A _ _ _]. rewrite Ea in A. exact A. }
  destruct Tn as [Ln Nv]. rewrite Nv. destruct n as [|m]; [lia|]. replace (Z.of_nat (S m) - 1) with (Z.of_nat m) in * by lia.
  assert (B: (Z.of_nat m <? 0) || (Z.of_nat (length elim) <=? Z.of_nat m) = false) by (apply orb_false_iff; split; [apply Z.ltb_ge|apply Z.leb_gt]; lia).
  rewrite B, Nat2Z.id.
  assert (Ch: forall i, (i < 4)%nat -> tedge (co s) KM (Z.of_nat m - 1) (nthe (ne (nod s KM nn)) i)).
  { intros i Hi. rewrite <- Nv. apply (child_ok); auto. apply I. }
  assert (ES: elimtop elim (S m) = nth m elim false :: elimtop elim m) by (apply elimtop_S; lia).
  assert (SK: ntrue (skipn m elim) = ((if nth m elim false then 1 else 0) + ntrue (skipn (S m) elim))%nat).
  { rewrite (skipn_nth false) by lia. apply ntrue_cons. }
  pose proof (ntrue_le (elimtop elim m)) as NL. rewrite (elimtop_len elim m) in NL by lia.
  assert (DE: forall i p, de (co s) KM a (i :: p) = (Cw (co s) (ew a) * de (co s) KM (nthe (ne (nod s KM nn)) i) p)%C).
  { intros i p. unfold Inv.de. rewrite Ea, dn_cons. reflexivity. }
  set (es := ne (nod s KM nn)) in *.
  destruct (nth m elim false) eqn:EM.
  - (* eliminated *)
    match goal with |- match ?mm s with _ => _ end => change (wp al0 mm s (fun r s' => step O s s' /\ owns (s_cc s') O /\
        tedge (co s') KM (Z.of_nat (S m - ntrue (elimtop elim (S m))) - 1) r /\
        (ex X -> ptsem (co s) (elimtop elim (S m)) a (de (co s') KM r)))) end.
    rewrite ES, ntrue_cons. replace (S m - (1 + ntrue (elimtop elim m)))%nat with (m - ntrue (elimtop elim m))%nat by lia.
    set (l' := Z.of_nat (m - ntrue (elimtop elim m)) - 1).
    assert (Ha': elok elim m (already + 1)).
    { destruct Ha as [Ha|Ha]; [left; rewrite SK; lia|right]. rewrite ES in Ha. simpl in Ha. exact Ha. }
    assert (AS: forall s x y O1, Z.of_nat (S m) <= s_nq s -> inv s -> owns (s_cc s) O1 -> gedge s O1 KM l' x -> gedge s O1 KM l' y ->
      wp al0 (add2 N g nb KM x y) s (fun r s' => step O1 s s' /\ cres KM l' O1 s' r /\
        (ex X -> forall path, vpath KM l' path -> dg s' KM r path = (dg s KM x path + dg s KM y path)%C))).
    { intros s0 x y O1 Q0 I0 Ow0 Gx Gy. apply (wp_eq al0 _ (add2F N g nb (fuelof N s0) KM x y)); [reflexivity|].
      apply add2F_sp; auto; unfold l', fuelof; lia. }
    apply wp_bind. eapply wp_mono; [apply (IH m (already + 1) s O (nthe es 0)); auto; try lia; apply Ch; lia|].
    intros t0 s1 (S1 & O1 & T0 & V0). fold l' in T0.
    assert (Q1: s_nq s1 = s_nq s) by apply (qe_nq _ _ _ (sp_ext _ _ _ _ _ _ _ S1)).
    assert (I1: inv s1) by apply S1.
    apply wp_bind. eapply wp_mono; [apply (AS s1 Ezero t0 O); auto; [lia|apply gedge_zero|now apply tedge_gedge]|].
    intros r1 s2 (S2 & R1 & V1). assert (I2: inv s2) by apply S2.
    assert (Q2: s_nq s2 = s_nq s1) by apply (qe_nq _ _ _ (sp_ext _ _ _ _ _ _ _ S2)).
    assert (S02: step O s s2) by (eapply step_trans; eauto).
    set (O' := wslots (ew r1) ++ O) in *.
    apply wp_bind. eapply wp_mono; [apply (IH m (already + 1) s2 O' (nthe es 3)); auto; try lia|].
    { apply R1. } { eapply tedge_ext; [apply S02|apply Ch; lia]. }
    intros t1 s3 (S3 & O3 & T1 & V3). fold l' in T1. assert (I3: inv s3) by apply S3.
    assert (Q3: s_nq s3 = s_nq s2) by apply (qe_nq _ _ _ (sp_ext _ _ _ _ _ _ _ S3)).
    assert (G1: gedge s3 O' KM l' r1) by (eapply gedge_step; [exact S3|apply R1]).
    apply wp_bind. eapply wp_mono; [apply (AS s3 r1 t1 O'); auto; [lia|now apply tedge_gedge]|].
    intros r2 s4 (S4 & R2 & V4). assert (I4: inv s4) by apply S4.
    assert (IO: incl O O') by apply incl_appr, incl_refl.
    assert (S04: step O s s4).
    { eapply step_trans; [exact S02|]. eapply step_trans; eapply step_weak; eauto. }
    set (O2 := wslots (ew r2) ++ O') in *.
    assert (Wa: wtab (co s4) (ew a)) by (eapply wtab_ext; [apply S04|apply T]).
    apply wp_bind. eapply wp_mono; [apply (trw_sp s4 O2 (ew r2) (ew a)); auto; [apply R2|left; apply R2]|].
    intros rw s5 (S5 & O5 & Ww & Vw & Zw). assert (I5: inv s5) by apply S5.
    assert (SL: forall w, w = Czero \/ (exists p q, w = cslot p q) -> forall s O, inv s -> owns (s_cc s) (wslots w ++ O) ->
      exists s', (if ceqb w Czero then ret tt else retCache w) s = Ok tt s' /\ owns (s_cc s') O /\ co s' = co s /\ forall O', step O' s s').
    { intros w [-> | (p & q & ->)] s' O'' I' Ow'.
      - exists s'. split; [reflexivity|]. split; auto. split; auto. intros. now apply step_refl.
      - destruct (rel_sp s' (cslot p q) O'') as (s'' & E & Oc & Q & _ & S); eauto.  }
    assert (O5': owns (s_cc s5) (wslots (ew r1) ++ wslots (ew r2) ++ O)).
    { eapply owns_perm; [|exact O5]. unfold O2, O'. apply Permutation_app_swap_app. }
    destruct (SL (ew r1) (cr_s _ _ _ _ _ R1) s5 _ I5 O5') as (s6 & E6 & O6 & C6 & S6).
    eapply wp_bind_ok; [exact E6|].
    destruct (SL (ew r2) (cr_s _ _ _ _ _ R2) s6 _ (sp_inv _ _ _ _ _ _ _ (S6 [])) O6) as (s7 & E7 & O7 & C7 & S7).
    eapply wp_bind_ok; [exact E7|]. apply wp_ret.
    assert (IO2: incl O O2) by (eapply incl_tran; [exact IO|apply incl_appr, incl_refl]).
    assert (S07: step O s s7).
    { eapply step_trans; [exact S04|]. eapply step_trans; [eapply step_weak; [exact S5|exact IO2]|]. eapply step_trans; [apply S6|apply S7]. }
    split; [exact S07|]. split; [exact O7|]. rewrite C7, C6.
    assert (Vw': ex X -> Cw (co s5) rw = (Cv s4 (ew r2) * Cw (co s) (ew a))%C).
    { intros Ex. rewrite Vw by auto. rewrite (Cw_ext (co s) (co s4) (ew a)); auto; [apply S04|apply T]. }
    assert (NZ: ex X -> Cw (co s) (ew a) <> C0).
    { intros Ex H. assert (wapx0 s (ew a) = true); [|congruence]. apply (x_wapx0 (X:=X)); auto. rewrite Cv_Cw; auto. apply T. }
    split.
    { constructor; cbn [ep ew]; auto.
      - eapply etn_ext; [apply S5|apply R2].
      - intros E. destruct (ge_t _ _ _ _ _ _ _ _ (cr_g _ _ _ _ _ R2) E) as [H|H]; auto.
      - intros Ex E. subst rw. specialize (Vw' Ex). rewrite Cw_zero in Vw' by auto. symmetry in Vw'. apply Cmul_integral in Vw'.
        destruct Vw' as [H|H]; [|exfalso; now apply NZ]. apply (ge_z _ _ _ _ _ _ _ _ (cr_g _ _ _ _ _ R2) Ex) in H. now rewrite H. }
    intros Ex p Vp. rewrite ntrue_cons in *. cbn [length] in Vp. rewrite (elimtop_len elim m) in Vp by lia.
    replace (S m - (1 + ntrue (elimtop elim m)))%nat with (m - ntrue (elimtop elim m))%nat in Vp by lia. fold l' in Vp.
    assert (Vp': vpath KM (Z.of_nat (length (elimtop elim m) - ntrue (elimtop elim m)) - 1) p) by (rewrite elimtop_len by lia; exact Vp).
    unfold Inv.de at 1. cbn [ep ew]. rewrite Vw' by auto.
    assert (DN: dn (co s5) KM (ep r2) p = dn (co s4) KM (ep r2) p) by (eapply dn_ext; [apply I4|apply S5|apply R2|exact Vp]); rewrite DN.
    specialize (V4 Ex p Vp). unfold Inv.dg at 1 in V4.
    transitivity (Cw (co s) (ew a) * (Cv s4 (ew r2) * dn (co s4) KM (ep r2) p))%C; [ring|]. rewrite V4.
    rewrite (dg_step s2 s3 O' KM l'); [|exact I2|exact S3|apply R1|exact Vp].
    rewrite V1 by auto. rewrite dg_zero by auto.
    assert (DG: forall s e, tedge (co s) KM l' e -> dg s KM e p = de (co s) KM e p).
    { intros s' e Te. unfold Inv.dg, Inv.de. rewrite Cv_Cw; auto. apply Te. }
    rewrite (DG s1), (DG s3), (V0 Ex p Vp'), (V3 Ex p Vp') by auto.
    change (bits (1 + ntrue (elimtop elim m))) with (map (cons 0%nat) (bits (ntrue (elimtop elim m))) ++ map (cons 1%nat) (bits (ntrue (elimtop elim m)))).
    rewrite Csum_app, !Csum_map. cbn [fill hd tl]. change (3 * 0)%nat with 0%nat. change (3 * 1)%nat with 3%nat.
    rewrite (Csum_ext (fun x => de (co s) KM a (0%nat :: fill (elimtop elim m) x p)) (fun x => Cw (co s) (ew a) * de (co s) KM (nthe es 0) (fill (elimtop elim m) x p))%C) by (intros; apply DE).
    rewrite (Csum_ext (fun x => de (co s) KM a (3%nat :: fill (elimtop elim m) x p)) (fun x => Cw (co s) (ew a) * de (co s2) KM (nthe es 3) (fill (elimtop elim m) x p))%C).
    2:{ intros x Hx. rewrite DE. f_equal. symmetry. apply bits_In in Hx. destruct Hx as [Hx1 Hx2].
        eapply de_step; [exact I|exact S02|apply Ch; lia|]. pose proof (fill_vpath (elimtop elim m) x p Hx1 Hx2 Vp') as F. rewrite elimtop_len in F by lia. exact F. }
    rewrite !Csum_mul_l. ring.
  - (* kept *)
    match goal with |- match ?mm s with _ => _ end => change (wp al0 mm s (fun r s' => step O s s' /\ owns (s_cc s') O /\
        tedge (co s') KM (Z.of_nat (S m - ntrue (elimtop elim (S m))) - 1) r /\
        (ex X -> ptsem (co s) (elimtop elim (S m)) a (de (co s') KM r)))) end.
    destruct Ha as [Ha|Ha]; [|rewrite ES in Ha; discriminate].
    rewrite ES, ntrue_cons. cbn [Nat.add]. cbn [Nat.add] in SK.
    set (l' := Z.of_nat (m - ntrue (elimtop elim m)) - 1).
    replace (Z.of_nat (S m - ntrue (elimtop elim m)) - 1) with (l' + 1) by (unfold l'; lia).
    apply wp_bind.
    eapply wp_mono; [apply (mapM_t al0 KM l' (fun e => traceF N g nb f e elim already)
       (fun e p => Csum (fun bs => de (co s) KM e (fill (elimtop elim m) bs p)) (bits (ntrue (elimtop elim m)))) es s O); auto|].
    { intros e s1 He I1 S1 O1.
      assert (Te: tedge (co s) KM (Z.of_nat m - 1) e).
      { destruct (In_nth _ _ Enull He) as (i & Hi & <-). apply Ch. unfold es in Hi.
        destruct (linked_ok (g:=g) (nb:=nb) (X:=X) _ _ _ (iv_c _ _ _ _ _ I) Ln) as (b & K & _). pose proof (no_len _ _ _ _ _ _ _ _ _ K) as L.
        change (Inv.qn N (co s) KM nn) with (nod s KM nn) in L. simpl in L. lia. }
      assert (Q1: s_nq s1 = s_nq s) by apply (qe_nq _ _ _ (sp_ext _ _ _ _ _ _ _ S1)).
      eapply wp_mono; [apply (IH m already s1 O e); auto; try lia|].
      { left. lia. } { eapply tedge_ext; [apply S1|exact Te]. }
      intros r s2 (S2 & O2 & T2 & V2). split; auto. split; auto. split; auto. intros Ex p Vp.
      assert (Vp': vpath KM (Z.of_nat (length (elimtop elim m) - ntrue (elimtop elim m)) - 1) p) by (rewrite elimtop_len by lia; exact Vp).
      rewrite (V2 Ex p Vp'). apply Csum_ext. intros x Hx. apply bits_In in Hx. destruct Hx as [Hx1 Hx2].
      eapply de_step; [exact I|exact S1|exact Te|]. pose proof (fill_vpath (elimtop elim m) x p Hx1 Hx2 Vp') as F. rewrite elimtop_len in F by lia. exact F. }
    intros es' s1 (S1 & L1 & O1 & T1 & V1). assert (I1: inv s1) by apply S1.
    assert (Q1: s_nq s1 = s_nq s) by apply (qe_nq _ _ _ (sp_ext _ _ _ _ _ _ _ S1)).
    assert (Les: length es = 4%nat).
    { destruct (linked_ok (g:=g) (nb:=nb) (X:=X) _ _ _ (iv_c _ _ _ _ _ I) Ln) as (b & K & _). exact (no_len _ _ _ _ _ _ _ _ _ K). }
    change (length (filter (fun b : bool => b) elim)) with (ntrue elim). rewrite (ntrue_split elim m), SK, Ha.
    replace (Z.of_nat m - (Z.of_nat (ntrue (elimtop elim m) + ntrue (skipn (S m) elim)) - Z.of_nat (ntrue (skipn (S m) elim)))) with (l' + 1) by (unfold l'; lia).
    cbv zeta. apply wp_bind. eapply wp_mono; [apply (makeDDNode_t KM (l' + 1) s1 es' O); auto|].
    { simpl. lia. } { unfold l'. lia. } { replace (l' + 1 - 1) with l' by lia. exact T1. }
    intros r s2 (S2 & O2 & Tr & Zr & Vr). assert (I2: inv s2) by apply S2. replace (l' + 1 - 1) with l' in Vr by lia.
    assert (S02: step O s s2) by (eapply step_trans; eauto).
    assert (Wa: wtab (co s2) (ew a)) by (eapply wtab_ext; [apply S02|apply T]).
    apply wp_bind. eapply wp_mono; [apply (trw_sp s2 O (ew r) (ew a)); auto; left; left; apply Tr|].
    intros rw s3 (S3 & O3 & Ww & Vw & Zw). assert (I3: inv s3) by apply S3. apply wp_ret.
    split; [eapply step_trans; eauto|]. split; auto.
    assert (Vw': ex X -> Cw (co s3) rw = (Cw (co s2) (ew r) * Cw (co s) (ew a))%C).
    { intros Ex. rewrite Vw by auto. rewrite (Cw_ext (co s) (co s2) (ew a)); [|apply S02|apply T]. f_equal. apply Cv_Cw; auto. apply Tr. }
    assert (NZ: ex X -> Cw (co s) (ew a) <> C0).
    { intros Ex H. assert (wapx0 s (ew a) = true); [|congruence]. apply (x_wapx0 (X:=X)); auto. rewrite Cv_Cw; auto. apply T. }
    split.
    { constructor; cbn [ep ew]; auto.
      - eapply etn_ext; [apply S3|apply Tr].
      - intros E. right. apply Zw. now rewrite (Zr E).
      - intros Ex E. subst rw. specialize (Vw' Ex). rewrite Cw_zero in Vw' by auto. symmetry in Vw'. apply Cmul_integral in Vw'.
        destruct Vw' as [H|H]; [|exfalso; now apply NZ]. apply Cw_eq0 in H; auto; [now apply Tr|apply I2|apply Tr]. }
    intros Ex p Vp. rewrite ntrue_cons in *. cbn [Nat.add] in *. cbn [length] in Vp. rewrite (elimtop_len elim m) in Vp by lia.
    replace (Z.of_nat (S m - ntrue (elimtop elim m)) - 1) with (l' + 1) in Vp by (unfold l'; lia).
    pose proof Vp as Vq.
    apply vpath_inv in Vp; [|unfold l'; lia]. destruct Vp as (i & p' & -> & Hi & Vp). replace (l' + 1 - 1) with l' in Vp by lia.
    unfold Inv.de at 1. cbn [ep ew]. rewrite Vw' by auto.
    assert (DN: dn (co s3) KM (ep r) (i :: p') = dn (co s2) KM (ep r) (i :: p')) by (eapply dn_ext; [apply I2|apply S3|apply Tr|exact Vq]); rewrite DN.
    transitivity (Cw (co s) (ew a) * (Cw (co s2) (ew r) * dn (co s2) KM (ep r) (i :: p')))%C; [ring|]. change (Cw (co s2) (ew r) * dn (co s2) KM (ep r) (i :: p'))%C with (de (co s2) KM r (i :: p')).
    rewrite (Vr Ex i p' Hi Vp). rewrite (V1 Ex i p'); auto; [|simpl in Hi; lia]. cbn [fill hd tl].
    rewrite <- Csum_mul_l. apply Csum_ext. intros x Hx. now rewrite DE.
Qed.

(** The partial trace of a matrix on [n] qubits. *)
Theorem partialTrace_sp elim n s O a : (n <= length elim)%nat -> ntrue (skipn n elim) = 0%nat -> Z.of_nat n <= s_nq s ->
  inv s -> owns (s_cc s) O -> tedge (co s) KM (Z.of_nat n - 1) a ->
  wp al0 (partialTrace N g nb a elim) s (fun r s' => owns (s_cc s') O /\ step O s s' /\
    tedge (co s') KM (Z.of_nat (n - ntrue (elimtop elim n)) - 1) r /\
    (ex X -> ptsem (co s) (elimtop elim n) a (de (co s') KM r))).
Proof.
  intros Hn Hs Hq I Ow T. apply balanced_sp; auto.
  apply (wp_eq al0 _ (traceF N g nb (fuelof N s) a elim 0)); [reflexivity|].
  eapply wp_mono; [apply (traceF_sp elim (fuelof N s) n 0 s O a); auto|].
  { unfold fuelof. lia. } { left. now rewrite Hs. }
  intros r s' (A & B & D). auto.
Qed.

Lemma fill_all : forall n bs p, length bs = n -> fill (repeat true n) bs p = mp bs bs.
Proof.
  induction n as [|n IH]; intros [|b bs] p H; simpl in H; try lia; auto. cbn [repeat fill hd tl mp]. rewrite IH by lia. f_equal. lia.
Qed.
Lemma elimtop_rep n m : (n <= m)%nat -> elimtop (repeat true m) n = repeat true n.
Proof.
  intros H. unfold elimtop. replace (firstn n (repeat true m)) with (repeat true n).
  - clear. induction n as [|n IH]; auto. simpl. rewrite IH. clear. induction n; auto. simpl. now f_equal.
  - revert m H. induction n as [|n IH]; intros m H; auto. destruct m; [lia|]. simpl. f_equal. apply IH. lia.
Qed.
Lemma ntrue_rep n : ntrue (repeat true n) = n.
Proof. induction n as [|n IH]; auto. simpl repeat. rewrite ntrue_cons, IH. reflexivity. Qed.
Lemma forallb_rep n : forallb (fun b => b) (repeat true n) = true.
Proof. induction n; auto. Qed.

(** The trace: the sum of the diagonal entries. *)
Theorem trace_sp n s O a : Z.of_nat n <= s_nq s ->
  inv s -> owns (s_cc s) O -> tedge (co s) KM (Z.of_nat n - 1) a ->
  wp al0 (trace N g nb a) s (fun v s' => owns (s_cc s') O /\ step O s s' /\
    (ex X -> Cv2 v = Csum (fun bs => de (co s) KM a (mp bs bs)) (bits n))).
Proof.
  intros Hq I Ow T. apply balanced_sp; auto. apply wp_bind, wp_get. apply wp_bind.
  set (elim := repeat true (Z.to_nat (s_nq s))). assert (Le: length elim = Z.to_nat (s_nq s)) by apply repeat_length.
  eapply wp_mono with (Q := fun r s' => owns (s_cc s') O /\ step O s s' /\
    tedge (co s') KM (Z.of_nat (n - ntrue (elimtop elim n)) - 1) r /\ (ex X -> ptsem (co s) (elimtop elim n) a (de (co s') KM r))).
  - apply balanced_sp; auto. apply (wp_eq al0 _ (traceF N g nb (fuelof N s) a elim 0)); [reflexivity|].
    eapply wp_mono; [apply (traceF_sp elim (fuelof N s) n 0 s O a); auto|].
    { unfold fuelof. lia. } { lia. } { right. unfold elim. rewrite elimtop_rep by lia. apply forallb_rep. }
    intros r s' (A & B & D). auto.
  - intros r s' (A & B & D & V). apply wp_gets. split; auto. split; auto. intros Ex.
    assert (En: elimtop elim n = repeat true n) by (apply elimtop_rep; lia). rewrite En, ntrue_rep, Nat.sub_diag in *.
    specialize (V Ex []). rewrite repeat_length, ntrue_rep, Nat.sub_diag in V.
    assert (V0: vpath KM (-1) []) by (split; simpl; auto; lia).
    assert (E: de (co s') KM r [] = Cv2 (cval s' (ew r))).
    { unfold Inv.de. rewrite <- (Cv_Cw s' (ew r)) by (auto; apply D). unfold Inv.Cv. simpl dn. ring. }
    rewrite <- E, V by exact V0. apply Csum_ext. intros x Hx. apply bits_In in Hx. rewrite fill_all; auto. apply Hx.
Qed.
End TraceL.
