(** Specifications of the inner product and the fidelity. *)
From Coq Require Import ZArith List Bool Lia Arith Reals Lra Permutation.
From Verif Require Import Num Base CTable CTableWf Cx State Pkg Inv InvL PrimL NormL MkL TrL AddL MulL.
Import ListNotations.
Local Open Scope Z_scope.

Section InnerL.
Context {N : num} {g : cfg N} {nb : kind -> Z} {X : numx N (g_ct g)} (G : gok g).
Local Notation cf := (g_ct g).
Local Notation co := (co N).
Local Notation qn := (qn N).
Local Notation linked := (linked N).
Local Notation c_ut := (c_ut N).
Local Notation Cw := (Cw N g X).
Local Notation Cv := (Cv N g X).
Local Notation Cv2 := (Cv2 N g X).
Local Notation dn := (dn N g X).
Local Notation de := (de N g X).
Local Notation dg := (dg N g X).
Local Notation wtab := (wtab N g X).
Local Notation etn := (etn N).
Local Notation isnode := (isnode N).
Local Notation tedge := (tedge N g X).
Local Notation gedge := (gedge N g X).
Local Notation cinv := (cinv N g nb X).
Local Notation uinv := (uinv N g nb X).
Local Notation nodeok := (nodeok N g nb X).
Local Notation inv := (inv N g nb X).
Local Notation step := (step N g nb X).
Local Notation qext := (qext N).
Local Notation owns := (owns N).
Local Notation wok := (wok N g X).
Local Notation wp := (wp N).
Local Notation al0 := (al0 N g X).
Local Notation nnorm := (nnorm N g X).
Local Notation iedge := (iedge (g:=g) (X:=X)).
Local Notation trsp := (trsp (nb:=nb) (X:=X)).
Local Notation unok := (unok N g X).
Local Notation binok := (binok N g X).
Local Notation addok := (addok N g X).
Local Notation tinv := (tinv N g X).
Local Notation vres := (vres N g X).
Local Notation dv := (dv N g X).
Local Notation mkpost := (mkpost (nb:=nb) (X:=X)).
Local Notation mulCached_sp := (mulCached_sp (nb:=nb) (X:=X) G).
Local Notation addCached_sp := (addCached_sp (nb:=nb) (X:=X) G).
Local Notation getCached_sp := (getCached_sp (nb:=nb) (X:=X) G).
Local Notation makeDDNode_sp := (makeDDNode_sp (nb:=nb) (X:=X) G).
Local Notation lookupC_sp := (lookupC_sp (nb:=nb) (X:=X) G).
Local Notation tedge_gedge := (tedge_gedge (nb:=nb) (X:=X)).
Local Notation child_ok := (child_ok (nb:=nb) (X:=X)).
Local Notation dn_ext := (dn_ext (nb:=nb) (X:=X)).
Local Notation Cw_eq0 := (Cw_eq0 (nb:=nb) (X:=X)).
Local Notation addInsert_sp := (addInsert_sp (g:=g) (nb:=nb) (X:=X)).
Local Notation binInsert_sp := (binInsert_sp (g:=g) (nb:=nb) (X:=X)).
Local Notation unInsert_sp := (unInsert_sp (g:=g) (nb:=nb) (X:=X)).
Local Notation addLookup_sp := (addLookup_sp (g:=g) (nb:=nb) (X:=X)).
Local Notation binLookup_sp := (binLookup_sp (g:=g) (nb:=nb) (X:=X)).
Local Notation unLookup_sp := (unLookup_sp (g:=g) (nb:=nb) (X:=X)).
Local Notation cres := (cres (g:=g) (X:=X)).
Local Notation addsp := (addsp (g:=g) (nb:=nb) (X:=X)).
Local Notation rel_sp := (rel_sp (g:=g) (nb:=nb) (X:=X)).
Local Notation relif_sp := (relif_sp (g:=g) (nb:=nb) (X:=X)).
Local Notation mapM_cres := (mapM_cres (g:=g) (nb:=nb) (X:=X)).
Local Notation de_step := (de_step (g:=g) (nb:=nb) (X:=X)).
Local Notation dg_step := (dg_step (g:=g) (nb:=nb) (X:=X)).
Local Notation mulSelf_sp := (mulSelf_sp (g:=g) (nb:=nb) (X:=X)).
Local Notation finish_sp := (finish_sp (g:=g) (nb:=nb) (X:=X) G).
Local Notation add2F_sp := (add2F_sp (g:=g) (nb:=nb) (X:=X) G).
Implicit Types (s : st N).

Definition ipn (q : core N) (k : kind) (l : Z) (p r : nptr) : C :=
  Csum (fun cs => Cconj (dn q k p cs) * dn q k r cs)%C (bits (Z.to_nat (l + 1))).

Lemma bits_vp l cs : -1 <= l -> In cs (bits (Z.to_nat (l + 1))) -> vpath KV l cs.
Proof. intros Hl H. apply bits_vpath in H. replace l with (Z.of_nat (Z.to_nat (l + 1)) - 1) by lia. exact H. Qed.

Lemma ipn_ext O s s' l p r : -1 <= l -> inv s -> step O s s' -> etn (co s) KV l p -> etn (co s) KV l r ->
  ipn (co s') KV l p r = ipn (co s) KV l p r.
Proof.
  intros Hl I S P R. apply Csum_ext. intros cs H. apply bits_vp in H; auto.
  f_equal; [f_equal|]; (eapply dn_ext; eauto; [apply I|apply S]).
Qed.

Lemma ipn_de q l x y : Csum (fun cs => Cconj (de q KV x cs) * de q KV y cs)%C (bits (Z.to_nat (l + 1))) =
  (Cconj (Cw q (ew x)) * Cw q (ew y) * ipn q KV l (ep x) (ep y))%C.
Proof.
  unfold ipn. rewrite <- Csum_mul_l. apply Csum_ext. intros cs _. unfold Inv.de. rewrite Cconj_mul. ring.
Qed.

Lemma ipn_cons q l n m : 0 <= l -> ipn q KV l (PNode n) (PNode m) =
  (Csum (fun cs => Cconj (de q KV (nthe (ne (qn q KV n)) 0) cs) * de q KV (nthe (ne (qn q KV m)) 0) cs)%C (bits (Z.to_nat (l - 1 + 1))) +
   Csum (fun cs => Cconj (de q KV (nthe (ne (qn q KV n)) 1) cs) * de q KV (nthe (ne (qn q KV m)) 1) cs)%C (bits (Z.to_nat (l - 1 + 1))))%C.
Proof.
  intros Hl. unfold ipn. replace (Z.to_nat (l + 1)) with (S (Z.to_nat (l - 1 + 1))) by lia. cbn [bits].
  rewrite Csum_app, !Csum_map. reflexivity.
Qed.

Lemma ipsem_ipn q l x y : ex X -> ew x = Cone -> ew y = Cone -> ipsem N g X q l x y = ipn q KV l (ep x) (ep y).
Proof. intros Ex A B. unfold Inv.ipsem. rewrite ipn_de, A, B, Cw_one, Cconj_1 by auto. ring. Qed.

Lemma wconj_tedge q k l e : cinv q -> tedge q k l e -> tedge q k l (Ed (ep e) (wconj (ew e))).
Proof.
  intros I [A B D E]. constructor; cbn [ep ew]; auto.
  - now apply wconj_tab.
  - intros Et. destruct (D Et) as [H|H]; auto. right. rewrite H. reflexivity.
  - intros Ex H. apply E; auto. apply (Cw_eq0 q); auto.
    pose proof (wconj_Cw q (ew e) Ex B) as V. rewrite H, Cw_zero in V by auto.
    rewrite <- (Cconj_conj (Cw q (ew e))), <- V. apply Cconj_0.
Qed.

Lemma x_add2 (a b : N * N) : ex X -> Cv2 (nadd (fst a) (fst b), nadd (snd a) (snd b)) = (Cv2 a + Cv2 b)%C.
Proof. intros Ex. unfold Inv.Cv2. simpl. now rewrite !x_add. Qed.
Lemma x_zero2 : ex X -> Cv2 (n0, n0) = C0.
Proof. intros Ex. unfold Inv.Cv2. simpl. now rewrite !x_0. Qed.

(** Reading a product off a temporary. *)
Lemma tval_sp s O v a b : inv s -> owns (s_cc s) O -> wtab (co s) a -> wtab (co s) b ->
  exists r s', (let* c := getTempV g v in mulInto c c a ;;; mulInto c c b ;;; gets (fun s => cval s c)) s = Ok r s' /\
    step O s s' /\ owns (s_cc s') O /\ (ex X -> Cv2 r = (Cv2 v * Cw (co s) a * Cw (co s) b)%C).
Proof.
  intros I Ow Wa Wb. destruct (getTemp_sp (g:=g) G s O Ow) as (p & q & c' & E & V & Oc & D & Hp & Hq & _).
  assert (Wp: forall w, wtab (co s) w -> ep_at (ci w) <> ACache p).
  { intros w Hw. eapply (wok_ci (X:=X) (co s) O); [left; exact Hw|exact Hp]. }
  set (s1 := set_cc s c'). set (s2 := setc p q v s1).
  assert (E1: getTempV g v s = Ok (cslot p q) s2).
  { unfold getTempV, bind. rewrite E. cbn [cr ci cslot]. rewrite !wr_slot. reflexivity. }
  assert (I1: inv s1) by now apply inv_cc.
  destruct (mulInto_sp (X:=X) s2 p q (cslot p q) a) as (v1 & E2 & V2). { simpl; congruence. } { now apply Wp. }
  set (s3 := setc p q v1 s2) in *.
  destruct (mulInto_sp (X:=X) s3 p q (cslot p q) b) as (v2 & E3 & V3). { simpl; congruence. } { now apply Wp. }
  set (s4 := setc p q v2 s3) in *.
  exists (cval s4 (cslot p q)), s4.
  assert (S1: step O s s1) by (apply step_cc_any; auto).
  assert (S2: step O s s2) by (eapply step_trans; [exact S1|]; apply setc_step; auto).
  assert (S3: step O s s3) by (eapply step_trans; [exact S2|]; apply setc_step; auto; apply S2).
  assert (S4: step O s s4) by (eapply step_trans; [exact S3|]; apply setc_step; auto; apply S3).
  split; [|split; [auto|split]].
  - unfold bind at 1. rewrite E1. unfold bind at 1. rewrite E2. unfold bind. rewrite E3. reflexivity.
  - repeat apply owns_ccw. exact Oc.
  - intros Ex. unfold s4. rewrite setc_val by auto. rewrite V3 by auto. unfold s3 at 1. rewrite setc_Cv by auto. rewrite V2 by auto.
    unfold s2 at 1. rewrite setc_Cv by auto.
    rewrite (Cv_step (nb:=nb) s s2 O a), (Cv_step (nb:=nb) s s3 O b); auto; try (left; auto). rewrite (Cv_Cw s a), (Cv_Cw s b) by auto. reflexivity.
Qed.

Definition innsp (f : edge -> edge -> M N (N * N)) (l : Z) : Prop := forall s O x y,
  inv s -> owns (s_cc s) O -> tedge (co s) KV l x -> tedge (co s) KV l y ->
  exists v s', f x y s = Ok v s' /\ step O s s' /\ owns (s_cc s') O /\
    (ex X -> Cv2 v = (Cw (co s) (ew x) * Cw (co s) (ew y) * ipn (co s) KV l (ep x) (ep y))%C).

Lemma innerF_sp : forall f l, -1 <= l -> l + 1 < Z.of_nat f -> innsp (fun x y => innerF N g f x y (l + 1)) l.
Proof.
  induction f as [|f IH]; intros l Hl Hf; [lia|]. intros s O x y I Ow Tx Ty. cbn [innerF].
  destruct (isnull (ep x)) eqn:Nx. { apply isnull_spec in Nx. destruct Tx as [A _ _ _]. rewrite Nx in A. contradiction. }
  destruct (isnull (ep y)) eqn:Ny. { apply isnull_spec in Ny. destruct Ty as [A _ _ _]. rewrite Ny in A. contradiction. }
  cbn [orb]. destruct (wapx0 s (ew x) || wapx0 s (ew y)) eqn:Z.
  { exists (n0, n0), s. split; auto. split; [now apply step_refl|]. split; auto. intros Ex. rewrite x_zero2 by auto.
    apply orb_true_iff in Z. destruct Z as [Z|Z]; apply (x_wapx0 (X:=X)) in Z; auto; rewrite Cv_Cw in Z; auto; try apply Tx; try apply Ty; rewrite Z; ring. }
  apply orb_false_iff in Z. destruct Z as [Zx Zy].
  assert (Zx': ew x <> Czero). { intros H. rewrite H, wapx0_zero in Zx. discriminate. }
  assert (Zy': ew y <> Czero). { intros H. rewrite H, wapx0_zero in Zy. discriminate. }
  destruct (l + 1 =? 0) eqn:El.
  { apply Z.eqb_eq in El. assert (l = -1) by lia. subst l.
    destruct (getTemp_sp (g:=g) G s O Ow) as (p & q & c' & E & V & Oc & D & Hp & Hq & _).
    assert (Wp: forall w, wtab (co s) w -> ep_at (ci w) <> ACache p).
    { intros w Hw. eapply (wok_ci (X:=X) (co s) O); [left; exact Hw|exact Hp]. }
    destruct (mulInto_sp (X:=X) (set_cc s c') p q (ew x) (ew y)) as (v1 & E2 & V2). { apply Wp, Tx. } { apply Wp, Ty. }
    assert (S1: step O s (set_cc s c')) by (apply step_cc_any; auto).
    eexists _, (setc p q v1 (set_cc s c')). split; [unfold bind at 1; rewrite E; unfold bind; rewrite E2; reflexivity|].
    split; [eapply step_trans; [exact S1|]; apply setc_step; auto; now apply inv_cc|]. split; [now apply owns_ccw|].
    intros Ex. transitivity (Cv (setc p q v1 (set_cc s c')) (cslot p q)).
    { reflexivity. }
    rewrite setc_Cv by auto. rewrite V2 by auto. rewrite !Cv_cc_same by auto. rewrite !Cv_Cw; auto; try apply Tx; try apply Ty.
    unfold ipn. simpl. unfold Inv.dn; simpl. rewrite Cconj_1. ring. }
  apply Z.eqb_neq in El. assert (Hl0: 0 <= l) by lia. clear El. cbv zeta.
  destruct (tedge_node0 _ _ _ _ I Tx Zx' Hl0) as (nx & Epx & Lx & Vx).
  destruct (tedge_node0 _ _ _ _ I Ty Zy' Hl0) as (ny & Epy & Ly & Vy).
  assert (NX: isnode (co s) KV l (ep x)) by (split; [apply Tx|rewrite Epx; discriminate]).
  assert (NY: isnode (co s) KV l (ep y)) by (split; [apply Ty|rewrite Epy; discriminate]).
  destruct (binLookup_sp O s BIP (one_w x) (one_w y) I) as (r & s1 & E1 & S1 & C1' & Q1 & H1).
  assert (I1: inv s1) by apply S1. rewrite <- C1' in Ow.
  unfold bind at 1. rewrite E1. clear E1.
  assert (Fin: forall sum s2, step O s s2 -> owns (s_cc s2) O -> (ex X -> Cv2 sum = ipn (co s) KV l (ep x) (ep y)) ->
    exists v s', (let* c := getTempV g sum in mulInto c c (ew x) ;;; mulInto c c (ew y) ;;; gets (fun s => cval s c)) s2 = Ok v s' /\
      step O s s' /\ owns (s_cc s') O /\ (ex X -> Cv2 v = (Cw (co s) (ew x) * Cw (co s) (ew y) * ipn (co s) KV l (ep x) (ep y))%C)).
  { intros sum s2 S2 O2 V2. destruct (tval_sp s2 O sum (ew x) (ew y)) as (v & s3 & E3 & S3 & O3 & V3); auto.
    { apply S2. } { eapply wtab_ext; [apply S2|apply Tx]. } { eapply wtab_ext; [apply S2|apply Ty]. }
    exists v, s3. split; auto. split; [eapply step_trans; eauto|]. split; auto. intros Ex. rewrite V3, V2 by auto.
    rewrite (Cw_ext (co s) (co s2) (ew x)), (Cw_ext (co s) (co s2) (ew y)); try apply S2; try apply Tx; try apply Ty. ring. }
  destruct r as [r|].
  - destruct H1 as (x' & y' & B & Ekx & Eky). destruct B as (Wx' & Wy' & l' & Hl' & Nx' & Ny' & Rv & Sem).
    pose proof (edge_eqb_p _ _ _ Ekx) as Px. pose proof (edge_eqb_p _ _ _ Eky) as Py. simpl in Px, Py.
    assert (l' = l). { apply (nptr_etn_lvl (co s) KV l' l (ep x)); [rewrite <- Px; apply Nx'|apply NX|apply NX]. } subst l'.
    unfold bind at 1. cbn [ret]. apply Fin; auto. intros Ex. rewrite Sem, ipsem_ipn by auto. now rewrite Px, Py.
  - clear H1.
    match goal with |- context[foldM _ ?F _ _] => set (FF := F) end.
    assert (Step: forall i s2 acc, (i < 2)%nat -> step O s s2 -> owns (s_cc s2) O -> exists v s3,
      FF acc i s2 = Ok v s3 /\ step O s s3 /\ owns (s_cc s3) O /\
       (ex X -> Cv2 v = (Cv2 acc + Csum (fun cs => Cconj (de (co s) KV (nthe (ne (nod s KV nx)) i) cs) * de (co s) KV (nthe (ne (nod s KV ny)) i) cs)%C (bits (Z.to_nat (l - 1 + 1))))%C)).
    { intros i s2 acc Hi S2 O2. assert (I2: inv s2) by apply S2.
      destruct (qe_same _ _ _ _ (sp_ext _ _ _ _ _ _ _ S2) Lx) as (Nx1 & _ & Nx2 & _).
      destruct (qe_same _ _ _ _ (sp_ext _ _ _ _ _ _ _ S2) Ly) as (Ny1 & _ & Ny2 & _).
      change (Inv.qn N (co s) KV nx) with (nod s KV nx) in *. change (Inv.qn N (co s2) KV nx) with (nod s2 KV nx) in *.
      change (Inv.qn N (co s) KV ny) with (nod s KV ny) in *. change (Inv.qn N (co s2) KV ny) with (nod s2 KV ny) in *.
      unfold FF. rewrite Epx, Epy. replace (l + 1 - 1) with l by lia.
      unfold bind at 1. unfold lvl. rewrite <- Nx2, Vx, Z.eqb_refl. cbv zeta beta iota. unfold bind at 1. rewrite <- Ny2, Vy, Z.eqb_refl. cbv beta iota.
      rewrite <- Nx1, <- Ny1. set (e1 := nthe (ne (nod s KV nx)) i). set (e2 := nthe (ne (nod s KV ny)) i).
      assert (T1: tedge (co s) KV (l - 1) e1). { unfold e1. rewrite <- Vx. apply child_ok; auto. apply I. }
      assert (T2: tedge (co s) KV (l - 1) e2). { unfold e2. rewrite <- Vy. apply child_ok; auto. apply I. }
      assert (T1': tedge (co s2) KV (l - 1) e1) by (eapply tedge_ext; [apply S2|auto]).
      assert (T2': tedge (co s2) KV (l - 1) e2) by (eapply tedge_ext; [apply S2|auto]).
      destruct (IH (l - 1)) with (s:=s2) (O:=O) (x:=Ed (ep e1) (wconj (ew e1))) (y:=e2) as (v & s3 & E3 & S3 & O3 & V3); auto; try lia.
      { apply wconj_tedge; auto. apply I2. }
      replace (l - 1 + 1) with l in E3 by lia.
      eexists _, s3. unfold bind. rewrite E3. split; [reflexivity|]. split; [eapply step_trans; eauto|]. split; auto.
      intros Ex. rewrite x_add2 by auto. f_equal. rewrite V3, ipn_de by auto. cbn [ew ep].
      rewrite wconj_Cw by (auto; apply T1'). rewrite (Cw_ext (co s) (co s2) (ew e1)), (Cw_ext (co s) (co s2) (ew e2)); try apply S2; try apply T1; try apply T2.
      f_equal. eapply ipn_ext; eauto; [lia|apply T1|apply T2]. }
    destruct (Step 0%nat s1 (n0, n0) ltac:(lia) S1 Ow) as (v0 & s2 & E2 & S2 & O2 & V2).
    destruct (Step 1%nat s2 v0 ltac:(lia) S2 O2) as (v1 & s3 & E3 & S3 & O3 & V3).
    assert (Vs: ex X -> Cv2 v1 = ipn (co s) KV l (ep x) (ep y)).
    { intros Ex. rewrite V3, V2, x_zero2 by auto. rewrite Epx, Epy, ipn_cons by auto.
      change (Inv.qn N (co s) KV nx) with (nod s KV nx). change (Inv.qn N (co s) KV ny) with (nod s KV ny). ring. }
    destruct (binInsert_sp O s3 BIP (one_w x) (one_w y) (VE PTerm v1)) as (s4 & E4 & S4 & C4 & Q4).
    { apply S3. }
    { split; auto. split; auto. exists l. split; auto. split; [eapply isnode_ext; [apply S3|exact NX]|].
      split; [eapply isnode_ext; [apply S3|exact NY]|]. split; auto. intros Ex. rewrite ipsem_ipn by auto. cbn [ep one_w vw].
      rewrite Vs by auto. symmetry. eapply ipn_ext; eauto; [apply Tx|apply Ty]. }
    clearbody FF. change (foldM N FF [0%nat; 1%nat] (n0, n0)) with (let* a := FF (n0, n0) 0%nat in let* a := FF a 1%nat in ret a).
    unfold bind in *. rewrite E2, E3. unfold ret at 1. rewrite E4. unfold ret at 1. apply Fin; auto. eapply step_trans; eauto. now rewrite C4.
Qed.

Theorem innerProduct_sp s O l x y : -1 <= l < s_nq s -> inv s -> owns (s_cc s) O -> tedge (co s) KV l x -> tedge (co s) KV l y ->
  exists v s', innerProduct N g x y s = Ok v s' /\ step O s s' /\ owns (s_cc s') O /\
    (ex X -> Cv2 v = ipsem N g X (co s) l x y).
Proof.
  intros Hl I Ow Tx Ty. unfold innerProduct.
  destruct (isnull (ep x)) eqn:Nx. { apply isnull_spec in Nx. destruct Tx as [A _ _ _]. rewrite Nx in A. contradiction. }
  destruct (isnull (ep y)) eqn:Ny. { apply isnull_spec in Ny. destruct Ty as [A _ _ _]. rewrite Ny in A. contradiction. }
  cbn [orb]. destruct (wapx0 s (ew x) || wapx0 s (ew y)) eqn:Z.
  { exists (n0, n0), s. split; auto. split; [now apply step_refl|]. split; auto. intros Ex. rewrite x_zero2 by auto.
    unfold Inv.ipsem. rewrite ipn_de.
    apply orb_true_iff in Z. destruct Z as [Z|Z]; apply (x_wapx0 (X:=X)) in Z; auto; rewrite Cv_Cw in Z; auto; try apply Tx; try apply Ty; rewrite Z, ?Cconj_0; ring. }
  apply orb_false_iff in Z. destruct Z as [Zx Zy].
  assert (Zx': ew x <> Czero). { intros H. rewrite H, wapx0_zero in Zx. discriminate. }
  assert (Zy': ew y <> Czero). { intros H. rewrite H, wapx0_zero in Zy. discriminate. }
  assert (W: Z.max (lvl s KV (ep x)) (lvl s KV (ep y)) = l).
  { destruct (Z.eq_dec l (-1)) as [->|Hn].
    - rewrite (tedge_term s KV (-1) x I Tx), (tedge_term s KV (-1) y I Ty) by lia. reflexivity.
    - destruct (tedge_node0 s KV l x I Tx Zx') as (nx & Epx & Lx & Vx); [lia|].
      destruct (tedge_node0 s KV l y I Ty Zy') as (ny & Epy & Ly & Vy); [lia|].
      rewrite Epx, Epy. unfold lvl. rewrite Vx, Vy. lia. }
  destruct (innerF_sp (fuelof N s) l) with (s:=s) (O:=O) (x:=Ed (ep x) (wconj (ew x))) (y:=y) as (v & s1 & E1 & S1 & O1 & V1); auto.
  { lia. } { unfold fuelof. lia. } { apply wconj_tedge; auto. apply I. }
  exists v, s1. split; [|split; [auto|split; [auto|]]].
  - unfold balanced, bind, gets. rewrite W, E1. unfold assertM. rewrite (ow_ct _ _ _ O1), (ow_ct _ _ _ Ow), Z.eqb_refl. reflexivity.
  - intros Ex. rewrite V1 by auto. unfold Inv.ipsem. rewrite ipn_de. cbn [ew ep]. rewrite wconj_Cw; auto. apply Tx.
Qed.

Theorem fidelity_sp s O l x y : -1 <= l < s_nq s -> inv s -> owns (s_cc s) O -> tedge (co s) KV l x -> tedge (co s) KV l y ->
  exists v s', fidelity N g x y s = Ok v s' /\ step O s s' /\ owns (s_cc s') O /\
    (ex X -> toR X v = Cmag2 (ipsem N g X (co s) l x y)).
Proof.
  intros Hl I Ow Tx Ty. destruct (innerProduct_sp s O l x y Hl I Ow Tx Ty) as (v & s1 & E1 & S1 & O1 & V1).
  exists (mag2 v), s1. unfold fidelity, bind. rewrite E1. split; auto. split; auto. split; auto.
  intros Ex. rewrite x_mag2 by auto. now rewrite V1.
Qed.
End InnerL.
