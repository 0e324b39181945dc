(** Specification of the identity matrices. *)
From Coq Require Import ZArith List Bool Lia Arith Reals Lra Permutation.
From Verif Require Import Num Base CTable CTableWf Cx State Pkg Inv InvL PrimL NormL MkL TrL AddL MulL KronL CanonL.
Import ListNotations.
Local Open Scope Z_scope.

Section IdentL.
Context {N : num} {g : cfg N} {nb : kind -> Z} {X : numx N (g_ct g)} (G : gok g).
Local Notation cf := (g_ct g).
Local Notation co := (co N).
Local Notation qn := (qn N).
Local Notation linked := (linked N).
Local Notation c_ut := (c_ut N).
Local Notation Cw := (Cw N g X).
Local Notation Cv := (Cv N g X).
Local Notation Cv2 := (Cv2 N g X).
Local Notation dn := (dn N g X).
Local Notation de := (de N g X).
Local Notation dg := (dg N g X).
Local Notation wtab := (wtab N g X).
Local Notation etn := (etn N).
Local Notation isnode := (isnode N).
Local Notation tedge := (tedge N g X).
Local Notation gedge := (gedge N g X).
Local Notation cinv := (cinv N g nb X).
Local Notation uinv := (uinv N g nb X).
Local Notation nodeok := (nodeok N g nb X).
Local Notation inv := (inv N g nb X).
Local Notation step := (step N g nb X).
Local Notation qext := (qext N).
Local Notation owns := (owns N).
Local Notation wok := (wok N g X).
Local Notation wp := (wp N).
Local Notation al0 := (al0 N g X).
Local Notation nnorm := (nnorm N g X).
Local Notation iedge := (iedge (g:=g) (X:=X)).
Local Notation trsp := (trsp (nb:=nb) (X:=X)).
Local Notation unok := (unok N g X).
Local Notation binok := (binok N g X).
Local Notation addok := (addok N g X).
Local Notation tinv := (tinv N g X).
Local Notation vres := (vres N g X).
Local Notation dv := (dv N g X).
Local Notation mkpost := (mkpost (nb:=nb) (X:=X)).
Local Notation mulCached_sp := (mulCached_sp (nb:=nb) (X:=X) G).
Local Notation addCached_sp := (addCached_sp (nb:=nb) (X:=X) G).
Local Notation getCached_sp := (getCached_sp (nb:=nb) (X:=X) G).
Local Notation makeDDNode_sp := (makeDDNode_sp (nb:=nb) (X:=X) G).
Local Notation lookupC_sp := (lookupC_sp (nb:=nb) (X:=X) G).
Local Notation tedge_gedge := (tedge_gedge (nb:=nb) (X:=X)).
Local Notation child_ok := (child_ok (nb:=nb) (X:=X)).
Local Notation dn_ext := (dn_ext (nb:=nb) (X:=X)).
Local Notation Cw_eq0 := (Cw_eq0 (nb:=nb) (X:=X)).
Local Notation addInsert_sp := (addInsert_sp (g:=g) (nb:=nb) (X:=X)).
Local Notation binInsert_sp := (binInsert_sp (g:=g) (nb:=nb) (X:=X)).
Local Notation unInsert_sp := (unInsert_sp (g:=g) (nb:=nb) (X:=X)).
Local Notation addLookup_sp := (addLookup_sp (g:=g) (nb:=nb) (X:=X)).
Local Notation binLookup_sp := (binLookup_sp (g:=g) (nb:=nb) (X:=X)).
Local Notation unLookup_sp := (unLookup_sp (g:=g) (nb:=nb) (X:=X)).
Local Notation cres := (cres (g:=g) (X:=X)).
Local Notation addsp := (addsp (g:=g) (nb:=nb) (X:=X)).
Local Notation rel_sp := (rel_sp (g:=g) (nb:=nb) (X:=X)).
Local Notation relif_sp := (relif_sp (g:=g) (nb:=nb) (X:=X)).
Local Notation mapM_cres := (mapM_cres (g:=g) (nb:=nb) (X:=X)).
Local Notation de_step := (de_step (g:=g) (nb:=nb) (X:=X)).
Local Notation dg_step := (dg_step (g:=g) (nb:=nb) (X:=X)).
Local Notation mulSelf_sp := (mulSelf_sp (g:=g) (nb:=nb) (X:=X)).
Local Notation finish_sp := (finish_sp (g:=g) (nb:=nb) (X:=X) G).
Local Notation add2F_sp := (add2F_sp (g:=g) (nb:=nb) (X:=X) G).
Implicit Types (s : st N).

Local Notation dn_nz := (dn_nz (g:=g) (nb:=nb) (X:=X)).
Local Notation idok := (idok N g X).
Local Notation makeDDNode_t := (makeDDNode_t (nb:=nb) (X:=X) G).
Local Notation mk_weight := (mk_weight (nb:=nb) (X:=X)).

(** The edge is the identity on qubits 0..l. *)
Definition isid (q : core N) (l : Z) (e : edge) : Prop :=
  tedge q KM l e /\ (ew e = Cone \/ ew e = Czero) /\ (ex X -> ew e = Cone /\ forall path, vpath KM l path -> dn q KM (ep e) path = idm path).

Lemma isid_node q l e : ex X -> cinv q -> 0 <= l -> isid q l e -> isnode q KM l (ep e).
Proof.
  intros Ex I Hl [[A B D E] [_ H]]. destruct (H Ex) as [W _]. split; auto.
  intros P. destruct (D P) as [Q|Q]; [lia|]. rewrite W in Q. discriminate.
Qed.

Lemma mkident_sp s O l d : inv s -> owns (s_cc s) O -> 0 <= l < s_nq s -> isid (co s) (l - 1) d ->
  wp al0 (makeDDNode N g nb KM l [d; Ezero; Ezero; d] false) s (fun r s' => step O s s' /\ owns (s_cc s') O /\ isid (co s') l r).
Proof.
  intros I Ow Hl [T [HW H]].
  assert (Tes: forall a, In a [d; Ezero; Ezero; d] -> tedge (co s) KM (l - 1) a).
  { intros a [<-|[<-|[<-|[<-|[]]]]]; auto; apply tedge_zero. }
  pose proof (makeDDNode_t KM l s [d; Ezero; Ezero; d] O I Ow eq_refl Hl Tes) as M.
  pose proof (mk_weight s KM l [d; Ezero; Ezero; d]) as W.
  pose proof (mk_weight0 (nb:=nb) (X:=X) s KM l [d; Ezero; Ezero; d]) as W0.
  unfold Inv.wp in M |- *. destruct (makeDDNode N g nb KM l [d; Ezero; Ezero; d] false s) as [r s1| |]; auto.
  destruct M as (S1 & O1 & T1 & _ & V1). split; auto. split; auto. split; auto. split.
  { destruct (W0 r s1 O) as [->|(e & He & ->)]; auto; [discriminate|]. destruct He as [<-|[<-|[<-|[<-|[]]]]]; auto. }
  intros Ex. destruct (H Ex) as [Hw Hd].
  assert (Zd: wapx0 s (ew d) = false).
  { destruct (wapx0 s (ew d)) eqn:Z; auto. apply (x_wapx0 (X:=X)) in Z; auto. rewrite Cv_Cw, Hw, Cw_one in Z; auto; [|apply T]. now apply C1_neq_0 in Z. }
  destruct (W r s1 O) as (Pr & e' & He' & Ze' & Er); auto. { discriminate. } { exists d. simpl; auto. }
  assert (Er': ew r = Cone).
  { rewrite <- Hw. destruct He' as [<-|[<-|[<-|[<-|[]]]]]; auto; rewrite wapx0_zero in Ze'; discriminate. }
  split; auto. intros path V. apply vpath_inv in V; [|lia]. destruct V as (i & p & -> & Hi & V).
  specialize (V1 Ex i p Hi V). unfold Inv.de in V1 at 1. rewrite Er', Cw_one, Cmul_1_l in V1 by auto. rewrite V1.
  simpl in Hi. destruct i as [|[|[|[|i]]]]; [| | | |lia]; cbn [nthe nth]; rewrite ?de_zero by auto; try reflexivity;
    unfold Inv.de; rewrite Hw, Cw_one, Cmul_1_l, Hd by auto; reflexivity.
Qed.

Lemma identLoop_sp : forall cnt k s O e, inv s -> owns (s_cc s) O -> 0 <= k -> k + Z.of_nat cnt <= s_nq s -> isid (co s) (k - 1) e ->
  wp al0 (identLoop N g nb cnt k e) s (fun r s' => step O s s' /\ owns (s_cc s') O /\ isid (co s') (k + Z.of_nat cnt - 1) r).
Proof.
  induction cnt as [|cnt IH]; intros k s O e I Ow Hk Hq H; cbn [identLoop].
  - apply wp_ret. split; [now apply step_refl|]. split; auto. now rewrite Z.add_0_r.
  - apply wp_bind. eapply wp_mono; [apply (mkident_sp s O k e); auto; lia|]. intros r s1 (S1 & O1 & H1).
    assert (Nq: s_nq s1 = s_nq s) by apply (qe_nq _ _ _ (sp_ext _ _ _ _ _ _ _ S1)).
    eapply wp_mono; [apply (IH (k + 1) s1 O r); auto; try lia; [apply S1|now replace (k + 1 - 1) with k by lia]|].
    intros r' s2 (S2 & O2 & H2). split; [eapply step_trans; eauto|]. split; auto.
    now replace (k + Z.of_nat (S cnt) - 1) with (k + 1 + Z.of_nat cnt - 1) by lia.
Qed.

Lemma idSet_sp s O i e : inv s -> 0 <= i < s_nq s -> isid (co s) i e ->
  exists s', idSet N i e s = Ok tt s' /\ step O s s' /\ s_cc s' = s_cc s /\ co s' = co s.
Proof.
  intros I Hi H. unfold idSet. assert (B: (i <? 0) || (s_nq s <=? i) = false) by (apply orb_false_iff; split; [apply Z.ltb_ge|apply Z.leb_gt]; lia).
  rewrite B. eexists. split; [reflexivity|]. split; [|auto]. apply step_tb; auto. destruct (iv_t _ _ _ _ _ I) as [T1 T2 T3 T4 T5].
  constructor; auto. intros j. cbn [s_id set_id]. unfold updZ. destruct (j =? i) eqn:E; [|apply T4].
  apply Z.eqb_eq in E. subst j. intros _. split; [exact Hi|]. split; [apply H|]. split; [apply H|]. intros Ex. destruct H as [HT [HW HX]].
  split; [eapply isid_node; eauto; [apply I|lia|split; [exact HT|split; [exact HW|exact HX]]]|]. now apply HX.
Qed.

Lemma idok_isid q i e : idok q i e -> isnull (ep e) = false -> isid q i e.
Proof.
  intros H Z. destruct H as (_ & T & HW & V). { intros P. rewrite P in Z. discriminate. }
  split; auto. split; auto. intros Ex. destruct (V Ex) as (_ & W & D). auto.
Qed.

Lemma eone_id q : isid q (-1) Eone.
Proof.
  split.
  - constructor; simpl; auto. apply wtab_one.
  - split; [now left|]. intros Ex. split; auto. intros path V. apply vpath_m1 in V. subst. reflexivity.
Qed.

Theorem makeIdent_sp s O msq : inv s -> owns (s_cc s) O -> -1 <= msq < s_nq s ->
  wp al0 (makeIdent N g nb 0 msq) s (fun r s' => step O s s' /\ owns (s_cc s') O /\ isid (co s') msq r).
Proof.
  intros I Ow Hm. unfold makeIdent. destruct (msq <? 0) eqn:Lt.
  { apply Z.ltb_lt in Lt. assert (msq = -1) by lia. subst. apply wp_ret. split; [now apply step_refl|]. split; auto. apply eone_id. }
  apply Z.ltb_ge in Lt. rewrite Z.eqb_refl.
  assert (At: forall i, 0 <= i < s_nq s -> idAt N i s = Ok (s_id s i) s).
  { intros i Hi. unfold idAt. assert (B: (i <? 0) || (s_nq s <=? i) = false) by (apply orb_false_iff; split; [apply Z.ltb_ge|apply Z.leb_gt]; lia). now rewrite B. }
  pose proof (ti_id _ _ _ _ _ (iv_t _ _ _ _ _ I)) as Ti.
  unfold Inv.wp, bind at 1. unfold bind at 1. rewrite At by lia. unfold ret at 1.
  destruct (isnull (ep (s_id s msq))) eqn:Z.
  2: { split; [now apply step_refl|]. split; auto. now apply idok_isid. }
  assert (Fin: forall r s1, step O s s1 -> owns (s_cc s1) O -> isid (co s1) msq r ->
     wp al0 (idSet N msq r ;;; ret r) s1 (fun r s' => step O s s' /\ owns (s_cc s') O /\ isid (co s') msq r)).
  { intros r s1 S1 O1 H1. assert (Nq: s_nq s1 = s_nq s) by apply (qe_nq _ _ _ (sp_ext _ _ _ _ _ _ _ S1)).
    destruct (idSet_sp s1 O msq r) as (s2 & E2 & S2 & C2 & Q2); auto; [apply S1|lia|].
    eapply wp_bind_ok; [exact E2|]. apply wp_ret. split; [eapply step_trans; eauto|]. rewrite C2, Q2. auto. }
  match goal with |- match ?m s with Ok a s' => _ | Thr _ _ => _ | Bad b => _ end =>
    change (wp al0 m s (fun r s' => step O s s' /\ owns (s_cc s') O /\ isid (co s') msq r)) end.
  assert (Slow: wp al0 (let* e := makeDDNode N g nb KM 0 [Eone; Ezero; Ezero; Eone] false in
        let* e := identLoop N g nb (Z.to_nat (msq - 0)) (0 + 1) e in
        idSet N msq e ;;; ret e) s (fun r s' => step O s s' /\ owns (s_cc s') O /\ isid (co s') msq r)).
  { apply wp_bind. eapply wp_mono; [apply (mkident_sp s O 0 Eone); auto; try lia; apply eone_id|]. intros r s1 (S1 & O1 & H1).
    assert (Nq: s_nq s1 = s_nq s) by apply (qe_nq _ _ _ (sp_ext _ _ _ _ _ _ _ S1)).
    apply wp_bind. eapply wp_mono; [apply (identLoop_sp (Z.to_nat (msq - 0)) (0 + 1) s1 O r); auto; try lia; try apply S1; exact H1|].
    replace (0 + 1 + Z.of_nat (Z.to_nat (msq - 0)) - 1) with msq by lia.
    intros r' s2 (S2 & O2 & H2). apply Fin; auto. eapply step_trans; eauto. }
  apply wp_bind. destruct (1 <=? msq) eqn:L1; [|apply wp_ret; exact Slow]. apply Z.leb_le in L1.
  apply wp_bind. unfold Inv.wp at 1. rewrite At by lia. unfold ret at 1. unfold Inv.wp at 1. destruct (isnull (ep (s_id s (msq - 1)))) eqn:Z1; [exact Slow|].
  apply wp_bind. eapply wp_mono; [apply (mkident_sp s O msq (s_id s (msq - 1))); auto; try lia; now apply idok_isid|]. intros r s1 (S1 & O1 & H1). now apply Fin.
Qed.
(** Afterwards the table holds the result. *)
Lemma makeIdent_kept s O msq r s1 : ex X -> inv s -> owns (s_cc s) O -> 0 <= msq < s_nq s ->
  makeIdent N g nb 0 msq s = Ok r s1 -> s_id s1 msq = r /\ isnull (ep r) = false.
Proof.
  intros Ex I Ow Hm E. pose proof (makeIdent_sp s O msq I Ow ltac:(lia)) as W. unfold Inv.wp in W. rewrite E in W. destruct W as (S1 & O1 & H1).
  assert (Nn: isnull (ep r) = false).
  { pose proof (isid_node (co s1) msq r Ex (iv_c _ _ _ _ _ (sp_inv _ _ _ _ _ _ _ S1)) ltac:(lia) H1) as [Et _]. destruct (ep r); auto. destruct Et. }
  split; auto. unfold makeIdent in E. destruct (msq <? 0) eqn:Lt; [apply Z.ltb_lt in Lt; lia|]. rewrite Z.eqb_refl in E.
  unfold bind at 1 in E. unfold bind at 1 in E. destruct (idAt N msq s) as [e0 s0| |] eqn:E0; try discriminate. unfold ret at 1 in E.
  assert (A: e0 = s_id s msq /\ s0 = s). { unfold idAt in E0. destruct (_ || _); [discriminate|]. now injection E0. }
  destruct A as [-> ->]. destruct (isnull (ep (s_id s msq))) eqn:Z; [|unfold ret in E; now injection E as <- <-].
  assert (K: forall e t, (idSet N msq e ;;; ret e) t = Ok r s1 -> s_id s1 msq = r).
  { intros e t. unfold idSet, bind, ret. destruct (_ || _); [discriminate|]. intros F. injection F as <- <-. cbn. unfold updZ. now rewrite Z.eqb_refl. }
  assert (Sl: forall t, (let* e := makeDDNode N g nb KM 0 [Eone; Ezero; Ezero; Eone] false in
        let* e := identLoop N g nb (Z.to_nat (msq - 0)) (0 + 1) e in
        idSet N msq e ;;; ret e) t = Ok r s1 -> s_id s1 msq = r).
  { intros t F. unfold bind at 1 in F. destruct (makeDDNode _ _ _ _ _ _ _ t) as [e1 t1| |]; try discriminate.
    unfold bind at 1 in F. destruct (identLoop _ _ _ _ _ _ t1) as [e2 t2| |]; try discriminate. eapply K; eauto. }
  unfold bind at 1 in E. destruct (1 <=? msq); [|unfold ret at 1 in E; eapply Sl; exact E].
  unfold bind at 1 in E. destruct (idAt N (msq - 1) s) as [e1 t1| |]; try discriminate. unfold ret at 1 in E.
  destruct (isnull (ep e1)); [eapply Sl; exact E|].
  unfold bind at 1 in E. destruct (makeDDNode _ _ _ _ _ _ _ t1) as [e2 t2| |]; try discriminate. eapply K; exact E.
Qed.

(** A range that does not start at qubit 0 is built on the stored identity of the qubits below. *)
Theorem makeIdent_above_sp s O lsq msq : inv s -> owns (s_cc s) O -> 1 <= lsq <= msq -> msq < s_nq s -> isnull (ep (s_id s (msq - 1))) = false ->
  wp al0 (makeIdent N g nb lsq msq) s (fun r s' => step O s s' /\ owns (s_cc s') O /\ isid (co s') msq r /\ s_id s' msq = r).
Proof.
  intros I Ow Hl Hm Z1. unfold makeIdent. replace (msq <? lsq) with false by (symmetry; apply Z.ltb_ge; lia).
  replace (lsq =? 0) with false by (symmetry; apply Z.eqb_neq; lia). replace (1 <=? msq) with true by (symmetry; apply Z.leb_le; lia).
  assert (At: idAt N (msq - 1) s = Ok (s_id s (msq - 1)) s).
  { unfold idAt. assert (B: (msq - 1 <? 0) || (s_nq s <=? msq - 1) = false) by (apply orb_false_iff; split; [apply Z.ltb_ge|apply Z.leb_gt]; lia). now rewrite B. }
  pose proof (ti_id _ _ _ _ _ (iv_t _ _ _ _ _ I)) as Ti.
  apply wp_bind, wp_ret, wp_bind, wp_bind. unfold Inv.wp at 1. rewrite At. apply wp_ret. rewrite Z1.
  apply wp_bind. eapply wp_mono; [apply (mkident_sp s O msq (s_id s (msq - 1))); auto; try lia; now apply idok_isid|]. intros r s1 (S1 & O1 & H1).
  assert (Nq: s_nq s1 = s_nq s) by apply (qe_nq _ _ _ (sp_ext _ _ _ _ _ _ _ S1)).
  destruct (idSet_sp s1 O msq r) as (s2 & E2 & S2 & C2 & Q2); auto; [apply S1|lia|].
  eapply wp_bind_ok; [exact E2|]. apply wp_ret. split; [eapply step_trans; eauto|]. rewrite C2, Q2. split; auto. split; auto.
  unfold idSet in E2. destruct (_ || _); [discriminate|]. injection E2 as <-. cbn. unfold updZ. now rewrite Z.eqb_refl.
Qed.
Lemma makeIdent_hit s msq : 0 <= msq < s_nq s -> isnull (ep (s_id s msq)) = false -> makeIdent N g nb 0 msq s = Ok (s_id s msq) s.
Proof.
  intros Hm Z. unfold makeIdent. replace (msq <? 0) with false by (symmetry; apply Z.ltb_ge; lia). rewrite Z.eqb_refl.
  unfold bind, idAt. assert (B: (msq <? 0) || (s_nq s <=? msq) = false) by (apply orb_false_iff; split; [apply Z.ltb_ge|apply Z.leb_gt]; lia).
  rewrite B. unfold ret at 1. now rewrite Z.
Qed.
End IdentL.
