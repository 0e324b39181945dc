(** Specification of the Kronecker product. *)
From Coq Require Import ZArith List Bool Lia Arith Reals Lra Permutation.
From Verif Require Import Num Base CTable CTableWf Cx State Pkg Inv InvL PrimL NormL MkL TrL AddL MulL.
Import ListNotations.
Local Open Scope Z_scope.

Section KronL.
Context {N : num} {g : cfg N} {nb : kind -> Z} {X : numx N (g_ct g)} (G : gok g).
Local Notation cf := (g_ct g).
Local Notation co := (co N).
Local Notation qn := (qn N).
Local Notation linked := (linked N).
Local Notation c_ut := (c_ut N).
Local Notation Cw := (Cw N g X).
Local Notation Cv := (Cv N g X).
Local Notation Cv2 := (Cv2 N g X).
Local Notation dn := (dn N g X).
Local Notation de := (de N g X).
Local Notation dg := (dg N g X).
Local Notation wtab := (wtab N g X).
Local Notation etn := (etn N).
Local Notation isnode := (isnode N).
Local Notation tedge := (tedge N g X).
Local Notation gedge := (gedge N g X).
Local Notation cinv := (cinv N g nb X).
Local Notation uinv := (uinv N g nb X).
Local Notation nodeok := (nodeok N g nb X).
Local Notation inv := (inv N g nb X).
Local Notation step := (step N g nb X).
Local Notation qext := (qext N).
Local Notation owns := (owns N).
Local Notation wok := (wok N g X).
Local Notation wp := (wp N).
Local Notation al0 := (al0 N g X).
Local Notation nnorm := (nnorm N g X).
Local Notation iedge := (iedge (g:=g) (X:=X)).
Local Notation trsp := (trsp (nb:=nb) (X:=X)).
Local Notation unok := (unok N g X).
Local Notation binok := (binok N g X).
Local Notation addok := (addok N g X).
Local Notation tinv := (tinv N g X).
Local Notation vres := (vres N g X).
Local Notation dv := (dv N g X).
Local Notation mkpost := (mkpost (nb:=nb) (X:=X)).
Local Notation mulCached_sp := (mulCached_sp (nb:=nb) (X:=X) G).
Local Notation addCached_sp := (addCached_sp (nb:=nb) (X:=X) G).
Local Notation getCached_sp := (getCached_sp (nb:=nb) (X:=X) G).
Local Notation makeDDNode_sp := (makeDDNode_sp (nb:=nb) (X:=X) G).
Local Notation lookupC_sp := (lookupC_sp (nb:=nb) (X:=X) G).
Local Notation tedge_gedge := (tedge_gedge (nb:=nb) (X:=X)).
Local Notation child_ok := (child_ok (nb:=nb) (X:=X)).
Local Notation dn_ext := (dn_ext (nb:=nb) (X:=X)).
Local Notation Cw_eq0 := (Cw_eq0 (nb:=nb) (X:=X)).
Local Notation addInsert_sp := (addInsert_sp (g:=g) (nb:=nb) (X:=X)).
Local Notation binInsert_sp := (binInsert_sp (g:=g) (nb:=nb) (X:=X)).
Local Notation unInsert_sp := (unInsert_sp (g:=g) (nb:=nb) (X:=X)).
Local Notation addLookup_sp := (addLookup_sp (g:=g) (nb:=nb) (X:=X)).
Local Notation binLookup_sp := (binLookup_sp (g:=g) (nb:=nb) (X:=X)).
Local Notation unLookup_sp := (unLookup_sp (g:=g) (nb:=nb) (X:=X)).
Local Notation cres := (cres (g:=g) (X:=X)).
Local Notation addsp := (addsp (g:=g) (nb:=nb) (X:=X)).
Local Notation rel_sp := (rel_sp (g:=g) (nb:=nb) (X:=X)).
Local Notation relif_sp := (relif_sp (g:=g) (nb:=nb) (X:=X)).
Local Notation mapM_cres := (mapM_cres (g:=g) (nb:=nb) (X:=X)).
Local Notation de_step := (de_step (g:=g) (nb:=nb) (X:=X)).
Local Notation dg_step := (dg_step (g:=g) (nb:=nb) (X:=X)).
Local Notation mulSelf_sp := (mulSelf_sp (g:=g) (nb:=nb) (X:=X)).
Local Notation finish_sp := (finish_sp (g:=g) (nb:=nb) (X:=X) G).
Local Notation add2F_sp := (add2F_sp (g:=g) (nb:=nb) (X:=X) G).
Implicit Types (s : st N).

Local Notation al1 := (al1 N g X).

Lemma al01 b : al0 b -> al1 b.
Proof. intros [A B]. split; auto. Qed.
Lemma wp1 {A} (m : M N A) s (Q Q' : A -> st N -> Prop) : wp al0 m s Q -> (forall a s', Q a s' -> Q' a s') -> wp al1 m s Q'.
Proof. intros H K. eapply wp_al_mono; [exact H|exact al01|exact K]. Qed.

Lemma bind_inv {A B} (m : M N A) (f : A -> M N B) s b s' : bind m f s = Ok b s' ->
  exists a s1, m s = Ok a s1 /\ f a s1 = Ok b s'.
Proof. unfold bind. destruct (m s); try discriminate. eauto. Qed.

(** The weight of a matrix node built from stored edges is that of one of its successors. *)
Lemma mk_weight s k var es r s' O : k <> KV -> inv s -> (forall e, In e es -> tedge (co s) k (var - 1) e) -> length es = arity k ->
  makeDDNode N g nb k var es false s = Ok r s' -> step O s s' ->
  (exists e, In e es /\ wapx0 s (ew e) = false) ->
  ep r <> PTerm /\ exists e, In e es /\ wapx0 s (ew e) = false /\ ew r = ew e.
Proof.
  intros Hk I T Len E _ (e & He & Ze). change (mk N g nb (transposeF N g nb (fuelof N s)) k var es false false s = Ok r s') in E.
  unfold mk in E. destruct (getNode_sp (nb:=nb) (X:=X) O s k I) as (n & s1 & E1 & S1 & C1' & R1).
  unfold bind at 1 in E. rewrite E1 in E.
  assert (Z1: forall e, In e es -> wapx0 s1 (ew e) = wapx0 s (ew e)).
  { intros a Ha. apply wapx0_eq. eapply val_wok; [exact S1|left]. now apply T. }
  unfold bind at 1 in E. rewrite checkChildren_sp in E; [|intros a Ha; eapply etn_ext; [apply S1|apply T; auto]].
  apply bind_inv in E. destruct E as (nr & s2 & En & E).
  assert (H: exists e', In e' es /\ wapx0 s1 (ew e') = false /\ exists es', nr = NOk es' (ew e')).
  { clear E. assert (En': normalizeM N g false es s1 = Ok nr s2) by (destruct k; auto; congruence). clear En. unfold normalizeM in En'.
    unfold bind at 1 in En'. cbn [get] in En'. set (zs := map (fun e => wapx0 s1 (ew e)) es) in *.
    assert (Rel: forall l, mapM N (fun q => relz N false (fst q) (snd q)) l s1 = Ok (map snd l) s1).
    { induction l as [|a l IH]; [reflexivity|]. cbn [mapM]. unfold bind. unfold relz at 1. cbn [andb ret]. rewrite IH. reflexivity. }
    unfold bind at 1 in En'. rewrite Rel in En'.
    assert (Sn: map snd (combine zs es) = es). { unfold zs. clear. induction es; simpl; congruence. }
    rewrite Sn in En'. pose proof (argmaxM_sp (X:=X) s1 zs es [] [] None eq_refl) as A. simpl length in A. simpl app in A.
    assert (Lz: length zs = length es) by (unfold zs; now rewrite map_length).
    specialize (A ltac:(auto) (Forall_nil _)). destruct (argmaxM N s1 0 zs es None) as [[am m]|].
    - destruct A as (A1 & A2 & _). exists (nth am es Ezero). split; [apply nth_In; lia|]. split.
      + rewrite <- A2. unfold zs. rewrite (nth_indep _ true (wapx0 s1 (ew Ezero))) by (unfold zs in A1; auto).
        now rewrite (map_nth (fun e => wapx0 s1 (ew e))).
      + apply bind_inv in En'. destruct En' as (es' & s3 & _ & En'). unfold ret in En'; injection En' as <- _. eauto.
    - exfalso. simpl in A. rewrite Forall_forall in A. rewrite <- (Z1 e He) in Ze. rewrite (A (wapx0 s1 (ew e))) in Ze; [discriminate|].
      unfold zs. apply in_map_iff. exists e; auto. }
  destruct H as (e' & He' & Z' & es' & ->). apply bind_inv in E. destruct E as (l & s3 & _ & E).
  apply bind_inv in E. destruct E as (u & s4 & _ & E). unfold ret in E; injection E as <- _. cbn [ep ew]. split; [discriminate|].
  exists e'. split; auto. split; auto. now rewrite <- Z1.
Qed.

(** The same without the assumption on the successors. *)
Lemma mk_weight0 s k var es r s' O : k <> KV -> inv s -> (forall e, In e es -> tedge (co s) k (var - 1) e) -> length es = arity k ->
  makeDDNode N g nb k var es false s = Ok r s' -> step O s s' ->
  r = Ezero \/ exists e, In e es /\ ew r = ew e.
Proof.
  intros Hk I T Len E St. destruct (existsb (fun e => negb (wapx0 s (ew e))) es) eqn:B.
  - apply existsb_exists in B. destruct B as (e & He & Ze). apply negb_true_iff in Ze. right.
    destruct (mk_weight s k var es r s' O Hk I T Len E St) as (_ & e' & H1 & _ & H2); eauto.
  - left. change (mk N g nb (transposeF N g nb (fuelof N s)) k var es false false s = Ok r s') in E.
    assert (Za: forall e, In e es -> wapx0 s (ew e) = true).
    { intros e He. destruct (wapx0 s (ew e)) eqn:Z; auto. exfalso. assert (existsb (fun e => negb (wapx0 s (ew e))) es = true) by (apply existsb_exists; exists e; now rewrite Z). congruence. }
    unfold mk in E. destruct (getNode_sp (nb:=nb) (X:=X) O s k I) as (n & s1 & E1 & S1 & C1' & R1).
    unfold bind at 1 in E. rewrite E1 in E.
    assert (Z1: forall e, In e es -> wapx0 s1 (ew e) = true).
    { intros a Ha. rewrite <- (Za a Ha). apply wapx0_eq. eapply val_wok; [exact S1|left]. now apply T. }
    unfold bind at 1 in E. rewrite checkChildren_sp in E; [|intros a Ha; eapply etn_ext; [apply S1|apply T; auto]].
    apply bind_inv in E. destruct E as (nr & s2 & En & E).
    assert (H: nr = NRet).
    { clear E. assert (En': normalizeM N g false es s1 = Ok nr s2) by (destruct k; auto; congruence). clear En. unfold normalizeM in En'.
      unfold bind at 1 in En'. cbn [get] in En'. set (zs := map (fun e => wapx0 s1 (ew e)) es) in *.
      assert (Rel: forall l, mapM N (fun q => relz N false (fst q) (snd q)) l s1 = Ok (map snd l) s1).
      { induction l as [|a l IH]; [reflexivity|]. cbn [mapM]. unfold bind. unfold relz at 1. cbn [andb ret]. rewrite IH. reflexivity. }
      unfold bind at 1 in En'. rewrite Rel in En'.
      assert (Sn: map snd (combine zs es) = es). { unfold zs. clear. induction es; simpl; congruence. }
      rewrite Sn in En'.
      assert (Am: forall l i, (forall e, In e l -> wapx0 s1 (ew e) = true) -> argmaxM N s1 i (map (fun e => wapx0 s1 (ew e)) l) l None = None).
      { induction l as [|a l IH]; intros i Hl; [reflexivity|]. cbn [map argmaxM]. rewrite (Hl a) by (now left). apply IH. intros; apply Hl; now right. }
      unfold zs in En'. rewrite Am in En' by auto. unfold ret in En'. injection En' as <- _. reflexivity. }
    subst nr. apply bind_inv in E. destruct E as (u & s3 & _ & E). unfold ret in E. injection E as <- _. reflexivity.
Qed.

(** A diagram whose weight is not zero has a non-zero entry. *)
Lemma dn_nz q k : ex X -> cinv q -> forall n l p, Z.of_nat n = l + 1 -> isnode q k l p \/ (l = -1 /\ p = PTerm) ->
  exists path, vpath k l path /\ dn q k p path <> C0.
Proof.
  intros Ex I. induction n as [|n IH]; intros l p Hn H.
  - destruct H as [H|[-> ->]].
    + apply (isnode_lvl (nb:=nb) (X:=X)) in H; auto. lia.
    + exists []. split; [apply vpath_nil|]. simpl. apply C1_neq_0.
  - destruct H as [H|[-> _]]; [|lia]. apply isnode_n in H. destruct H as (m & -> & L & Nv).
    pose proof (linked_ok (nb:=nb) (X:=X) _ _ _ I L) as (b & K & _). pose proof (no_norm _ _ _ _ _ _ _ _ _ K Ex) as Nn.
    assert (Q: exists i, (i < arity k)%nat /\ Cw q (ew (nthe (ne (qn q k m)) i)) <> C0).
    { assert (One: Cw q Cone <> C0) by (rewrite Cw_one by auto; apply C1_neq_0).
      unfold Inv.nnorm in Nn. destruct k.
      - destruct Nn as [[_ B]|[[A _]|(A & _)]]; [exists 1%nat|exists 0%nat|exists 0%nat]; (split; [simpl; lia|]); rewrite ?A, ?B; auto.
      - destruct Nn as (am & Ha & A & _). exists am. split; [simpl; lia|]. rewrite A; auto.
      - destruct Nn as (am & Ha & A & _). exists am. split; [simpl; lia|]. rewrite A; auto. }
    destruct Q as (i & Hi & Wi). set (e := nthe (ne (qn q k m)) i) in *.
    assert (T: tedge q k (l - 1) e). { unfold e. rewrite <- Nv. apply child_ok; auto. }
    assert (Z: ew e <> Czero). { intros Z. apply Wi. rewrite Z. now apply Cw_zero. }
    destruct (IH (l - 1) (ep e)) as (path & V & D). { lia. }
    { destruct T as [A B D E]. destruct (ep e) as [| |a] eqn:Ep; [contradiction| |].
      - destruct (D eq_refl); [right; split; auto; lia|contradiction].
      - left. split; auto. discriminate. }
    exists (i :: path). split; [apply vpath_cons; auto|]. rewrite dn_cons. unfold Inv.de. now apply Cmul_neq.
Qed.

Lemma idm_cons0 p : idm (0%nat :: p) = idm p. Proof. reflexivity. Qed.
Lemma idm_cons3 p : idm (3%nat :: p) = idm p. Proof. reflexivity. Qed.
Lemma idm_cons1 p : idm (1%nat :: p) = C0. Proof. reflexivity. Qed.
Lemma idm_cons2 p : idm (2%nat :: p) = C0. Proof. reflexivity. Qed.

Lemma de_zero q k p : ex X -> de q k Ezero p = C0.
Proof. intros Ex. unfold Inv.de. cbn [ew Ezero]. rewrite Cw_zero by auto. ring. Qed.

Lemma idtower_sp : forall cnt s O e l, -1 <= l -> l + Z.of_nat cnt < s_nq s -> inv s -> owns (s_cc s) O -> tedge (co s) KM l e ->
  wapx0 s (ew e) = false ->
  wp al0 (idtower N g nb true cnt e) s (fun r s' => step O s s' /\ owns (s_cc s') O /\ tedge (co s') KM (l + Z.of_nat cnt) r /\ ew r = ew e /\
    (ex X -> forall p1 p2, vpath KM (Z.of_nat cnt - 1) p1 -> vpath KM l p2 -> de (co s') KM r (p1 ++ p2) = (idm p1 * de (co s) KM e p2)%C)).
Proof.
  induction cnt as [|cnt IH]; intros s O e l Hl Hq I Ow T Z; cbn [idtower].
  - apply wp_ret. split; [now apply step_refl|]. split; auto. split; [now rewrite Z.add_0_r|]. split; auto.
    intros Ex p1 p2 V1 V2. apply vpath_m1 in V1. subst p1. simpl. unfold idm. simpl. ring.
  - apply wp_bind, wp_get. cbv zeta.
    assert (Ze: ew e <> Czero) by (intros H; rewrite H, wapx0_zero in Z; discriminate).
    assert (Lv: lvl s KM (ep e) = l).
    { destruct (Z.eq_dec l (-1)) as [->|Hn].
      - rewrite (tedge_term s KM (-1) e I T) by lia. reflexivity.
      - destruct (tedge_node0 s KM l e I T Ze) as (nx & Epx & Lx & Vx); [lia|]. rewrite Epx. exact Vx. }
    rewrite Lv. apply wp_bind.
    assert (Tes: forall a, In a [e; Ezero; Ezero; e] -> tedge (co s) KM (l + 1 - 1) a).
    { replace (l + 1 - 1) with l by lia. intros a [<-|[<-|[<-|[<-|[]]]]]; auto; apply tedge_zero. }
    pose proof (makeDDNode_t (nb:=nb) (X:=X) G KM (l + 1) s [e; Ezero; Ezero; e] O I Ow eq_refl ltac:(lia) Tes) as M.
    pose proof (mk_weight s KM (l + 1) [e; Ezero; Ezero; e]) as W.
    unfold Inv.wp in M |- *. destruct (makeDDNode N g nb KM (l + 1) [e; Ezero; Ezero; e] false s) as [r s1| |]; auto.
    destruct M as (S1 & O1 & T1 & _ & V1). destruct (W r s1 O) as (Pr & e' & He' & Ze' & Er); auto. { discriminate. } { exists e. simpl; auto. }
    assert (Er': ew r = ew e). { destruct He' as [<-|[<-|[<-|[<-|[]]]]]; auto; rewrite wapx0_zero in Ze'; discriminate. }
    assert (Zr: wapx0 s1 (ew r) = false).
    { rewrite Er', <- Z. apply wapx0_eq. eapply val_wok; [exact S1|left; apply T]. }
    pose proof (IH s1 O r (l + 1)) as Q. unfold Inv.wp in Q.
    assert (Nq: s_nq s1 = s_nq s) by apply (qe_nq _ _ _ (sp_ext _ _ _ _ _ _ _ S1)).
    specialize (Q ltac:(lia) ltac:(lia) (sp_inv _ _ _ _ _ _ _ S1) O1 T1 Zr).
    destruct (idtower N g nb true cnt r s1) as [r' s2| |]; auto. destruct Q as (S2 & O2 & T2 & E2 & V2).
    split; [eapply step_trans; eauto|]. split; auto. split; [replace (l + Z.of_nat (S cnt)) with (l + 1 + Z.of_nat cnt) by lia; auto|].
    split; [congruence|]. intros Ex p1 p2 Vp1 Vp2.
    assert (Sp: exists q1 i, p1 = q1 ++ [i] /\ vpath KM (Z.of_nat cnt - 1) q1 /\ (i < 4)%nat).
    { clear - Vp1. destruct Vp1 as [L F]. destruct (rev p1) as [|i rq] eqn:R.
      - apply (f_equal (@length nat)) in R. rewrite rev_length in R. simpl in R. lia.
      - apply (f_equal (@rev nat)) in R. rewrite rev_involutive in R. simpl in R. subst p1. exists (rev rq), i.
        rewrite Forall_app in F. destruct F as [F1 F2]. inversion F2; subst. rewrite app_length in L. cbn [length] in L.
        split; auto. split; auto. split; auto. lia. }
    destruct Sp as (q1 & i & -> & Vq & Hi). rewrite <- app_assoc. rewrite V2; auto.
    2: { apply vpath_cons. split; auto. now replace (l + 1 - 1) with l by lia. }
    cbn [app]. rewrite V1; auto. 2: { now replace (l + 1 - 1) with l by lia. }
    assert (Id: idm (q1 ++ [i]) = (idm q1 * idm [i])%C).
    { unfold idm. rewrite forallb_app. destruct (forallb _ q1); simpl; [rewrite Cmul_1_l; reflexivity|ring]. }
    rewrite Id. destruct i as [|[|[|[|i]]]]; [| | | |lia]; cbn [nthe nth]; rewrite ?de_zero by auto; unfold idm; simpl; ring.
Qed.

(** A list of intermediate results with a relation to their values. *)
Lemma mapM_cresR {A} (d : A) al k l (f : A -> M N edge) (V : A -> list nat -> C -> Prop) (P : A -> edge -> Prop) : forall idx s O,
  inv s -> owns (s_cc s) O ->
  (forall i s1 O1, In i idx -> inv s1 -> step O s s1 -> owns (s_cc s1) O1 -> incl O O1 ->
     wp al (f i) s1 (fun r s2 => step O1 s1 s2 /\ cres k l O1 s2 r /\ P i r /\
       (ex X -> forall path, vpath k l path -> V i path (dg s2 k r path)))) ->
  wp al (mapM N f idx) s (fun es s' => step O s s' /\ length es = length idx /\ owns (s_cc s') (slots es ++ O) /\
    (forall e, In e es -> iedge s' true k l e) /\ (forall j, (j < length idx)%nat -> P (nth j idx d) (nthe es j)) /\
    (ex X -> forall j, (j < length idx)%nat -> ew (nthe es j) <> Czero -> Cv s' (ew (nthe es j)) <> C0) /\
    (ex X -> forall j path, (j < length idx)%nat -> vpath k l path -> V (nth j idx d) path (dg s' k (nthe es j) path))).
Proof.
  induction idx as [|i idx IH]; intros s O I Ow H; cbn [mapM].
  - apply wp_ret. split; [now apply step_refl|]. split; auto. split; auto. split; [intros e []|]. simpl. repeat split; intros; lia.
  - apply wp_bind. eapply wp_mono; [apply (H i s O); auto; [now left|now apply step_refl|apply incl_refl]|].
    intros r s1 (S1 & R1 & P1 & V1). apply wp_bind. assert (I1: inv s1) by apply S1.
    assert (Inc: incl O (wslots (ew r) ++ O)) by apply incl_appr, incl_refl.
    eapply wp_mono; [apply (IH s1 (wslots (ew r) ++ O)); auto; [apply R1|]|].
    { intros j s2 O2 Hj I2 S2 Ow2 In2. apply H; auto; [now right| |eapply incl_tran; eauto].
      eapply step_trans; [exact S1|]. eapply step_weak; eauto. }
    intros es s2 (S2 & L2 & Ow2 & W2 & P2 & Z2 & V2). apply wp_ret.
    split; [eapply step_trans; [exact S1|]; eapply step_weak; eauto|].
    split; [simpl; congruence|]. split; [|split; [|split; [|split]]].
    + eapply owns_perm; [|exact Ow2]. rewrite slots_cons, !app_assoc. apply Permutation_app_tail, Permutation_app_comm.
    + intros e [<-|He]; auto. eapply iedge_step; [exact S2|]. eapply cres_iedge; eauto.
    + intros [|j] Hj; [exact P1|]. simpl in Hj. apply P2. lia.
    + intros Ex [|j] Hj; simpl in Hj; cbn [nthe nth]; [|apply Z2; auto; lia].
      intros Z. rewrite (Cv_step _ _ _ _ S2) by apply R1. eapply gedge_nz; eauto. apply R1.
    + intros Ex [|j] path Hj Vp.
      * cbn [nthe nth]. erewrite dg_step; [|exact I1|exact S2|apply R1|exact Vp]. now apply V1.
      * cbn [nthe nth]. apply V2; auto. simpl in Hj. lia.
Qed.

Definition kx (k : kind) (q : core N) (l : Z) (x : edge) : Prop := k = KM -> kgood N g X q (Z.to_nat (l + 1)) x.

Lemma binok_kron k q x y r : k <> KD -> binok q (bkron k) x y r <->
  exists lx ly, 0 <= lx /\ isnode q k lx (ep x) /\ wtab q (ew x) /\ tedge q k ly y /\ -1 <= ly /\
      (ep y = PTerm -> ly = -1) /\
      vres q k (lx + ly + 1) r /\ (ex X -> Cv2 (vw r) <> C0) /\
      (ex X -> kx k q lx x -> forall p1 p2, vpath k lx p1 -> vpath k ly p2 ->
         dv q k r (p1 ++ p2) = (de q k x p1 * de q k y p2)%C).
Proof.
  intros H. destruct k; [| |congruence]; unfold Inv.binok, bkron, kx.
  - split; intros (lx & ly & A1 & A2 & A3 & A4 & A5 & A6 & A7 & A8 & A9); exists lx, ly; do 8 (split; [assumption|]);
      intros Ex _; apply A9; auto; discriminate.
  - split; intros (lx & ly & A1 & A2 & A3 & A4 & A5 & A6 & A7 & A8 & A9); exists lx, ly; do 8 (split; [assumption|]);
      intros Ex Hk; apply A9; auto.
Qed.

Lemma vpath_split k l1 l2 p : -1 <= l1 -> -1 <= l2 -> vpath k (l1 + l2 + 1) p ->
  exists p1 p2, p = p1 ++ p2 /\ vpath k l1 p1 /\ vpath k l2 p2.
Proof.
  intros H1 H2 [L F]. exists (firstn (Z.to_nat (l1 + 1)) p), (skipn (Z.to_nat (l1 + 1)) p).
  rewrite <- (firstn_skipn (Z.to_nat (l1 + 1)) p) in F. apply Forall_app in F. destruct F as [F1 F2].
  split; [now rewrite firstn_skipn|]. split; (split; [|auto]).
  - rewrite firstn_length. lia. - rewrite skipn_length. lia.
Qed.

Lemma app_inj_len {A} (a b c d : list A) : length a = length c -> a ++ b = c ++ d -> a = c /\ b = d.
Proof.
  revert c. induction a as [|x a IH]; intros [|y c] L H; simpl in *; try discriminate; auto.
  injection H as -> H. destruct (IH c) as [-> ->]; auto.
Qed.

Definition kronpost (k : kind) (lx ly : Z) (O : list nat) s (x y r : edge) s' : Prop :=
  step O s s' /\ cres k (lx + ly + 1) O s' r /\
  (ex X -> ew x <> Czero -> ew y <> Czero -> ew r <> Czero) /\
  (ex X -> kx k (co s) lx x -> forall p1 p2, vpath k lx p1 -> vpath k ly p2 ->
     dg s' k r (p1 ++ p2) = (de (co s) k x p1 * de (co s) k y p2)%C).

Lemma kron2F_sp k : k <> KD -> forall f lx ly s O x y, -1 <= lx -> -1 <= ly -> lx + ly + 1 < s_nq s -> lx + 1 < Z.of_nat f ->
  inv s -> owns (s_cc s) O -> tedge (co s) k lx x -> tedge (co s) k ly y ->
  wp al1 (kron2F N g nb f k x y true) s (kronpost k lx ly O s x y).
Proof.
  intros Hk. induction f as [|f IH]; intros lx ly s O x y Hlx Hly Hq Hf I Ow Tx Ty; [lia|]. cbn [kron2F].
  unfold Inv.wp. destruct (wapx0 s (ew x) || wapx0 s (ew y)) eqn:Z.
  { split; [now apply step_refl|]. split; [now apply cres_zero|].
    assert (Zz: ex X -> ew x = Czero \/ ew y = Czero).
    { intros Ex. apply orb_true_iff in Z. destruct Z as [Z|Z]; [left|right]; apply (x_wapx0 (X:=X)) in Z; auto; rewrite Cv_Cw in Z; auto;
        try apply Tx; try apply Ty; apply Cw_eq0 in Z; auto; try apply I; try apply Tx; try apply Ty. }
    split. { intros Ex A B. destruct (Zz Ex); contradiction. }
    intros Ex _ p1 p2 _ _. rewrite dg_zero by auto. unfold Inv.de. destruct (Zz Ex) as [->| ->]; rewrite Cw_zero by auto; ring. }
  apply orb_false_iff in Z. destruct Z as [Zx Zy].
  assert (Zx': ew x <> Czero). { intros H. rewrite H, wapx0_zero in Zx. discriminate. }
  assert (Zy': ew y <> Czero). { intros H. rewrite H, wapx0_zero in Zy. discriminate. }
  assert (Wx: ex X -> Cw (co s) (ew x) <> C0). { intros Ex H. apply Cw_eq0 in H; auto; [apply I|apply Tx]. }
  assert (Wy: ex X -> Cw (co s) (ew y) <> C0). { intros Ex H. apply Cw_eq0 in H; auto; [apply I|apply Ty]. }
  assert (PY: ep y = PTerm -> ly = -1). { intros E. destruct (te_t _ _ _ _ _ _ _ Ty E); auto. contradiction. }
  destruct (ep x) as [| |n] eqn:Epx.
  { destruct Tx as [A _ _ _]. rewrite Epx in A. contradiction. }
  { destruct (te_t _ _ _ _ _ _ _ Tx Epx) as [Hl|Hl]; [|contradiction]. subst lx. replace (-1 + ly + 1) with ly in * by lia.
    destruct (mulCached_sp s O (ew x) (ew y)) as (p & q & s1 & E1 & O1 & S1 & V1); auto; [left; apply Tx|left; apply Ty|].
    unfold bind. rewrite E1. cbn [ret]. unfold kronpost. replace (-1 + ly + 1) with ly by lia. split; auto.
    assert (V1': ex X -> Cv s1 (cslot p q) = (Cw (co s) (ew x) * Cw (co s) (ew y))%C).
    { intros Ex. rewrite V1 by auto. rewrite !Cv_Cw; auto; try apply Tx; apply Ty. }
    split; [apply cres_slot; auto; [eapply etn_ext; [apply S1|apply Ty]|intros Ex; rewrite V1' by auto; apply Cmul_neq; auto]|].
    split. { intros _ _ _. discriminate. }
    intros Ex _ p1 p2 V P2. apply vpath_m1 in V. subst p1. simpl app. unfold Inv.dg, Inv.de. cbn [ew ep]. rewrite V1' by auto.
    rewrite Epx, dn_term. rewrite (dn_ext (co s) (co s1) k) with (l:=ly); auto; [ring|apply I|apply S1|apply Ty]. }
  assert (NX: isnode (co s) k lx (PNode n)). { split; [|discriminate]. rewrite <- Epx. apply Tx. }
  assert (Hlx0: 0 <= lx) by (apply (isnode_lvl (nb:=nb) (X:=X)) in NX; [lia|apply I]).
  assert (L: linked (co s) k n) by apply NX. assert (Nv: nv (nod s k n) = lx) by apply NX.
  destruct (binLookup_sp O s (bkron k) x y I) as (r & s1 & E1 & S1 & C1' & Q1 & H1).
  assert (I1: inv s1) by apply S1. rewrite <- C1' in Ow.
  match goal with |- match ?m s with Ok a s' => _ | Thr _ _ => _ | Bad b => _ end => change (wp al1 m s (kronpost k lx ly O s x y)) end.
  eapply wp_bind_ok; [exact E1|].
  destruct r as [r|].
  - destruct H1 as (x' & y' & B & Ekx & Eky). apply binok_kron in B; auto.
    destruct B as (lx' & ly' & B1 & B2 & B3 & B4 & B5 & B6 & B7 & B8 & B9).
    pose proof (edge_eqb_p _ _ _ Ekx) as Px. pose proof (edge_eqb_p _ _ _ Eky) as Py.
    assert (lx' = lx). { apply (nptr_etn_lvl (co s) k lx' lx (ep x)); [rewrite <- Px; apply B2|rewrite Epx; apply NX|rewrite Epx; apply NX]. } subst lx'.
    assert (ly' = ly).
    { destruct (ep y) as [| |m] eqn:Epy.
      - destruct Ty as [A _ _ _]. rewrite Epy in A. contradiction.
      - rewrite PY, B6; auto.
      - apply (nptr_etn_lvl (co s) k ly' ly (PNode m)); [rewrite <- Py; apply B4|rewrite <- Epy; apply Ty|discriminate]. } subst ly'.
    assert (XE: ex X -> x' = x /\ y' = y).
    { intros Ex. split; [apply (edge_eqb_x (nb:=nb) (X:=X) s)|apply (edge_eqb_x (nb:=nb) (X:=X) s)]; auto; try apply Tx; try apply Ty; apply B4. }
    destruct (vapx0 (vw r)) eqn:Zr.
    + apply wp_ret. split; auto. split; [now apply cres_zero|].
      assert (F: ex X -> False). { intros Ex. apply (B8 Ex). now apply (x_vapx0 (X:=X)). }
      split; intros Ex; destruct (F Ex).
    + destruct (getCached_sp s1 (vw r) O) as (a & b & s2 & E2 & O2 & S2 & V2); auto.
      eapply wp_bind_ok; [exact E2|]. apply wp_ret. destruct B7 as (T1 & T2 & T3). rewrite <- Q1 in T1.
      assert (Cv2': Cv s2 (cslot a b) = Cv2 (vw r)) by (unfold Inv.Cv; now rewrite V2).
      split; [eapply step_trans; eauto|]. split; [|split].
      * apply cres_slot; auto. { eapply etn_ext; [apply S2|auto]. } { intros E. destruct (T2 E); auto. congruence. } { rewrite Cv2'. auto. }
      * intros _ _ _. discriminate.
      * intros Ex Kx p1 p2 V1 Vp2. destruct (XE Ex) as [-> ->]. rewrite <- (B9 Ex Kx p1 p2 V1 Vp2). unfold Inv.dg, Inv.dv. cbn [ew ep]. rewrite Cv2'.
        f_equal. rewrite <- Q1. eapply dn_ext; eauto; [apply I1|apply S2|now apply vpath_app].
  - clear H1. apply wp_bind, wp_get.
    assert (Nod1: nod s1 k n = nod s k n) by (change (qn (co s1) k n = qn (co s) k n); now rewrite Q1). rewrite Nod1.
    destruct (match k with KV => false | _ => nid (nod s k n) end) eqn:Idn.
    + assert (k = KM) by (destruct k; congruence). subst k.
      apply wp_bind. eapply wp1.
      { apply (idtower_sp (S (Z.to_nat (nv (nod s KM n)))) s1 O y ly); auto.
        - rewrite Nv. rewrite (qe_nq _ _ _ (sp_ext _ _ _ _ _ _ _ S1) : s_nq s1 = s_nq s). lia.
        - eapply tedge_ext; [apply S1|auto].
        - rewrite <- Zy. apply wapx0_eq. eapply val_wok; [exact S1|left; apply Ty]. }
      rewrite Nv. replace (ly + Z.of_nat (S (Z.to_nat lx))) with (lx + ly + 1) by lia.
      replace (Z.of_nat (S (Z.to_nat lx)) - 1) with lx by lia.
      intros e s2 (S2 & O2 & T2 & We & V2). apply wp_bind, wp_get. assert (I2: inv s2) by apply S2.
      destruct (getCached_sp s2 (cval s2 (ew y)) O) as (a & b & s3 & E3 & O3 & S3 & V3); auto.
      eapply wp_bind_ok; [exact E3|]. apply wp_bind, wp_get.
      assert (S02: step O s s2) by (eapply step_trans; eauto).
      assert (S03: step O s s3) by (eapply step_trans; eauto).
      assert (V3': ex X -> Cv s3 (cslot a b) = Cw (co s) (ew y)).
      { intros Ex. unfold Inv.Cv. rewrite V3. change (Cv s2 (ew y) = Cw (co s) (ew y)).
        rewrite (Cv_step _ _ _ _ S02) by (left; apply Ty). apply Cv_Cw; auto. apply Ty. }
      assert (Val: ex X -> kx KM (co s) lx x -> forall p1 p2, vpath KM lx p1 -> vpath KM ly p2 ->
        (Cv s3 (cslot a b) * dn (co s3) KM (ep e) (p1 ++ p2) = de (co s) KM x p1 * de (co s) KM y p2)%C).
      { intros Ex Kx p1 p2 P1 P2. pose proof (V2 Ex p1 p2 P1 P2) as V. unfold Inv.de at 1 in V. rewrite We in V.
        rewrite (Cw_ext (co s) (co s2) (ew y)) in V; [|apply S02|apply Ty]. rewrite (V3' Ex).
        rewrite (dn_ext (co s2) (co s3) KM) with (l:=lx + ly + 1); [|apply I2|apply S3|apply T2|now apply vpath_app]. rewrite V. rewrite Q1. f_equal.
        specialize (Kx eq_refl). replace (Z.to_nat (lx + 1)) with (S (Z.to_nat lx)) in Kx by lia. cbn [kgood] in Kx. destruct Kx as [Kx _].
        rewrite Z2Nat.id, Epx in Kx by lia.
        assert (D: forall path, vpath KM lx path -> dn (co s) KM (PNode n) path = idm path).
        { destruct (linked_ok (nb:=nb) (X:=X) _ _ _ (iv_c _ _ _ _ _ I) L) as (bb & K & _). change (Inv.qn N (co s) KM n) with (nod s KM n) in K. rewrite Nv in K.
          apply (no_id _ _ _ _ _ _ _ _ _ K Ex eq_refl). exact Idn. }
        unfold Inv.de. rewrite (Kx D), Cw_one, Epx, D by auto. ring. }
      destruct (binInsert_sp O s3 (bkron KM) x y (mkve s3 (ep e) (cslot a b))) as (s4 & E4 & S4 & C4 & Q4).
      { apply S3. }
      { apply binok_kron; auto. exists lx, ly. split; auto. split; [rewrite Epx; eapply isnode_ext; [apply S03|exact NX]|].
        split; [eapply wtab_ext; [apply S03|apply Tx]|]. split; [eapply tedge_ext; [apply S03|apply Ty]|]. split; auto. split; auto.
        assert (Vn: ex X -> Cv2 (vw (mkve s3 (ep e) (cslot a b))) <> C0). { intros Ex. change (Cv s3 (cslot a b) <> C0). rewrite (V3' Ex). auto. }
        split; [|split; auto].
        - split; [eapply etn_ext; [apply S3|apply T2]|]. split.
          + cbn [vp mkve]. intros Et. destruct (te_t _ _ _ _ _ _ _ T2 Et); auto. congruence.
          + intros Ex H. destruct (Vn Ex H).
        - intros Ex Kx p1 p2 P1 P2. unfold Inv.dv. change (Cv2 (vw (mkve s3 (ep e) (cslot a b)))) with (Cv s3 (cslot a b)). cbn [vp mkve].
          rewrite Val; auto.
          + f_equal.
            * unfold Inv.de. rewrite (Cw_ext (co s) (co s3) (ew x)); [|apply S03|apply Tx]. f_equal. symmetry. eapply dn_ext; eauto; [apply I|apply S03|apply Tx].
            * symmetry. eapply de_step; eauto.
          + intros _. apply (kgood_ext (nb:=nb) (X:=X) (co s) (co s3)); [apply I|apply S03| |apply Kx; auto].
            rewrite Z2Nat.id by lia. replace (lx + 1 - 1) with lx by lia. apply Tx. }
      eapply wp_bind_ok; [exact E4|]. apply wp_ret.
      assert (Cv4: cc_val (s_cc s4) = cc_val (s_cc s3)) by now rewrite C4.
      split; [eapply step_trans; eauto|]. split; [|split].
      * apply (cres_rel s3 s4 O O); auto; [|cbn [ew]; rewrite C4; exact O3]. apply cres_slot; [| |exact O3|].
        { eapply etn_ext; [apply S3|apply T2]. } { intros Et. destruct (te_t _ _ _ _ _ _ _ T2 Et); auto. congruence. }
        { intros Ex. rewrite (V3' Ex). auto. }
      * intros _ _ _. discriminate.
      * intros Ex Kx p1 p2 P1 P2. rewrite (dg_rel _ _ _ _ _ Q4 Cv4). unfold Inv.dg. cbn [ew ep]. auto.
    + apply wp_bind.
      assert (Ch: forall i, (i < arity k)%nat -> tedge (co s) k (lx - 1) (nthe (ne (nod s k n)) i)).
      { intros i Hi. rewrite <- Nv. apply child_ok; auto. apply I. }
      eapply wp_mono; [apply (mapM_cresR 0%nat al1 k (lx - 1 + ly + 1) _
        (fun i path c => kx k (co s) (lx - 1) (nthe (ne (nod s k n)) i) -> forall p1 p2, vpath k (lx - 1) p1 -> vpath k ly p2 -> path = p1 ++ p2 ->
            c = (de (co s) k (nthe (ne (nod s k n)) i) p1 * de (co s) k y p2)%C)
        (fun i r => ex X -> ew (nthe (ne (nod s k n)) i) <> Czero -> ew r <> Czero)
        (seq 0 (arity k)) s1 O); auto|].
      { intros i s2 O2 Hi I2 S2 Ow2 In2. apply in_seq in Hi. assert (S02: step O s s2) by (eapply step_trans; eauto).
        eapply wp_mono; [apply (IH (lx - 1) ly s2 O2); auto; try lia|].
        - rewrite (qe_nq _ _ _ (sp_ext _ _ _ _ _ _ _ S02) : s_nq s2 = s_nq s). lia.
        - eapply tedge_ext; [apply S02|apply Ch; lia].
        - eapply tedge_ext; [apply S02|auto].
        - intros r s3 (S3 & R3 & Z3 & V3). split; auto. split; auto. split; [auto|].
          intros Ex path V Kx p1 p2 P1 P2 ->. rewrite V3; auto.
          + f_equal; eapply de_step; eauto; apply Ch; lia.
          + intros Ek. subst k. apply (kgood_ext (nb:=nb) (X:=X) (co s) (co s2)); [apply I|apply S02| |apply Kx; auto].
            rewrite Z2Nat.id by lia. replace (lx - 1 + 1 - 1) with (lx - 1) by lia. apply Ch. lia. }
      rewrite seq_length. intros es s2 (S2 & L2 & Ow2 & W2 & P2 & Z2 & V2). apply wp_bind, wp_get. cbv zeta.
      assert (S02: step O s s2) by (eapply step_trans; eauto). assert (I2: inv s2) by apply S2.
      assert (Lv: lvl s2 k (ep y) + nv (nod s k n) + 1 = lx + ly + 1).
      { rewrite Nv. assert (Ty2: tedge (co s2) k ly y) by (eapply tedge_ext; [apply S02|auto]).
        assert (lvl s2 k (ep y) = ly); [|lia]. destruct (Z.eq_dec ly (-1)) as [->|Hn].
        - rewrite (tedge_term s2 k (-1) y I2 Ty2) by lia. reflexivity.
        - destruct (tedge_node0 s2 k ly y I2 Ty2 Zy') as (ny & Epy & Ly & Vy); [lia|]. rewrite Epy. exact Vy. }
      destruct (qe_same _ _ _ _ (sp_ext _ _ _ _ _ _ _ S02) L) as (_ & _ & Nv2 & _).
      change (Inv.qn N (co s2) k n) with (nod s2 k n) in Nv2. change (Inv.qn N (co s) k n) with (nod s k n) in Nv2. rewrite <- Nv2, Lv. apply wp_bind. eapply wp1; [apply (makeDDNode_sp s2 k (lx + ly + 1) es true O); auto|].
      { rewrite (qe_nq _ _ _ (sp_ext _ _ _ _ _ _ _ S02) : s_nq s2 = s_nq s). lia. }
      { replace (lx + ly + 1 - 1) with (lx - 1 + ly + 1) by lia. auto. }
      intros e s3 P. assert (S3: step O s2 s3) by apply P.
      pose proof (cres_mk k (lx + ly + 1) es O s2 e s3 ltac:(lia) P) as R3.
      assert (S03: step O s s3) by (eapply step_trans; eauto).
      assert (Enz: ex X -> ew e <> Czero).
      { intros Ex He. destruct (linked_ok (nb:=nb) (X:=X) _ _ _ (iv_c _ _ _ _ _ I) L) as (bb & K & _).
        pose proof (no_norm _ _ _ _ _ _ _ _ _ K Ex) as Nn.
        assert (Q: exists i, (i < arity k)%nat /\ ew (nthe (ne (nod s k n)) i) <> Czero).
        { change (Inv.qn N (co s) k n) with (nod s k n) in Nn. unfold Inv.nnorm in Nn. destruct k; [| |congruence].
          - destruct Nn as [[_ B]|[[A _]|(A & _)]]; [exists 1%nat|exists 0%nat|exists 0%nat]; (split; [simpl; lia|]); rewrite ?A, ?B; try discriminate.
            intros H. apply A. rewrite H. now apply Cw_zero.
          - destruct Nn as (am & Ha & A & _). exists am. split; [simpl; lia|]. rewrite A; discriminate. }
        destruct Q as (i & Hi & Zi). specialize (P2 i Hi Ex). rewrite seq_nth in P2 by auto. simpl plus in P2. specialize (P2 Zi).
        specialize (Z2 Ex i Hi P2). assert (Wi: iedge s2 true k (lx - 1 + ly + 1) (nthe es i)) by (apply W2, nthe_In; lia).
        destruct (dn_nz (co s2) k Ex (iv_c _ _ _ _ _ I2) (Z.to_nat (lx - 1 + ly + 1 + 1)) (lx - 1 + ly + 1) (ep (nthe es i))) as (path & Vp & Np). { lia. }
        { destruct Wi as [A B D E]. destruct (ep (nthe es i)) as [| |m] eqn:Ep; [contradiction| |left; split; auto; discriminate].
          right. split; auto. destruct (B eq_refl); auto. contradiction. }
        destruct P as (_ & _ & _ & P4). destruct (P4 Ex) as [_ P5]. specialize (P5 i path Hi). replace (lx + ly + 1 - 1) with (lx - 1 + ly + 1) in P5 by lia.
        specialize (P5 Vp). unfold Inv.dg in P5. rewrite He, Cv_zero in P5 by auto.
        apply (Cmul_neq _ _ Z2 Np). rewrite <- P5. ring. }
      assert (V3: ex X -> kx k (co s) lx x -> forall p1 p2, vpath k lx p1 -> vpath k ly p2 ->
        dg s3 k e (p1 ++ p2) = (dn (co s) k (ep x) p1 * de (co s) k y p2)%C).
      { intros Ex Kx p1 p2 V1 Vp2. apply vpath_inv in V1; auto. destruct V1 as (i & p & -> & Hi & V).
        destruct P as (_ & _ & _ & P4). destruct (P4 Ex) as [_ P5]. simpl app. rewrite P5; auto.
        2: { replace (lx + ly + 1 - 1) with (lx - 1 + ly + 1) by lia. now apply vpath_app. }
        rewrite Epx, dn_cons. specialize (V2 Ex i (p ++ p2) Hi). rewrite seq_nth in V2 by auto. simpl plus in V2.
        apply V2; auto. { now apply vpath_app. }
        intros Ek. subst k. specialize (Kx eq_refl). replace (Z.to_nat (lx + 1)) with (S (Z.to_nat (lx - 1 + 1))) in Kx by lia. cbn [kgood] in Kx.
        rewrite Epx in Kx. apply Kx. exact Hi. }
      destruct (cr_s _ _ _ _ _ R3) as [Ze|(a & b & Ew)].
      { unfold Inv.wp, bind. rewrite Ze. simpl. split; [now right|]. intros Ex. now apply Enz. }
      rewrite Ew. pose proof (cr_o _ _ _ _ _ R3) as Ow3. rewrite Ew in Ow3. simpl in Ow3.
      destruct (mulSelf_sp s3 a b O (ew x)) as (s4 & E4 & Ow4 & S4 & V4); auto.
      { apply S3. } { left. eapply wtab_ext; [apply S03|apply Tx]. }
      eapply wp_bind_ok; [exact E4|]. apply wp_bind, wp_get. rewrite ?Ew.
      assert (S04: step O s s4) by (eapply step_trans; eauto).
      assert (V4': ex X -> Cv s4 (cslot a b) = (Cv s3 (cslot a b) * Cw (co s) (ew x))%C).
      { intros Ex. rewrite V4 by auto. rewrite (Cv_step s s3 O (ew x) S03) by (left; apply Tx). rewrite (Cv_Cw s (ew x)); auto. apply Tx. }
      assert (Cn: ex X -> Cv s4 (cslot a b) <> C0).
      { intros Ex. rewrite V4' by auto. apply Cmul_neq; auto. rewrite <- Ew. eapply gedge_nz; eauto. apply R3. }
      assert (En: isnode (co s3) k (lx + ly + 1) (ep e)).
      { destruct P as (_ & _ & [P3|(P3 & _)] & _); auto. exfalso. rewrite P3 in Ew. discriminate. }
      assert (Val: ex X -> kx k (co s) lx x -> forall p1 p2, vpath k lx p1 -> vpath k ly p2 ->
        (Cv s4 (cslot a b) * dn (co s4) k (ep e) (p1 ++ p2) = de (co s) k x p1 * de (co s) k y p2)%C).
      { intros Ex Kx p1 p2 P1 Pp2. rewrite V4' by auto. pose proof (V3 Ex Kx p1 p2 P1 Pp2) as V. unfold Inv.dg in V. rewrite Ew in V.
        rewrite (dn_ext (co s3) (co s4) k) with (l:=lx + ly + 1); [|apply S3|apply S4|apply En|now apply vpath_app].
        unfold Inv.de at 1. transitivity (Cw (co s) (ew x) * (Cv s3 (cslot a b) * dn (co s3) k (ep e) (p1 ++ p2)))%C; [ring|]. rewrite V. ring. }
      destruct (binInsert_sp O s4 (bkron k) x y (mkve s4 (ep e) (cslot a b))) as (s5 & E5 & S5 & C5 & Q5).
      { apply S4. }
      { apply binok_kron; auto. exists lx, ly. split; auto. split; [rewrite Epx; eapply isnode_ext; [apply S04|exact NX]|].
        split; [eapply wtab_ext; [apply S04|apply Tx]|]. split; [eapply tedge_ext; [apply S04|apply Ty]|]. split; auto. split; auto.
        split; [|split; [exact Cn|]].
        - split; [eapply etn_ext; [apply S4|apply En]|]. split.
          + cbn [vp mkve]. intros Et. destruct En. contradiction.
          + intros Ex H. destruct (Cn Ex H).
        - intros Ex Kx p1 p2 P1 Pp2. unfold Inv.dv. change (Cv2 (vw (mkve s4 (ep e) (cslot a b)))) with (Cv s4 (cslot a b)). cbn [vp mkve].
          rewrite Val; auto.
          + f_equal.
            * unfold Inv.de. rewrite (Cw_ext (co s) (co s4) (ew x)); [|apply S04|apply Tx]. f_equal. symmetry. eapply dn_ext; eauto; [apply I|apply S04|apply Tx].
            * symmetry. eapply de_step; eauto.
          + intros Ek. subst k. apply (kgood_ext (nb:=nb) (X:=X) (co s) (co s4)); [apply I|apply S04| |apply Kx; auto].
            rewrite Z2Nat.id by lia. replace (lx + 1 - 1) with lx by lia. apply Tx. }
      eapply wp_bind_ok; [exact E5|]. apply wp_ret.
      assert (Cv5: cc_val (s_cc s5) = cc_val (s_cc s4)) by now rewrite C5.
      assert (R4: cres k (lx + ly + 1) O s4 (Ed (ep e) (cslot a b))).
      { apply cres_slot; auto. { eapply etn_ext; [apply S4|apply En]. } { intros Et. destruct En. contradiction. } }
      assert (Ee: e = Ed (ep e) (cslot a b)) by (destruct e; simpl in *; congruence). rewrite Ee in R4 |- *. clear Ee. cbn [ep] in *.
      split; [eapply step_trans; eauto|]. split; [|split].
      * eapply cres_rel; eauto. cbn [ew]. rewrite C5. exact Ow4.
      * intros _ _ _. discriminate.
      * intros Ex Kx p1 p2 P1 Pp2. rewrite (dg_rel _ _ _ _ _ Q5 Cv5). unfold Inv.dg. cbn [ew ep]. auto.
Qed.

Theorem kronecker_sp s O k lx ly x y : k <> KD -> -1 <= lx -> -1 <= ly -> lx + ly + 1 < s_nq s ->
  inv s -> owns (s_cc s) O -> tedge (co s) k lx x -> tedge (co s) k ly y ->
  wp al1 (kronecker N g nb k x y true) s (fun r s' => step O s s' /\ owns (s_cc s') O /\ tedge (co s') k (lx + ly + 1) r /\
    (ex X -> kx k (co s) lx x -> forall p1 p2, vpath k lx p1 -> vpath k ly p2 ->
       de (co s') k r (p1 ++ p2) = (de (co s) k x p1 * de (co s) k y p2)%C)).
Proof.
  intros Hk Hlx Hly Hq I Ow Tx Ty.
  assert (E: kronecker N g nb k x y true s = (let* e := kron2F N g nb (fuelof N s) k x y true in
       if negb (ceqb (ew e) Czero) && negb (wone (ew e)) then
         retCache (ew e) ;;; let* w := cn_lookupC g (ew e) in ret (Ed (ep e) w)
       else ret e) s) by (destruct k; [reflexivity|reflexivity|congruence]).
  eapply wp_eq; [exact E|]. apply wp_bind. eapply wp_mono; [apply (kron2F_sp k Hk (fuelof N s) lx ly s O x y); auto; unfold fuelof; lia|].
  intros r s1 (S1 & R1 & _ & V1).
  pose proof (finish_eq k (lx + ly + 1) O s1 r R1) as F. unfold wzero in F. rewrite F.
  eapply wp1; [apply (finish_sp s1 O k (lx + ly + 1) r); auto; apply S1|].
  intros e s2 (S2 & O2 & T2 & V2). split; [eapply step_trans; eauto|]. split; auto. split; auto.
  intros Ex Kx p1 p2 P1 P2. rewrite V2 by (auto; now apply vpath_app). now apply V1.
Qed.
End KronL.
