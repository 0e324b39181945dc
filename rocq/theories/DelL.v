(** Specification of deleteEdge and size. *)
From Coq Require Import ZArith List Bool Lia Arith Reals Lra Permutation.
From Verif Require Import Num Base CTable CTableWf Cx State Pkg Control Gate Meas Inv InvL PrimL NormL MkL TrL AddL MulL KronL CanonL IdentL StateL GateL.
Import ListNotations.
Local Open Scope Z_scope.

(** [h] with the entries removed whose index has digit [idx] at qubit [v]. *)
Definition cut (v : Z) (idx : nat) (h : list nat -> C) (p : list nat) : C :=
  if (0 <=? v) && (v <? Z.of_nat (length p)) && Nat.eqb (dig v p) idx then C0 else h p.

Lemma cut_here idx h i p : cut (Z.of_nat (length p)) idx h (i :: p) = if Nat.eqb i idx then C0 else h (i :: p).
Proof.
  unfold cut. rewrite dig_cons by lia. rewrite Z.eqb_refl. cbn [length].
  destruct (Z.leb_spec 0 (Z.of_nat (length p))); [|lia]. destruct (Z.ltb_spec (Z.of_nat (length p)) (Z.of_nat (S (length p)))); [|lia]. reflexivity.
Qed.
Lemma cut_below v idx h i p : v <> Z.of_nat (length p) -> cut v idx h (i :: p) = cut v idx (fun q => h (i :: q)) p.
Proof.
  intros H. unfold cut. cbn [length]. destruct (Z.leb_spec 0 v); [|reflexivity].
  destruct (Z.ltb_spec v (Z.of_nat (S (length p)))), (Z.ltb_spec v (Z.of_nat (length p))); try lia; [|reflexivity].
  rewrite dig_cons by lia. destruct (Z.eqb_spec v (Z.of_nat (length p))); [lia|reflexivity].
Qed.
Lemma cut_scale v idx c h p : cut v idx (fun q => (c * h q)%C) p = (c * cut v idx h p)%C.
Proof. unfold cut. destruct (_ && _ && _); [ring|reflexivity]. Qed.
Lemma cut_ext v idx h h' p : h p = h' p -> cut v idx h p = cut v idx h' p.
Proof. unfold cut. intros ->. reflexivity. Qed.

Section DelL.
Context {N : num} {g : cfg N} {nb : kind -> Z} {X : numx N (g_ct g)} (G : gok g).
Local Notation cf := (g_ct g).
Local Notation co := (co N).
Local Notation qn := (qn N).
Local Notation linked := (linked N).
Local Notation c_ut := (c_ut N).
Local Notation Cw := (Cw N g X).
Local Notation Cv := (Cv N g X).
Local Notation Cv2 := (Cv2 N g X).
Local Notation dn := (dn N g X).
Local Notation de := (de N g X).
Local Notation dg := (dg N g X).
Local Notation wtab := (wtab N g X).
Local Notation etn := (etn N).
Local Notation isnode := (isnode N).
Local Notation tedge := (tedge N g X).
Local Notation gedge := (gedge N g X).
Local Notation cinv := (cinv N g nb X).
Local Notation uinv := (uinv N g nb X).
Local Notation nodeok := (nodeok N g nb X).
Local Notation inv := (inv N g nb X).
Local Notation step := (step N g nb X).
Local Notation qext := (qext N).
Local Notation owns := (owns N).
Local Notation wok := (wok N g X).
Local Notation wp := (wp N).
Local Notation al0 := (al0 N g X).
Local Notation nnorm := (nnorm N g X).
Local Notation iedge := (iedge (g:=g) (X:=X)).
Local Notation trsp := (trsp (nb:=nb) (X:=X)).
Local Notation unok := (unok N g X).
Local Notation binok := (binok N g X).
Local Notation addok := (addok N g X).
Local Notation tinv := (tinv N g X).
Local Notation vres := (vres N g X).
Local Notation dv := (dv N g X).
Local Notation mkpost := (mkpost (nb:=nb) (X:=X)).
Local Notation mulCached_sp := (mulCached_sp (nb:=nb) (X:=X) G).
Local Notation addCached_sp := (addCached_sp (nb:=nb) (X:=X) G).
Local Notation getCached_sp := (getCached_sp (nb:=nb) (X:=X) G).
Local Notation makeDDNode_sp := (makeDDNode_sp (nb:=nb) (X:=X) G).
Local Notation lookupC_sp := (lookupC_sp (nb:=nb) (X:=X) G).
Local Notation tedge_gedge := (tedge_gedge (nb:=nb) (X:=X)).
Local Notation child_ok := (child_ok (nb:=nb) (X:=X)).
Local Notation dn_ext := (dn_ext (nb:=nb) (X:=X)).
Local Notation Cw_eq0 := (Cw_eq0 (nb:=nb) (X:=X)).
Local Notation addInsert_sp := (addInsert_sp (g:=g) (nb:=nb) (X:=X)).
Local Notation binInsert_sp := (binInsert_sp (g:=g) (nb:=nb) (X:=X)).
Local Notation unInsert_sp := (unInsert_sp (g:=g) (nb:=nb) (X:=X)).
Local Notation addLookup_sp := (addLookup_sp (g:=g) (nb:=nb) (X:=X)).
Local Notation binLookup_sp := (binLookup_sp (g:=g) (nb:=nb) (X:=X)).
Local Notation unLookup_sp := (unLookup_sp (g:=g) (nb:=nb) (X:=X)).
Local Notation cres := (cres (g:=g) (X:=X)).
Local Notation addsp := (addsp (g:=g) (nb:=nb) (X:=X)).
Local Notation rel_sp := (rel_sp (g:=g) (nb:=nb) (X:=X)).
Local Notation relif_sp := (relif_sp (g:=g) (nb:=nb) (X:=X)).
Local Notation mapM_cres := (mapM_cres (g:=g) (nb:=nb) (X:=X)).
Local Notation de_step := (de_step (g:=g) (nb:=nb) (X:=X)).
Local Notation dg_step := (dg_step (g:=g) (nb:=nb) (X:=X)).
Local Notation mulSelf_sp := (mulSelf_sp (g:=g) (nb:=nb) (X:=X)).
Local Notation finish_sp := (finish_sp (g:=g) (nb:=nb) (X:=X) G).
Local Notation add2F_sp := (add2F_sp (g:=g) (nb:=nb) (X:=X) G).
Implicit Types (s : st N).

Local Notation dn_nz := (dn_nz (g:=g) (nb:=nb) (X:=X)).
Local Notation idok := (idok N g X).
Local Notation makeDDNode_t := (makeDDNode_t (nb:=nb) (X:=X) G).
Local Notation mk_weight := (mk_weight (nb:=nb) (X:=X)).

Lemma nptr_eqb_true p q : nptr_eqb p q = true <-> p = q.
Proof. destruct p, q; cbn; try (split; congruence). rewrite Nat.eqb_eq. split; congruence. Qed.

(** ** deleteEdge *)

Lemma delWeight_sp k l s O r w : inv s -> owns (s_cc s) O -> tedge (co s) k l r -> (ep r = PTerm -> r = Ezero) -> 0 <= l ->
  wtab (co s) w -> (ex X -> w <> Czero) ->
  wp al0 (delWeight N g r w) s (fun r' s' => step O s s' /\ owns (s_cc s') O /\ tedge (co s') k l r' /\
    (ex X -> forall p, vpath k l p -> de (co s') k r' p = (Cw (co s) w * de (co s) k r p)%C)).
Proof.
  intros I Ow T Tz Hl Ww Wz. unfold delWeight. apply wp_bind, wp_get. destruct (wapx1 s (ew r)) eqn:One.
  - apply wp_ret. split; [now apply step_refl|]. split; auto. split.
    + constructor; cbn [ep ew]; auto.
      * apply T.
      * intros E. exfalso. rewrite (Tz E) in One. cbn [ew Ezero] in One. rewrite (wapx1_zero (g:=g) (X:=X)) in One. discriminate.
      * intros Ex E. now apply Wz in E.
    + intros Ex p Vp. unfold Inv.de. cbn [ep ew]. apply (x_wapx1 (g:=g) (X:=X)) in One; auto. rewrite Cv_Cw in One by (auto; apply T). rewrite One. ring.
  - eapply (wp_tmul (g:=g) (nb:=nb) (X:=X) G); [intros ?; auto|exact I|exact Ow|left; left; apply T|left; left; exact Ww|].
    intros w' s1 S1 O1 W1 V1 Z1. apply wp_ret. split; auto. split; auto. split.
    + constructor; cbn [ep ew]; auto.
      * eapply etn_ext; [apply S1|apply T].
      * intros E. right. apply Z1. left. rewrite (Tz E). reflexivity.
      * intros Ex E. specialize (V1 Ex). rewrite !Cv_Cw in V1 by (auto; apply T). rewrite E, Cw_zero in V1 by auto. symmetry in V1.
        apply Cmul_integral in V1. destruct V1 as [V1|V1].
        -- apply (te_z _ _ _ _ _ _ _ T Ex). apply (Cw_eq0 (co s)); [exact Ex|apply I|apply T|exact V1].
        -- exfalso. apply (Wz Ex). apply (Cw_eq0 (co s)); [exact Ex|apply I|exact Ww|exact V1].
    + intros Ex p Vp. unfold Inv.de. cbn [ep ew]. rewrite V1 by auto. rewrite !Cv_Cw by (auto; apply T).
      rewrite (dn_ext (co s) (co s1) k (iv_c _ _ _ _ _ I) (sp_ext _ _ _ _ _ _ _ S1) p l (ep r)); [ring|apply T|auto].
Qed.

Section Del.
Context (k : kind) (v : Z) (idx : nat).

(** What the memo says. *)
Definition memok s (m : list (nptr * edge)) : Prop :=
  forall p r, pm_find m p = Some r -> exists l, 0 <= l < s_nq s /\ p <> PTerm /\ etn (co s) k l p /\ tedge (co s) k l r /\ (ep r = PTerm -> r = Ezero) /\
    (ex X -> forall path, vpath k l path -> de (co s) k r path = cut v idx (dn (co s) k p) path).

Lemma memok_step O s s' m : inv s -> step O s s' -> memok s m -> memok s' m.
Proof.
  intros I S H p r E. destruct (H p r E) as (l & Hl & Hp & Tp & Tr & Tz & V). exists l.
  split; [rewrite (stp_nq O _ _ S); exact Hl|]. split; auto. split; [eapply etn_ext; [apply S|exact Tp]|]. split; [eapply tedge_ext; [apply S|exact Tr]|]. split; auto.
  intros Ex path Vp. rewrite (de_step O s s' k l) by auto. rewrite V by auto. apply cut_ext. symmetry.
  apply (dn_ext (co s) (co s') k (iv_c _ _ _ _ _ I) (sp_ext _ _ _ _ _ _ _ S) path l p); auto.
Qed.

Definition delpost (l : Z) (e : edge) s O (r : edge * list (nptr * edge)) s' : Prop :=
  step O s s' /\ owns (s_cc s') O /\ tedge (co s') k l (fst r) /\
  (ex X -> forall p, vpath k l p -> de (co s') k (fst r) p = cut v idx (de (co s) k e) p) /\ memok s' (snd r).

Lemma delLoop_sp f l O : (forall e memo s, inv s -> owns (s_cc s) O -> l < s_nq s -> tedge (co s) k l e -> memok s memo ->
    wp al0 (deleteF N g nb f k v idx e memo) s (delpost l e s O)) ->
  forall cs es memo s, inv s -> owns (s_cc s) O -> l < s_nq s -> (forall c, In c cs -> tedge (co s) k l c) -> memok s memo ->
  wp al0 (foldM N (fun (st : list edge * list (nptr * edge)) c => let* r := deleteF N g nb f k v idx c (snd st) in ret (fst st ++ [fst r], snd r)) cs (es, memo)) s
    (fun r s' => step O s s' /\ owns (s_cc s') O /\ memok s' (snd r) /\ exists rs, fst r = es ++ rs /\ length rs = length cs /\
       (forall c, In c rs -> tedge (co s') k l c) /\
       (ex X -> forall j p, (j < length cs)%nat -> vpath k l p -> de (co s') k (nthe rs j) p = cut v idx (de (co s) k (nthe cs j)) p)).
Proof.
  intros IH. induction cs as [|c cs IHc]; intros es memo s I Ow Hl Tc Mk; cbn [foldM].
  - apply wp_ret. split; [now apply step_refl|]. split; auto. split; auto. exists []. split; [now rewrite app_nil_r|]. split; auto. split; [intros ? []|].
    cbn [length]. intros; lia.
  - apply wp_bind. apply wp_bind. eapply wp_mono; [apply IH; auto; apply Tc; now left|]. intros r s1 (S1 & O1 & T1 & V1 & M1).
    apply wp_ret. assert (I1: inv s1) by apply S1.
    eapply wp_mono; [apply (IHc _ _ s1 I1 O1); auto|].
    { rewrite (stp_nq O _ _ S1). auto. } { intros c' Hc. eapply tedge_ext; [apply S1|]. apply Tc. now right. }
    intros q s2 (S2 & O2 & M2 & rs & E2 & L2 & T2 & V2). cbn [fst snd] in *.
    split; [eapply step_trans; eauto|]. split; auto. split; auto. exists (fst r :: rs). split; [rewrite E2, <- app_assoc; reflexivity|].
    split; [cbn [length]; congruence|]. split.
    + intros c' [<-|Hc]; auto. eapply tedge_ext; [apply S2|exact T1].
    + intros Ex [|j] p Hj Vp; cbn [nthe nth].
      * rewrite (de_step O s1 s2 k l) by auto. now apply V1.
      * cbn [length] in Hj. unfold nthe in V2. rewrite V2 by (auto; lia). apply cut_ext. apply (de_step O s s1 k l); auto.
        apply Tc. right. apply nth_In. lia.
Qed.

Lemma deleteF_sp : forall f l e memo s O, l + 2 <= Z.of_nat f -> (0 < f)%nat -> inv s -> owns (s_cc s) O -> l < s_nq s -> tedge (co s) k l e -> memok s memo ->
  wp al0 (deleteF N g nb f k v idx e memo) s (delpost l e s O).
Proof.
  induction f as [|f IH]; intros l e memo s O Hf Hf0 I Ow Hl T Mk; [lia|]. cbn [deleteF].
  destruct (ep e) as [| |n] eqn:Ee.
  - pose proof (te_n _ _ _ _ _ _ _ T) as Tn. rewrite Ee in Tn. contradiction.
  - apply wp_ret. split; [now apply step_refl|]. split; auto. split; [exact T|]. split; [|exact Mk]. cbn [fst].
    intros Ex p Vp. destruct (te_t _ _ _ _ _ _ _ T Ee) as [-> | Z].
    + apply vpath_m1 in Vp. subst. unfold cut. cbn [length]. destruct (Z.leb_spec 0 v); [|reflexivity]. destruct (Z.ltb_spec v (Z.of_nat 0)); [lia|reflexivity].
    + assert (D: forall q, de (co s) k e q = C0) by (intros q; unfold Inv.de; rewrite Z, Cw_zero by auto; ring).
      rewrite D. unfold cut. destruct (_ && _ && _); auto.
  - pose proof (te_n _ _ _ _ _ _ _ T) as Tn. rewrite Ee in Tn. destruct Tn as [L Nv].
    destruct (linked_ok (g:=g) (nb:=nb) (X:=X) _ _ _ (iv_c _ _ _ _ _ I) L) as (b & K & _). pose proof (no_v _ _ _ _ _ _ _ _ _ K) as Hv. rewrite Nv in K, Hv.
    assert (Ch: forall i, (i < arity k)%nat -> tedge (co s) k (l - 1) (nthe (ne (qn (co s) k n)) i)).
    { intros i Hi. rewrite <- Nv. apply child_ok; auto. apply I. }
    assert (Len := no_len _ _ _ _ _ _ _ _ _ K).
    apply wp_bind. eapply wp_mono with (Q := fun p s' => step O s s' /\ owns (s_cc s') O /\ memok s' (snd p) /\ tedge (co s') k l (fst p) /\ (ep (fst p) = PTerm -> fst p = Ezero) /\
        (ex X -> forall path, vpath k l path -> de (co s') k (fst p) path = cut v idx (dn (co s) k (PNode n)) path)).
    + destruct (pm_find memo (PNode n)) as [r|] eqn:Mf.
      * apply wp_ret. split; [now apply step_refl|]. split; auto. split; auto. cbn [fst].
        destruct (Mk _ _ Mf) as (l' & Hl' & _ & [_ Nv'] & Tr & Tz & V). rewrite Nv in Nv'. subst l'. auto.
      * apply wp_bind, wp_get. cbv zeta. change (nod s k n) with (qn (co s) k n). rewrite Nv. apply wp_bind.
        eapply wp_mono with (Q := fun q s1 => step O s s1 /\ owns (s_cc s1) O /\ memok s1 (snd q) /\ length (fst q) = arity k /\
          (forall c, In c (fst q) -> tedge (co s1) k (l - 1) c) /\
          (ex X -> forall i path, (i < arity k)%nat -> vpath k (l - 1) path -> de (co s1) k (nthe (fst q) i) path = cut v idx (dn (co s) k (PNode n)) (i :: path))).
        { destruct (Z.eqb_spec l v) as [El|Nl].
          - apply wp_ret. split; [now apply step_refl|]. split; auto. split; auto. cbn [fst snd].
            assert (Lc: length (combine (seq 0 (arity k)) (ne (qn (co s) k n))) = arity k) by (rewrite combine_length, seq_length, Len; lia).
            split; [now rewrite map_length|]. split.
            + intros c Hc. apply in_map_iff in Hc. destruct Hc as ([i c'] & E & Hc). cbn [fst snd] in E. subst c.
              apply in_combine_r in Hc. destruct (Nat.eqb i idx); [apply tedge_zero|]. now apply (no_es _ _ _ _ _ _ _ _ _ K).
            + intros Ex i path Hi Vp. assert (Lp: v = Z.of_nat (length path)) by (destruct Vp; lia). rewrite Lp, cut_here.
              assert (En: nthe (map (fun ic => if Nat.eqb (fst ic) idx then Ezero else snd ic) (combine (seq 0 (arity k)) (ne (qn (co s) k n)))) i
                          = if Nat.eqb i idx then Ezero else nthe (ne (qn (co s) k n)) i).
              { unfold nthe. rewrite (nth_indep _ Enull ((fun ic => if Nat.eqb (fst ic) idx then Ezero else snd ic) (0%nat, Enull))) by (rewrite map_length, Lc; exact Hi).
                rewrite (map_nth (fun ic : nat * edge => if Nat.eqb (fst ic) idx then Ezero else snd ic)).
                rewrite combine_nth by (rewrite seq_length, Len; reflexivity). rewrite seq_nth by exact Hi. reflexivity. }
              rewrite En. destruct (Nat.eqb i idx); [now apply de_zero|]. reflexivity.
          - eapply wp_mono; [apply (delLoop_sp f (l - 1) O)|]; auto; try lia.
            + intros e' memo' s' I' O' Hl' T' Mk'. apply IH; auto; try lia.
            + intros c Hc. now apply (no_es _ _ _ _ _ _ _ _ _ K).
            + intros q s1 (S1 & O1 & M1 & rs & E1 & L1 & T1 & V1). cbn [app] in E1. rewrite E1. split; auto. split; auto. split; auto. split; [congruence|]. split; auto.
              intros Ex i path Hi Vp. rewrite V1 by (auto; lia). rewrite cut_below by (destruct Vp; lia). reflexivity. }
        intros q s1 (S1 & O1 & M1 & L1 & T1 & V1). apply wp_bind.
        eapply wp_mono; [apply (makeDDNode_t k l s1 (fst q) O); auto; [apply S1|]|]. { rewrite (stp_nq O _ _ S1). lia. }
        intros r s2 (S2 & O2 & T2 & Z2 & V2). apply wp_ret. assert (S12: step O s s2) by (eapply step_trans; eauto). assert (I1: inv s1) by apply S1.
        assert (Vr: ex X -> forall path, vpath k l path -> de (co s2) k r path = cut v idx (dn (co s) k (PNode n)) path).
        { intros Ex path Vp. destruct path as [|i path]; [destruct Vp as [Vp _]; cbn in Vp; lia|]. apply vpath_cons in Vp. destruct Vp as [Hi Vp].
          rewrite V2 by auto. now apply V1. }
        cbn [fst snd]. split; auto. split; auto. split; [|auto].
        intros p r' Ef. cbn [pm_find] in Ef. destruct (nptr_eqb (PNode n) p) eqn:Ep.
        -- apply nptr_eqb_true in Ep. subst p. injection Ef as <-. exists l. split; [rewrite (stp_nq O _ _ S12); lia|]. split; [discriminate|].
           assert (Et: etn (co s) k l (PNode n)) by (split; auto).
           split; [eapply etn_ext; [apply S12|exact Et]|]. split; auto. split; auto.
           intros Ex path Vp. rewrite Vr by auto. apply cut_ext. symmetry.
           apply (dn_ext (co s) (co s2) k (iv_c _ _ _ _ _ I) (sp_ext _ _ _ _ _ _ _ S12) path l (PNode n)); auto.
        -- eapply (memok_step O s1 s2); eauto.
    + intros [r m] s1 (S1 & O1 & M1 & T1 & Z1 & V1). cbn [fst snd] in *. apply wp_bind. assert (I1: inv s1) by apply S1.
      assert (Hq1: s_nq s1 = s_nq s) by apply (stp_nq O _ _ S1).
      eapply wp_mono; [apply (delWeight_sp k l s1 O r (ew e)); auto; try lia|].
      { eapply wtab_ext; [apply S1|apply T]. }
      { intros Ex E. apply (te_z _ _ _ _ _ _ _ T Ex) in E. congruence. }
      intros r' s2 (S2 & O2 & T2 & V2). apply wp_ret. split; [eapply step_trans; eauto|]. split; auto. split; auto. split; [|eapply (memok_step O s1 s2); eauto].
      intros Ex p Vp. cbn [fst]. rewrite V2, V1 by auto. unfold Inv.de at 1. rewrite Ee. rewrite cut_scale. f_equal.
      apply (Cw_ext (g:=g) (X:=X)); [apply S1|apply T].
Qed.

End Del.

(** deleteEdge removes the entries whose index has digit [idx] at qubit [v]. *)
Theorem deleteEdge_sp k v idx l s O e : -1 <= l < s_nq s -> inv s -> owns (s_cc s) O -> tedge (co s) k l e ->
  wp al0 (deleteEdge N g nb k e v idx) s (fun r s' => step O s s' /\ owns (s_cc s') O /\ tedge (co s') k l r /\
    (ex X -> forall p, vpath k l p -> de (co s') k r p = cut v idx (de (co s) k e) p)).
Proof.
  intros Hl I Ow T. unfold deleteEdge. apply (wp_eq al0 _ (let* r := deleteF N g nb (fuelof N s) k v idx e [] in ret (fst r)) s); [reflexivity|].
  apply wp_bind. eapply wp_mono; [apply (deleteF_sp k v idx (fuelof N s) l e [] s O); auto; unfold fuelof; try lia|].
  { intros p r E. discriminate. }
  intros r s' (S1 & O1 & T1 & V1 & _). apply wp_ret. auto.
Qed.

(** ** size *)

(** Pointers reachable from [p], itself included. *)
Inductive reach s (k : kind) : nptr -> nptr -> Prop :=
  | rc_refl p : reach s k p p
  | rc_step n e p : In e (ne (nod s k n)) -> reach s k (ep e) p -> reach s k (PNode n) p.

Lemma pmem_In p l : pmem p l = true <-> In p l.
Proof.
  unfold pmem. rewrite existsb_exists. split.
  - intros (x & H & E). apply nptr_eqb_true in E. now subst.
  - intros H. exists p. split; auto. now apply nptr_eqb_true.
Qed.

Definition closed s k (ext all : list nptr) : Prop := forall n e, In (PNode n) ext -> In e (ne (nod s k n)) -> In (ep e) all.

Lemma countF_sp s k : inv s -> forall f l e v, l + 2 <= Z.of_nat f -> (0 < f)%nat -> etn (co s) k l (ep e) -> ~ In (ep e) v -> NoDup v ->
  exists ext, countF N f k e v s = Ok (Z.of_nat (length ext), ext ++ v) s /\ NoDup (ext ++ v) /\ In (ep e) ext /\
    (forall p, In p ext -> reach s k (ep e) p) /\ closed s k ext (ext ++ v).
Proof.
  intros I. induction f as [|f IH]; intros l e v Hf Hf0 T Hv Nd; [lia|]. cbn [countF].
  destruct (ep e) as [| |n] eqn:Ee; [contradiction| |].
  - exists [PTerm]. cbn. split; auto. split; [constructor; auto|]. split; auto. split.
    + intros p [<-|[]]. constructor.
    + intros n e' [E|[]]. discriminate.
  - destruct T as [L Nv]. destruct (linked_ok (g:=g) (nb:=nb) (X:=X) _ _ _ (iv_c _ _ _ _ _ I) L) as (b & K & _). pose proof (no_v _ _ _ _ _ _ _ _ _ K) as Hl. rewrite Nv in K, Hl.
    unfold bind at 1, get at 1.
    assert (Loop: forall cs ext, (forall c, In c cs -> etn (co s) k (l - 1) (ep c) /\ In c (ne (nod s k n))) -> NoDup (ext ++ v) -> 
        exists ext', foldM N (fun (st : Z * list nptr) c => if isnull (ep c) || pmem (ep c) (snd st) then ret st
                   else let* r := countF N f k c (snd st) in ret (fst st + fst r, snd r)) cs (Z.of_nat (length ext), ext ++ v) s
            = Ok (Z.of_nat (length (ext' ++ ext)), (ext' ++ ext) ++ v) s /\ NoDup ((ext' ++ ext) ++ v) /\
          (forall c, In c cs -> In (ep c) ((ext' ++ ext) ++ v)) /\ (forall p, In p ext' -> reach s k (PNode n) p) /\ closed s k ext' ((ext' ++ ext) ++ v)).
    { induction cs as [|c cs IHc]; intros ext Hc Ndx; cbn [foldM].
      - exists []. cbn [app]. split; [reflexivity|]. split; auto. split; [intros ? []|]. split; [intros ? []|]. intros ? ? [].
      - destruct (Hc c (or_introl eq_refl)) as [Tc Inc].
        assert (Nn: isnull (ep c) = false) by (destruct (ep c); [contradiction|reflexivity|reflexivity]). rewrite Nn. cbn [orb snd].
        destruct (pmem (ep c) (ext ++ v)) eqn:Pm.
        + unfold bind at 1. unfold ret at 1. destruct (IHc ext) as (ext' & E & N1 & C1 & R1 & Cl1); auto. { intros c' H'. apply Hc. now right. }
          exists ext'. split; [exact E|]. split; auto. split; [|auto]. intros c' [<-|H']; auto. apply pmem_In in Pm. rewrite <- app_assoc. apply in_or_app. now right.
        + assert (Np: ~ In (ep c) (ext ++ v)) by (intros H; apply pmem_In in H; congruence).
          destruct (IH (l - 1) c (ext ++ v)) as (x & E & N1 & I1 & R1 & Cl1); auto; try lia.
          unfold bind at 1, bind at 1. rewrite E. unfold ret at 1. cbn [fst snd].
          destruct (IHc (x ++ ext)) as (ext' & E' & N2 & C2 & R2 & Cl2); auto. { intros c' H'. apply Hc. now right. } { now rewrite <- app_assoc. }
          exists (ext' ++ x). replace (Z.of_nat (length ext) + Z.of_nat (length x)) with (Z.of_nat (length (x ++ ext))) by (rewrite app_length; lia).
          rewrite <- app_assoc in E'. rewrite E'. rewrite !app_assoc in N2, C2, Cl2. rewrite !app_assoc. split; [reflexivity|]. split; auto. split.
          * intros c' [<-|H']; auto. rewrite <- !app_assoc. apply in_or_app. right. apply in_or_app. now left.
          * split.
            -- intros p Hp. apply in_app_or in Hp. destruct Hp as [Hp|Hp]; auto. apply (rc_step s k n c); auto.
            -- intros n' e' Hn He. apply in_app_or in Hn. destruct Hn as [Hn|Hn]; [eapply Cl2; eauto|].
               specialize (Cl1 n' e' Hn He). rewrite <- !app_assoc. apply in_or_app. right. exact Cl1. }
    destruct (Loop (ne (nod s k n)) [PNode n]) as (x & E & N1 & C1 & R1 & Cl1).
    { intros c Hc. split; auto. apply (no_es _ _ _ _ _ _ _ _ _ K). exact Hc. }
    { cbn [app]. constructor; auto. }
    exists (x ++ [PNode n]). cbn [length app] in E. change (Z.of_nat 1) with 1 in E. split; [exact E|]. split; auto. split; [apply in_or_app; right; now left|]. split.
    + intros p Hp. apply in_app_or in Hp. destruct Hp as [Hp|[<-|[]]]; auto. constructor.
    + intros n' e' Hn He. apply in_app_or in Hn. destruct Hn as [Hn|[Hn|[]]]; [eapply Cl1; eauto|]. injection Hn as <-. auto.
Qed.

(** size counts the reachable nodes, the terminal included, each once. *)
Theorem size_sp s k l e : -1 <= l < s_nq s -> inv s -> tedge (co s) k l e ->
  exists ps, size N k e s = Ok (Z.of_nat (length ps) mod 2 ^ 32) s /\ NoDup ps /\ forall p, In p ps <-> reach s k (ep e) p.
Proof.
  intros Hl I T. destruct (countF_sp s k I (fuelof N s) l e []) as (ps & E & Nd & In0 & R & Cl).
  { unfold fuelof. lia. } { unfold fuelof. lia. } { apply T. } { intros []. } { constructor. }
  rewrite app_nil_r in *. exists ps. split; [unfold size, bind; rewrite E; reflexivity|]. split; auto.
  intros p. split; auto. intros Rp.
  assert (H: forall p0, reach s k p0 p -> In p0 ps -> In p ps).
  { intros p0 R0. induction R0 as [p'|n e' p' He R' IH]; intros H; auto. apply IH; [exact Rp|]. exact (Cl n e' H He). }
  now apply (H (ep e)).
Qed.
End DelL.
