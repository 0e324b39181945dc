(** Specifications of the functions that read amplitudes. *)
From Coq Require Import ZArith List Bool Lia Arith Reals Lra Permutation.
From Verif Require Import Num Base CTable CTableWf Cx State Pkg Read Inv InvL PrimL NormL MkL TrL AddL MulL InnerL KronL CanonL IdentL StateL.
Import ListNotations.
Local Open Scope Z_scope.

(** ** Indices *)

Lemma setAt_some {A} : forall (l : list A) i v, (i < length l)%nat -> exists l', setAt l i v = Some l' /\ length l' = length l /\
  forall d j, nth j l' d = if Nat.eqb j i then v else nth j l d.
Proof.
  induction l as [|x l IH]; intros i v H; [simpl in H; lia|]. destruct i as [|i]; cbn [setAt].
  - eexists. split; [reflexivity|]. split; auto. intros d [|j]; reflexivity.
  - destruct (IH i v) as (l' & E & L & Nth); [simpl in H; lia|]. rewrite E. eexists. split; [reflexivity|]. split; [simpl; congruence|].
    intros d [|j]; cbn [nth Nat.eqb]; auto.
Qed.

Lemma nth_repeat_lt {A} (x d : A) : forall n i, (i < n)%nat -> nth i (repeat x n) d = x.
Proof. induction n as [|n IH]; intros [|i] H; simpl; auto; try lia. apply IH. lia. Qed.

Lemma dig_eq P x y a b : (x < P)%nat -> (y < P)%nat -> (a * P + x = b * P + y)%nat -> a = b.
Proof. intros. nia. Qed.
(** The digits of [m] in base two, [n] of them, most significant first. *)
Fixpoint pidx (n m : nat) : list nat :=
  match n with O => [] | S k => (m / 2 ^ k mod 2)%nat :: pidx k m end.
Lemma pidx_len n m : length (pidx n m) = n.
Proof. induction n; simpl; auto. Qed.
Lemma pidx_lt n m c : In c (pidx n m) -> (c < 2)%nat.
Proof. induction n; cbn [pidx In]; [easy|]. intros [<-|H]; auto. apply Nat.mod_upper_bound. lia. Qed.
Lemma pidx_vpath n m : vpath KV (Z.of_nat n - 1) (pidx n m).
Proof. split; [rewrite pidx_len; lia|]. apply Forall_forall. intros c H. apply pidx_lt in H. exact H. Qed.
Lemma vidx_pidx n m : vidx (pidx n m) = (m mod 2 ^ n)%nat.
Proof.
  induction n as [|n IH]; cbn [pidx vidx]. { now rewrite Nat.pow_0_r, Nat.mod_1_r. }
  rewrite IH, pidx_len. assert (P: (2 ^ n <> 0)%nat) by (apply Nat.pow_nonzero; lia).
  rewrite Nat.pow_succ_r', (Nat.mul_comm 2), Nat.mod_mul_r by lia. lia.
Qed.
Lemma vidx_inj p q : length p = length q -> Forall (fun c => (c < 2)%nat) p -> Forall (fun c => (c < 2)%nat) q -> vidx p = vidx q -> p = q.
Proof.
  revert q. induction p as [|c p IH]; intros [|d q] L P Q E; try discriminate; auto. injection L as L.
  inversion P; inversion Q; subst. cbn [vidx] in E. rewrite L in E.
  assert (A: (vidx p < 2 ^ length q)%nat) by (rewrite <- L; apply vidx_lt; apply Forall_forall; auto).
  assert (B: (vidx q < 2 ^ length q)%nat) by (apply vidx_lt; apply Forall_forall; auto).
  assert (c = d) by nia. subst d. f_equal. apply IH; auto. lia.
Qed.

(** Path read off the characters of a string, from character [l] down to character 0. *)
Definition strpath (l : Z) (els : list nat) : list nat := rev (firstn (Z.to_nat (l + 1)) els).
Lemma strpath_m1 els : strpath (-1) els = [].
Proof. reflexivity. Qed.
Lemma firstn_S {A} (l : list A) : forall n d, nth_error l n = Some d -> firstn (S n) l = firstn n l ++ [d].
Proof.
  induction l as [|x l IH]; intros [|n] d H; try discriminate.
  - injection H as ->. reflexivity.
  - cbn [nth_error] in H. change (x :: firstn (S n) l = x :: (firstn n l ++ [d])). f_equal. now apply IH.
Qed.
Lemma strpath_cons l els d : 0 <= l -> nth_error els (Z.to_nat l) = Some d -> strpath l els = d :: strpath (l - 1) els.
Proof.
  intros Hl H. unfold strpath. replace (Z.to_nat (l + 1)) with (S (Z.to_nat l)) by lia. rewrite (firstn_S _ _ d) by auto.
  rewrite rev_app_distr. simpl. do 3 f_equal. lia.
Qed.
(** Path selected by a digit function, from level [l] down. *)
Fixpoint digp (dig : Z -> nat) (n : nat) : list nat :=
  match n with O => [] | S m => dig (Z.of_nat m) :: digp dig m end.
Lemma digp_vpath k dig n : (forall v, (dig v < arity k)%nat) -> vpath k (Z.of_nat n - 1) (digp dig n).
Proof.
  intros H. assert (L: length (digp dig n) = n) by (induction n; simpl; auto). split; [lia|].
  clear L. induction n; simpl; constructor; auto.
Qed.

Lemma lor_pow i v : 0 <= v -> 0 <= i -> i mod 2 ^ (v + 1) = 0 -> Z.lor i (2 ^ v) = i + 2 ^ v.
Proof.
  intros Hv Hi H. assert (P: 0 < 2 ^ (v + 1)) by (apply Z.pow_pos_nonneg; lia).
  apply Z.mod_divide in H; [|lia]. destruct H as (a & ->).
  assert (L: Z.land (a * 2 ^ (v + 1)) (2 ^ v) = 0).
  { apply Z.bits_inj'. intros n Hn. rewrite Z.land_spec, Z.bits_0, Z.pow2_bits_eqb by lia.
    destruct (Z.eqb_spec v n) as [->|]; [|apply andb_false_r]. rewrite Z.mul_pow2_bits_low by lia. reflexivity. }
  rewrite (Z.add_nocarry_lxor (a * 2 ^ (v + 1)) (2 ^ v)) by auto. rewrite Z.lxor_lor by auto. reflexivity.
Qed.

Section ReadL.
Context {N : num} {g : cfg N} {nb : kind -> Z} {X : numx N (g_ct g)} (G : gok g).
Local Notation cf := (g_ct g).
Local Notation co := (co N).
Local Notation qn := (qn N).
Local Notation linked := (linked N).
Local Notation c_ut := (c_ut N).
Local Notation Cw := (Cw N g X).
Local Notation Cv := (Cv N g X).
Local Notation Cv2 := (Cv2 N g X).
Local Notation dn := (dn N g X).
Local Notation de := (de N g X).
Local Notation dg := (dg N g X).
Local Notation wtab := (wtab N g X).
Local Notation etn := (etn N).
Local Notation isnode := (isnode N).
Local Notation tedge := (tedge N g X).
Local Notation gedge := (gedge N g X).
Local Notation cinv := (cinv N g nb X).
Local Notation uinv := (uinv N g nb X).
Local Notation nodeok := (nodeok N g nb X).
Local Notation inv := (inv N g nb X).
Local Notation step := (step N g nb X).
Local Notation qext := (qext N).
Local Notation owns := (owns N).
Local Notation wok := (wok N g X).
Local Notation wp := (wp N).
Local Notation al0 := (al0 N g X).
Local Notation nnorm := (nnorm N g X).
Local Notation iedge := (iedge (g:=g) (X:=X)).
Local Notation trsp := (trsp (nb:=nb) (X:=X)).
Local Notation unok := (unok N g X).
Local Notation binok := (binok N g X).
Local Notation addok := (addok N g X).
Local Notation tinv := (tinv N g X).
Local Notation vres := (vres N g X).
Local Notation dv := (dv N g X).
Local Notation mkpost := (mkpost (nb:=nb) (X:=X)).
Local Notation mulCached_sp := (mulCached_sp (nb:=nb) (X:=X) G).
Local Notation addCached_sp := (addCached_sp (nb:=nb) (X:=X) G).
Local Notation getCached_sp := (getCached_sp (nb:=nb) (X:=X) G).
Local Notation makeDDNode_sp := (makeDDNode_sp (nb:=nb) (X:=X) G).
Local Notation lookupC_sp := (lookupC_sp (nb:=nb) (X:=X) G).
Local Notation tedge_gedge := (tedge_gedge (nb:=nb) (X:=X)).
Local Notation child_ok := (child_ok (nb:=nb) (X:=X)).
Local Notation dn_ext := (dn_ext (nb:=nb) (X:=X)).
Local Notation Cw_eq0 := (Cw_eq0 (nb:=nb) (X:=X)).
Local Notation addInsert_sp := (addInsert_sp (g:=g) (nb:=nb) (X:=X)).
Local Notation binInsert_sp := (binInsert_sp (g:=g) (nb:=nb) (X:=X)).
Local Notation unInsert_sp := (unInsert_sp (g:=g) (nb:=nb) (X:=X)).
Local Notation addLookup_sp := (addLookup_sp (g:=g) (nb:=nb) (X:=X)).
Local Notation binLookup_sp := (binLookup_sp (g:=g) (nb:=nb) (X:=X)).
Local Notation unLookup_sp := (unLookup_sp (g:=g) (nb:=nb) (X:=X)).
Local Notation cres := (cres (g:=g) (X:=X)).
Local Notation addsp := (addsp (g:=g) (nb:=nb) (X:=X)).
Local Notation rel_sp := (rel_sp (g:=g) (nb:=nb) (X:=X)).
Local Notation relif_sp := (relif_sp (g:=g) (nb:=nb) (X:=X)).
Local Notation mapM_cres := (mapM_cres (g:=g) (nb:=nb) (X:=X)).
Local Notation de_step := (de_step (g:=g) (nb:=nb) (X:=X)).
Local Notation dg_step := (dg_step (g:=g) (nb:=nb) (X:=X)).
Local Notation mulSelf_sp := (mulSelf_sp (g:=g) (nb:=nb) (X:=X)).
Local Notation finish_sp := (finish_sp (g:=g) (nb:=nb) (X:=X) G).
Local Notation add2F_sp := (add2F_sp (g:=g) (nb:=nb) (X:=X) G).
Implicit Types (s : st N).

Local Notation dn_nz := (dn_nz (g:=g) (nb:=nb) (X:=X)).
Local Notation idok := (idok N g X).
Local Notation makeDDNode_t := (makeDDNode_t (nb:=nb) (X:=X) G).
Local Notation mk_weight := (mk_weight (nb:=nb) (X:=X)).
Local Notation c_nq := (c_nq N).

Lemma dn_term q k p : dn q k PTerm p = C1.
Proof. destruct p; reflexivity. Qed.

(** ** getValueByPath on strings *)

Lemma pathLoop_sp k els p q : p <> q -> forall f l s O r, -1 <= l -> l + 1 < Z.of_nat f -> inv s -> owns (s_cc s) O ->
  ~ In p O -> ~ In q O -> tedge (co s) k l r -> (forall v, 0 <= v <= l -> exists d, nth_error els (Z.to_nat v) = Some d /\ (d < arity k)%nat) ->
  exists s', pathLoop N f k (cslot p q) r els s = Ok tt s' /\ co s' = co s /\ step O s s' /\ owns (s_cc s') O /\
    (ex X -> Cv s' (cslot p q) = (Cv s (cslot p q) * de (co s) k r (strpath l els))%C).
Proof.
  intros D. induction f as [|f IH]; intros l s O r Hl Hf I Ow Hp Hq T E; [lia|]. cbn [pathLoop].
  destruct (mulInto_sp (X:=X) s p q (cslot p q) (ew r)) as (v & E1 & V1). { simpl; congruence. } { eapply (wok_ci (co s) O); [left; apply T|auto]. }
  set (s1 := setc p q v s) in *. unfold bind. rewrite E1. clear E1.
  assert (S1: step O s s1) by (apply setc_step; auto).
  assert (O1: owns (s_cc s1) O) by now apply owns_ccw.
  assert (V1': ex X -> Cv s1 (cslot p q) = (Cv s (cslot p q) * Cw (co s) (ew r))%C).
  { intros Ex. unfold s1. rewrite setc_Cv, V1 by auto. now rewrite (Cv_Cw s (ew r)) by (first [exact Ex | apply T]). }
  destruct (ep r) as [| |n] eqn:Er.
  - destruct T as [A _ _ _]. rewrite Er in A. contradiction.
  - exists s1. split; [reflexivity|]. split; auto. split; auto. split; auto. intros Ex. rewrite V1' by auto. unfold Inv.de. rewrite Er, dn_term. ring.
  - destruct T as [A B Ct Dz]. rewrite Er in A. destruct A as [L Nv]. change (Inv.qn N (co s) k n) with (nod s k n) in Nv.
    assert (Hl0: 0 <= l). { destruct (linked_ok (g:=g) (nb:=nb) (X:=X) _ _ _ (iv_c _ _ _ _ _ I) L) as (b & K & _). pose proof (no_v _ _ _ _ _ _ _ _ _ K) as Q. change (Inv.qn N (co s) k n) with (nod s k n) in Q. lia. }
    change (nod s1 k n) with (nod s k n). rewrite Nv. destruct (E l) as (d & Ed & Hd); [lia|]. rewrite Ed.
    replace (Nat.ltb (arity k) d) with false by (symmetry; apply Nat.ltb_ge; lia).
    assert (Ch: tedge (co s) k (l - 1) (nthe (ne (nod s k n)) d)). { rewrite <- Nv. apply child_ok; auto. apply I. }
    assert (Ne: nth_error (ne (nod s k n)) d = Some (nthe (ne (nod s k n)) d)).
    { apply nth_error_nth'. destruct (linked_ok (g:=g) (nb:=nb) (X:=X) _ _ _ (iv_c _ _ _ _ _ I) L) as (b & K & _). change (nod s k n) with (qn (co s) k n). rewrite (no_len _ _ _ _ _ _ _ _ _ K). auto. }
    rewrite Ne. destruct (IH (l - 1) s1 O (nthe (ne (nod s k n)) d)) as (s2 & E2 & Q2 & S2 & O2 & V2); auto; try lia; [apply S1|intros; apply E; lia|].
    exists s2. split; auto. split; [rewrite Q2; reflexivity|]. split; [eapply step_trans; eauto|]. split; auto. intros Ex. rewrite V2, V1' by auto.
    rewrite (strpath_cons l els d) by auto. unfold Inv.de at 2. rewrite Er. cbn [Inv.dn]. change (qn (co s) k n) with (nod s k n). change (co s1) with (co s).
    unfold Inv.de. ring.
Qed.

Theorem getValueByPath_sp k els l s O e : -1 <= l < s_nq s -> inv s -> owns (s_cc s) O -> tedge (co s) k l e ->
  (forall v, 0 <= v <= l -> exists d, nth_error els (Z.to_nat v) = Some d /\ (d < arity k)%nat) ->
  exists r s', getValueByPath N g k e els s = Ok r s' /\ step O s s' /\ owns (s_cc s') O /\
    (ex X -> Cv2 r = de (co s) k e (strpath l els)).
Proof.
  intros Hl I Ow T E. unfold getValueByPath. destruct (isT (ep e)) eqn:Te.
  - destruct (ep e) eqn:Ep; try discriminate. exists (cval s (ew e)), s. split; auto. split; [now apply step_refl|]. split; auto.
    intros Ex. change (Cv2 (cval s (ew e))) with (Cv s (ew e)). rewrite Cv_Cw by (first [exact Ex | apply T]). unfold Inv.de. rewrite Ep, dn_term. ring.
  - destruct (getTemp_sp (g:=g) G s O Ow) as (p & q & c' & E0 & V & Oc & D & Hp & Hq & _).
    set (s1 := set_cc s c'). set (s2 := setc p q (n1, n0) s1).
    assert (E1: getTempV g (n1, n0) s = Ok (cslot p q) s2).
    { unfold getTempV, bind. rewrite E0. cbn [cr ci cslot]. rewrite !wr_slot. reflexivity. }
    assert (S1: step O s s1) by (apply step_cc_any; auto).
    assert (S2: step O s s2) by (eapply step_trans; [exact S1|]; apply setc_step; auto; apply S1).
    destruct (pathLoop_sp k els p q D (fuelof N s) l s2 O e) as (s3 & E3 & Q3 & S3 & O3 & V3); auto; try lia.
    { unfold fuelof. lia. } { apply S2. } { now apply owns_ccw. }
    exists (cval s3 (cslot p q)), s3. split. { unfold bind. rewrite E1, E3. reflexivity. } split; [eapply step_trans; eauto|]. split; auto.
    intros Ex. change (Cv2 (cval s3 (cslot p q))) with (Cv s3 (cslot p q)). rewrite V3 by auto. unfold s2 at 1. rewrite setc_Cv by auto.
    change (co s2) with (co s). unfold Inv.Cv2. cbn [fst snd]. rewrite (x_1 X Ex), (x_0 X Ex). change (1%R, 0%R) with C1. ring.
Qed.

(** ** getValueByPath on indices *)

Lemma wapx0_de s k l e p : ex X -> wtab (co s) (ew e) -> tedge (co s) k l e -> wapx0 s (ew e) = true -> de (co s) k e p = C0.
Proof. intros Ex W T H. apply (x_wapx0 (X:=X)) in H; auto. rewrite Cv_Cw in H by auto. unfold Inv.de. rewrite H. ring. Qed.

Lemma retC s O p q : inv s -> owns (s_cc s) (p :: q :: O) -> exists s', retCache (cslot p q) s = Ok tt s' /\ owns (s_cc s') O /\ co s' = co s /\
  cc_val (s_cc s') = cc_val (s_cc s) /\ forall O', step O' s s'.
Proof. intros I H. apply (rel_sp s (cslot p q) O I); eauto. Qed.

Lemma wok_slot q0 p q O : p <> q -> wok q0 (p :: q :: O) (cslot p q).
Proof. intros D. right. exists p, q. repeat split; simpl; auto. Qed.

Lemma byIdxF_sp k dig : (forall v, (dig v < arity k)%nat) -> forall n f s O e amp, (n < f)%nat -> (n <= 64)%nat -> inv s -> owns (s_cc s) O ->
  tedge (co s) k (Z.of_nat n - 1) e -> wok (co s) O amp ->
  exists r s', byIdxF N g f k dig e amp s = Ok r s' /\ step O s s' /\ owns (s_cc s') O /\
    (ex X -> Cv2 r = (Cv s amp * de (co s) k e (digp dig n))%C).
Proof.
  intros Hd. induction n as [|n IH]; intros f s O e amp Hf Hn I Ow T W; (destruct f as [|f]; [lia|]); cbn [byIdxF];
    (destruct (mulCached_sp s O (ew e) amp I Ow) as (p & q & s1 & E1 & O1 & S1 & V1); [left; apply T|exact W|]);
    unfold bind at 1; rewrite E1; assert (I1: inv s1) by apply S1; pose proof (owns_nodup _ _ _ _ O1) as (D & _);
    assert (Tm: ep e = PTerm -> exists r s', (retCache (cslot p q) ;;; gets (fun s => cval s (cslot p q))) s1 = Ok r s' /\ step O s s' /\ owns (s_cc s') O /\
       (ex X -> forall path, Cv2 r = (Cv s amp * de (co s) k e path)%C)) by
     (intros Et; destruct (retC s1 O p q I1 O1) as (s2 & E2 & O2 & Q2 & Vv & S2); exists (cval s2 (cslot p q)), s2;
      unfold bind; rewrite E2; split; [reflexivity|]; split; [eapply step_trans; eauto|]; split; auto; intros Ex path;
      assert (Cs: Cv s2 (cslot p q) = Cv s1 (cslot p q)) by (unfold Inv.Cv, cval, val, aval; cbn; now rewrite Vv);
      change (Cv2 (cval s2 (cslot p q))) with (Cv s2 (cslot p q)); rewrite Cs, V1, Cv_Cw by (first [exact Ex|apply T]); unfold Inv.de; rewrite Et, dn_term; ring).
  - rewrite (tedge_term s k (-1) e I T) by lia. destruct Tm as (r & s' & A & B & Dd & E). { apply (tedge_term s k (-1) e I T); lia. } exists r, s'. split; auto.
  - destruct (ep e) as [| |a] eqn:Ee.
    + destruct T as [A _ _ _]. rewrite Ee in A. contradiction.
    + destruct Tm as (r & s' & A & B & Dd & E); auto. exists r, s'. split; auto.
    + assert (A: linked (co s) k a /\ nv (nod s k a) = Z.of_nat n).
      { destruct T as [A _ _ _]. rewrite Ee in A. destruct A as [A Nv]. change (Inv.qn N (co s) k a) with (nod s k a) in Nv. split; auto. lia. }
      destruct A as [L Nv]. destruct (qe_same _ _ _ _ (sp_ext _ _ _ _ _ _ _ S1) L) as (Ne & _ & Nv1 & _).
      change (Inv.qn N (co s) k a) with (nod s k a) in *. change (Inv.qn N (co s1) k a) with (nod s1 k a) in *.
      rewrite <- Nv1, Nv. unfold shok. replace ((0 <=? Z.of_nat n) && (Z.of_nat n <? 64)) with true by (symmetry; apply andb_true_iff; split; [apply Z.leb_le|apply Z.ltb_lt]; lia).
      cbn [negb]. cbv zeta. rewrite <- Ne. set (e' := nthe (ne (nod s k a)) (dig (Z.of_nat n))).
      assert (Ch: tedge (co s) k (Z.of_nat n - 1) e'). { unfold e'. rewrite <- Nv. apply child_ok; auto. apply I. }
      assert (Ch1: tedge (co s1) k (Z.of_nat n - 1) e') by (eapply tedge_ext; [apply S1|auto]).
      assert (Vp: vpath k (Z.of_nat n - 1) (digp dig n)) by (apply digp_vpath; auto).
      assert (DE: de (co s) k e (digp dig (S n)) = (Cw (co s) (ew e) * de (co s) k e' (digp dig n))%C).
      { unfold Inv.de at 1. rewrite Ee. cbn [digp Inv.dn]. change (qn (co s) k a) with (nod s k a). reflexivity. }
      assert (Rec: exists r s2, (if wapx0 s1 (ew e') then ret (n0, n0) else byIdxF N g f k dig e' (cslot p q)) s1 = Ok r s2 /\ step (p :: q :: O) s1 s2 /\
         owns (s_cc s2) (p :: q :: O) /\ (ex X -> Cv2 r = (Cv s1 (cslot p q) * de (co s1) k e' (digp dig n))%C)).
      { destruct (wapx0 s1 (ew e')) eqn:Zz.
        - exists (n0, n0), s1. split; auto. split; [now apply step_refl|]. split; auto. intros Ex. rewrite (wapx0_de s1 k (Z.of_nat n - 1) e') by (try assumption; apply Ch1).
          rewrite (x_zero2 (X:=X)) by auto. ring.
        - destruct (IH f s1 (p :: q :: O) e' (cslot p q)) as (r & s2 & E2 & S2 & O2 & V2); auto; try lia; [now apply wok_slot|]. exists r, s2. auto. }
      destruct Rec as (r & s2 & E2 & S2 & O2 & V2).
      destruct (retC s2 O p q) as (s3 & E3 & O3 & Q3 & Vv & S3); [apply S2|auto|].
      exists r, s3. unfold bind. rewrite E2, E3. split; [reflexivity|]. split; [|split; auto].
      * eapply step_trans; [exact S1|]. eapply step_trans; [|apply S3]. eapply step_weak; [exact S2|]. intros x Hx. now right; right.
      * intros Ex. rewrite V2, V1, DE by auto. rewrite (de_step O s s1 k (Z.of_nat n - 1) e') by auto. rewrite Cv_Cw by (first [exact Ex | apply T]). ring.
Qed.

Theorem getValueV_sp i n s O e : (n <= 64)%nat -> Z.of_nat n <= s_nq s -> inv s -> owns (s_cc s) O -> tedge (co s) KV (Z.of_nat n - 1) e ->
  exists r s', getValueV N g e i s = Ok r s' /\ step O s s' /\ owns (s_cc s') O /\
    (ex X -> Cv2 r = de (co s) KV e (digp (bitV i) n)).
Proof.
  intros Hn Hq I Ow T. unfold getValueV. destruct (isT (ep e)) eqn:Te.
  - destruct (ep e) eqn:Ep; try discriminate. exists (cval s (ew e)), s. split; auto. split; [now apply step_refl|]. split; auto.
    intros Ex. change (Cv2 (cval s (ew e))) with (Cv s (ew e)). rewrite Cv_Cw by (first [exact Ex | apply T]). unfold Inv.de. rewrite Ep, dn_term. ring.
  - destruct (byIdxF_sp KV (bitV i)) with (n:=n) (f:=fuelof N s) (s:=s) (O:=O) (e:=e) (amp:=Cone) as (r & s1 & E1 & S1 & O1 & V1); auto.
    { intros v. unfold bitV. destruct (Z.testbit i v); simpl; lia. } { unfold fuelof. lia. } { left. apply wtab_one. }
    exists r, s1. split; auto. split; auto. split; auto. intros Ex. rewrite V1 by auto. rewrite Cv_Cw by (first [exact Ex|apply wtab_one]). rewrite Cw_one by auto. ring.
Qed.
Theorem getValueM_sp i j n s O e : (n <= 64)%nat -> Z.of_nat n <= s_nq s -> inv s -> owns (s_cc s) O -> tedge (co s) KM (Z.of_nat n - 1) e ->
  exists r s', getValueM N g e i j s = Ok r s' /\ step O s s' /\ owns (s_cc s') O /\
    (ex X -> Cv2 r = de (co s) KM e (digp (bitM i j) n)).
Proof.
  intros Hn Hq I Ow T. unfold getValueM. destruct (isT (ep e)) eqn:Te.
  - destruct (ep e) eqn:Ep; try discriminate. exists (cval s (ew e)), s. split; auto. split; [now apply step_refl|]. split; auto.
    intros Ex. change (Cv2 (cval s (ew e))) with (Cv s (ew e)). rewrite Cv_Cw by (first [exact Ex | apply T]). unfold Inv.de. rewrite Ep, dn_term. ring.
  - destruct (byIdxF_sp KM (bitM i j)) with (n:=n) (f:=fuelof N s) (s:=s) (O:=O) (e:=e) (amp:=Cone) as (r & s1 & E1 & S1 & O1 & V1); auto.
    { intros v. unfold bitM, bitV. destruct (Z.testbit i v), (Z.testbit j v); simpl; lia. } { unfold fuelof. lia. } { left. apply wtab_one. }
    exists r, s1. split; auto. split; auto. split; auto. intros Ex. rewrite V1 by auto. rewrite Cv_Cw by (first [exact Ex|apply wtab_one]). rewrite Cw_one by auto. ring.
Qed.

(** ** getVector and getMatrix *)

Section Fill.
Context {Ix A : Type} (put : A -> Ix -> N * N -> option A) (nx : Ix -> Z -> nat -> Ix) (k : kind).
Context (rd : A -> Ix -> N * N) (valid : A -> Ix -> Prop) (good : Ix -> nat -> Prop).
Fixpoint ixp (i : Ix) (n : nat) (p : list nat) : Ix :=
  match p with [] => i | d :: r => ixp (nx i (Z.of_nat (pred n)) d) (pred n) r end.
Hypothesis Hput : forall acc i x, valid acc i -> exists acc', put acc i x = Some acc' /\ (forall j, valid acc' j <-> valid acc j) /\
  rd acc' i = x /\ forall j, valid acc j -> j <> i -> rd acc' j = rd acc j.
Hypothesis Hnx0 : forall i v, nx i v 0%nat = i.
Hypothesis Hgood : forall i n d, good i (S n) -> (d < arity k)%nat -> good (nx i (Z.of_nat n) d) n.
Hypothesis Hinj : forall i n d d' p p', good i (S n) -> (d < arity k)%nat -> (d' < arity k)%nat -> d <> d' ->
  vpath k (Z.of_nat n - 1) p -> vpath k (Z.of_nat n - 1) p' -> ixp (nx i (Z.of_nat n) d) n p <> ixp (nx i (Z.of_nat n) d') n p'.

Definition fpost (n : nat) (i : Ix) (acc acc' : A) (s : st N) (amp : complex) (e : edge) : Prop :=
  (forall j, valid acc' j <-> valid acc j) /\
  (forall j, valid acc j -> (forall p, vpath k (Z.of_nat n - 1) p -> j <> ixp i n p) -> rd acc' j = rd acc j) /\
  (ex X -> forall p, vpath k (Z.of_nat n - 1) p -> Cv2 (rd acc' (ixp i n p)) = (Cv s amp * de (co s) k e p)%C).
Definition fpre (n : nat) (i : Ix) (acc : A) : Prop :=
  forall p, vpath k (Z.of_nat n - 1) p -> valid acc (ixp i n p) /\ rd acc (ixp i n p) = (n0, n0).

Lemma ixp_zeros i n m : ixp i n (repeat 0%nat m) = i.
Proof. revert n. induction m; intros n; simpl; auto. rewrite Hnx0. auto. Qed.
Lemma zeros_vpath n : vpath k (Z.of_nat n - 1) (repeat 0%nat n).
Proof.
  split; [rewrite repeat_length; lia|]. apply Forall_forall. intros x H. apply repeat_spec in H. subst. destruct k; simpl; lia.
Qed.
Lemma ixp_cons i n d r : ixp i (S n) (d :: r) = ixp (nx i (Z.of_nat n) d) n r.
Proof. reflexivity. Qed.
Lemma vpath_S n p : vpath k (Z.of_nat (S n) - 1) p -> exists d r, p = d :: r /\ (d < arity k)%nat /\ vpath k (Z.of_nat n - 1) r.
Proof.
  intros H. apply vpath_inv in H; [|lia]. destruct H as (d & r & A1 & A2 & A3). exists d, r. replace (Z.of_nat (S n) - 1 - 1) with (Z.of_nat n - 1) in A3 by lia. auto.
Qed.
Lemma vpath_S' n d r : (d < arity k)%nat -> vpath k (Z.of_nat n - 1) r -> vpath k (Z.of_nat (S n) - 1) (d :: r).
Proof. intros H V. apply vpath_cons. replace (Z.of_nat (S n) - 1 - 1) with (Z.of_nat n - 1) by lia. auto. Qed.

Lemma fillF_sp : forall n f s O e amp i acc, (n < f)%nat -> (n <= 64)%nat -> inv s -> owns (s_cc s) O ->
  tedge (co s) k (Z.of_nat n - 1) e -> wok (co s) O amp -> good i n -> fpre n i acc ->
  exists acc' s', fillF N g put nx f k e amp i acc s = Ok acc' s' /\ step O s s' /\ owns (s_cc s') O /\ fpost n i acc acc' s amp e.
Proof.
  induction n as [|n IH]; intros f s O e amp i acc Hf Hn I Ow T W Gd Pre; (destruct f as [|f]; [lia|]); cbn [fillF];
    (destruct (mulCached_sp s O (ew e) amp I Ow) as (p & q & s1 & E1 & O1 & S1 & V1); [left; apply T|exact W|]);
    unfold bind at 1; rewrite E1; assert (I1: inv s1) by apply S1; pose proof (owns_nodup _ _ _ _ O1) as (D & _).
  - assert (Et: ep e = PTerm) by (apply (tedge_term s k (-1) e I T); lia). rewrite Et.
    destruct (Hput acc i (cval s1 (cslot p q))) as (acc' & Ea & Va & Ra & Oa). { apply (Pre []). apply (zeros_vpath 0). }
    rewrite Ea. destruct (retC s1 O p q I1 O1) as (s2 & E2 & O2 & Q2 & Vv & S2). exists acc', s2. unfold bind. rewrite E2. split; [reflexivity|].
    split; [eapply step_trans; eauto|]. split; auto. split; [auto|]. split.
    + intros j Vj H. apply Oa; auto. apply (H []). apply (zeros_vpath 0).
    + intros Ex path V. apply vpath_m1 in V. subst. cbn [ixp]. rewrite Ra. change (Cv2 (cval s1 (cslot p q))) with (Cv s1 (cslot p q)). rewrite V1 by auto.
      rewrite (Cv_Cw s (ew e)) by (first [exact Ex|apply T]). unfold Inv.de. rewrite Et, dn_term. ring.
  - destruct (ep e) as [| |a] eqn:Ee.
    + destruct T as [A1 _ _ _]. rewrite Ee in A1. contradiction.
    + assert (Zp: vpath k (Z.of_nat (S n) - 1) (repeat 0%nat (S n))) by apply zeros_vpath.
      destruct (Hput acc i (cval s1 (cslot p q))) as (acc' & Ea & Va & Ra & Oa). { rewrite <- (ixp_zeros i (S n) (S n)). apply Pre. auto. }
      rewrite Ea. destruct (retC s1 O p q I1 O1) as (s2 & E2 & O2 & Q2 & Vv & S2). exists acc', s2. unfold bind. rewrite E2. split; [reflexivity|].
      split; [eapply step_trans; eauto|]. split; auto. split; [auto|]. split.
      * intros j Vj H. apply Oa; auto. rewrite <- (ixp_zeros i (S n) (S n)). apply H. auto.
      * intros Ex path V. assert (Ze: Cw (co s) (ew e) = C0). { destruct (te_t _ _ _ _ _ _ _ T Ee) as [Q|Q]; [lia|]. rewrite Q. now apply Cw_zero. }
        assert (R: (Cv s amp * de (co s) k e path)%C = C0). { unfold Inv.de. rewrite Ze. ring. }
        rewrite R. destruct (Pre path V) as [P1 P2].
        assert (Dec: ixp i (S n) path = i \/ ixp i (S n) path <> i).
        { destruct (list_eq_dec Nat.eq_dec path (repeat 0%nat (S n))) as [->|Hne]; [left; apply ixp_zeros|right].
          rewrite <- (ixp_zeros i (S n) (S n)) at 2. clear - Hne V Hinj Hgood Gd Zp. revert i Gd path V Hne. generalize (zeros_vpath (S n)). 
          assert (Gen: forall m i path path', good i m -> vpath k (Z.of_nat m - 1) path -> vpath k (Z.of_nat m - 1) path' -> path <> path' -> ixp i m path <> ixp i m path').
          { induction m as [|m IHm]; intros i path path' Gi Vp Vp' Np. { apply vpath_m1 in Vp. apply vpath_m1 in Vp'. congruence. }
            apply vpath_S in Vp. apply vpath_S in Vp'. destruct Vp as (d & r & -> & Hd & Vr). destruct Vp' as (d' & r' & -> & Hd' & Vr').
            rewrite !ixp_cons. destruct (Nat.eq_dec d d') as [->|Nd]; [apply IHm; auto; congruence|apply Hinj; auto]. }
          intros Z0 i Gd path V Np. apply Gen; auto. }
        destruct Dec as [De|De].
        -- rewrite De, Ra. change (Cv2 (cval s1 (cslot p q))) with (Cv s1 (cslot p q)). rewrite V1 by auto. rewrite (Cv_Cw s (ew e)) by (first [exact Ex|apply T]). rewrite Ze. ring.
        -- rewrite Oa by auto. rewrite P2. now apply x_zero2.
    + assert (A1: linked (co s) k a /\ nv (nod s k a) = Z.of_nat n).
      { destruct T as [A1 _ _ _]. rewrite Ee in A1. destruct A1 as [A1 Nv]. change (Inv.qn N (co s) k a) with (nod s k a) in Nv. split; auto. lia. }
      destruct A1 as [L Nv]. destruct (qe_same _ _ _ _ (sp_ext _ _ _ _ _ _ _ S1) L) as (Ne & _ & Nv1 & _).
      change (Inv.qn N (co s) k a) with (nod s k a) in *. change (Inv.qn N (co s1) k a) with (nod s1 k a) in *.
      rewrite <- Nv1, Nv. unfold shok. replace ((0 <=? Z.of_nat n) && (Z.of_nat n <? 64)) with true by (symmetry; apply andb_true_iff; split; [apply Z.leb_le|apply Z.ltb_lt]; lia).
      cbn [negb]. cbv zeta. rewrite <- Ne. set (es := ne (nod s k a)).
      assert (Ch: forall d, (d < arity k)%nat -> tedge (co s) k (Z.of_nat n - 1) (nthe es d)). { intros d Hd. unfold es. rewrite <- Nv. apply child_ok; auto. apply I. }
      assert (Loop: forall ds, NoDup ds -> (forall d, In d ds -> (d < arity k)%nat) -> forall s2 acc2, step (p :: q :: O) s1 s2 -> owns (s_cc s2) (p :: q :: O) ->
        (forall d, In d ds -> fpre n (nx i (Z.of_nat n) d) acc2) ->
        exists acc' s', foldM N (fun acc d => let* s := get in if wapx0 s (ew (nthe es d)) then ret acc else fillF N g put nx f k (nthe es d) (cslot p q) (nx i (Z.of_nat n) d) acc) ds acc2 s2 = Ok acc' s' /\
          step (p :: q :: O) s2 s' /\ owns (s_cc s') (p :: q :: O) /\ (forall j, valid acc' j <-> valid acc2 j) /\
          (forall j, valid acc2 j -> (forall d path, In d ds -> vpath k (Z.of_nat n - 1) path -> j <> ixp (nx i (Z.of_nat n) d) n path) -> rd acc' j = rd acc2 j) /\
          (ex X -> forall d path, In d ds -> vpath k (Z.of_nat n - 1) path -> Cv2 (rd acc' (ixp (nx i (Z.of_nat n) d) n path)) = (Cv s1 (cslot p q) * de (co s) k (nthe es d) path)%C)).
      { induction ds as [|d ds IHd]; intros Nd Hds s2 acc2 S2 O2 Pre2.
        { exists acc2, s2. split; [reflexivity|]. split; [apply step_refl, S2|]. split; auto. split; [tauto|]. split; auto. intros _ d path []. }
        inversion Nd as [|? ? Nd1 Nd2]; subst. cbn [foldM]. unfold bind at 1. assert (Hd: (d < arity k)%nat) by (apply Hds; now left).
        assert (Sd: step O s s2). { eapply step_trans; [exact S1|]. eapply step_weak; [exact S2|]. intros x Hx. now right; right. }
        assert (Td: tedge (co s2) k (Z.of_nat n - 1) (nthe es d)). { eapply tedge_ext; [apply Sd|auto]. }
        assert (One: exists acc3 s3, (let* s0 := get in if wapx0 s0 (ew (nthe es d)) then ret acc2 else fillF N g put nx f k (nthe es d) (cslot p q) (nx i (Z.of_nat n) d) acc2) s2 = Ok acc3 s3 /\
          step (p :: q :: O) s2 s3 /\ owns (s_cc s3) (p :: q :: O) /\ fpost n (nx i (Z.of_nat n) d) acc2 acc3 s2 (cslot p q) (nthe es d)).
        { unfold bind at 1, get, gets. destruct (wapx0 s2 (ew (nthe es d))) eqn:Zz.
          - exists acc2, s2. split; [reflexivity|]. split; [apply step_refl, S2|]. split; auto. split; [tauto|]. split; auto.
            intros Ex path V. destruct (Pre2 d (or_introl eq_refl) path V) as [_ P2]. rewrite P2. rewrite (wapx0_de s2 k (Z.of_nat n - 1) (nthe es d)) by (try assumption; apply Td).
            rewrite (x_zero2 (X:=X)) by auto. ring.
          - apply IH; auto; try lia; [apply S2|now apply wok_slot|]. apply Pre2. now left. }
        destruct One as (acc3 & s3 & E3 & S3 & O3 & F1 & F2 & F3). rewrite E3.
        destruct (IHd Nd2 (fun x H => Hds x (or_intror H)) s3 acc3) as (acc4 & s4 & E4 & S4 & O4 & K1 & K2 & K3); auto.
        { eapply step_trans; eauto. }
        { intros d' Hd' path V. destruct (Pre2 d' (or_intror Hd') path V) as [P1 P2]. split; [now apply F1|]. rewrite F2; auto. intros p' V'. apply Hinj; auto; [apply Hds; now right|]. intros ->. contradiction. }
        exists acc4, s4. split; auto. split; [eapply step_trans; eauto|]. split; auto. split; [intros j; rewrite K1; apply F1|]. split.
        - intros j Vj H. rewrite K2; [|now apply F1|]. { apply F2; auto. intros p' V'. apply H; [now left|auto]. } { intros d' p' Hd' V'. apply H; [now right|auto]. }
        - intros Ex d' path [<-|Hd'] V; [|apply K3; auto]. destruct (Pre2 d (or_introl eq_refl) path V) as [P1 P2].
          rewrite K2; [|now apply F1|]. 2: { intros d' p' Hd' V'. apply Hinj; auto; [apply Hds; now right|]. intros ->. contradiction. }
          rewrite F3 by auto. f_equal.
          + apply (Cv_step (nb:=nb) s1 s2 (p :: q :: O) (cslot p q)); auto. now apply wok_slot.
          + apply (de_step O s s2 k (Z.of_nat n - 1)); auto. }
      destruct (Loop (seq 0 (arity k)) (seq_NoDup _ _)) with (s2:=s1) (acc2:=acc) as (acc' & s2 & E2 & S2 & O2 & K1 & K2 & K3); auto.
      { intros d H. apply in_seq in H. lia. } { now apply step_refl. }
      { intros d H path V. rewrite <- ixp_cons. apply Pre. apply vpath_S'; auto. apply in_seq in H. lia. }
      destruct (retC s2 O p q) as (s3 & E3 & O3 & Q3 & Vv & S3); [apply S2|auto|].
      exists acc', s3. unfold bind at 1. rewrite E2. unfold bind. rewrite E3. split; [reflexivity|]. split; [|split; auto; split; auto; split].
      * eapply step_trans; [exact S1|]. eapply step_trans; [|apply S3]. eapply step_weak; [exact S2|]. intros x Hx. now right; right.
      * intros j Vj H. apply K2; auto. intros d path Hd V. rewrite <- ixp_cons. apply H. apply vpath_S'; auto. apply in_seq in Hd. lia.
      * intros Ex path V. apply vpath_S in V. destruct V as (d & r & -> & Hd & Vr). rewrite ixp_cons. rewrite K3 by (auto; apply in_seq; lia).
        rewrite V1 by auto. rewrite (Cv_Cw s (ew e)) by (first [exact Ex|apply T]). unfold Inv.de at 2. rewrite Ee. cbn [Inv.dn]. change (qn (co s) k a) with (nod s k a). fold es.
        unfold Inv.de. ring.
Qed.
End Fill.

Definition goodV (i : Z) (n : nat) : Prop := 0 <= i /\ i mod 2 ^ Z.of_nat n = 0.
Lemma pow2_nat n : Z.of_nat (2 ^ n) = 2 ^ Z.of_nat n.
Proof. rewrite Nat2Z.inj_pow. reflexivity. Qed.
Lemma goodV_nx i n d : goodV i (S n) -> (d < 2)%nat -> nxV i (Z.of_nat n) d = i + Z.of_nat (d * 2 ^ n) /\ goodV (nxV i (Z.of_nat n) d) n.
Proof.
  intros [A B] H. unfold nxV. replace (Z.of_nat (S n)) with (Z.of_nat n + 1) in B by lia.
  assert (P: 0 < 2 ^ Z.of_nat n) by (apply Z.pow_pos_nonneg; lia).
  assert (M: i mod 2 ^ Z.of_nat n = 0).
  { rewrite Z.pow_add_r in B by lia. apply Z.mod_divide in B; [|lia]. destruct B as (a & ->). replace (a * (2 ^ Z.of_nat n * 2 ^ 1)) with ((a * 2) * 2 ^ Z.of_nat n) by ring. apply Z.mod_mul. lia. }
  destruct d as [|[|d]]; [| |lia]; cbn [Nat.eqb].
  - split; [lia|]. split; auto.
  - rewrite lor_pow by (auto; lia). rewrite Nat.mul_1_l, pow2_nat. split; auto. split; [lia|]. replace (i + 2 ^ Z.of_nat n) with (i + 1 * 2 ^ Z.of_nat n) by ring. rewrite Z.mod_add by lia. auto.
Qed.
Lemma goodV_0 n : goodV 0 n.
Proof. split; [lia|]. apply Z.mod_0_l. apply Z.pow_nonzero; lia. Qed.
Lemma ixpV n : forall i p, goodV i n -> vpath KV (Z.of_nat n - 1) p -> ixp nxV i n p = i + Z.of_nat (vidx p).
Proof.
  induction n as [|n IH]; intros i p Gi V. { apply vpath_m1 in V. subst. simpl. lia. }
  apply vpath_S in V. destruct V as (d & r & -> & Hd & Vr). cbn [arity] in Hd. rewrite ixp_cons. destruct (goodV_nx i n d Gi Hd) as [E Gd].
  rewrite IH by auto. rewrite E. cbn [vidx]. destruct Vr as [L _]. replace (length r) with n by lia. lia.
Qed.
Lemma vpath_vidx n p : vpath KV (Z.of_nat n - 1) p -> (vidx p < 2 ^ n)%nat.
Proof. intros [L V]. replace n with (length p) by lia. apply vidx_lt. now apply Forall_forall. Qed.

Lemma putV_ok acc i x : 0 <= i < Z.of_nat (length acc) -> exists acc', putV N acc i x = Some acc' /\ length acc' = length acc /\
  nth (Z.to_nat i) acc' (n0, n0) = x /\ forall j, 0 <= j < Z.of_nat (length acc) -> j <> i -> nth (Z.to_nat j) acc' (n0, n0) = nth (Z.to_nat j) acc (n0, n0).
Proof.
  intros H. destruct (setAt_some acc (Z.to_nat i) x) as (l & E & L & Nt); [lia|]. exists l. split; auto. split; auto. split.
  - rewrite Nt, Nat.eqb_refl. auto.
  - intros j Hj Nj. rewrite Nt. replace (Nat.eqb (Z.to_nat j) (Z.to_nat i)) with false; auto. symmetry. apply Nat.eqb_neq. lia.
Qed.

Lemma dimOf_sp k n s e : (0 < n)%nat -> (n <= 63)%nat -> tedge (co s) k (Z.of_nat n - 1) e -> ep e <> PTerm ->
  dimOf N k e s = Ok (2 ^ Z.of_nat n) s.
Proof.
  intros H0 H1 T Nt. unfold dimOf. destruct T as [A _ _ _]. destruct (ep e) as [| |a] eqn:Ee; [contradiction|contradiction|]. destruct A as [_ A]. change (Inv.qn N (co s) k a) with (nod s k a) in A.
  unfold lvl. rewrite A. unfold shok, w64. replace ((0 <=? Z.of_nat n - 1) && (Z.of_nat n - 1 <? 64)) with true by (symmetry; apply andb_true_iff; split; [apply Z.leb_le|apply Z.ltb_lt]; lia).
  f_equal. assert (P: 0 < 2 ^ (Z.of_nat n - 1) <= 2 ^ 62). { split; [apply Z.pow_pos_nonneg; lia|]. apply Z.pow_le_mono_r; lia. }
  rewrite Z.mod_small by (change (2 ^ 64) with (4 * 2 ^ 62); lia). replace (Z.of_nat n) with (Z.of_nat n - 1 + 1) at 2 by lia. rewrite Z.pow_add_r by lia. ring.
Qed.

Theorem getVector_sp n s O e : (0 < n)%nat -> (n <= 63)%nat -> Z.of_nat n <= s_nq s -> inv s -> owns (s_cc s) O -> tedge (co s) KV (Z.of_nat n - 1) e -> ep e <> PTerm ->
  exists r s', getVector N g e s = Ok r s' /\ step O s s' /\ owns (s_cc s') O /\ length r = (2 ^ n)%nat /\
    (ex X -> forall p, vpath KV (Z.of_nat n - 1) p -> Cv2 (nth (vidx p) r (n0, n0)) = de (co s) KV e p).
Proof.
  intros H0 H1 Hq I Ow T Nt. unfold getVector, bind. rewrite (dimOf_sp KV n) by auto. rewrite <- pow2_nat, Nat2Z.id.
  destruct (fillF_sp (putV N) nxV KV (fun acc i => nth (Z.to_nat i) acc (n0, n0)) (fun acc i => 0 <= i < Z.of_nat (length acc)) goodV) with
    (n:=n) (f:=fuelof N s) (s:=s) (O:=O) (e:=e) (amp:=Cone) (i:=0) (acc:=repeat (@n0 N, @n0 N) (2 ^ n)) as (r & s' & E & S1 & O1 & F1 & F2 & F3); auto.
  - intros acc i x H. destruct (putV_ok acc i x H) as (acc' & E & L & R & Ot). exists acc'. split; auto. split; [intros j; rewrite L; tauto|]. split; auto.
  - intros i m d Gi Hd. now apply goodV_nx.
  - intros i m d d' p p' Gi Hd Hd' Nd V V'. destruct (goodV_nx i m d Gi Hd) as [E Gd]. destruct (goodV_nx i m d' Gi Hd') as [E' Gd'].
    rewrite !ixpV by auto. rewrite E, E'. pose proof (vpath_vidx m p V). pose proof (vpath_vidx m p' V'). intros Q.
    apply Nd. nia.
  - unfold fuelof. lia.
  - left. apply wtab_one.
  - apply goodV_0.
  - intros p V. pose proof (vpath_vidx n p V). rewrite ixpV by (auto; apply goodV_0). rewrite repeat_length. split; [lia|]. apply nth_repeat.
  - exists r, s'. split; auto. split; auto. split; auto. split.
    + assert (Q: forall j, 0 <= j < Z.of_nat (length r) <-> 0 <= j < Z.of_nat (2 ^ n)). { intros j. rewrite F1. rewrite repeat_length. tauto. }
      pose proof (proj1 (Q (Z.of_nat (length r) - 1))). pose proof (proj2 (Q (Z.of_nat (2 ^ n) - 1))). lia.
    + intros Ex p V. specialize (F3 Ex p V). cbv beta in F3. rewrite ixpV in F3 by (auto; apply goodV_0). rewrite Z.add_0_l, Nat2Z.id in F3. rewrite F3.
      rewrite (Cv_Cw s Cone) by (first [exact Ex|apply wtab_one]). rewrite Cw_one by auto. ring.
Qed.

Definition goodM (ij : Z * Z) (n : nat) : Prop := goodV (fst ij) n /\ goodV (snd ij) n.
Definition dimM (m : list (list (N * N))) (n : nat) : Prop := length m = n /\ Forall (fun r => length r = n) m.
Lemma rc_vpath n p : vpath KM (Z.of_nat n - 1) p -> vpath KV (Z.of_nat n - 1) (map (fun i => i / 2)%nat p) /\ vpath KV (Z.of_nat n - 1) (map (fun i => i mod 2)%nat p).
Proof.
  intros [L V]. split; (split; [now rewrite map_length|]); apply Forall_map; (eapply Forall_impl; [|exact V]); cbn [arity]; intros a Ha.
  - apply Nat.div_lt_upper_bound; lia.
  - apply Nat.mod_upper_bound; lia.
Qed.
Lemma div2_lt d : (d < 4)%nat -> (d / 2 < 2)%nat /\ (d mod 2 < 2)%nat.
Proof. intros H. split; [apply Nat.div_lt_upper_bound; lia|apply Nat.mod_upper_bound; lia]. Qed.
Lemma ixpM n : forall ij p, goodM ij n -> vpath KM (Z.of_nat n - 1) p -> ixp nxM ij n p = (fst ij + Z.of_nat (ridx p), snd ij + Z.of_nat (cidx p)).
Proof.
  assert (Gen: forall n ij p, goodM ij n -> vpath KM (Z.of_nat n - 1) p ->
    ixp nxM ij n p = (ixp nxV (fst ij) n (map (fun i => i / 2)%nat p), ixp nxV (snd ij) n (map (fun i => i mod 2)%nat p))).
  { clear. induction n as [|n IH]; intros ij p Gi V. { apply vpath_m1 in V. subst. simpl. now destruct ij. }
    apply vpath_S in V. destruct V as (d & r & -> & Hd & Vr). cbn [arity] in Hd. destruct (div2_lt d Hd) as [D1 D2]. cbn [map]. rewrite !ixp_cons. rewrite IH; auto.
    destruct Gi as [G1 G2]. split; unfold nxM; cbn [fst snd]; now apply goodV_nx. }
  intros ij p Gi V. rewrite Gen by auto. destruct (rc_vpath n p V) as [V1 V2]. destruct Gi as [G1 G2]. rewrite !ixpV by auto. reflexivity.
Qed.
Lemma rc_lt n p : vpath KM (Z.of_nat n - 1) p -> (ridx p < 2 ^ n)%nat /\ (cidx p < 2 ^ n)%nat.
Proof. intros V. destruct (rc_vpath n p V). split; now apply vpath_vidx. Qed.

Lemma putM_ok d acc ij x : dimM acc d -> 0 <= fst ij < Z.of_nat d -> 0 <= snd ij < Z.of_nat d -> exists acc', putM N acc ij x = Some acc' /\ dimM acc' d /\
  mentry acc' (Z.to_nat (fst ij)) (Z.to_nat (snd ij)) = x /\
  forall jk, 0 <= fst jk < Z.of_nat d -> 0 <= snd jk < Z.of_nat d -> jk <> ij -> mentry acc' (Z.to_nat (fst jk)) (Z.to_nat (snd jk)) = mentry acc (Z.to_nat (fst jk)) (Z.to_nat (snd jk)).
Proof.
  intros [L F] H1 H2. unfold putM. destruct (nth_error acc (Z.to_nat (fst ij))) as [row|] eqn:Er.
  2: { apply nth_error_None in Er. lia. }
  rewrite Forall_forall in F. assert (Lr: length row = d). { apply F. eapply nth_error_In; eauto. }
  destruct (setAt_some row (Z.to_nat (snd ij)) x) as (row' & E1 & L1 & N1); [lia|]. rewrite E1.
  destruct (setAt_some acc (Z.to_nat (fst ij)) row') as (acc' & E2 & L2 & N2); [lia|]. rewrite E2. exists acc'. split; auto. split; [|split].
  - split; [congruence|]. apply Forall_forall. intros r Hr. destruct (In_nth acc' r [] Hr) as (j & Hj & <-). rewrite N2. destruct (Nat.eqb j (Z.to_nat (fst ij))); [congruence|]. apply F. apply nth_In. lia.
  - unfold mentry. rewrite N2, Nat.eqb_refl, N1, Nat.eqb_refl. auto.
  - intros jk K1 K2 Nj. unfold mentry. rewrite N2. destruct (Nat.eqb_spec (Z.to_nat (fst jk)) (Z.to_nat (fst ij))) as [E|]; auto.
    rewrite N1. destruct (Nat.eqb_spec (Z.to_nat (snd jk)) (Z.to_nat (snd ij))) as [E'|].
    { exfalso. apply Nj. destruct ij, jk. cbn [fst snd] in *. f_equal; lia. }
    rewrite E. f_equal. symmetry. now apply nth_error_nth.
Qed.

Theorem getMatrix_sp n s O e : (0 < n)%nat -> (n <= 63)%nat -> Z.of_nat n <= s_nq s -> inv s -> owns (s_cc s) O -> tedge (co s) KM (Z.of_nat n - 1) e -> ep e <> PTerm ->
  exists r s', getMatrix N g e s = Ok r s' /\ step O s s' /\ owns (s_cc s') O /\ dimM r (2 ^ n) /\
    (ex X -> forall p, vpath KM (Z.of_nat n - 1) p -> Cv2 (mentry r (ridx p) (cidx p)) = de (co s) KM e p).
Proof.
  intros H0 H1 Hq I Ow T Nt. unfold getMatrix, bind. rewrite (dimOf_sp KM n) by auto. rewrite <- pow2_nat, Nat2Z.id.
  assert (D0: dimM (repeat (repeat (@n0 N, @n0 N) (2 ^ n)) (2 ^ n)) (2 ^ n)).
  { split; [apply repeat_length|]. apply Forall_forall. intros r Hr. apply repeat_spec in Hr. subst. apply repeat_length. }
  destruct (fillF_sp (putM N) nxM KM (fun acc ij => mentry acc (Z.to_nat (fst ij)) (Z.to_nat (snd ij)))
     (fun acc ij => dimM acc (2 ^ n) /\ 0 <= fst ij < Z.of_nat (2 ^ n) /\ 0 <= snd ij < Z.of_nat (2 ^ n)) goodM) with
    (n:=n) (f:=fuelof N s) (s:=s) (O:=O) (e:=e) (amp:=Cone) (i:=(0,0)) (acc:=repeat (repeat (@n0 N, @n0 N) (2 ^ n)) (2 ^ n)) as (r & s' & E & S1 & O1 & F1 & F2 & F3); auto.
  - intros acc i x (Hd & Hi & Hj). destruct (putM_ok (2 ^ n) acc i x Hd Hi Hj) as (acc' & E & L & R & Ot). exists acc'. split; auto. split; [intros j; tauto|]. split; auto.
    intros j (_ & Hj1 & Hj2) Nj. apply Ot; auto.
  - intros i v. unfold nxM, nxV. simpl. now destruct i.
  - intros i m d [G1 G2] Hd. cbn [arity] in Hd. destruct (div2_lt d Hd). split; now apply goodV_nx.
  - intros i m d d' p p' Gi Hd Hd' Nd V V'. cbn [arity] in Hd, Hd'. destruct (div2_lt d Hd) as [A1 A2]. destruct (div2_lt d' Hd') as [A1' A2']. destruct Gi as [G1 G2].
    destruct (goodV_nx _ m _ G1 A1) as [Ea Ga]. destruct (goodV_nx _ m _ G2 A2) as [Eb Gb]. destruct (goodV_nx _ m _ G1 A1') as [Ea' Ga']. destruct (goodV_nx _ m _ G2 A2') as [Eb' Gb'].
    rewrite !ixpM by (auto; split; auto). unfold nxM. cbn [fst snd]. rewrite Ea, Eb, Ea', Eb'. destruct (rc_lt m p V). destruct (rc_lt m p' V'). intros Q. apply pair_equal_spec in Q. destruct Q as [Q1 Q2].
    apply Nd. assert (d / 2 = d' / 2)%nat by (eapply dig_eq; [exact H|exact H3|]; lia). assert (d mod 2 = d' mod 2)%nat by (eapply dig_eq; [exact H2|exact H4|]; lia).
    rewrite (Nat.div_mod d 2), (Nat.div_mod d' 2) by lia. congruence.
  - unfold fuelof. lia.
  - left. apply wtab_one.
  - split; apply goodV_0.
  - intros p V. destruct (rc_lt n p V). rewrite ixpM by (auto; split; apply goodV_0). cbn [fst snd]. split; [split; auto; lia|]. unfold mentry.
    rewrite nth_repeat_lt by lia. apply nth_repeat.
  - exists r, s'. split; auto. split; auto. split; auto. split.
    + apply (F1 (0, 0)). cbn [fst snd]. assert (P: (2 ^ n <> 0)%nat) by (apply Nat.pow_nonzero; lia). split; auto. lia.
    + intros Ex p V. specialize (F3 Ex p V). cbv beta in F3. rewrite ixpM in F3 by (auto; split; apply goodV_0). cbn [fst snd] in F3. rewrite !Z.add_0_l, !Nat2Z.id in F3. rewrite F3.
      rewrite (Cv_Cw s Cone) by (first [exact Ex|apply wtab_one]). rewrite Cw_one by auto. ring.
Qed.

(** ** exportAmplitudes and addAmplitudes *)

Lemma blockSet_sp f : forall cnt idx (amps : list (N * N)), (idx + cnt <= length amps)%nat -> exists a', blockSet N cnt f idx amps = Some a' /\ length a' = length amps /\
  forall j, nth j a' (n0, n0) = if Nat.leb idx j && Nat.ltb j (idx + cnt) then f (nth j amps (n0, n0)) else nth j amps (n0, n0).
Proof.
  induction cnt as [|c IH]; intros idx amps H; cbn [blockSet].
  - exists amps. split; auto. split; auto. intros j. destruct (Nat.leb_spec idx j); auto. cbn [andb]. destruct (Nat.ltb_spec j (idx + 0)); auto. lia.
  - destruct (nth_error amps idx) as [x|] eqn:Ex; [|apply nth_error_None in Ex; lia].
    destruct (setAt_some amps idx (f x)) as (a1 & E1 & L1 & N1); [lia|]. rewrite E1.
    destruct (IH (S idx) a1) as (a2 & E2 & L2 & N2); [lia|]. exists a2. split; auto. split; [congruence|]. intros j. rewrite N2, N1.
    destruct (Nat.leb_spec (S idx) j), (Nat.ltb_spec j (S idx + c)), (Nat.leb_spec idx j), (Nat.ltb_spec j (idx + S c)), (Nat.eqb_spec j idx); cbn [andb]; try lia; auto.
    subst. now rewrite (nth_error_nth _ _ (n0, n0) Ex).
Qed.
Lemma blockM_sp n idx f (amps : list (N * N)) (s : st N) : (n <= 63)%nat -> (((idx + 1) * 2 ^ n) <= length amps)%nat -> (((idx + 1) * 2 ^ n) <= 2 ^ 63)%nat ->
  exists a', blockM N (Z.of_nat n) (Z.of_nat idx) f amps s = Ok a' s /\ length a' = length amps /\
  forall j, nth j a' (n0, n0) = if Nat.leb (idx * 2 ^ n) j && Nat.ltb j (idx * 2 ^ n + 2 ^ n) then f (nth j amps (n0, n0)) else nth j amps (n0, n0).
Proof.
  intros Hn H1 H2. unfold blockM, shok. replace ((0 <=? Z.of_nat n) && (Z.of_nat n <? 64)) with true by (symmetry; apply andb_true_iff; split; [apply Z.leb_le|apply Z.ltb_lt]; lia).
  cbn [negb]. destruct (blockSet_sp f (2 ^ n) (idx * 2 ^ n) amps) as (a' & E & L & Nt); [lia|].
  assert (W: Z.to_nat (w64 (Z.of_nat idx * 2 ^ Z.of_nat n)) = (idx * 2 ^ n)%nat).
  { rewrite <- pow2_nat, <- Nat2Z.inj_mul. unfold w64. rewrite Z.mod_small; [apply Nat2Z.id|]. split; [lia|].
    apply Z.lt_le_trans with (Z.of_nat (2 ^ 63) + 1). { lia. } rewrite pow2_nat. vm_compute. discriminate. }
  rewrite W, <- pow2_nat, Nat2Z.id, E. exists a'. auto.
Qed.

(** Block [idx] of [2^n] amplitudes. *)
Definition inblk (n idx j : nat) : Prop := (idx * 2 ^ n <= j < idx * 2 ^ n + 2 ^ n)%nat.
Lemma inblk_dec n idx j : inblk n idx j \/ ~ inblk n idx j.
Proof. unfold inblk. destruct (le_dec (idx * 2 ^ n) j), (lt_dec j (idx * 2 ^ n + 2 ^ n)); intuition lia. Qed.
Lemma inblk_0 n idx j : inblk n (2 * idx) j -> inblk (S n) idx j.
Proof. unfold inblk. rewrite Nat.pow_succ_r'. nia. Qed.
Lemma inblk_1 n idx j : inblk n (2 * idx + 1) j -> inblk (S n) idx j.
Proof. unfold inblk. rewrite Nat.pow_succ_r'. nia. Qed.
Lemma inblk_01 n idx j : inblk n (2 * idx) j -> ~ inblk n (2 * idx + 1) j.
Proof. unfold inblk. nia. Qed.
Lemma inblk_p n idx p : vpath KV (Z.of_nat n - 1) p -> inblk n idx (idx * 2 ^ n + vidx p).
Proof. intros V. pose proof (vpath_vidx n p V). unfold inblk. lia. Qed.
Lemma pos_0 n idx r : vpath KV (Z.of_nat n - 1) r -> (idx * 2 ^ S n + vidx (0%nat :: r) = 2 * idx * 2 ^ n + vidx r)%nat.
Proof. intros [L _]. cbn [vidx]. rewrite Nat.pow_succ_r'. nia. Qed.
Lemma pos_1 n idx r : vpath KV (Z.of_nat n - 1) r -> (idx * 2 ^ S n + vidx (1%nat :: r) = (2 * idx + 1) * 2 ^ n + vidx r)%nat.
Proof. intros [L _]. cbn [vidx]. replace (length r) with n by lia. rewrite Nat.pow_succ_r'. nia. Qed.
Lemma lvl_dec n : (n <= 63)%nat -> w8 (Z.of_nat (S n) - 1) = Z.of_nat n.
Proof. intros H. unfold w8. rewrite Z.mod_small; [lia|]. change (2 ^ 8) with 256. lia. Qed.
Lemma idx_dbl n idx : ((idx + 1) * 2 ^ S n <= 2 ^ 63)%nat -> w64 (2 * Z.of_nat idx) = Z.of_nat (2 * idx) /\ Z.lor (w64 (2 * Z.of_nat idx)) 1 = Z.of_nat (2 * idx + 1).
Proof.
  intros H. assert (P: (1 <= 2 ^ n)%nat) by (apply Nat.neq_0_lt_0, Nat.pow_nonzero; lia). rewrite Nat.pow_succ_r' in H.
  assert (B: (2 * idx <= 2 ^ 63)%nat) by nia. assert (B': 2 * Z.of_nat idx <= 2 ^ 63) by (pose proof (pow2_nat 63) as P63; change (Z.of_nat 63) with 63 in P63; rewrite <- P63; apply inj_le in B; rewrite Nat2Z.inj_mul in B; exact B).
  assert (W: w64 (2 * Z.of_nat idx) = 2 * Z.of_nat idx). { unfold w64. apply Z.mod_small. change (2 ^ 64) with (2 * 2 ^ 63). lia. }
  rewrite W. split; [lia|]. change 1 with (2 ^ 0). rewrite lor_pow; try lia. change (2 ^ (0 + 1)) with 2. rewrite Z.mul_comm. apply Z.mod_mul. lia.
Qed.

Lemma expF_sp : forall n f s O e amps amp idx, (n < f)%nat -> (n <= 63)%nat -> ((idx + 1) * 2 ^ n <= length amps)%nat -> ((idx + 1) * 2 ^ n <= 2 ^ 63)%nat ->
  inv s -> owns (s_cc s) O -> tedge (co s) KV (Z.of_nat n - 1) e -> wok (co s) O amp ->
  exists r s', expF N g f e amps amp (Z.of_nat n) (Z.of_nat idx) s = Ok r s' /\ step O s s' /\ owns (s_cc s') O /\ length r = length amps /\
    (forall j, ~ inblk n idx j -> nth j r (n0, n0) = nth j amps (n0, n0)) /\
    (ex X -> forall p, vpath KV (Z.of_nat n - 1) p -> Cv2 (nth (idx * 2 ^ n + vidx p) r (n0, n0)) = (Cv s amp * de (co s) KV e p)%C).
Proof.
  induction n as [n IH] using lt_wf_ind. intros f s O e amps amp idx Hf Hn La Lb I Ow T W. destruct f as [|f]; [lia|]. cbn [expF].
  destruct (ep e) as [| |a] eqn:Ee.
  { destruct T as [A1 _ _ _]. rewrite Ee in A1. contradiction. }
  - destruct (getTemp_sp (g:=g) G s O Ow) as (p & q & c' & E0 & V & Oc & D & Hp & Hq & _). set (s1 := set_cc s c') in *.
    unfold bind at 1. rewrite E0.
    destruct (mulInto_sp (X:=X) s1 p q amp (ew e)) as (v & E1 & V1). { eapply wok_ci; eauto. } { eapply (wok_ci (co s) O); [left; apply T|auto]. }
    unfold bind at 1. rewrite E1. set (s2 := setc p q v s1) in *. unfold bind, gets. unfold s2 at 1. rewrite setc_val by auto. fold s2.
    assert (S1: step O s s1) by (apply step_cc_any; auto).
    assert (S2: step O s s2) by (eapply step_trans; [exact S1|]; apply setc_step; auto; apply S1).
    destruct (blockM_sp n idx (fun _ => v) amps s2) as (r & E2 & L2 & N2); auto. exists r, s2. split; auto. split; auto. split; [now apply owns_ccw|]. split; auto. split.
    + intros j Hj. rewrite N2. unfold inblk in Hj. destruct (Nat.leb_spec (idx * 2 ^ n) j), (Nat.ltb_spec j (idx * 2 ^ n + 2 ^ n)); cbn [andb]; auto. exfalso. apply Hj. lia.
    + intros Ex path Vp. pose proof (vpath_vidx n path Vp). rewrite N2. destruct (Nat.leb_spec (idx * 2 ^ n) (idx * 2 ^ n + vidx path)), (Nat.ltb_spec (idx * 2 ^ n + vidx path) (idx * 2 ^ n + 2 ^ n)); try lia. cbn [andb].
      rewrite V1 by auto. assert (Cs: Cv s1 amp = Cv s amp) by (apply (Cv_step (nb:=nb) s s1 O amp); auto). rewrite Cs.
      assert (Ce: Cv s1 (ew e) = Cv s (ew e)). { apply (Cv_step (nb:=nb) s s1 O); auto. left. apply T. }
      rewrite Ce, (Cv_Cw s (ew e)) by (first [exact Ex|apply T]). unfold Inv.de. rewrite Ee, dn_term. ring.
  - assert (A1: linked (co s) KV a /\ nv (nod s KV a) = Z.of_nat n - 1).
    { destruct T as [A1 _ _ _]. rewrite Ee in A1. destruct A1 as [A1 Nv]. change (Inv.qn N (co s) KV a) with (nod s KV a) in Nv. split; auto. }
    destruct A1 as [L Nv]. destruct n as [|n].
    { pose proof (tedge_term s KV (-1) e I T ltac:(lia)). congruence. }
    destruct (mulCached_sp s O amp (ew e) I Ow) as (p & q & s1 & E1 & O1 & S1 & V1); [exact W|left; apply T|].
    unfold bind at 1. rewrite E1. unfold bind at 1, get. assert (I1: inv s1) by apply S1. pose proof (owns_nodup _ _ _ _ O1) as (D & _).
    destruct (qe_same _ _ _ _ (sp_ext _ _ _ _ _ _ _ S1) L) as (Ne & _ & _ & _).
    change (Inv.qn N (co s) KV a) with (nod s KV a) in *. change (Inv.qn N (co s1) KV a) with (nod s1 KV a) in *. rewrite <- Ne. set (es := ne (nod s KV a)).
    assert (Ch: forall d, (d < 2)%nat -> tedge (co s) KV (Z.of_nat n - 1) (nthe es d)). { intros d Hd. unfold es. replace (Z.of_nat n) with (nv (nod s KV a)) by lia. apply child_ok; auto. apply I. }
    rewrite lvl_dec by lia. destruct (idx_dbl n idx Lb) as [W0 W1]. rewrite W0 in *. rewrite W1.
    assert (P2: (2 ^ S n = 2 * 2 ^ n)%nat) by apply Nat.pow_succ_r'. rewrite P2 in La, Lb.
    destruct (IH n (Nat.lt_succ_diag_r n) f s1 (p :: q :: O) (nthe es 0) amps (cslot p q) (2 * idx)%nat) as (r1 & s2 & E2 & S2 & O2 & L2 & N2 & V2); auto; try lia; try nia.
    { eapply tedge_ext; [apply S1|apply Ch; lia]. } { now apply wok_slot. }
    unfold bind at 1. rewrite E2. assert (S12: step O s s2). { eapply step_trans; [exact S1|]. eapply step_weak; [exact S2|]. intros x Hx. now right; right. }
    destruct (IH n (Nat.lt_succ_diag_r n) f s2 (p :: q :: O) (nthe es 1) r1 (cslot p q) (2 * idx + 1)%nat) as (r2 & s3 & E3 & S3 & O3 & L3 & N3 & V3); auto; try lia; try nia.
    { apply S2. } { eapply tedge_ext; [apply S12|apply Ch; lia]. } { now apply wok_slot. }
    unfold bind at 1. rewrite E3. destruct (retC s3 O p q) as (s4 & E4 & O4 & Q4 & Vv & S4); [apply S3|auto|]. unfold bind. rewrite E4.
    exists r2, s4. split; [reflexivity|]. split; [|split; [auto|split; [congruence|split]]].
    + eapply step_trans; [exact S12|]. eapply step_trans; [|apply S4]. eapply step_weak; [exact S3|]. intros x Hx. now right; right.
    + intros j Hj. rewrite N3, N2; auto; intros H; apply Hj; [now apply inblk_0|now apply inblk_1].
    + intros Ex path Vp. apply vpath_S in Vp. destruct Vp as (d & rr & -> & Hd & Vr). cbn [arity] in Hd.
      assert (DE: de (co s) KV e (d :: rr) = (Cw (co s) (ew e) * de (co s) KV (nthe es d) rr)%C).
      { unfold Inv.de at 1. rewrite Ee. cbn [Inv.dn]. change (qn (co s) KV a) with (nod s KV a). reflexivity. }
      rewrite DE. assert (Val: Cv s1 (cslot p q) = (Cv s amp * Cw (co s) (ew e))%C). { rewrite V1 by auto. rewrite (Cv_Cw s (ew e)) by (first [exact Ex|apply T]). auto. }
      destruct d as [|[|d]]; [| |lia].
      * rewrite pos_0 by auto. rewrite N3. 2: { apply inblk_01. now apply inblk_p. }
        rewrite V2 by auto. rewrite Val. rewrite (de_step O s s1 KV (Z.of_nat n - 1)) by auto. ring.
      * rewrite pos_1 by auto. rewrite V3 by auto. assert (C2: Cv s2 (cslot p q) = Cv s1 (cslot p q)). { apply (Cv_step (nb:=nb) s1 s2 (p :: q :: O)); auto. now apply wok_slot. }
        rewrite C2, Val. rewrite (de_step O s s2 KV (Z.of_nat n - 1)) by auto. ring.
Qed.

Theorem exportAmplitudes_sp n s O e amps : (n <= 63)%nat -> Z.of_nat n <= s_nq s -> length amps = (2 ^ n)%nat ->
  inv s -> owns (s_cc s) O -> tedge (co s) KV (Z.of_nat n - 1) e -> ep e <> PTerm ->
  exists r s', exportAmplitudes N g e amps (Z.of_nat n) s = Ok r s' /\ step O s s' /\ owns (s_cc s') O /\ length r = (2 ^ n)%nat /\
    (ex X -> forall p, vpath KV (Z.of_nat n - 1) p -> Cv2 (nth (vidx p) r (n0, n0)) = de (co s) KV e p).
Proof.
  intros Hn Hq La I Ow T Nt. unfold exportAmplitudes. destruct (isT (ep e)) eqn:Te; [destruct (ep e); try discriminate; contradiction|].
  destruct (getCached_sp s (n1, n0) O I Ow) as (p & q & s1 & E1 & O1 & S1 & V1). unfold bind at 1. rewrite E1. pose proof (owns_nodup _ _ _ _ O1) as (D & _).
  assert (Lp: ((0 + 1) * 2 ^ n <= 2 ^ 63)%nat). { rewrite Nat.mul_1_l. apply Nat.pow_le_mono_r; lia. }
  destruct (expF_sp n (fuelof N s) s1 (p :: q :: O) e amps (cslot p q) 0) as (r & s2 & E2 & S2 & O2 & L2 & N2 & V2); auto; try lia.
  { unfold fuelof. lia. } { apply S1. } { eapply tedge_ext; [apply S1|auto]. } { now apply wok_slot. }
  unfold bind at 1. change 0 with (Z.of_nat 0) at 1. rewrite E2. destruct (retC s2 O p q) as (s3 & E3 & O3 & Q3 & Vv & S3); [apply S2|auto|]. unfold bind. rewrite E3.
  exists r, s3. split; [reflexivity|]. split; [|split; [auto|split; [congruence|]]].
  + eapply step_trans; [exact S1|]. eapply step_trans; [|apply S3]. eapply step_weak; [exact S2|]. intros x Hx. now right; right.
  + intros Ex path Vp. specialize (V2 Ex path Vp). rewrite Nat.mul_0_l, Nat.add_0_l in V2. rewrite V2. unfold Inv.Cv. rewrite V1. rewrite (de_step O s s1 KV (Z.of_nat n - 1)) by auto.
    unfold Inv.Cv2. cbn [fst snd]. rewrite (x_1 X Ex), (x_0 X Ex). change (1%R, 0%R) with C1. ring.
Qed.

Lemma expSF_sp : forall n f s O e amp, (n < f)%nat -> (n <= 63)%nat -> inv s -> owns (s_cc s) O -> tedge (co s) KV (Z.of_nat n - 1) e -> wok (co s) O amp ->
  exists r s', expSF N g f e amp (Z.of_nat n) s = Ok r s' /\ step O s s' /\ owns (s_cc s') O /\ length r = (2 ^ n)%nat /\
    (ex X -> forall p, vpath KV (Z.of_nat n - 1) p -> Cv2 (nth (vidx p) r (n0, n0)) = (Cv s amp * de (co s) KV e p)%C).
Proof.
  induction n as [n IH] using lt_wf_ind. intros f s O e amp Hf Hn I Ow T W. destruct f as [|f]; [lia|]. cbn [expSF].
  destruct (ep e) as [| |a] eqn:Ee.
  { destruct T as [A1 _ _ _]. rewrite Ee in A1. contradiction. }
  - destruct (getTemp_sp (g:=g) G s O Ow) as (p & q & c' & E0 & V & Oc & D & Hp & Hq & _). set (s1 := set_cc s c') in *.
    unfold bind at 1. rewrite E0.
    destruct (mulInto_sp (X:=X) s1 p q amp (ew e)) as (v & E1 & V1). { eapply wok_ci; eauto. } { eapply (wok_ci (co s) O); [left; apply T|auto]. }
    unfold bind at 1. rewrite E1. set (s2 := setc p q v s1) in *.
    unfold shok. replace ((0 <=? Z.of_nat n) && (Z.of_nat n <? 64)) with true by (symmetry; apply andb_true_iff; split; [apply Z.leb_le|apply Z.ltb_lt]; lia). cbn [negb]. unfold gets.
    unfold s2 at 1. rewrite setc_val by auto. fold s2. rewrite <- pow2_nat, Nat2Z.id.
    assert (S1: step O s s1) by (apply step_cc_any; auto).
    assert (S2: step O s s2) by (eapply step_trans; [exact S1|]; apply setc_step; auto; apply S1).
    exists (repeat v (2 ^ n)), s2. split; auto. split; auto. split; [now apply owns_ccw|]. split; [apply repeat_length|].
    intros Ex path Vp. pose proof (vpath_vidx n path Vp). rewrite nth_repeat_lt by auto.
    rewrite V1 by auto. assert (Cs: Cv s1 amp = Cv s amp) by (apply (Cv_step (nb:=nb) s s1 O amp); auto). rewrite Cs.
    assert (Ce: Cv s1 (ew e) = Cv s (ew e)). { apply (Cv_step (nb:=nb) s s1 O); auto. left. apply T. }
    rewrite Ce, (Cv_Cw s (ew e)) by (first [exact Ex|apply T]). unfold Inv.de. rewrite Ee, dn_term. ring.
  - assert (A1: linked (co s) KV a /\ nv (nod s KV a) = Z.of_nat n - 1).
    { destruct T as [A1 _ _ _]. rewrite Ee in A1. destruct A1 as [A1 Nv]. change (Inv.qn N (co s) KV a) with (nod s KV a) in Nv. split; auto. }
    destruct A1 as [L Nv]. destruct n as [|n].
    { pose proof (tedge_term s KV (-1) e I T ltac:(lia)). congruence. }
    destruct (mulCached_sp s O amp (ew e) I Ow) as (p & q & s1 & E1 & O1 & S1 & V1); [exact W|left; apply T|].
    unfold bind at 1. rewrite E1. unfold bind at 1, get. assert (I1: inv s1) by apply S1. pose proof (owns_nodup _ _ _ _ O1) as (D & _).
    destruct (qe_same _ _ _ _ (sp_ext _ _ _ _ _ _ _ S1) L) as (Ne & _ & _ & _).
    change (Inv.qn N (co s) KV a) with (nod s KV a) in *. change (Inv.qn N (co s1) KV a) with (nod s1 KV a) in *. rewrite <- Ne. set (es := ne (nod s KV a)).
    assert (Ch: forall d, (d < 2)%nat -> tedge (co s) KV (Z.of_nat n - 1) (nthe es d)). { intros d Hd. unfold es. replace (Z.of_nat n) with (nv (nod s KV a)) by lia. apply child_ok; auto. apply I. }
    rewrite lvl_dec by lia.
    destruct (IH n (Nat.lt_succ_diag_r n) f s1 (p :: q :: O) (nthe es 0) (cslot p q)) as (r1 & s2 & E2 & S2 & O2 & L2 & V2); auto; try lia.
    { eapply tedge_ext; [apply S1|apply Ch; lia]. } { now apply wok_slot. }
    unfold bind at 1. rewrite E2. assert (S12: step O s s2). { eapply step_trans; [exact S1|]. eapply step_weak; [exact S2|]. intros x Hx. now right; right. }
    destruct (IH n (Nat.lt_succ_diag_r n) f s2 (p :: q :: O) (nthe es 1) (cslot p q)) as (r2 & s3 & E3 & S3 & O3 & L3 & V3); auto; try lia.
    { apply S2. } { eapply tedge_ext; [apply S12|apply Ch; lia]. } { now apply wok_slot. }
    unfold bind at 1. rewrite E3. destruct (retC s3 O p q) as (s4 & E4 & O4 & Q4 & Vv & S4); [apply S3|auto|]. unfold bind. rewrite E4.
    exists (r1 ++ r2), s4. split; [reflexivity|]. split; [|split; [auto|split; [rewrite app_length, Nat.pow_succ_r'; lia|]]].
    + eapply step_trans; [exact S12|]. eapply step_trans; [|apply S4]. eapply step_weak; [exact S3|]. intros x Hx. now right; right.
    + intros Ex path Vp. apply vpath_S in Vp. destruct Vp as (d & rr & -> & Hd & Vr). cbn [arity] in Hd.
      assert (DE: de (co s) KV e (d :: rr) = (Cw (co s) (ew e) * de (co s) KV (nthe es d) rr)%C).
      { unfold Inv.de at 1. rewrite Ee. cbn [Inv.dn]. change (qn (co s) KV a) with (nod s KV a). reflexivity. }
      rewrite DE. assert (Val: Cv s1 (cslot p q) = (Cv s amp * Cw (co s) (ew e))%C). { rewrite V1 by auto. rewrite (Cv_Cw s (ew e)) by (first [exact Ex|apply T]). auto. }
      pose proof (vpath_vidx n rr Vr). destruct d as [|[|d]]; [| |lia].
      * cbn [vidx]. rewrite app_nth1 by lia. replace (0 * 2 ^ length rr + vidx rr)%nat with (vidx rr) by lia.
        rewrite V2 by auto. rewrite Val. rewrite (de_step O s s1 KV (Z.of_nat n - 1)) by auto. ring.
      * cbn [vidx]. destruct Vr as [Lr Vr']. replace (length rr) with n by lia. rewrite app_nth2 by lia. replace (1 * 2 ^ n + vidx rr - length r1)%nat with (vidx rr) by lia.
        rewrite V3 by (auto; split; auto). assert (C2: Cv s2 (cslot p q) = Cv s1 (cslot p q)). { apply (Cv_step (nb:=nb) s1 s2 (p :: q :: O)); auto. now apply wok_slot. }
        rewrite C2, Val. rewrite (de_step O s s2 KV (Z.of_nat n - 1)) by (auto; split; auto). ring.
Qed.

Theorem exportStream_sp n s O e : (n <= 63)%nat -> Z.of_nat n <= s_nq s ->
  inv s -> owns (s_cc s) O -> tedge (co s) KV (Z.of_nat n - 1) e -> ep e <> PTerm ->
  exists r s', exportStream N g e (Z.of_nat n) s = Ok r s' /\ step O s s' /\ owns (s_cc s') O /\ length r = (2 ^ n)%nat /\
    (ex X -> forall p, vpath KV (Z.of_nat n - 1) p -> Cv2 (nth (vidx p) r (n0, n0)) = de (co s) KV e p).
Proof.
  intros Hn Hq I Ow T Nt. unfold exportStream. destruct (isT (ep e)) eqn:Te; [destruct (ep e); try discriminate; contradiction|].
  destruct (getCached_sp s (n1, n0) O I Ow) as (p & q & s1 & E1 & O1 & S1 & V1). unfold bind at 1. rewrite E1. pose proof (owns_nodup _ _ _ _ O1) as (D & _).
  destruct (expSF_sp n (fuelof N s) s1 (p :: q :: O) e (cslot p q)) as (r & s2 & E2 & S2 & O2 & L2 & V2); auto; try lia.
  { unfold fuelof. lia. } { apply S1. } { eapply tedge_ext; [apply S1|auto]. } { now apply wok_slot. }
  unfold bind at 1. rewrite E2. destruct (retC s2 O p q) as (s3 & E3 & O3 & Q3 & Vv & S3); [apply S2|auto|]. unfold bind. rewrite E3.
  exists r, s3. split; [reflexivity|]. split; [|split; [auto|split; [congruence|]]].
  + eapply step_trans; [exact S1|]. eapply step_trans; [|apply S3]. eapply step_weak; [exact S2|]. intros x Hx. now right; right.
  + intros Ex path Vp. rewrite V2 by auto. unfold Inv.Cv. rewrite V1. rewrite (de_step O s s1 KV (Z.of_nat n - 1)) by auto.
    unfold Inv.Cv2. cbn [fst snd]. rewrite (x_1 X Ex), (x_0 X Ex). change (1%R, 0%R) with C1. ring.
Qed.

Lemma vmulA_Cv (a b : N * N) : ex X -> Cv2 (vmulA N a b) = (Cv2 a * Cv2 b)%C.
Proof.
  intros Ex. unfold vmulA, Inv.Cv2, Cmul. cbn [fst snd]. rewrite (x_sub X Ex), (x_add X Ex), !(x_mul X Ex). f_equal; ring.
Qed.
Lemma addAmpF_sp s : inv s -> forall n f e amps amp idx, (n < f)%nat -> (n <= 63)%nat -> ((idx + 1) * 2 ^ n <= length amps)%nat -> ((idx + 1) * 2 ^ n <= 2 ^ 63)%nat ->
  tedge (co s) KV (Z.of_nat n - 1) e ->
  exists r, addAmpF N f e amps amp (Z.of_nat n) (Z.of_nat idx) s = Ok r s /\ length r = length amps /\
    (forall j, ~ inblk n idx j -> nth j r (n0, n0) = nth j amps (n0, n0)) /\
    (ex X -> forall p, vpath KV (Z.of_nat n - 1) p -> Cv2 (nth (idx * 2 ^ n + vidx p) r (n0, n0)) = (Cv2 (nth (idx * 2 ^ n + vidx p) amps (n0, n0)) + Cv2 amp * de (co s) KV e p)%C).
Proof.
  intros I. induction n as [n IH] using lt_wf_ind. intros f e amps amp idx Hf Hn La Lb T. destruct f as [|f]; [lia|]. cbn [addAmpF]. cbv zeta.
  assert (VA: ex X -> Cv2 (vmulA N (cval s (ew e)) amp) = (Cw (co s) (ew e) * Cv2 amp)%C).
  { intros Ex. rewrite vmulA_Cv by auto. change (Cv2 (cval s (ew e))) with (Cv s (ew e)). now rewrite (Cv_Cw s (ew e)) by (first [exact Ex|apply T]). }
  set (v := vmulA N (cval s (ew e)) amp) in *.
  destruct (ep e) as [| |a] eqn:Ee.
  { destruct T as [A1 _ _ _]. rewrite Ee in A1. contradiction. }
  - destruct (blockM_sp n idx (fun x => (nadd (fst v) (fst x), nadd (snd v) (snd x))) amps s) as (r & E2 & L2 & N2); auto. exists r. split; auto. split; auto. split.
    + intros j Hj. rewrite N2. unfold inblk in Hj. destruct (Nat.leb_spec (idx * 2 ^ n) j), (Nat.ltb_spec j (idx * 2 ^ n + 2 ^ n)); cbn [andb]; auto. exfalso. apply Hj. lia.
    + intros Ex path Vp. pose proof (vpath_vidx n path Vp). rewrite N2. destruct (Nat.leb_spec (idx * 2 ^ n) (idx * 2 ^ n + vidx path)), (Nat.ltb_spec (idx * 2 ^ n + vidx path) (idx * 2 ^ n + 2 ^ n)); try lia. cbn [andb].
      rewrite (x_add2 (X:=X)) by auto. rewrite VA by auto. unfold Inv.de. rewrite Ee, dn_term. ring.
  - assert (A1: linked (co s) KV a /\ nv (nod s KV a) = Z.of_nat n - 1).
    { destruct T as [A1 _ _ _]. rewrite Ee in A1. destruct A1 as [A1 Nv]. change (Inv.qn N (co s) KV a) with (nod s KV a) in Nv. split; auto. }
    destruct A1 as [L Nv]. destruct n as [|n].
    { pose proof (tedge_term s KV (-1) e I T ltac:(lia)). congruence. }
    set (es := ne (nod s KV a)).
    assert (Ch: forall d, (d < 2)%nat -> tedge (co s) KV (Z.of_nat n - 1) (nthe es d)). { intros d Hd. unfold es. replace (Z.of_nat n) with (nv (nod s KV a)) by lia. apply child_ok; auto. apply I. }
    rewrite lvl_dec by lia. destruct (idx_dbl n idx Lb) as [W0 W1]. rewrite W0 in *. rewrite W1.
    assert (P2: (2 ^ S n = 2 * 2 ^ n)%nat) by apply Nat.pow_succ_r'. rewrite P2 in La, Lb.
    destruct (IH n (Nat.lt_succ_diag_r n) f (nthe es 0) amps v (2 * idx)%nat) as (r1 & E2 & L2 & N2 & V2); auto; try lia; try nia.
    unfold bind at 1. rewrite E2.
    destruct (IH n (Nat.lt_succ_diag_r n) f (nthe es 1) r1 v (2 * idx + 1)%nat) as (r2 & E3 & L3 & N3 & V3); auto; try lia; try nia.
    exists r2. split; [auto|]. split; [congruence|split].
    + intros j Hj. rewrite N3, N2; auto; intros H; apply Hj; [now apply inblk_0|now apply inblk_1].
    + intros Ex path Vp. apply vpath_S in Vp. destruct Vp as (d & rr & -> & Hd & Vr). cbn [arity] in Hd.
      assert (DE: de (co s) KV e (d :: rr) = (Cw (co s) (ew e) * de (co s) KV (nthe es d) rr)%C).
      { unfold Inv.de at 1. rewrite Ee. cbn [Inv.dn]. change (qn (co s) KV a) with (nod s KV a). reflexivity. }
      rewrite DE. destruct d as [|[|d]]; [| |lia].
      * rewrite pos_0 by auto. rewrite N3. 2: { apply inblk_01. now apply inblk_p. }
        rewrite V2, VA by auto. ring.
      * rewrite pos_1 by auto. rewrite V3 by auto. rewrite N2. 2: { intros H. eapply inblk_01; [exact H|]. now apply inblk_p. }
        rewrite VA by auto. ring.
Qed.
Theorem addAmplitudes_sp n s e amps : (n <= 63)%nat -> Z.of_nat n <= s_nq s -> length amps = (2 ^ n)%nat ->
  inv s -> tedge (co s) KV (Z.of_nat n - 1) e -> ep e <> PTerm ->
  exists r, addAmplitudes N e amps (Z.of_nat n) s = Ok r s /\ length r = (2 ^ n)%nat /\
    (ex X -> forall p, vpath KV (Z.of_nat n - 1) p -> Cv2 (nth (vidx p) r (n0, n0)) = (Cv2 (nth (vidx p) amps (n0, n0)) + de (co s) KV e p)%C).
Proof.
  intros Hn Hq La I T Nt. unfold addAmplitudes. destruct (isT (ep e)) eqn:Te; [destruct (ep e); try discriminate; contradiction|].
  assert (Lp: ((0 + 1) * 2 ^ n <= 2 ^ 63)%nat). { rewrite Nat.mul_1_l. apply Nat.pow_le_mono_r; lia. }
  destruct (addAmpF_sp s I n (fuelof N s) e amps (n1, n0) 0) as (r & E2 & L2 & N2 & V2); auto; try lia. { unfold fuelof. lia. }
  exists r. split; [exact E2|]. split; [congruence|]. intros Ex p V. specialize (V2 Ex p V). rewrite Nat.mul_0_l, Nat.add_0_l in V2. rewrite V2.
  unfold Inv.Cv2 at 2. cbn [fst snd]. rewrite (x_1 X Ex), (x_0 X Ex). change (1%R, 0%R) with C1. ring.
Qed.
End ReadL.
