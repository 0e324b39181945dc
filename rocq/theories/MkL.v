(** Specifications of the unique tables, makeDDNode and transpose. *)
From Coq Require Import ZArith List Bool Lia Arith Reals Lra Permutation.
From Verif Require Import Num Base CTable CTableWf Cx State Pkg Inv InvL PrimL NormL.
Import ListNotations.
Local Open Scope Z_scope.

(** ** Functions that leave the unique tables alone *)
Section Utk.
Context {N : num} {g : cfg N}.

Definition utk {A} (m : M N A) : Prop := forall s a s', m s = Ok a s' -> s_ut s' = s_ut s.

Lemma utk_ret {A} (a : A) : utk (ret a).
Proof. intros s b s' E. now injection E as _ <-. Qed.
Lemma utk_bind {A B} (m : M N A) (f : A -> M N B) : utk m -> (forall a, utk (f a)) -> utk (bind m f).
Proof.
  intros H K s b s' E. unfold bind in E. destruct (m s) as [a s1| |] eqn:E1; try discriminate.
  rewrite (K _ _ _ _ E). eapply H; eauto.
Qed.
Lemma utk_st {A} (f : st N -> M N A) : (forall s, utk (f s)) -> utk (fun s => f s s).
Proof. intros H s a s' E. eapply H; eauto. Qed.
Lemma utk_get : utk (get (N:=N)).
Proof. intros s b s' E. now injection E as _ <-. Qed.
Lemma utk_gets {A} (f : st N -> A) : utk (gets f).
Proof. intros s b s' E. now injection E as _ <-. Qed.
Lemma utk_assert b : utk (assertM (N:=N) b).
Proof. intros s a s' E. unfold assertM in E. destruct b; [|discriminate]. now injection E as _ <-. Qed.
Lemma utk_fail {A} b : utk (fail (N:=N) (A:=A) b).
Proof. intros s a s' E. discriminate. Qed.
Lemma utk_wr p v : utk (wr (N:=N) p v).
Proof. intros s a s' E. unfold wr in E. destruct p as [[] []]; try discriminate. now injection E as _ <-. Qed.
Lemma utk_retCache w : utk (retCache (N:=N) w).
Proof.
  intros s a s' E. unfold retCache in E. destruct w as [[[] []] [[] []]]; try discriminate.
  destruct (_ <? _); [discriminate|]. destruct (_ && _); [|discriminate]. now injection E as _ <-.
Qed.
Lemma utk_getTemp : utk (getTemp g).
Proof.
  intros s a s' E. unfold getTemp in E. destruct (cc_avail (s_cc s)) as [|x [|y r]]; try discriminate.
  - destruct (_ <? _); [discriminate|]. now injection E as _ <-.
  - now injection E as _ <-.
Qed.
Lemma utk_lookup1 v : utk (cn_lookup1 g v).
Proof.
  intros s a s' E. unfold cn_lookup1 in E. destruct (nsign v).
  - destruct (nltb _ _). now injection E as _ <-. destruct (ct_lookup _ _ _) as [[? ?]|]; [|discriminate]. now injection E as _ <-.
  - destruct (ct_lookup _ _ _) as [[? ?]|]; [|discriminate]. now injection E as _ <-.
Qed.
Lemma utk_lookup a b : utk (cn_lookup g a b).
Proof. apply utk_bind. apply utk_lookup1. intros. apply utk_bind. apply utk_lookup1. intros; apply utk_ret. Qed.
Lemma utk_lookupC w : utk (cn_lookupC g w).
Proof.
  apply (utk_st (fun s s' => if ceqb w Czero then Ok Czero s' else if ceqb w Cone then Ok Cone s' else cn_lookup g (val s (cr w)) (val s (ci w)) s')).
  intros s. destruct (ceqb w Czero); [apply (utk_ret Czero)|]. destruct (ceqb w Cone); [apply (utk_ret Cone)|]. apply utk_lookup.
Qed.
Lemma utk_setVal r c : utk (setVal (N:=N) r c).
Proof. repeat (apply utk_bind; [first [apply utk_gets|apply utk_wr]|intros]). apply utk_wr. Qed.
Lemma utk_divInto r a b : utk (divInto (N:=N) r a b).
Proof.
  apply utk_bind; [apply utk_assert|]. intros _.
  assert (W: forall x y, utk (bind (wr (N:=N) (cr r) x) (fun _ => wr (ci r) y))).
  { intros. apply utk_bind; [apply utk_wr|intros; apply utk_wr]. }
  intros s x s' E. destruct (wapx s a b); [eapply W; eauto|].
  destruct (wapx1 s b); [eapply utk_setVal; eauto|].
  destruct (cval s a), (cval s b). eapply W; eauto.
Qed.
Lemma utk_mapM {A B} (f : A -> M N B) l : (forall a, utk (f a)) -> utk (mapM N f l).
Proof.
  intros H. induction l; simpl. apply utk_ret. apply utk_bind; auto. intros. apply utk_bind; auto. intros; apply utk_ret.
Qed.
Lemma utk_if {A} (b : bool) (x y : M N A) : utk x -> utk y -> utk (if b then x else y).
Proof. destruct b; auto. Qed.

Hint Resolve utk_ret utk_get utk_gets utk_assert utk_fail utk_wr utk_retCache utk_getTemp utk_lookup utk_lookupC utk_setVal utk_divInto : utk.
Ltac utk1 := first [solve [auto with utk] | apply utk_bind; [|intros] | apply utk_if | apply utk_mapM; intros
  | match goal with |- utk (match ?x with _ => _ end) => destruct x end].

Lemma utk_relz c z e : utk (relz N c z e).
Proof. unfold relz. repeat utk1. Qed.
Lemma utk_topw c w : utk (topw N g c w).
Proof. unfold topw. repeat utk1. Qed.
Hint Resolve utk_relz utk_topw : utk.
Lemma utk_normalize k c es : utk (normalize N g k c es).
Proof.
  assert (M: utk (normalizeM N g c es)).
  { unfold normalizeM. repeat utk1. unfold normEdge. repeat utk1. }
  unfold normalize. destruct k; auto. destruct es as [|e0 [|e1 [|? ?]]]; try apply utk_fail.
  unfold normalizeV. repeat utk1.
Qed.
End Utk.

Section MkL.
Context {N : num} {g : cfg N} {nb : kind -> Z} {X : numx N (g_ct g)} (G : gok g).
Local Notation cf := (g_ct g).
Local Notation co := (co N).
Local Notation qn := (qn N).
Local Notation linked := (linked N).
Local Notation c_ut := (c_ut N).
Local Notation Cw := (Cw N g X).
Local Notation Cv := (Cv N g X).
Local Notation Cv2 := (Cv2 N g X).
Local Notation dn := (dn N g X).
Local Notation de := (de N g X).
Local Notation dg := (dg N g X).
Local Notation wtab := (wtab N g X).
Local Notation etn := (etn N).
Local Notation isnode := (isnode N).
Local Notation tedge := (tedge N g X).
Local Notation gedge := (gedge N g X).
Local Notation cinv := (cinv N g nb X).
Local Notation uinv := (uinv N g nb X).
Local Notation nodeok := (nodeok N g nb X).
Local Notation inv := (inv N g nb X).
Local Notation step := (step N g nb X).
Local Notation qext := (qext N).
Local Notation owns := (owns N).
Local Notation wok := (wok N g X).
Local Notation wp := (wp N).
Local Notation al0 := (al0 N g X).
Local Notation nnorm := (nnorm N g X).
Local Notation iedge := (iedge (g:=g) (X:=X)).
Implicit Types (s : st N).

Lemma c_ut_set s k u k' : c_ut (co (set_ut s k u)) k' = if kind_eqb k' k then u else s_ut s k'.
Proof. reflexivity. Qed.
Lemma c_ut_set_eq s k u : c_ut (co (set_ut s k u)) k = u.
Proof. rewrite c_ut_set, kind_eqb_refl. reflexivity. Qed.
Lemma c_ut_set_neq s k u k' : k' <> k -> c_ut (co (set_ut s k u)) k' = c_ut (co s) k'.
Proof. intros H. rewrite c_ut_set, kind_eqb_neq; auto. Qed.

Lemma uinv_other q q' k : cinv q -> qext q q' -> c_ut q' k = c_ut q k -> uinv q' k.
Proof.
  intros I E Eu. destruct (ci_ut _ _ _ _ _ I k) as [U1 U2 U3 U4 U5 U6 U7 U8 U9 U10].
  assert (Q: forall n, qn q' k n = qn q k n) by (intros; unfold Inv.qn; now rewrite Eu).
  assert (Lk: forall n, linked q' k n <-> linked q k n) by (intros; unfold Inv.linked; now rewrite Eu).
  constructor; auto.
  - rewrite Eu. intros v b n H. eapply nodeok_ext; eauto. exists v, b; auto. all: now rewrite Q.
  - now rewrite Eu.
  - intros n H. rewrite Eu. apply U4. now apply Lk.
  - now rewrite Eu.
  - rewrite Eu. intros n H. rewrite Lk. auto.
  - rewrite Eu. intros n H. rewrite Q. auto.
  - rewrite Eu. intros v b n m Hn Hm. rewrite !Q. rewrite (uinv_qes (nb:=nb) q q' k v b n m (ci_ut _ _ _ _ _ I k) (qe_ct _ _ _ E) Hn Hm). apply (U8 v b); auto.
  - unfold ut_allq in *. rewrite Eu, (qe_nq _ _ _ E). auto.
  - rewrite Eu. auto.
Qed.

Lemma step_ut O s k u : inv s -> qext (co s) (co (set_ut s k u)) -> uinv (co (set_ut s k u)) k ->
  step O s (set_ut s k u).
Proof.
  intros [I T] E U. constructor; auto.
  - constructor.
    + constructor; try apply I. intros k'. destruct (kind_eq_dec k' k) as [->|H]; auto.
      eapply uinv_other; eauto. now apply c_ut_set_neq.
    + eapply tinv_ext; eauto.
  - intros a _. reflexivity.
Qed.

(** Changing the free list and the heap outside the chains. *)
Lemma step_uts O s k u : inv s -> ut_tab u = ut_tab (s_ut s k) ->
  (forall n, linked (co s) k n -> ut_heap u n = ut_heap (s_ut s k) n) ->
  ut_count u = ut_count (s_ut s k) -> ut_peak u = ut_peak (s_ut s k) ->
  ut_active u = ut_active (s_ut s k) -> ut_actcount u = ut_actcount (s_ut s k) -> ut_maxact u = ut_maxact (s_ut s k) ->
  NoDup (ut_avail u) -> (forall n, In n (ut_avail u) -> (n < ut_next u)%nat /\ ~ linked (co s) k n) ->
  (forall n, (ut_next u <= n)%nat -> nref (ut_heap u n) = 0) ->
  (ut_next (s_ut s k) <= ut_next u)%nat ->
  step O s (set_ut s k u).
Proof.
  intros I Et Eh Ec Ep Ea Eac Em Hnd Hav Hf Hn.
  assert (Lk: forall n, linked (co (set_ut s k u)) k n <-> linked (co s) k n).
  { intros. unfold Inv.linked. rewrite c_ut_set_eq, Et. reflexivity. }
  assert (E: qext (co s) (co (set_ut s k u))).
  { constructor; auto.
    - apply ctext_refl.
    - intros k' v b n H. destruct (kind_eq_dec k' k) as [->|Hk].
      + unfold Inv.qn. rewrite c_ut_set_eq, Et. split; auto. rewrite Eh. repeat split; auto. exists v, b; auto.
      + unfold Inv.qn. rewrite c_ut_set_neq by auto. repeat split; auto.
    - intros k' n H. left. destruct (kind_eq_dec k' k) as [->|Hk]. now apply Lk.
      unfold Inv.linked in *. rewrite c_ut_set_neq in H; auto.
    - intros k'. destruct (kind_eq_dec k' k) as [->|Hk].
      + rewrite c_ut_set_eq. auto.
      + rewrite c_ut_set_neq by auto. auto. }
  apply step_ut; auto.
  pose proof (iv_c _ _ _ _ _ I) as IC. destruct (ci_ut _ _ _ _ _ IC k) as [U1 U2 U3 U4 U5 U6 U7 U8 U9 U10].
  assert (Q: forall n, linked (co s) k n -> qn (co (set_ut s k u)) k n = qn (co s) k n).
  { intros. unfold Inv.qn. rewrite c_ut_set_eq. apply Eh. auto. }
  assert (Li: forall v b n, In n (ut_tab (s_ut s k) v b) -> linked (co s) k n) by (intros v b n H; exists v, b; auto).
  constructor; auto; rewrite ?c_ut_set_eq, ?Et; auto.
  - intros v b n H. eapply nodeok_ext; eauto; try (rewrite Q; eauto).
  - intros n H. apply Lk in H. apply U4 in H. simpl in H. lia.
  - intros n H. rewrite Lk. auto.
  - intros n H. unfold Inv.qn. rewrite c_ut_set_eq. auto.
  - intros v b n m Hn1 Hm. rewrite !Q by eauto. rewrite (qes_ct (co s)) by reflexivity. eapply U8; eauto.
  - rewrite Ec. change (c_ut (co s) k) with (s_ut s k) in U9. rewrite U9. unfold ut_allq. rewrite c_ut_set_eq, Et. reflexivity.
  - rewrite Ec, Ep. auto.
Qed.

(** A node under construction: taken from the chunks or the free list, not yet linked. *)
Definition resv (u : utab) (n : nat) : Prop :=
  (n < ut_next u)%nat /\ (forall v b, ~ In n (ut_tab u v b)) /\ ~ In n (ut_avail u).

Lemma getNode_sp O s k : inv s -> exists n s', getNode N k s = Ok n s' /\ step O s s' /\ s_cc s' = s_cc s /\
  resv (s_ut s' k) n.
Proof.
  intros I. pose proof (ci_ut _ _ _ _ _ (iv_c _ _ _ _ _ I) k) as U.
  destruct U as [U1 U2 U3 U4 U5 U6 U7 U8 U9 U10]. change (c_ut (co s) k) with (s_ut s k) in *.
  assert (QN: forall n, qn (co s) k n = ut_heap (s_ut s k) n) by reflexivity.
  unfold getNode. destruct (ut_avail (s_ut s k)) as [|a rest] eqn:Av.
  - rewrite <- QN, U7 by lia. simpl. eexists _, _. split; [reflexivity|]. split; [|split; auto].
    + apply step_uts; auto; simpl; auto; try contradiction. intros; apply U7; lia.
    + unfold resv. change (s_ut (set_ut s k ?u) k) with (c_ut (co (set_ut s k u)) k). rewrite c_ut_set_eq. simpl.
      split; [lia|]. split; auto. intros v b H. assert (L: linked (co s) k (ut_next (s_ut s k))) by (exists v, b; auto).
      apply U4 in L. lia.
  - destruct (U6 a) as [A1 A2]. now left. inversion U5 as [|? ? Ha Hr]; subst.
    eexists _, _. split; [reflexivity|]. split; [|split; auto].
    + apply step_uts; auto; simpl; auto.
      * intros n L. rewrite upd_neq; auto. intros ->. contradiction.
      * intros n Hn. apply U6. now right.
      * intros n Hn. rewrite upd_neq by lia. apply U7; auto.
    + unfold resv. change (s_ut (set_ut s k ?u) k) with (c_ut (co (set_ut s k u)) k). rewrite c_ut_set_eq. simpl.
      split; [auto|]. split; auto. intros v b H. apply A2. exists v, b; auto.
Qed.

Lemma returnNode_sp O s k n : inv s -> resv (s_ut s k) n -> exists s', returnNode N k n s = Ok tt s' /\ step O s s' /\ s_cc s' = s_cc s.
Proof.
  intros I (R1 & R2 & R3). destruct (ci_ut _ _ _ _ _ (iv_c _ _ _ _ _ I) k) as [U1 U2 U3 U4 U5 U6 U7 U8 U9 U10].
  unfold returnNode. replace (memb n (ut_avail (s_ut s k))) with false by (symmetry; now apply memb_false).
  eexists. split; [reflexivity|]. split; auto. apply step_uts; auto; simpl; auto.
  - constructor; auto.
  - intros m [<-|H]; auto. split; auto. intros (v & b & H). eapply R2; eauto. 
Qed.

(** ** Inserting a node *)

Lemma len_flat_same {A B} (f f' : A -> list B) l k0 : ~ In k0 l -> (forall x, x <> k0 -> f' x = f x) ->
  flat_map f' l = flat_map f l.
Proof.
  induction l as [|a l IH]; intros H E; auto. simpl in *. rewrite IH, E by tauto. auto.
Qed.
Lemma len_flat_one {A B} (f f' : A -> list B) l k0 : NoDup l -> In k0 l -> (forall x, x <> k0 -> f' x = f x) ->
  length (f' k0) = S (length (f k0)) -> length (flat_map f' l) = S (length (flat_map f l)).
Proof.
  induction l as [|a l IH]; intros Nd H E L; [contradiction|]. inversion Nd; subst. simpl. rewrite !app_length.
  destruct H as [->|H].
  - rewrite L, (len_flat_same f f' l k0); auto.
  - rewrite E by congruence. rewrite IH; auto.
Qed.
Lemma zseq_NoDup m : NoDup (map Z.of_nat (seq 0 m)).
Proof. apply FinFun.Injective_map_NoDup. intros a b; lia. apply seq_NoDup. Qed.
Lemma zseq_In m z : In z (map Z.of_nat (seq 0 m)) <-> 0 <= z < Z.of_nat m.
Proof.
  rewrite in_map_iff. split.
  - intros (x & <- & H). apply in_seq in H. lia.
  - intros H. exists (Z.to_nat z). split; [lia|]. apply in_seq. lia.
Qed.

Definition uins (u : utab) (n : nat) (var key : Z) (x : node) (coll : Z) : utab :=
  UT (upd (ut_heap u) n x)
     (updZ (ut_tab u) var (updZ (ut_tab u var) key (n :: ut_tab u var key)))
     (ut_avail u) (ut_next u) (ut_count u + 1) (Z.max (ut_peak u) (ut_count u + 1))
     (ut_active u) (ut_actcount u) (ut_maxact u)
     (ut_gccalls u) (ut_gcruns u) (ut_gclimit u) (ut_lookups u) (ut_hits u) (ut_coll u + coll).

Lemma uins_In u n var key x coll m v b : In m (ut_tab (uins u n var key x coll) v b) <->
  (m = n /\ v = var /\ b = key) \/ In m (ut_tab u v b).
Proof.
  simpl. destruct (Z.eq_dec v var) as [->|Hv].
  - rewrite updZ_eq. destruct (Z.eq_dec b key) as [->|Hb].
    + rewrite updZ_eq. simpl. split; intros [H|H]; auto. destruct H as (-> & _); auto.
    + rewrite updZ_neq by auto. split; auto. intros [(_ & _ & H)|H]; auto. contradiction.
  - rewrite updZ_neq by auto. split; auto. intros [(_ & H & _)|H]; auto. contradiction.
Qed.

Lemma step_insert O s k n var es den coll : inv s -> resv (s_ut s k) n -> 0 <= var < s_nq s ->
  length es = arity k -> (forall e, In e es -> tedge (co s) k (var - 1) e) -> (ex X -> nnorm (co s) k es) ->
  let key := ukey N g nb k es in let u := uins (s_ut s k) n var key (ND es 0 var false false den) coll in
  (forall m, In m (ut_tab (s_ut s k) var key) -> qes N g X (co s) es (ne (nod s k m)) = true -> (k = KD -> nden (nod s k m) = den) -> False) ->
  step O s (set_ut s k u) /\ linked (co (set_ut s k u)) k n /\ qn (co (set_ut s k u)) k n = ND es 0 var false false den.
Proof.
  intros I (R1 & R2 & R3) Hv Hl Ht Hn key u New. set (s' := set_ut s k u).
  assert (Eu: c_ut (co s') k = u) by apply c_ut_set_eq.
  assert (Qn: qn (co s') k n = ND es 0 var false false den).
  { unfold Inv.qn. rewrite Eu. simpl. apply upd_eq. }
  assert (Ln: linked (co s') k n). { exists var, key. rewrite Eu. apply uins_In. auto. }
  assert (Qo: forall m, linked (co s) k m -> qn (co s') k m = qn (co s) k m).
  { intros m (v & b & H). unfold Inv.qn. rewrite Eu. simpl. apply upd_neq. intros ->. eapply R2; eauto. }
  assert (Lo: forall m, linked (co s') k m -> m = n \/ linked (co s) k m).
  { intros m (v & b & H). rewrite Eu in H. apply uins_In in H. destruct H as [(-> & _)|H]; auto. right. exists v, b; auto. }
  assert (E: qext (co s) (co s')).
  { constructor; auto.
    - apply ctext_refl.
    - intros k' v b m H. destruct (kind_eq_dec k' k) as [->|Hk].
      + rewrite Qo by (exists v, b; auto). rewrite Eu. split; [apply uins_In; auto|]. repeat split; auto.
      + unfold Inv.qn, s'. rewrite c_ut_set_neq by auto. repeat split; auto.
    - intros k' m H. destruct (kind_eq_dec k' k) as [->|Hk].
      + destruct (Lo _ H) as [->|H']; auto. right. now rewrite Qn.
      + left. unfold Inv.linked, s' in *. rewrite c_ut_set_neq in H; auto.
    - intros k'. destruct (kind_eq_dec k' k) as [->|Hk].
      + rewrite Eu. auto.
      + unfold s'. rewrite c_ut_set_neq by auto. auto. }
  split; [|auto]. apply step_ut; auto. fold s'.
  pose proof (iv_c _ _ _ _ _ I) as IC. destruct (ci_ut _ _ _ _ _ IC k) as [U1 U2 U3 U4 U5 U6 U7 U8 U9 U10].
  change (c_ut (co s) k) with (s_ut s k) in *.
  assert (Kr: 0 <= key < nb k) by (apply Z.mod_pos_bound; auto).
  constructor; auto; rewrite ?Eu; try exact U5.
  - intros v b m H. apply uins_In in H. destruct H as [(-> & -> & ->)|H].
    + constructor; rewrite ?Qn; simpl; auto; try discriminate.
      * unfold RCMAX; lia. * intros e He. eapply tedge_ext; eauto.
    + assert (L: linked (co s) k m) by (exists v, b; auto). eapply nodeok_ext; eauto; now rewrite Qo.
  - intros v b. simpl. destruct (Z.eq_dec v var) as [->|Hv'].
    + rewrite updZ_eq. destruct (Z.eq_dec b key) as [->|Hb].
      * rewrite updZ_eq. constructor; auto.
      * rewrite updZ_neq by auto. auto.
    + rewrite updZ_neq by auto. auto.
  - intros m H. destruct (Lo _ H) as [->|H']; simpl; auto.
  - intros m H. simpl in H |- *. destruct (U6 _ H) as [H1 H2]. split; auto. intros H'. destruct (Lo _ H') as [->|]; auto.
  - intros m H. simpl in H. unfold Inv.qn. rewrite Eu. simpl. rewrite upd_neq by lia. apply U7. auto.
  - intros v b m m' H H'. apply uins_In in H. apply uins_In in H'.
    destruct H as [(-> & -> & ->)|H]; destruct H' as [(-> & Ev & Eb)|H']; auto.
    + rewrite Qn, (Qo m') by (exists var, key; auto). simpl. intros E1 E2. exfalso. apply (New m'); auto; [rewrite <- (qes_ct (co s) (co s')) by reflexivity; exact E1 | intros; symmetry; auto].
    + subst. rewrite Qn, (Qo m) by (exists var, key; auto). simpl. intros E1 E2. exfalso. apply (New m); auto. rewrite qes_sym, <- (qes_ct (co s) (co s')) by reflexivity. exact E1.
    + rewrite !Qo by (exists v, b; auto). rewrite (qes_ct (co s)) by reflexivity. eauto.
  - change (ut_count (s_ut s k) + 1 = Z.of_nat (length (ut_allq N nb (co s') k))). rewrite U9. unfold ut_allq. rewrite Eu.
    rewrite (len_flat_one (fun v => flat_map (fun b => ut_tab (s_ut s k) v b) (ut_keys nb k))
                          (fun v => flat_map (fun b => ut_tab u v b) (ut_keys nb k)) _ var).
    + change (c_nq N (co s')) with (c_nq N (co s)). change (c_ut (co s) k) with (s_ut s k). lia.
    + apply zseq_NoDup.
    + apply zseq_In. change (c_nq N (co s')) with (s_nq s). lia.
    + intros v Hv'. simpl. now rewrite updZ_neq by auto.
    + apply (len_flat_one _ _ _ key). apply zseq_NoDup. apply zseq_In. lia.
      * intros b Hb. simpl. rewrite updZ_eq, updZ_neq; auto.
      * simpl. rewrite updZ_eq, updZ_eq. reflexivity.
  - change (ut_count (s_ut s k) + 1 <= Z.max (ut_peak (s_ut s k)) (ut_count (s_ut s k) + 1)). lia.
Qed.

(** ** Comparing edges *)

Lemma wapx_refl s w : wapx s w w = true.
Proof. unfold wapx, eapx. now rewrite !eptr_eqb_refl. Qed.
Lemma edge_eqb_refl s e : edge_eqb s e e = true.
Proof. unfold edge_eqb. now rewrite nptr_eqb_refl, wapx_refl. Qed.
Lemma edges_eqb_refl s es : edges_eqb N s es es = true.
Proof. induction es; simpl; auto. now rewrite edge_eqb_refl. Qed.
Lemma edge_eqb_p s x y : edge_eqb s x y = true -> ep x = ep y.
Proof. unfold edge_eqb. intros H. apply andb_true_iff in H. now apply nptr_eqb_spec. Qed.
Lemma edge_eqb_x s x y : ex X -> inv s -> wtab (co s) (ew x) -> wtab (co s) (ew y) -> edge_eqb s x y = true -> x = y.
Proof.
  intros Ex I Wx Wy H. pose proof (edge_eqb_p _ _ _ H) as Ep. unfold edge_eqb in H. apply andb_true_iff in H.
  destruct H as [_ H]. apply (x_wapx (X:=X)) in H; auto. rewrite !Cv_Cw in H by auto.
  apply (Cw_inj (nb:=nb)) in H; auto; try apply I. destruct x, y; simpl in *; congruence.
Qed.
Lemma edges_eqb_x s : ex X -> inv s -> forall es es', (forall e, In e es -> wtab (co s) (ew e)) ->
  (forall e, In e es' -> wtab (co s) (ew e)) -> edges_eqb N s es es' = true -> es = es'.
Proof.
  intros Ex I. induction es as [|e es IH]; intros [|e' es'] W W' H; auto; try discriminate.
  simpl in H. apply andb_true_iff in H. destruct H as [H1 H2].
  f_equal. eapply edge_eqb_x; eauto; [apply W|apply W']; now left. apply IH; auto; intros; [apply W|apply W']; now right.
Qed.

Lemma search_sp s k es den : forall chain,
  match ut_search N s k es den chain with
  | (Some p, _) => In p chain /\ nodes_eqb N s k es den (nod s k p) = true
  | (None, _) => forall m, In m chain -> nodes_eqb N s k es den (nod s k m) = false
  end.
Proof.
  induction chain as [|p r IH]; simpl. intros; contradiction.
  destruct (nodes_eqb N s k es den (nod s k p)) eqn:E. auto.
  destruct (ut_search N s k es den r) as [[x|] c]. destruct IH; auto.
  intros m [<-|H]; auto.
Qed.

Lemma checkChildren_sp s k var es : (forall e, In e es -> etn (co s) k (var - 1) (ep e)) -> checkChildren N k var es s = Ok tt s.
Proof.
  intros H. unfold checkChildren. induction es as [|e es IH]; auto.
  assert (Q: chkchild N s k var e = None).
  { specialize (H e (or_introl eq_refl)). unfold chkchild. destruct (ep e); simpl in H; try contradiction; auto.
    destruct H as [_ H]. change (Inv.qn N (co s) k n) with (nod s k n) in H. now rewrite H, Z.eqb_refl. }
  rewrite Q. apply IH. intros; apply H; now right.
Qed.

Lemma ut_lookup_sp O s k n var es den : inv s -> resv (s_ut s k) n -> 0 <= var < s_nq s ->
  length es = arity k -> (forall e, In e es -> tedge (co s) k (var - 1) e) -> (ex X -> nnorm (co s) k es) ->
  exists l s', ut_lookup N g nb k n var es den s = Ok l s' /\ step O s s' /\ s_cc s' = s_cc s /\
    linked (co s') k l /\ nv (qn (co s') k l) = var /\ (ex X -> ne (qn (co s') k l) = es) /\
    (l = n -> qn (co s') k l = ND es 0 var false false den).
Proof.
  intros I R Hv Hl Ht Hn. unfold ut_lookup, bind at 1 2 3, get.
  set (u1 := ut_stat _ _ _ _). set (s1 := set_ut s k u1).
  assert (Es1: s_ut s1 k = u1) by apply (c_ut_set_eq s k u1).
  assert (S1: step O s s1).
  { destruct (ci_ut _ _ _ _ _ (iv_c _ _ _ _ _ I) k). apply step_uts; auto. }
  assert (I1: inv s1) by apply S1.
  assert (T1: forall e, In e es -> tedge (co s1) k (var - 1) e) by (intros; eapply tedge_ext; [apply S1|auto]).
  rewrite checkChildren_sp by (intros; apply T1; auto).
  change (s_nq s1) with (s_nq s). replace ((var <? 0) || (s_nq s <=? var)) with false.
  2:{ symmetry. apply orb_false_iff. split; [apply Z.ltb_ge|apply Z.leb_gt]; lia. }
  assert (R1: resv (s_ut s1 k) n) by (rewrite Es1; exact R).
  set (key := ukey N g nb k es). pose proof (search_sp s1 k es den (ut_tab (s_ut s1 k) var key)) as SP.
  destruct (ut_search N s1 k es den (ut_tab (s_ut s1 k) var key)) as [[p|] col].
  - destruct SP as [Hp Ep]. assert (Lp: linked (co s1) k p) by (exists var, key; auto).
    pose proof (ui_node _ _ _ _ _ _ (ci_ut _ _ _ _ _ (iv_c _ _ _ _ _ I1) k) _ _ _ Hp) as NP.
    pose proof (no_nv _ _ _ _ _ _ _ _ _ NP) as NV. change (Inv.qn N (co s1) k p) with (nod s1 k p) in NV.
    rewrite NV, Z.eqb_refl. simpl negb. cbv iota.
    set (u2 := ut_stat _ _ _ _). set (s2 := set_ut s1 k u2).
    assert (Es2: s_ut s2 k = u2) by apply (c_ut_set_eq s1 k u2).
    assert (S2: step O s1 s2).
    { destruct (ci_ut _ _ _ _ _ (iv_c _ _ _ _ _ I1) k). apply step_uts; auto. }
    destruct (returnNode_sp O s2 k n) as (s3 & E3 & S3 & C3). apply S2. rewrite Es2. exact R1.
    exists p, s3. unfold bind, ret. rewrite E3. split; auto.
    assert (S13: step O s1 s3) by (eapply step_trans; eauto).
    split; [eapply step_trans; eauto|]. split; auto.
    destruct (qe_same _ _ _ _ (sp_ext _ _ _ _ _ _ _ S13) Lp) as (Q1 & _ & Q2 & _).
    split. { eapply qe_linked; eauto. apply S13. } split. { rewrite <- Q2. exact NV. }
    split. { intros Ex. rewrite <- Q1. symmetry. unfold nodes_eqb in Ep. apply andb_true_iff in Ep. destruct Ep as [Ep _].
      eapply edges_eqb_x; eauto. intros; apply T1; auto. intros e He. eapply no_es; eauto. }
    intros ->. exfalso. destruct R1 as (_ & R2 & _). eapply R2; eauto.
  - destruct (step_insert O s1 k n var es den col I1 R1) as (S2 & L2 & Q2); auto.
    + fold key. intros m Hm E1 E2. specialize (SP m Hm). unfold nodes_eqb in SP.
      rewrite (qes_edges (g:=g) (X:=X)), E1 in SP; [|intros e He; apply T1; auto|intros e He; eapply te_w, no_es; eauto; eapply (ui_node _ _ _ _ _ _ (ci_ut _ _ _ _ _ (iv_c _ _ _ _ _ I1) k)); eauto].
      destruct k; try discriminate. rewrite E2 in SP by auto. rewrite Bool.eqb_reflx in SP. discriminate.
    + eexists n, _. split; [reflexivity|]. fold key in S2, L2, Q2. fold key.
      split; [eapply step_trans; [exact S1|exact S2]|]. split; auto. split; auto.
      unfold uins in Q2. rewrite Q2. auto.
Qed.

(** ** Marks of matrix nodes *)

Lemma nptr_etn_lvl q k l l' p : etn q k l p -> etn q k l' p -> p <> PTerm -> l = l'.
Proof. destruct p; simpl; intros A B H; try contradiction; try congruence. destruct A, B. congruence. Qed.

Lemma setFlags_sp O s n sym idn : inv s -> linked (co s) KM n ->
  (ex X -> sym = true -> forall path, vpath KM (nv (nod s KM n)) path -> dn (co s) KM (PNode n) (map tr4 path) = dn (co s) KM (PNode n) path) ->
  (ex X -> idn = true -> forall path, vpath KM (nv (nod s KM n)) path -> dn (co s) KM (PNode n) path = idm path) ->
  exists s', setFlags N n sym idn s = Ok tt s' /\ step O s s' /\ s_cc s' = s_cc s.
Proof.
  intros I L Hs Hi. eexists. split; [reflexivity|]. set (u := ut_hs _ _). set (s' := set_ut s KM u).
  assert (Eu: c_ut (co s') KM = u) by apply c_ut_set_eq.
  assert (Tb: ut_tab u = ut_tab (s_ut s KM)) by reflexivity.
  assert (Lk: forall m, linked (co s') KM m <-> linked (co s) KM m) by (intros; unfold Inv.linked; rewrite Eu; reflexivity).
  assert (Qm: forall m, same_node (qn (co s) KM m) (qn (co s') KM m) /\
     (m <> n -> qn (co s') KM m = qn (co s) KM m)).
  { intros m. unfold Inv.qn. rewrite Eu. simpl. destruct (Nat.eq_dec m n) as [->|H].
    - rewrite upd_eq. split; [repeat split; auto|contradiction].
    - rewrite upd_neq by auto. split; [repeat split; auto|auto]. }
  assert (E: qext (co s) (co s')).
  { constructor; auto.
    - apply ctext_refl.
    - intros k' v b m H. destruct (kind_eq_dec k' KM) as [->|Hk].
      + split. rewrite Eu. exact H. apply Qm.
      + unfold Inv.qn, s'. rewrite c_ut_set_neq by auto. repeat split; auto.
    - intros k' m H. left. destruct (kind_eq_dec k' KM) as [->|Hk]. now apply Lk.
      unfold Inv.linked, s' in *. rewrite c_ut_set_neq in H; auto.
    - intros k'. destruct (kind_eq_dec k' KM) as [->|Hk].
      + rewrite Eu. auto.
      + unfold s'. rewrite c_ut_set_neq by auto. auto. }
  split; [|auto]. apply step_ut; auto. fold s'.
  pose proof (iv_c _ _ _ _ _ I) as IC. destruct (ci_ut _ _ _ _ _ IC KM) as [U1 U2 U3 U4 U5 U6 U7 U8 U9 U10].
  change (c_ut (co s) KM) with (s_ut s KM) in *.
  constructor; auto; rewrite ?Eu; auto.
  - intros v b m H. assert (Lm: linked (co s) KM m) by (exists v, b; auto). destruct (Nat.eq_dec m n) as [->|Hn].
    + pose proof (U2 _ _ _ H) as K. assert (Ev: nv (nod s KM n) = v) by apply K. rewrite Ev in *.
      destruct (proj1 (Qm n)) as (Q1 & Q2 & Q3 & Q4). destruct K as [K1 K2 K3 K4 K5 K6 K7 K8 K9].
      assert (T: etn (co s) KM v (PNode n)) by (split; auto).
      assert (Qs: nsym (qn (co s') KM n) = sym /\ nid (qn (co s') KM n) = idn).
      { unfold Inv.qn. rewrite Eu. simpl. rewrite upd_eq. auto. }
      destruct Qs as [Qs Qi]. constructor; auto; try congruence.
      * rewrite <- Q1. intros e He. eapply tedge_ext; eauto.
      * rewrite <- Q1. intros Ex. eapply nnorm_ext; eauto. intros e He. apply K6; auto.
      * rewrite Qs. intros Ex _ Hs' path V.
        rewrite (dn_ext (co s) (co s') KM IC E _ v), (dn_ext (co s) (co s') KM IC E _ v); auto. now apply vpath_tr4.
      * rewrite Qi. intros Ex _ Hs' path V. rewrite (dn_ext (co s) (co s') KM IC E _ v); auto.
    + eapply nodeok_ext; eauto; now rewrite (proj2 (Qm m)).
  - intros m H. destruct (proj1 (Qm m)) as (_ & Q2 & _). rewrite <- Q2. apply U7. exact H.
  - intros v b m m' H H'. destruct (proj1 (Qm m)) as (Q1 & _ & _ & Q4). destruct (proj1 (Qm m')) as (Q1' & _ & _ & Q4').
    rewrite <- Q1, <- Q1', <- Q4, <- Q4'. rewrite (qes_ct (co s)) by reflexivity. apply (U8 v b); auto.
Qed.

(** Specification of a transposition on diagrams with qubits 0..l. *)
Definition trsp (tr : edge -> M N edge) (l : Z) : Prop := forall s O e,
  inv s -> owns (s_cc s) O -> tedge (co s) KM l e ->
  wp al0 (tr e) s (fun t s' => step O s s' /\ owns (s_cc s') O /\ tedge (co s') KM l t /\
    (ex X -> forall path, vpath KM l path -> de (co s') KM t (map tr4 path) = de (co s) KM e path)).

Lemma dn_term q k path : dn q k PTerm path = C1.
Proof. destruct path; reflexivity. Qed.

Lemma fsym_dn s l p : inv s -> ex X -> etn (co s) KM l p -> fsym s KM p = true ->
  forall path, vpath KM l path -> dn (co s) KM p (map tr4 path) = dn (co s) KM p path.
Proof.
  intros I Ex T F path V. destruct p; simpl in T, F; try discriminate.
  - now rewrite !dn_term.
  - destruct T as [L T]. destruct (linked_ok _ _ _ (iv_c _ _ _ _ _ I) L) as (b & K & _).
    rewrite T in K. eapply no_sym; eauto.
Qed.
Lemma fid_dn s l e : inv s -> ex X -> tedge (co s) KM l e -> ew e = Cone -> fid s KM (ep e) = true ->
  forall path, vpath KM l path -> dn (co s) KM (ep e) path = idm path.
Proof.
  intros I Ex [T W Ht _] E1 F path V. destruct (ep e); simpl in T, F; try discriminate.
  - destruct Ht as [->|Hz]; auto.
    + apply vpath_m1 in V. subst. reflexivity.
    + rewrite E1 in Hz. discriminate.
  - destruct T as [L T]. destruct (linked_ok _ _ _ (iv_c _ _ _ _ _ I) L) as (b & K & _).
    rewrite T in K. eapply no_id; eauto.
Qed.

Lemma dn_cons q k n i r : dn q k (PNode n) (i :: r) = de q k (nthe (ne (qn q k n)) i) r.
Proof. reflexivity. Qed.

Lemma checkSpecial_sp tr O s n : trsp tr (nv (nod s KM n) - 1) -> inv s -> owns (s_cc s) O -> linked (co s) KM n ->
  wp al0 (checkSpecial N tr n) s (fun _ s' => step O s s' /\ owns (s_cc s') O).
Proof.
  intros TR I Ow L. unfold checkSpecial. set (v := nv (nod s KM n)) in *.
  destruct (setFlags_sp O s n false false I L) as (s1 & E1 & S1 & C1'); try discriminate.
  eapply wp_bind_ok; [exact E1|]. clear E1. apply wp_bind, wp_get.
  assert (I1: inv s1) by apply S1. assert (L1: linked (co s1) KM n) by (eapply qe_linked; [apply S1|auto]).
  destruct (qe_same _ _ _ _ (sp_ext _ _ _ _ _ _ _ S1) L) as (_ & _ & V1 & _).
  change (nv (qn (co s) KM n)) with v in V1. change (qn (co s1) KM n) with (nod s1 KM n) in V1.
  rewrite <- C1' in Ow. clear C1'.
  destruct (linked_ok _ _ _ (iv_c _ _ _ _ _ I1) L1) as (b1 & K1 & _).
  change (qn (co s1) KM n) with (nod s1 KM n) in K1. rewrite <- V1 in K1.
  pose proof (no_len _ _ _ _ _ _ _ _ _ K1) as Len. simpl in Len. change (Inv.qn N (co s1) KM n) with (nod s1 KM n) in Len.
  pose proof (no_es _ _ _ _ _ _ _ _ _ K1) as Es. change (Inv.qn N (co s1) KM n) with (nod s1 KM n) in Es.
  destruct (ne (nod s1 KM n)) as [|e0 [|e1 [|e2 [|e3 [|]]]]] eqn:En; try discriminate Len. clear Len.
  assert (T0: tedge (co s1) KM (v - 1) e0) by (apply Es; simpl; auto).
  assert (T1: tedge (co s1) KM (v - 1) e1) by (apply Es; simpl; auto).
  assert (T2: tedge (co s1) KM (v - 1) e2) by (apply Es; simpl; auto).
  assert (T3: tedge (co s1) KM (v - 1) e3) by (apply Es; simpl; auto 6). clear Es.
  destruct (negb (fsym s1 KM (ep e0)) || negb (fsym s1 KM (ep e3))) eqn:F.
  { apply wp_ret. auto. }
  apply orb_false_iff in F. destruct F as [F0 F3]. apply negb_false_iff in F0, F3.
  apply wp_bind. eapply wp_mono; [apply (TR s1 O e1); auto|].
  intros t s2 (S2 & O2 & Tt & Vt). apply wp_bind, wp_get.
  assert (S02: step O s s2) by (eapply step_trans; eauto). assert (I2: inv s2) by apply S2.
  assert (L2: linked (co s2) KM n) by (eapply qe_linked; [apply S2|auto]).
  destruct (qe_same _ _ _ _ (sp_ext _ _ _ _ _ _ _ S2) L1) as (En2 & _ & V2 & _).
  change (qn (co s1) KM n) with (nod s1 KM n) in V2, En2. change (qn (co s2) KM n) with (nod s2 KM n) in V2, En2.
  rewrite <- V1 in V2. rewrite En in En2.
  destruct (edge_eqb s2 t e2) eqn:Q; simpl negb; cbv iota; [|now apply wp_ret].
  assert (T2': forall e, tedge (co s1) KM (v - 1) e -> tedge (co s2) KM (v - 1) e) by (intros; eapply tedge_ext; [apply S2|auto]).
  assert (D2: forall e path, tedge (co s1) KM (v - 1) e -> vpath KM (v - 1) path -> de (co s2) KM e path = de (co s1) KM e path).
  { intros. eapply de_ext; eauto. apply I1. apply S2. }
  assert (Sy: ex X -> forall path, vpath KM v path -> dn (co s2) KM (PNode n) (map tr4 path) = dn (co s2) KM (PNode n) path).
  { intros Ex path V. assert (t = e2) by (eapply edge_eqb_x; eauto; [apply Tt|apply T2'; auto]). subst t.
    assert (Hv: 0 <= v) by (destruct (no_v _ _ _ _ _ _ _ _ _ K1); lia).
    destruct (vpath_inv _ _ _ V Hv) as (i & r & -> & Hi & Vr). simpl map. rewrite !dn_cons.
    change (qn (co s2) KM n) with (nod s2 KM n). rewrite <- En2.
    pose proof (vpath_tr4 _ _ Vr) as Vr'.
    destruct i as [|[|[|[|i]]]]; simpl in Hi; try lia; unfold tr4 at 1, nthe; simpl nth.
    - rewrite !D2 by auto. unfold Inv.de. f_equal. eapply fsym_dn; eauto. apply T0.
    - rewrite Vt by auto. now rewrite D2.
    - rewrite D2 by auto. rewrite <- (Vt Ex) by auto. rewrite map_tr4_tr4. reflexivity.
    - rewrite !D2 by auto. unfold Inv.de. f_equal. eapply fsym_dn; eauto. apply T3. }
  destruct (setFlags_sp O s2 n true false I2 L2) as (s3 & E3 & S3 & C3); try discriminate.
  { intros Ex _. rewrite <- V2. auto. }
  eapply wp_bind_ok; [exact E3|]. clear E3.
  assert (S03: step O s s3) by (eapply step_trans; eauto).
  match goal with |- wp _ (if ?b then _ else _) _ _ => destruct b eqn:B end.
  { apply wp_ret. rewrite C3. auto. }
  repeat (apply orb_false_iff in B; destruct B as [B ?]). rewrite !negb_false_iff in *.
  assert (L3: linked (co s3) KM n) by (eapply qe_linked; [apply S3|auto]).
  destruct (qe_same _ _ _ _ (sp_ext _ _ _ _ _ _ _ S3) L2) as (En3 & _ & V3 & _).
  change (qn (co s2) KM n) with (nod s2 KM n) in V3, En3. change (qn (co s3) KM n) with (nod s3 KM n) in V3, En3.
  rewrite <- V2 in V3. rewrite <- En2 in En3.
  assert (P3: etn (co s2) KM v (PNode n)) by (split; auto).
  repeat match goal with H: ceqb _ _ = true |- _ => apply ceqb_spec in H end.
  destruct (setFlags_sp O s3 n true true) as (s4 & E4 & S4 & C4); auto. { apply S3. }
  { intros Ex _. rewrite <- V3. intros path V.
    rewrite !(dn_ext _ _ KM (iv_c _ _ _ _ _ I2) (sp_ext _ _ _ _ _ _ _ S3) _ v); auto. now apply vpath_tr4. }
  { intros Ex _. rewrite <- V3. intros path V.
    rewrite !(dn_ext _ _ KM (iv_c _ _ _ _ _ I2) (sp_ext _ _ _ _ _ _ _ S3) _ v); auto.
    assert (Hv: 0 <= v) by (destruct (no_v _ _ _ _ _ _ _ _ _ K1); lia).
    destruct (vpath_inv _ _ _ V Hv) as (i & r & -> & Hi & Vr). rewrite idm_cons, dn_cons.
    change (qn (co s2) KM n) with (nod s2 KM n). rewrite <- En2.
    destruct i as [|[|[|[|i]]]]; simpl in Hi; try lia; unfold nthe; simpl nth; simpl Nat.eqb; simpl orb; cbv iota; unfold Inv.de.
    - replace (ew e0) with Cone by auto. rewrite Cw_one by auto. f_equal. eapply fid_dn; eauto.
    - replace (ew e1) with Czero by auto. rewrite Cw_zero by auto. ring.
    - replace (ew e2) with Czero by auto. rewrite Cw_zero by auto. ring.
    - replace (ew e3) with Cone by auto. rewrite Cw_one by auto. f_equal. eapply fid_dn; eauto. }
  eapply wp_ok; [exact E4|]. split; [eapply step_trans; eauto|]. rewrite C4, C3. auto.
Qed.

(** ** makeDDNode *)

Definition mkpost (k : kind) (var : Z) (cached : bool) (es : list edge) (O : list nat) s (r : edge) s' : Prop :=
  step O s s' /\ owns (s_cc s') (wslots (ew r) ++ O) /\
  (r = Ezero \/ (isnode (co s') k var (ep r) /\ if cached then exists a b, ew r = cslot a b else wtab (co s') (ew r))) /\
  (ex X -> (ep r <> PTerm -> Cv s' (ew r) <> C0) /\
     forall i path, (i < arity k)%nat -> vpath k (var - 1) path -> dg s' k r (i :: path) = dg s k (nthe es i) path).

Lemma slotw_wok q c O w : (exists a b, w = cslot a b) \/ wtab q w -> owns c (wslots w ++ O) -> wok q (wslots w ++ O) w.
Proof.
  intros [(a & b & ->)|H] Ow; [|now left]. right. exists a, b. simpl in *. destruct (owns_nodup _ _ _ _ Ow) as (? & _). auto 10.
Qed.

Lemma mk_sp tr s k var es cached den O : (k = KM -> trsp tr (var - 1)) -> inv s -> owns (s_cc s) (slots es ++ O) ->
  length es = arity k -> 0 <= var < s_nq s -> (forall e, In e es -> iedge s cached k (var - 1) e) ->
  wp al0 (mk N g nb tr k var es cached den) s (mkpost k var cached es O s).
Proof.
  intros TR I Ow Hl Hv W. unfold mk.
  destruct (getNode_sp (slots es ++ O) s k I) as (n & s1 & E1 & S1 & C1' & R1).
  eapply wp_bind_ok; [exact E1|]. clear E1. assert (I1: inv s1) by apply S1.
  assert (W1: forall e, In e es -> iedge s1 cached k (var - 1) e) by (intros; eapply iedge_step; eauto).
  eapply wp_bind_ok. { apply checkChildren_sp. intros e He. apply W1. auto. }
  rewrite <- C1' in Ow. apply wp_bind.
  eapply wp_mono; [apply wp_and; [apply (normalize_sp (nb:=nb) (X:=X) G s1 k cached (var - 1) es O); auto|apply utk_normalize]|].
  assert (S1O: step O s s1) by (eapply step_weak; eauto; apply incl_appr, incl_refl).
  assert (Cs: forall e, In e es -> Cv s1 (ew e) = Cv s (ew e)).
  { intros e He. specialize (W e He). destruct W as [_ _ _ Ww]. destruct cached.
    - unfold Inv.Cv, cval, val. destruct Ww as [->|(a & b & ->)]; simpl; rewrite ?C1'; reflexivity.
    - eapply Cv_step; [apply S1|]. now left. }
  intros r s2 ((S2 & P2) & U2). assert (I2: inv s2) by apply S2.
  assert (S02: step O s s2) by (eapply step_trans; eauto).
  assert (R2: resv (s_ut s2 k) n) by (rewrite U2; auto).
  destruct r as [| |es' w].
  - destruct P2 as (O2 & _ & Z2). destruct (returnNode_sp O s2 k n I2 R2) as (s3 & E3 & S3 & C3).
    eapply wp_bind_ok; [exact E3|]. apply wp_ret. assert (S03: step O s s3) by (eapply step_trans; eauto).
    split; auto. split; [rewrite C3; exact O2|]. split; [auto|]. intros Ex. split; [simpl; congruence|].
    intros i path Hi Hp. rewrite dg_zero by auto. unfold Inv.dg. rewrite <- Cs, (Z2 Ex) by (auto; apply nthe_In; lia). ring.
  - destruct P2 as (O2 & _ & Z2). apply wp_ret. split; auto. split; [exact O2|]. split; [auto|]. intros Ex. split; [simpl; congruence|].
    intros i path Hi Hp. rewrite dg_zero by auto. unfold Inv.dg. rewrite <- Cs, (Z2 Ex) by (auto; apply nthe_In; lia). ring.
  - destruct P2 as (O2 & Ww & L2 & T2 & X2).
    assert (Nq: s_nq s2 = s_nq s) by apply (qe_nq _ _ _ (sp_ext _ _ _ _ _ _ _ S02)).
    destruct (ut_lookup_sp (wslots w ++ O) s2 k n var es' den I2 R2) as (l & s3 & E3 & S3 & C3 & Ll & Lv & Le & Ln); auto.
    { now rewrite Nq. } { intros Ex; apply X2; auto. }
    eapply wp_bind_ok; [exact E3|]. clear E3. assert (I3: inv s3) by apply S3. rewrite <- C3 in O2.
    apply wp_bind. eapply wp_mono with (Q := fun _ s4 => step (wslots w ++ O) s3 s4 /\ owns (s_cc s4) (wslots w ++ O)).
    { assert (Triv: wp al0 (ret tt) s3 (fun _ s4 => step (wslots w ++ O) s3 s4 /\ owns (s_cc s4) (wslots w ++ O))).
      { apply wp_ret. split; auto. now apply step_refl. }
      destruct k; auto. destruct (Nat.eqb l n) eqn:Eln; auto. apply Nat.eqb_eq in Eln. subst l. apply checkSpecial_sp; auto.
      change (nod s3 KM n) with (qn (co s3) KM n). rewrite Lv. auto. }
    intros _ s4 (S4 & O4). apply wp_ret.
    assert (S24: step (wslots w ++ O) s2 s4) by (eapply step_trans; eauto).
    assert (S04: step O s s4) by (eapply step_trans2; eauto; apply incl_appr, incl_refl).
    destruct (qe_same _ _ _ _ (sp_ext _ _ _ _ _ _ _ S4) Ll) as (Q1 & _ & Q2 & _).
    assert (Wk: wok (co s2) (wslots w ++ O) w).
    { eapply slotw_wok; [|exact O4]. destruct cached; auto. }
    split; auto. split; auto. split.
    { right. split. split; [|discriminate]. split; [eapply qe_linked; eauto; apply S4|congruence].
      destruct cached; auto. eapply wtab_ext; [apply S24|auto]. }
    intros Ex. destruct (X2 Ex) as (_ & Nz & Ev). rewrite <- (Cv_step _ _ _ _ S24 Wk) in Nz. split; auto.
    intros i path Hi Hp. unfold Inv.dg. simpl ep. simpl ew. rewrite dn_cons, <- Q1, (Le Ex). unfold Inv.de.
    destruct (Ev i Hi) as [Ev1 Ev2]. rewrite <- (Cv_step _ _ _ _ S24 Wk) in Ev1.
    assert (Ti: In (nthe es' i) es') by (apply nthe_In; lia).
    assert (Te: In (nthe es i) es) by (apply nthe_In; lia).
    rewrite <- (Cw_ext (co s2) (co s4)) in Ev1; [|apply S24|apply T2; auto].
    rewrite Cs in Ev1, Ev2 by auto.
    assert (As: forall a b c : C, (a * (b * c) = a * b * c)%C) by (intros; ring). rewrite As, Ev1.
    destruct (Ceq_dec (Cv s (ew (nthe es i))) C0) as [Z|Z].
    + rewrite Z. ring.
    + f_equal. rewrite Ev2 by auto. eapply dn_ext; eauto. apply I. apply S04. apply W; auto.
Qed.

Lemma mkpost_tedge k var es O s r s' : mkpost k var false es O s r s' -> tedge (co s') k var r.
Proof.
  intros (S & _ & [->|(A & W)] & Z). apply tedge_zero. constructor; auto.
  - apply A. - intros E. destruct A. contradiction.
  - intros Ex E. destruct (Z Ex) as [Z1 _]. rewrite E, Cv_zero in Z1 by auto.
    destruct (ep r) eqn:Ep; auto; exfalso; apply Z1; auto; discriminate.
Qed.
Lemma mkpost_owns k var es O s r s' : mkpost k var false es O s r s' -> owns (s_cc s') O.
Proof.
  intros H. pose proof (mkpost_tedge _ _ _ _ _ _ _ H) as T. destruct H as (_ & Ow & _).
  rewrite (wslots_tab _ _ (te_w _ _ _ _ _ _ _ T)) in Ow. exact Ow.
Qed.
Lemma mkpost_de k var es O s r s' : mkpost k var false es O s r s' -> ex X ->
  (forall e, In e es -> tedge (co s) k (var - 1) e) -> length es = arity k ->
  forall i path, (i < arity k)%nat -> vpath k (var - 1) path -> de (co s') k r (i :: path) = de (co s) k (nthe es i) path.
Proof.
  intros H Ex T Hl i path Hi V. pose proof (mkpost_tedge _ _ _ _ _ _ _ H) as Tr. destruct H as (_ & _ & _ & Z).
  destruct (Z Ex) as [_ Z2]. specialize (Z2 i path Hi V). erewrite <- dg_de, Z2 by eauto. eapply dg_de; eauto. apply T, nthe_In. lia.
Qed.
Lemma mkpost_gedge k var es O s r s' : 0 <= var -> mkpost k var true es O s r s' -> gedge s' (wslots (ew r) ++ O) k var r.
Proof.
  intros Hv (S & Ow & [->|(A & W)] & Z). apply gedge_zero. constructor; auto.
  - apply A. - eapply slotw_wok; eauto. - intros E. destruct A. contradiction.
  - intros Ex E. destruct (Z Ex) as [Z1 _]. exfalso. apply Z1; auto. apply A.
Qed.
Lemma mkpost_iedge k var es O s r s' : mkpost k var true es O s r s' -> iedge s' true k var r.
Proof.
  intros (S & Ow & [->|(A & W)] & Z). constructor; simpl; auto. constructor; auto.
  - apply A. - intros E. destruct A. contradiction.
  - intros Ex E. destruct W as (a & b & W). rewrite W in E. discriminate.
Qed.

End MkL.
