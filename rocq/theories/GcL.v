(** Garbage collection keeps every diagram that is referenced, and the operation caches
    never point to something collected. *)
From Coq Require Import ZArith List Bool Lia Arith Reals Lra Permutation.
From Verif Require Import Num Base CTable CTableWf Cx State Pkg Inv InvL PrimL NormL MkL TrL AddL MulL KronL CanonL IdentL.
Import ListNotations.
Local Open Scope Z_scope.

Section GcL.
Context {N : num} {g : cfg N} {nb : kind -> Z} {X : numx N (g_ct g)} (G : gok g).
Local Notation cf := (g_ct g).
Local Notation co := (co N).
Local Notation qn := (qn N).
Local Notation linked := (linked N).
Local Notation c_ut := (c_ut N).
Local Notation Cw := (Cw N g X).
Local Notation Cv := (Cv N g X).
Local Notation Cv2 := (Cv2 N g X).
Local Notation dn := (dn N g X).
Local Notation de := (de N g X).
Local Notation dg := (dg N g X).
Local Notation wtab := (wtab N g X).
Local Notation etn := (etn N).
Local Notation isnode := (isnode N).
Local Notation tedge := (tedge N g X).
Local Notation gedge := (gedge N g X).
Local Notation cinv := (cinv N g nb X).
Local Notation uinv := (uinv N g nb X).
Local Notation nodeok := (nodeok N g nb X).
Local Notation inv := (inv N g nb X).
Local Notation step := (step N g nb X).
Local Notation qext := (qext N).
Local Notation owns := (owns N).
Local Notation wok := (wok N g X).
Local Notation wp := (wp N).
Local Notation al0 := (al0 N g X).
Local Notation nnorm := (nnorm N g X).
Local Notation iedge := (iedge (g:=g) (X:=X)).
Local Notation trsp := (trsp (nb:=nb) (X:=X)).
Local Notation unok := (unok N g X).
Local Notation binok := (binok N g X).
Local Notation addok := (addok N g X).
Local Notation tinv := (tinv N g X).
Local Notation vres := (vres N g X).
Local Notation dv := (dv N g X).
Local Notation mkpost := (mkpost (nb:=nb) (X:=X)).
Local Notation mulCached_sp := (mulCached_sp (nb:=nb) (X:=X) G).
Local Notation addCached_sp := (addCached_sp (nb:=nb) (X:=X) G).
Local Notation getCached_sp := (getCached_sp (nb:=nb) (X:=X) G).
Local Notation makeDDNode_sp := (makeDDNode_sp (nb:=nb) (X:=X) G).
Local Notation lookupC_sp := (lookupC_sp (nb:=nb) (X:=X) G).
Local Notation tedge_gedge := (tedge_gedge (nb:=nb) (X:=X)).
Local Notation child_ok := (child_ok (nb:=nb) (X:=X)).
Local Notation dn_ext := (dn_ext (nb:=nb) (X:=X)).
Local Notation Cw_eq0 := (Cw_eq0 (nb:=nb) (X:=X)).
Local Notation addInsert_sp := (addInsert_sp (g:=g) (nb:=nb) (X:=X)).
Local Notation binInsert_sp := (binInsert_sp (g:=g) (nb:=nb) (X:=X)).
Local Notation unInsert_sp := (unInsert_sp (g:=g) (nb:=nb) (X:=X)).
Local Notation addLookup_sp := (addLookup_sp (g:=g) (nb:=nb) (X:=X)).
Local Notation binLookup_sp := (binLookup_sp (g:=g) (nb:=nb) (X:=X)).
Local Notation unLookup_sp := (unLookup_sp (g:=g) (nb:=nb) (X:=X)).
Local Notation cres := (cres (g:=g) (X:=X)).
Local Notation addsp := (addsp (g:=g) (nb:=nb) (X:=X)).
Local Notation rel_sp := (rel_sp (g:=g) (nb:=nb) (X:=X)).
Local Notation relif_sp := (relif_sp (g:=g) (nb:=nb) (X:=X)).
Local Notation mapM_cres := (mapM_cres (g:=g) (nb:=nb) (X:=X)).
Local Notation de_step := (de_step (g:=g) (nb:=nb) (X:=X)).
Local Notation dg_step := (dg_step (g:=g) (nb:=nb) (X:=X)).
Local Notation mulSelf_sp := (mulSelf_sp (g:=g) (nb:=nb) (X:=X)).
Local Notation finish_sp := (finish_sp (g:=g) (nb:=nb) (X:=X) G).
Local Notation add2F_sp := (add2F_sp (g:=g) (nb:=nb) (X:=X) G).
Implicit Types (s : st N).

Local Notation dn_nz := (dn_nz (g:=g) (nb:=nb) (X:=X)).
Local Notation idok := (idok N g X).
Local Notation makeDDNode_t := (makeDDNode_t (nb:=nb) (X:=X) G).
Local Notation mk_weight := (mk_weight (nb:=nb) (X:=X)).

Local Notation ptab := (ptab N g X).
Local Notation rv := (rv N g X).
Local Notation c_ct := (c_ct N).
Local Notation c_nq := (c_nq N).
Local Notation ut_allq := (ut_allq N nb).

(** ** States that only differ in what is linked *)

Definition qsame (q q' : core N) : Prop :=
  c_nq q' = c_nq q /\ ct_heap (c_ct q') = ct_heap (c_ct q) /\ forall k, ut_heap (c_ut q' k) = ut_heap (c_ut q k).

Lemma qs_qn q q' k n : qsame q q' -> qn q' k n = qn q k n.
Proof. intros (_ & _ & H). unfold Inv.qn. now rewrite H. Qed.
Lemma qs_rv q q' p : qsame q q' -> rv q' p = rv q p.
Proof. intros (_ & H & _). unfold Inv.rv, xaddr, ct_value. now rewrite H. Qed.
Lemma qs_Cw q q' w : qsame q q' -> Cw q' w = Cw q w.
Proof. intros H. unfold Inv.Cw. now rewrite !(qs_rv q q' _ H). Qed.
Lemma qs_dn q q' k : qsame q q' -> forall path p, dn q' k p path = dn q k p path.
Proof.
  intros H. induction path as [|i path IH]; intros p; [reflexivity|]. destruct p; try reflexivity.
  cbn [Inv.dn]. rewrite (qs_qn q q' _ _ H), (qs_Cw q q' _ H), IH. reflexivity.
Qed.
Lemma qs_de q q' k e path : qsame q q' -> de q' k e path = de q k e path.
Proof. intros H. unfold Inv.de. now rewrite (qs_Cw q q' _ H), (qs_dn q q' k H). Qed.

(** A weight whose entries have references. *)
Definition wprot (q : core N) (w : complex) : Prop :=
  forall a, ep_at (cr w) = ATab a \/ ep_at (ci w) = ATab a -> ce_rc (ct_heap (c_ct q) a) <> 0.
(** A node pointer that has references. *)
Definition pact (q : core N) (k : kind) (p : nptr) : Prop :=
  match p with PNode n => nref (qn q k n) <> 0 | _ => True end.
(** Everything below a referenced node is referenced. *)
Definition rcact (q : core N) : Prop :=
  forall k n, linked q k n -> nref (qn q k n) <> 0 ->
  forall e, In e (ne (qn q k n)) -> pact q k (ep e) /\ wprot q (ew e).

(** ** One table *)

(** Effect of UniqueTable::garbageCollect. *)
Record gcd (q : core N) (k : kind) (u' : utab) (c : Z) (ran : bool) : Prop := {
  gd_heap : ut_heap u' = ut_heap (c_ut q k);
  gd_next : ut_next u' = ut_next (c_ut q k);
  gd_tab : forall v b, ut_tab u' v b = filter (fun n => negb ran || negb (dead (c_ut q k) n)) (ut_tab (c_ut q k) v b);
  gd_avail : ut_avail u' = rev (if ran then filter (dead (c_ut q k)) (ut_allq q k) else []) ++ ut_avail (c_ut q k);
  gd_count : ut_count u' = Z.of_nat (length (filter (fun n => negb ran || negb (dead (c_ut q k) n)) (ut_allq q k)));
  gd_peak : ut_peak u' = ut_peak (c_ut q k);
  gd_c : c = ut_count (c_ut q k) - ut_count u';
  gd_act : ut_active u' = ut_active (c_ut q k) /\ ut_actcount u' = ut_actcount (c_ut q k) /\ ut_maxact u' = ut_maxact (c_ut q k) }.

Lemma filter_true {A} (l : list A) f : (forall a, In a l -> f a = true) -> filter f l = l.
Proof. induction l as [|a l IH]; intros H; cbn; auto. rewrite (H a) by now left. f_equal. apply IH. intros; apply H; now right. Qed.
Lemma filter_split {A} (l : list A) f : (length (filter f l) + length (filter (fun a => negb (f a)) l) = length l)%nat.
Proof. induction l as [|a l IH]; cbn; auto. destruct (f a); cbn; lia. Qed.
Lemma filter_len_all {A} (l : list A) f : length (filter f l) = length l -> forall a, In a l -> f a = true.
Proof.
  induction l as [|x l IH]; cbn; intros H a []; subst.
  - destruct (f a) eqn:E; auto. assert (Q: (length (filter f l) <= length l)%nat) by (clear; induction l; cbn; auto; destruct (f a); cbn; lia). lia.
  - destruct (f x); cbn in H; [apply IH; auto; lia|].
    assert (Q: (length (filter f l) <= length l)%nat) by (clear; induction l; cbn; auto; destruct (f a); cbn; lia). lia.
Qed.
Lemma filter_flat_map {A B} (f : A -> list B) h l : filter h (flat_map f l) = flat_map (fun a => filter h (f a)) l.
Proof. induction l as [|a l IH]; cbn; auto. now rewrite filter_app, IH. Qed.

Lemma NoDup_app_intro {A} (l l' : list A) : NoDup l -> NoDup l' -> (forall a, In a l -> In a l' -> False) -> NoDup (l ++ l').
Proof.
  induction l as [|a l IH]; cbn; auto. intros H H' D. inversion_clear H. constructor.
  - intros Hi. apply in_app_or in Hi. destruct Hi; auto. apply (D a); auto.
  - apply IH; auto. intros b H H2. apply (D b); auto.
Qed.

Lemma allq_In q k n : cinv q -> In n (ut_allq q k) <-> linked q k n.
Proof.
  intros I. unfold Inv.ut_allq. rewrite in_flat_map. split.
  - intros (v & _ & H). apply in_flat_map in H. destruct H as (b & _ & H). now exists v, b.
  - intros (v & b & H). pose proof (ui_node _ _ _ _ _ _ (ci_ut _ _ _ _ _ I k) _ _ _ H) as K.
    exists v. split.
    + apply in_map_iff. exists (Z.to_nat v). destruct (no_v _ _ _ _ _ _ _ _ _ K). split; [lia|]. apply in_seq. lia.
    + apply in_flat_map. exists b. split; auto. unfold ut_keys. apply in_map_iff. exists (Z.to_nat b).
      rewrite (no_b _ _ _ _ _ _ _ _ _ K). unfold ukey.
      pose proof (Z.mod_pos_bound (g_hut g k (ne (Inv.qn N q k n))) (nb k) (ui_nb _ _ _ _ _ _ (ci_ut _ _ _ _ _ I k))).
      split; [lia|]. apply in_seq. lia.
Qed.

Lemma allq_NoDup q k : cinv q -> NoDup (ut_allq q k).
Proof.
  intros I. pose proof (ci_ut _ _ _ _ _ I k) as U. unfold Inv.ut_allq. apply flat_map_NoDup.
  - apply FinFun.Injective_map_NoDup; [intros x y; lia|apply seq_NoDup].
  - intros v _. apply flat_map_NoDup.
    + unfold ut_keys. apply FinFun.Injective_map_NoDup; [intros x y; lia|apply seq_NoDup].
    + intros b _. apply (ui_nd _ _ _ _ _ _ U).
    + intros b b' n _ _ H H'. pose proof (ui_node _ _ _ _ _ _ U _ _ _ H) as K. pose proof (ui_node _ _ _ _ _ _ U _ _ _ H') as K'.
      now rewrite (no_b _ _ _ _ _ _ _ _ _ K), (no_b _ _ _ _ _ _ _ _ _ K').
  - intros v v' n _ _ H H'. apply in_flat_map in H, H'. destruct H as (b & _ & H). destruct H' as (b' & _ & H').
    pose proof (ui_node _ _ _ _ _ _ U _ _ _ H) as K. pose proof (ui_node _ _ _ _ _ _ U _ _ _ H') as K'.
    now rewrite <- (no_nv _ _ _ _ _ _ _ _ _ K), <- (no_nv _ _ _ _ _ _ _ _ _ K').
Qed.

Lemma ut_gc_sp q s k force : cinv q -> s_nq s = c_nq q -> s_ut s k = c_ut q k ->
  exists c ran u', ut_gc N g nb k force s = Ok c (set_ut s k u') /\ gcd q k u' c ran /\
    (force = true -> ran = true \/ forall n, ~ linked q k n).
Proof.
  intros I Hq Hu. pose proof (ci_ut _ _ _ _ _ I k) as U. unfold ut_gc. rewrite Hu. set (u := c_ut q k) in *.
  assert (All: ut_all N nb s k = ut_allq q k). { unfold ut_all, Inv.ut_allq, ut_vars. rewrite Hu, Hq. reflexivity. }
  destruct ((negb force && (ut_count u <? ut_gclimit u)) || (ut_count u =? 0)) eqn:B.
  - do 3 eexists. split; [reflexivity|]. split.
    + apply Build_gcd with (ran := false); cbn; auto.
      * intros v b. symmetry. now apply filter_true.
      * rewrite filter_true by auto. apply (ui_count _ _ _ _ _ _ U).
      * fold u. lia.
    + intros ->. cbn in B. apply Z.eqb_eq in B. right. intros n L. apply (allq_In q k n I) in L.
      pose proof (ui_count _ _ _ _ _ _ U) as Ct. fold u in Ct. rewrite B in Ct. destruct (ut_allq q k); [destruct L|discriminate].
  - do 3 eexists. split; [reflexivity|]. split; [|intros _; left; reflexivity].
    rewrite All. apply Build_gcd with (ran := true); cbn; auto.
    + intros v b. destruct (inrange N nb s k v b) eqn:R; [reflexivity|]. destruct (ut_tab u v b) as [|n r] eqn:E; [fold u; now rewrite E|].
      exfalso. assert (Hn: In n (ut_tab (c_ut q k) v b)) by (fold u; rewrite E; now left).
      pose proof (ui_node _ _ _ _ _ _ U _ _ _ Hn) as K. destruct (no_v _ _ _ _ _ _ _ _ _ K). pose proof (no_b _ _ _ _ _ _ _ _ _ K) as Kb. unfold ukey in Kb.
      pose proof (Z.mod_pos_bound (g_hut g k (ne (Inv.qn N q k n))) (nb k) (ui_nb _ _ _ _ _ _ U)).
      unfold inrange in R. rewrite Hq in R. rewrite Kb in R.
      rewrite (proj2 (Z.leb_le 0 v)), (proj2 (Z.ltb_lt v (c_nq q))), (proj2 (Z.leb_le 0 _)), (proj2 (Z.ltb_lt _ (nb k))) in R by lia. discriminate.
    + pose proof (ui_count _ _ _ _ _ _ U) as Ct. fold u in Ct. pose proof (filter_split (ut_allq q k) (dead u)). fold u. lia.
Qed.

(** Nothing is removed when the number of collected nodes is zero. *)
Lemma gcd_none q k u' c ran : cinv q -> gcd q k u' c ran -> c <= 0 -> forall n, linked q k n -> ran = true -> dead (c_ut q k) n = false.
Proof.
  intros I D Hc n L ->. pose proof (ui_count _ _ _ _ _ _ (ci_ut _ _ _ _ _ I k)) as Ct.
  rewrite (gd_c _ _ _ _ _ D), (gd_count _ _ _ _ _ D), Ct in Hc.
  assert (Q: length (filter (fun n => negb true || negb (dead (c_ut q k) n)) (ut_allq q k)) = length (ut_allq q k)).
  { assert (Q: forall f (l : list nat), (length (filter f l) <= length l)%nat) by (intros f l; clear; induction l; cbn; auto; destruct (f a); cbn; lia).
    specialize (Q (fun n => negb true || negb (dead (c_ut q k) n)) (ut_allq q k)). lia. }
  pose proof (filter_len_all _ _ Q n (proj2 (allq_In q k n I) L)) as H. cbn in H. now apply negb_true_iff in H.
Qed.

(** ** The whole collection *)

(** [q'] results from collecting in the table of numbers and in the three tables of nodes. *)
Record gcall (q q' : core N) (cC : Z) (c : kind -> Z) (ran : kind -> bool) : Prop := {
  ga_nq : c_nq q' = c_nq q;
  ga_wf : ctwf cf (c_ct q');
  ga_x : ex X -> xct X (c_ct q');
  ga_heap : ct_heap (c_ct q') = ct_heap (c_ct q);
  ga_sub : forall i a, In a (ct_tab (c_ct q') i) -> In a (ct_tab (c_ct q) i);
  ga_keep : forall i a, In a (ct_tab (c_ct q) i) -> ce_rc (ct_heap (c_ct q) a) <> 0 -> In a (ct_tab (c_ct q') i);
  ga_none : cC <= 0 -> forall i, ct_tab (c_ct q') i = ct_tab (c_ct q) i;
  ga_gcd : forall k, gcd q k (c_ut q' k) (c k) (ran k);
  ga_force : 0 < cC -> forall k, ran k = true \/ forall n, ~ linked q k n }.

Section All.
Context (q q' : core N) (cC : Z) (c : kind -> Z) (ran : kind -> bool).
Context (I : cinv q) (A : rcact q) (GA : gcall q q' cC c ran).

Lemma ga_same : qsame q q'.
Proof. destruct GA as [B1 B2 B3 B4 B5 B6 B7 B8 B9]. split; auto. split; auto. intros k. apply (gd_heap _ _ _ _ _ (B8 k)). Qed.

Lemma ga_linked k n : linked q' k n <-> linked q k n /\ (ran k = true -> nref (qn q k n) <> 0).
Proof.
  unfold Inv.linked. split.
  - intros (v & b & H). rewrite (gd_tab _ _ _ _ _ (ga_gcd _ _ _ _ _ GA k)) in H. apply filter_In in H. destruct H as [H H1].
    split; [eauto|]. intros R. rewrite R in H1. unfold dead in H1. cbn in H1. apply negb_true_iff, Z.eqb_neq in H1. exact H1.
  - intros [(v & b & H) R]. exists v, b. rewrite (gd_tab _ _ _ _ _ (ga_gcd _ _ _ _ _ GA k)). apply filter_In. split; auto.
    destruct (ran k) eqn:E; auto. cbn. unfold dead. apply negb_true_iff, Z.eqb_neq. exact (R eq_refl).
Qed.

Lemma ga_alive_prot a : alive (c_ct q) a -> (forall n, a = ATab n -> ce_rc (ct_heap (c_ct q) n) <> 0) -> alive (c_ct q') a.
Proof.
  destruct a as [| | |n|n]; cbn; auto. intros (i & H) R. exists i. apply (ga_keep _ _ _ _ _ GA); auto.
Qed.
Lemma ga_alive_none a : cC <= 0 -> alive (c_ct q) a -> alive (c_ct q') a.
Proof. intros Hc. destruct a as [| | |n|n]; cbn; auto. intros (i & H). exists i. now rewrite (ga_none _ _ _ _ _ GA Hc). Qed.

Lemma ga_wtab w : wtab q w -> (0 < cC -> wprot q w) -> wtab q' w.
Proof.
  intros [[P1 P2] [Q1 Q2]] H. destruct (Z.lt_ge_cases 0 cC) as [Hc|Hc].
  - specialize (H Hc). split; split; auto; apply ga_alive_prot; auto; intros n E; apply H; auto.
  - split; split; auto; now apply ga_alive_none.
Qed.

Lemma ga_etn k l p : etn q k l p -> (ran k = true -> pact q k p) -> etn q' k l p.
Proof.
  destruct p as [| |n]; cbn; auto. intros [L V] R. split; [|now rewrite (qs_qn q q' _ _ ga_same)]. apply ga_linked. auto.
Qed.

Lemma ga_tedge k l e : tedge q k l e -> (ran k = true -> pact q k (ep e)) -> (0 < cC -> wprot q (ew e)) -> tedge q' k l e.
Proof. intros [T1 T2 T3 T4] P W. constructor; auto; [now apply ga_etn|now apply ga_wtab]. Qed.

Lemma ga_nodeok k v b n : In n (ut_tab (c_ut q' k) v b) -> nodeok q' k v b n.
Proof.
  intros H. assert (L: linked q' k n) by (now exists v, b). apply ga_linked in L. destruct L as [L R].
  rewrite (gd_tab _ _ _ _ _ (ga_gcd _ _ _ _ _ GA k)) in H. apply filter_In in H. destruct H as [H _].
  pose proof (ui_node _ _ _ _ _ _ (ci_ut _ _ _ _ _ I k) _ _ _ H) as K. pose proof ga_same as S.
  destruct K as [K1 K2 K3 K4 K5 K6 K7 K8 K9]. constructor; rewrite ?(qs_qn q q' _ _ S); auto.
  - rewrite (ga_nq _ _ _ _ _ GA). auto.
  - intros e He. apply ga_tedge; auto.
    + intros Rn. apply (A k n); auto.
    + intros Hc. destruct (ga_force _ _ _ _ _ GA Hc k) as [Rn|Nn]; [|exfalso; now apply (Nn n)]. apply (A k n); auto.
  - intros Ex. specialize (K7 Ex). unfold Inv.nnorm in *. destruct k.
    + rewrite !(qs_Cw q q' _ S). exact K7.
    + destruct K7 as (am & Q1 & Q2 & Q3 & Q4). exists am. split; auto. split; auto. split; intros i Hi; rewrite (qs_Cw q q' _ S); auto.
    + destruct K7 as (am & Q1 & Q2 & Q3 & Q4). exists am. split; auto. split; auto. split; intros i Hi; rewrite (qs_Cw q q' _ S); auto.
  - intros Ex Hk Hs path V. rewrite !(qs_dn q q' KM S). auto.
  - intros Ex Hk Hs path V. rewrite !(qs_dn q q' KM S). auto.
Qed.

Lemma ga_allq k : ut_allq q' k = filter (fun n => negb (ran k) || negb (dead (c_ut q k) n)) (ut_allq q k).
Proof.
  unfold Inv.ut_allq. rewrite (ga_nq _ _ _ _ _ GA), filter_flat_map. apply flat_map_ext. intros v. rewrite filter_flat_map.
  apply flat_map_ext. intros b. apply (gd_tab _ _ _ _ _ (ga_gcd _ _ _ _ _ GA k)).
Qed.

Lemma ga_uinv k : uinv q' k.
Proof.
  pose proof (ci_ut _ _ _ _ _ I k) as U. pose proof (ga_gcd _ _ _ _ _ GA k) as D. pose proof ga_same as S.
  assert (Tab: forall v b n, In n (ut_tab (c_ut q' k) v b) -> In n (ut_tab (c_ut q k) v b)).
  { intros v b n H. rewrite (gd_tab _ _ _ _ _ D) in H. apply filter_In in H. tauto. }
  constructor.
  - apply (ui_nb _ _ _ _ _ _ U).
  - intros v b n H. now apply ga_nodeok.
  - intros v b. rewrite (gd_tab _ _ _ _ _ D). apply NoDup_filter, (ui_nd _ _ _ _ _ _ U).
  - intros n L. rewrite (gd_next _ _ _ _ _ D). apply (ui_lt _ _ _ _ _ _ U). now apply ga_linked in L.
  - rewrite (gd_avail _ _ _ _ _ D). destruct (ran k) eqn:R; [|apply (ui_av _ _ _ _ _ _ U)].
    apply NoDup_app_intro.
    + apply NoDup_rev, NoDup_filter, allq_NoDup; auto.
    + apply (ui_av _ _ _ _ _ _ U).
    + intros n Hn Ha. apply in_rev in Hn. apply filter_In in Hn. destruct Hn as [Hn _]. apply (allq_In q k n I) in Hn.
      now apply (ui_avlt _ _ _ _ _ _ U n).
  - intros n. rewrite (gd_avail _ _ _ _ _ D), (gd_next _ _ _ _ _ D). intros Hn. apply in_app_or in Hn. destruct Hn as [Hn|Hn].
    + destruct (ran k) eqn:R; [|destruct Hn]. apply in_rev in Hn. apply filter_In in Hn. destruct Hn as [Hn Hd].
      apply (allq_In q k n I) in Hn. split; [now apply (ui_lt _ _ _ _ _ _ U)|]. intros L. apply ga_linked in L. destruct L as [_ L].
      specialize (L R). unfold dead in Hd. apply Z.eqb_eq in Hd. contradiction.
    + destruct (ui_avlt _ _ _ _ _ _ U n Hn) as [Q1 Q2]. split; auto. intros L. apply ga_linked in L. tauto.
  - intros n. rewrite (gd_next _ _ _ _ _ D), (qs_qn q q' _ _ S). apply (ui_fresh _ _ _ _ _ _ U).
  - intros v b n m Hn Hm. rewrite !(qs_qn q q' _ _ S). rewrite (qes_eq q q'); [apply (ui_uniq _ _ _ _ _ _ U v b); auto|].
    intros e _. destruct S as (_ & S & _). unfold Inv.qval, xaddr, ct_value. now rewrite S.
  - rewrite (gd_count _ _ _ _ _ D), ga_allq. reflexivity.
  - rewrite (gd_peak _ _ _ _ _ D). pose proof (ui_peak _ _ _ _ _ _ U). rewrite (gd_count _ _ _ _ _ D).
    rewrite (ui_count _ _ _ _ _ _ U) in H. assert (Q: forall f (l : list nat), (length (filter f l) <= length l)%nat) by (intros f l; clear; induction l; cbn; auto; destruct (f a); cbn; lia).
    specialize (Q (fun n => negb (ran k) || negb (dead (c_ut q k) n)) (ut_allq q k)). lia.
Qed.

Lemma ga_cinv : cinv q'.
Proof.
  constructor.
  - rewrite (ga_nq _ _ _ _ _ GA). apply I.
  - apply GA.
  - apply GA.
  - apply ga_uinv.
Qed.

Lemma ga_rcact : rcact q'.
Proof.
  intros k n L Hn e He. pose proof ga_same as S. rewrite (qs_qn q q' _ _ S) in Hn, He. apply ga_linked in L. destruct L as [L _].
  destruct (A k n L Hn e He) as [P W]. split.
  - destruct (ep e); cbn in *; auto. now rewrite (qs_qn q q' _ _ S).
  - intros a Ha. rewrite (ga_heap _ _ _ _ _ GA). now apply W.
Qed.

(** Cached results survive as long as no node and no number was collected. *)
Lemma ga_keepn k n : c k <= 0 -> linked q k n -> linked q' k n.
Proof.
  intros Hc L. apply ga_linked. split; auto. intros R. pose proof (gcd_none q k _ _ _ I (ga_gcd _ _ _ _ _ GA k) Hc n L R) as D.
  unfold dead in D. apply Z.eqb_neq in D. exact D.
Qed.
Lemma ga_etn0 k l p : c k <= 0 -> etn q k l p -> etn q' k l p.
Proof.
  intros Hc. destruct p as [| |n]; cbn; auto. intros [L V]. rewrite (qs_qn q q' _ _ ga_same). split; auto. now apply ga_keepn.
Qed.
Lemma ga_isnode0 k l p : c k <= 0 -> isnode q k l p -> isnode q' k l p.
Proof. intros Hc [H1 H2]. split; auto. now apply ga_etn0. Qed.
Lemma ga_wtab0 w : cC <= 0 -> wtab q w -> wtab q' w.
Proof. intros Hc H. apply ga_wtab; auto. lia. Qed.
Lemma ga_tedge0 k l e : c k <= 0 -> cC <= 0 -> tedge q k l e -> tedge q' k l e.
Proof. intros H1 H2 [T1 T2 T3 T4]. constructor; auto; [now apply ga_etn0|now apply ga_wtab0]. Qed.
Lemma ga_vres0 k l r : c k <= 0 -> vres q k l r -> vres q' k l r.
Proof. intros Hc (V1 & V2 & V3). split; [now apply ga_etn0|]. auto. Qed.
Lemma ga_dv k r path : dv q' k r path = dv q k r path.
Proof. unfold Inv.dv. now rewrite (qs_dn q q' k ga_same). Qed.

Lemma ga_addok k x y r : c k <= 0 -> addok q k x y r -> addok q' k x y r.
Proof.
  intros Hc (l & Hl & P1 & P2 & V & H). exists l. split; auto. split; [now apply ga_isnode0|]. split; [now apply ga_isnode0|].
  split; [now apply ga_vres0|]. intros Ex path Vp. rewrite !ga_dv. auto.
Qed.

Lemma ga_kgood : forall n e, kgood N g X q' n e -> kgood N g X q n e.
Proof.
  induction n as [|n IH]; intros e; cbn [kgood]; auto. intros [H1 H2]. split.
  - intros H. apply H1. intros path V. rewrite (qs_dn q q' KM ga_same). auto.
  - destruct (ep e); auto. intros i Hi. apply IH. specialize (H2 i Hi). change (Inv.qn N q' KM n0) with (qn q' KM n0) in H2. now rewrite (qs_qn q q' _ _ ga_same) in H2.
Qed.

Definition bkinds (b : bop) : list kind :=
  match b with BMV => [KM; KV] | BMM | BKM => [KM] | BIP | BKV => [KV] | BDD => [KM; KD] end.

Lemma ga_binok b x y r : (forall k, In k (bkinds b) -> c k <= 0) -> cC <= 0 -> binok q b x y r -> binok q' b x y r.
Proof.
  intros Hc HC. pose proof ga_same as S. destruct b; cbn [Inv.binok bkinds] in *.
  - intros (W1 & W2 & l & Hl & P1 & P2 & V & H). split; auto. split; auto. exists l. split; auto.
    split; [apply ga_isnode0; auto; apply Hc; cbn; auto|]. split; [apply ga_isnode0; auto; apply Hc; cbn; auto|]. split; [apply ga_vres0; auto; apply Hc; cbn; auto|].
    intros Ex rs Vr. rewrite ga_dv. rewrite (H Ex rs Vr). apply Csum_ext. intros cs _. now rewrite !(qs_de q q' _ _ _ S).
  - intros (W1 & W2 & l & Hl & P1 & P2 & V & H). split; auto. split; auto. exists l. split; auto.
    split; [apply ga_isnode0; auto; apply Hc; cbn; auto|]. split; [apply ga_isnode0; auto; apply Hc; cbn; auto|]. split; [apply ga_vres0; auto; apply Hc; cbn; auto|].
    intros Ex rs cs Vr Vc. rewrite ga_dv. rewrite (H Ex rs cs Vr Vc). apply Csum_ext. intros ks _. now rewrite !(qs_de q q' _ _ _ S).
  - intros (W1 & W2 & l & Hl & P1 & P2 & V & H). split; auto. split; auto. exists l. split; auto.
    split; [apply ga_isnode0; auto; apply Hc; cbn; auto|]. split; [apply ga_isnode0; auto; apply Hc; cbn; auto|]. split; auto.
    intros Ex. rewrite (H Ex). unfold ipsem. apply Csum_ext. intros cs _. now rewrite !(qs_de q q' _ _ _ S).
  - intros (lx & ly & Hl & P1 & W & T & Hy & Ty & V & Z & H). exists lx, ly. split; auto.
    split; [apply ga_isnode0; auto; apply Hc; cbn; auto|]. split; [now apply ga_wtab0|]. split; [apply ga_tedge0; auto; apply Hc; cbn; auto|].
    split; auto. split; auto. split; [apply ga_vres0; auto; apply Hc; cbn; auto|]. split; auto.
    intros Ex Kg p1 p2 V1 V2. rewrite ga_dv, !(qs_de q q' _ _ _ S). apply H; auto. discriminate.
  - intros (lx & ly & Hl & P1 & W & T & Hy & Ty & V & Z & H). exists lx, ly. split; auto.
    split; [apply ga_isnode0; auto; apply Hc; cbn; auto|]. split; [now apply ga_wtab0|]. split; [apply ga_tedge0; auto; apply Hc; cbn; auto|].
    split; auto. split; auto. split; [apply ga_vres0; auto; apply Hc; cbn; auto|]. split; auto.
    intros Ex Kg p1 p2 V1 V2. rewrite ga_dv, !(qs_de q q' _ _ _ S). apply H; auto. intros E. apply ga_kgood. auto.
  - intros (W1 & W2 & l & a & b & Hl & Ka & Kb & P1 & P2 & V & H). split; auto. split; auto. exists l, a, b.
    assert (Hn: forall p, hnode N q l p -> hnode N q' l p).
    { intros [p|p]; cbn [hnode]; intros; apply ga_isnode0; auto; apply Hc; cbn; auto. }
    assert (Hv: forall p path, hn N g X q' p path = hn N g X q p path).
    { intros [p|p] path; cbn [hn]; apply (qs_dn q q' _ S). }
    split; auto. split; auto. split; auto. split; auto. split; auto. split; [apply ga_vres0; auto; apply Hc; cbn; auto|].
    intros Ex rs cs Vr Vc. rewrite ga_dv. rewrite (H Ex rs cs Vr Vc). apply Csum_ext. intros ks _. now rewrite !Hv.
Qed.

Lemma ga_unok u a r : c KM <= 0 -> cC <= 0 -> unok q u a r -> unok q' u a r.
Proof.
  intros Hc HC (l & Hl & P & W & T & H). exists l. split; auto. split; [now apply ga_isnode0|]. split; [now apply ga_wtab0|].
  split; [now apply ga_tedge0|]. intros Ex path V. specialize (H Ex path V). rewrite !(qs_de q q' _ _ _ ga_same). exact H.
Qed.

Lemma ga_idok i e : c KM <= 0 -> idok q i e -> idok q' i e.
Proof.
  intros Hc H P. destruct (H P) as (B1 & [T1 T2 T3 T4] & B3 & B4). rewrite (ga_nq _ _ _ _ _ GA). split; auto. split.
  - constructor; auto; [now apply ga_etn0|]. destruct B3 as [-> | ->]; [apply wtab_one|apply wtab_zero].
  - split; auto. intros Ex. destruct (B4 Ex) as (C1 & C2 & C3). split; [now apply ga_isnode0|]. split; auto.
    intros path V. rewrite (qs_dn q q' KM ga_same). auto.
Qed.
End All.

(** ** Clearing caches *)
Lemma tb_clear_none {K R} b (t : tbl K R) h : tok t -> tb_ent (tb_clear b t) h = None.
Proof. intros [H1 H2]. cbn. destruct (0 <? tb_count t) eqn:E; auto. apply Z.ltb_ge in E. apply H2. lia. Qed.
Lemma tb_clear_tok {K R} b (t : tbl K R) : tok t -> tok (tb_clear b t).
Proof. intros H. split; [cbn; lia|]. intros _ h. now apply tb_clear_none. Qed.

Lemma sumlen_le tab tab' keys : (forall k, (length (tab' k) <= length (tab k))%nat) -> sumlen tab' keys <= sumlen tab keys.
Proof. intros H. induction keys as [|k ks IH]; cbn [sumlen]; [lia|]. specialize (H k). lia. Qed.

Lemma ct_gc_nonneg force (c : ctab N) n c' : ctwf cf c -> ct_gc cf force c = (n, c') -> 0 <= n.
Proof.
  intros W E. destruct G as (Hcf & _). destruct (ct_gc_spec cf force c n c' W E) as (W' & _ & [(-> & _)|(_ & -> & _)] & _ & F); [lia|].
  rewrite (wf_count _ _ W), (wf_count _ _ W'). assert (sumlen (ct_tab c') (ct_keys cf) <= sumlen (ct_tab c) (ct_keys cf)); [|lia].
  apply sumlen_le. intros k. destruct (F k) as (f & ->). induction (ct_tab c k) as [|a l IH]; cbn; auto. destruct (f a); cbn; lia.
Qed.

(** The operation caches. *)
Inductive tbid := TA (k : kind) | TBn (b : bop) | TU (u : uop) | TI.
(** All caches outside [D] are valid. *)
Record tdirty (q : core N) (D : tbid -> Prop) (s : st N) : Prop := {
  td_add : forall k h x y r, tb_ent (s_add s k) h = Some ((x, y), r) -> D (TA k) \/ addok q k x y r;
  td_bin : forall b h x y r, tb_ent (s_bin s b) h = Some ((x, y), r) -> D (TBn b) \/ binok q b x y r;
  td_un : forall u h a r, tb_ent (s_un s u) h = Some (a, r) -> D (TU u) \/ unok q u a r;
  td_id : forall i, D TI \/ idok q i (s_id s i);
  td_c : tcnt N s }.

Definition cl (m : M N unit) (L : list tbid) : Prop :=
  forall q D s, tdirty q D s -> exists s', m s = Ok tt s' /\ co s' = co s /\ s_cc s' = s_cc s /\
  tdirty q (fun x => D x /\ ~ In x L) s'.

Lemma cl_seq m m' L L' : cl m L -> cl m' L' -> cl (m ;;; m') (L ++ L').
Proof.
  intros H H' q D s T. destruct (H q D s T) as (s1 & E1 & C1 & R1 & T1). destruct (H' _ _ s1 T1) as (s2 & E2 & C2 & R2 & T2).
  exists s2. unfold bind. rewrite E1. split; auto. split; [congruence|]. split; [congruence|].
  destruct T2 as [Q1 Q2 Q3 Q4 Q5]. constructor; auto.
  - intros k h x y r E. destruct (Q1 k h x y r E) as [((D1 & D2) & D3)|]; auto. left. split; auto. rewrite in_app_iff. tauto.
  - intros k h x y r E. destruct (Q2 k h x y r E) as [((D1 & D2) & D3)|]; auto. left. split; auto. rewrite in_app_iff. tauto.
  - intros k h x y E. destruct (Q3 k h x y E) as [((D1 & D2) & D3)|]; auto. left. split; auto. rewrite in_app_iff. tauto.
  - intros i. destruct (Q4 i) as [((D1 & D2) & D3)|]; auto. left. split; auto. rewrite in_app_iff. tauto.
Qed.
Lemma cl_ret : cl (ret tt) [].
Proof.
  intros q D s T. exists s. split; auto. split; auto. split; auto. destruct T as [Q1 Q2 Q3 Q4 Q5]. constructor; auto.
  - intros k h x y r E. destruct (Q1 k h x y r E); auto.
  - intros k h x y r E. destruct (Q2 k h x y r E); auto.
  - intros k h x y E. destruct (Q3 k h x y E); auto.
  - intros i. destruct (Q4 i); auto.
Qed.
Lemma cl_when (b : bool) m L : cl m L -> cl (whenM N b m) (if b then L else []).
Proof. intros H. destruct b; auto. apply cl_ret. Qed.

Lemma cl_add k : cl (clrAdd N k) [TA k].
Proof.
  intros q D s T. eexists. split; [reflexivity|]. split; auto. split; auto. destruct T as [Q1 Q2 Q3 Q4 Q5]. constructor; auto.
  - intros k' h x y r. cbn. destruct (kind_eqb k' k) eqn:E.
    + apply kind_eqb_spec in E. subst k'. rewrite tb_clear_none by apply Q5. discriminate.
    + intros H. destruct (Q1 k' h x y r H); auto. left. split; auto. intros [J|[]]. injection J as ->. now rewrite kind_eqb_refl in E.
  - intros b h x y r H. destruct (Q2 b h x y r H); auto. left. split; auto. intros [J|[]]. discriminate.
  - intros u h x y H. destruct (Q3 u h x y H); auto. left. split; auto. intros [J|[]]. discriminate.
  - intros i. destruct (Q4 i); auto. left. split; auto. intros [J|[]]. discriminate.
  - destruct Q5 as (K1 & K2 & K3). split; auto. intros k'. cbn. destruct (kind_eqb k' k); auto. apply tb_clear_tok; auto.
Qed.
Lemma cl_bin b : cl (clrBin N b) [TBn b].
Proof.
  intros q D s T. eexists. split; [reflexivity|]. split; auto. split; auto. destruct T as [Q1 Q2 Q3 Q4 Q5]. constructor; auto.
  - intros k h x y r H. destruct (Q1 k h x y r H); auto. left. split; auto. intros [J|[]]. discriminate.
  - intros b' h x y r. cbn. destruct (bop_eqb b' b) eqn:E.
    + apply bop_eqb_spec in E. subst b'. rewrite tb_clear_none by apply Q5. discriminate.
    + intros H. destruct (Q2 b' h x y r H); auto. left. split; auto. intros [J|[]]. injection J as ->. now rewrite (proj2 (bop_eqb_spec b' b') eq_refl) in E.
  - intros u h x y H. destruct (Q3 u h x y H); auto. left. split; auto. intros [J|[]]. discriminate.
  - intros i. destruct (Q4 i); auto. left. split; auto. intros [J|[]]. discriminate.
  - destruct Q5 as (K1 & K2 & K3). split; auto. split; auto. intros b'. cbn. destruct (bop_eqb b' b); auto. apply tb_clear_tok; auto.
Qed.
Lemma cl_un u : cl (clrUn N u) [TU u].
Proof.
  intros q D s T. eexists. split; [reflexivity|]. split; auto. split; auto. destruct T as [Q1 Q2 Q3 Q4 Q5]. constructor; auto.
  - intros k h x y r H. destruct (Q1 k h x y r H); auto. left. split; auto. intros [J|[]]. discriminate.
  - intros b h x y r H. destruct (Q2 b h x y r H); auto. left. split; auto. intros [J|[]]. discriminate.
  - intros u' h x y. cbn. destruct (uop_eqb u' u) eqn:E.
    + apply uop_eqb_spec in E. subst u'. rewrite tb_clear_none by apply Q5. discriminate.
    + intros H. destruct (Q3 u' h x y H); auto. left. split; auto. intros [J|[]]. injection J as ->. now rewrite (proj2 (uop_eqb_spec u' u') eq_refl) in E.
  - intros i. destruct (Q4 i); auto. left. split; auto. intros [J|[]]. discriminate.
  - destruct Q5 as (K1 & K2 & K3). split; auto. split; auto. intros u'. cbn. destruct (uop_eqb u' u); auto. apply tb_clear_tok; auto.
Qed.
Lemma cl_id : cl (clrId N) [TI].
Proof.
  intros q D s T. eexists. split; [reflexivity|]. split; auto. split; auto. destruct T as [Q1 Q2 Q3 Q4 Q5]. constructor; auto.
  - intros k h x y r H. destruct (Q1 k h x y r H); auto. left. split; auto. intros [J|[]]. discriminate.
  - intros b h x y r H. destruct (Q2 b h x y r H); auto. left. split; auto. intros [J|[]]. discriminate.
  - intros u h x y H. destruct (Q3 u h x y H); auto. left. split; auto. intros [J|[]]. discriminate.
  - intros i. right. intros H. now elim H.
Qed.

(** What a collection does. *)
Record gcsafe (s s' : st N) : Prop := {
  gs_inv : inv s';
  gs_act : rcact (co s');
  gs_cc : s_cc s' = s_cc s;
  gs_same : qsame (co s) (co s');
  gs_lk : forall k n, linked (co s') k n -> linked (co s) k n;
  gs_keepn : forall k n, linked (co s) k n -> nref (nod s k n) <> 0 -> linked (co s') k n;
  gs_live : forall a, ctlive (s_ct s') a -> ctlive (s_ct s) a;
  gs_keepa : forall a, ctlive (s_ct s) a -> ce_rc (ct_heap (s_ct s) a) <> 0 -> ctlive (s_ct s') a;
  gs_edge : forall k l e, tedge (co s) k l e -> pact (co s) k (ep e) -> wprot (co s) (ew e) -> tedge (co s') k l e;
  gs_st : forall k, ut_active (s_ut s' k) = ut_active (s_ut s k) /\ ut_actcount (s_ut s' k) = ut_actcount (s_ut s k) /\
                    ut_maxact (s_ut s' k) = ut_maxact (s_ut s k) }.

Lemma gcsafe_refl s : inv s -> rcact (co s) -> gcsafe s s.
Proof. intros I A. constructor; auto. split; auto. Qed.

Lemma gc_sp' force s : inv s -> rcact (co s) ->
  exists b s', garbageCollect N g nb force s = Ok b s' /\ gcsafe s s' /\
    (force = true -> (forall k n, linked (co s') k n -> nref (nod s' k n) <> 0) /\
                     (1 < ct_count (s_ct s) -> forall a, ctlive (s_ct s') a -> ce_rc (ct_heap (s_ct s') a) <> 0)) /\
    ((b = false /\ s' = s) \/
     exists cC vC mC dC s3, gcCounts N g nb force s = Ok (cC, vC, mC, dC) s3 /\ co s' = co s3 /\ b = ((0 <? vC) || (0 <? mC) || (0 <? cC)) /\
       cC = ct_count (s_ct s) - ct_count (s_ct s') /\ vC = ut_count (s_ut s KV) - ut_count (s_ut s' KV) /\
       mC = ut_count (s_ut s KM) - ut_count (s_ut s' KM) /\ dC = ut_count (s_ut s KD) - ut_count (s_ut s' KD)).
Proof.
  intros I A. destruct G as (Hcf & _). unfold garbageCollect. unfold bind at 1. cbv beta delta [get]; cbv iota.
  destruct (negb force && negb (ut_needsGC (s_ut s KV)) && negb (ut_needsGC (s_ut s KM)) && negb (ut_needsGC (s_ut s KD)) && negb (ct_needsGC (s_ct s))) eqn:B.
  { do 2 eexists. split; [reflexivity|]. split; [now apply gcsafe_refl|]. split; [intros ->; discriminate|]. left. auto. }
  destruct I as [C T]. destruct (ct_gc cf force (s_ct s)) as [cC ct'] eqn:E.
  pose proof (ct_gc_nonneg _ _ _ _ (ci_ct _ _ _ _ _ C) E) as P0.
  destruct (ct_gc_spec cf force _ _ _ (ci_ct _ _ _ _ _ C) E) as (W' & Hh & Hcase & Hno & Hf).
  set (f2 := force || (0 <? cC)).
  destruct (ut_gc_sp (co s) (set_ct s ct') KV f2 C eq_refl eq_refl) as (vC & rV & uV & EV & DV & FV).
  destruct (ut_gc_sp (co s) (set_ut (set_ct s ct') KV uV) KM f2 C eq_refl eq_refl) as (mC & rM & uM & EM & DM & FM).
  destruct (ut_gc_sp (co s) (set_ut (set_ut (set_ct s ct') KV uV) KM uM) KD f2 C eq_refl eq_refl) as (dC & rD & uD & ED & DD & FD).
  set (s3 := set_ut (set_ut (set_ut (set_ct s ct') KV uV) KM uM) KD uD) in *.
  set (c := fun k => match k with KV => vC | KM => mC | KD => dC end).
  set (ran := fun k => match k with KV => rV | KM => rM | KD => rD end).
  assert (GA: gcall (co s) (co s3) cC c ran).
  { constructor; auto.
    - intros Ex. apply (x_gc X Ex (s_ct s) force cC ct' (ci_ct _ _ _ _ _ C) (ci_x _ _ _ _ _ C Ex) E).
    - intros i a. cbn. destruct (Hf i) as (f & ->). intros H. apply filter_In in H. tauto.
    - intros i a Hi Hr. cbn in *. destruct Hcase as [(_ & -> & _)|(_ & _ & H)]; auto. apply H. auto.
    - intros Hc. cbn. apply Hno. lia.
    - intros k. destruct k; cbn; auto.
    - intros Hc k. assert (F2: f2 = true) by (unfold f2; rewrite (proj2 (Z.ltb_lt 0 cC)) by lia; apply orb_true_r).
      destruct k; cbn; auto. }
  assert (Final: forall s', co s' = co s3 -> s_cc s' = s_cc s -> tinv (co s3) s' ->
     gcsafe s s' /\ (force = true -> (forall k n, linked (co s') k n -> nref (nod s' k n) <> 0) /\
        (1 < ct_count (s_ct s) -> forall a, ctlive (s_ct s') a -> ce_rc (ct_heap (s_ct s') a) <> 0))).
  { intros s' Hco Hcc Ht. split.
    - constructor; rewrite ?Hco; auto.
      + constructor; rewrite Hco; auto. apply (ga_cinv _ _ _ _ _ C A GA).
      + apply (ga_rcact _ _ _ _ _ A GA).
      + apply (ga_same _ _ _ _ _ GA).
      + intros k n L. apply (ga_linked _ _ _ _ _ GA) in L. tauto.
      + intros k n L Hr. apply (ga_linked _ _ _ _ _ GA). auto.
      + intros a (i & H). exists i. change (s_ct s') with (c_ct (co s')) in H. rewrite Hco in H. now apply (ga_sub _ _ _ _ _ GA) in H.
      + intros a (i & H) Hr. exists i. change (s_ct s') with (c_ct (co s')). rewrite Hco. apply (ga_keep _ _ _ _ _ GA); auto.
      + intros k l e Te Pe We. apply (ga_tedge _ _ _ _ _ GA); auto.
      + intros k. change (s_ut s' k) with (c_ut (co s') k). rewrite Hco. apply (gd_act _ _ _ _ _ (ga_gcd _ _ _ _ _ GA k)).
    - intros ->. assert (F2: f2 = true) by reflexivity. split.
      + intros k n. change (nod s' k n) with (qn (co s') k n). rewrite Hco. rewrite (qs_qn _ _ _ _ (ga_same _ _ _ _ _ GA)). intros L.
        apply (ga_linked _ _ _ _ _ GA) in L. destruct L as [L R]. apply R.
        destruct k; cbn; [destruct (FV F2) as [->|H]|destruct (FM F2) as [->|H]|destruct (FD F2) as [->|H]]; auto; exfalso; now apply (H n).
      + intros H1 a (i & H). change (s_ct s') with (c_ct (co s')) in *. rewrite Hco in *. cbn in H |- *. rewrite Hh.
        unfold ct_gc in E. cbn [negb andb orb] in E. rewrite (proj2 (Z.leb_gt _ _)) in E by lia.
        destruct (gc_buckets _ _ _ _ _ _ _) as [[[[t1 t2] t3] t4] t5] in E. injection E as <- <-. cbn in Hcase, H.
        destruct Hcase as [(_ & _ & _ & _ & _ & Q)|(_ & _ & Q)]; [lia|]. apply Q in H. tauto. }
  assert (EC: gcCounts N g nb force s = Ok (cC, vC, mC, dC) s3).
  { unfold gcCounts, cn_gc. unfold bind at 1. rewrite E. fold f2.
    unfold bind at 1. rewrite EV. unfold bind at 1. rewrite EM. unfold bind at 1. rewrite ED. reflexivity. }
  unfold bind at 1. rewrite EC. unfold gcClear.
  set (D := fun t : tbid => match t with
     | TA k => 0 < c k
     | TBn b => (exists k, In k (bkinds b) /\ 0 < c k) \/ 0 < cC
     | TU _ => 0 < c KM \/ 0 < cC
     | TI => 0 < c KM end).
  assert (T0: tdirty (co s3) D s3).
  { destruct T as [T1 T2 T3 T4 T5]. constructor; auto.
    - intros k h x y r H. cbn. destruct (Z.lt_ge_cases 0 (c k)); auto. right. apply (ga_addok _ _ _ _ _ C GA); auto. now apply (T1 k h).
    - intros b h x y r H. cbn. destruct (Z.lt_ge_cases 0 cC); auto.
      assert (Dec: (exists k, In k (bkinds b) /\ 0 < c k) \/ forall k, In k (bkinds b) -> c k <= 0).
      { induction (bkinds b) as [|k l IH]; [right; intros k []|]. destruct (Z.lt_ge_cases 0 (c k)); [left; exists k; cbn; auto|].
        destruct IH as [(k' & Hk & Hc)|Hc]; [left; exists k'; cbn; auto|]. right. intros k' [<-|Hk]; auto. }
      destruct Dec as [Dc|Dc]; auto. right. apply (ga_binok _ _ _ _ _ C GA); auto. now apply (T2 b h).
    - intros u h a r H. cbn [D]. destruct (Z.lt_ge_cases 0 cC); auto. destruct (Z.lt_ge_cases 0 (c KM)); auto.
      right. apply (ga_unok _ _ _ _ _ C GA); auto. now apply (T3 u h).
    - intros i. cbn [D]. destruct (Z.lt_ge_cases 0 (c KM)); auto. right. apply (ga_idok _ _ _ _ _ C GA); auto. apply T4. }
  pose proof (cl_when (0 <? vC) _ _ (cl_seq _ _ _ _ (cl_add KV) (cl_seq _ _ _ _ (cl_bin BIP) (cl_seq _ _ _ _ (cl_bin BKV) (cl_bin BMV))))) as L1.
  pose proof (cl_when ((0 <? mC) || (0 <? dC)) _ _ (cl_seq _ _ _ _ (cl_add KM) (cl_seq _ _ _ _ (cl_un UTr) (cl_seq _ _ _ _ (cl_un UCt)
     (cl_seq _ _ _ _ (cl_bin BKM) (cl_seq _ _ _ _ (cl_bin BMV) (cl_seq _ _ _ _ (cl_bin BMM) (cl_seq _ _ _ _ cl_id (cl_seq _ _ _ _ (cl_add KD) (cl_bin BDD)))))))))) as L2.
  pose proof (cl_when (0 <? cC) _ _ (cl_seq _ _ _ _ (cl_bin BMV) (cl_seq _ _ _ _ (cl_bin BMM) (cl_seq _ _ _ _ (cl_un UTr) (cl_seq _ _ _ _ (cl_un UCt)
     (cl_seq _ _ _ _ (cl_bin BIP) (cl_seq _ _ _ _ (cl_bin BKV) (cl_seq _ _ _ _ (cl_bin BKM) (cl_seq _ _ _ _ (cl_add KD) (cl_bin BDD)))))))))) as L3.
  destruct (L1 _ _ _ T0) as (s4 & E4 & C4 & R4 & T4). destruct (L2 _ _ _ T4) as (s5 & E5 & C5 & R5 & T5). destruct (L3 _ _ _ T5) as (s6 & E6 & C6 & R6 & T6).
  unfold bind at 1. rewrite E4. unfold bind at 1. rewrite E5. unfold bind at 1. rewrite E6.
  assert (Q6: co s6 = co s3) by congruence.
  do 2 eexists. split; [reflexivity|]. match goal with |- ?P /\ ?Q /\ ?R => enough (PQ : P /\ Q) end.
  { split; [apply PQ|]. split; [apply PQ|]. right. exists cC, vC, mC, dC, s3. split; [reflexivity|]. split; [exact Q6|]. split; [reflexivity|].
    change (s_ct s6) with (c_ct (co s6)). change (s_ut s6) with (c_ut (co s6)). rewrite Q6. split.
    - cbn. destruct Hcase as [(Hn & _ & _ & _ & Hn2 & _)|(_ & Hn & _)]; [rewrite Hn2|exact Hn]. change (c_ct (co s)) with (s_ct s). lia.
    - split; [apply (gd_c _ _ _ _ _ DV)|]. split; [apply (gd_c _ _ _ _ _ DM)|apply (gd_c _ _ _ _ _ DD)]. }
  apply Final; [congruence|rewrite R6, R5, R4; reflexivity|].
  match type of T6 with tdirty _ ?DD _ => assert (ND: forall t, ~ DD t) end.
  { clear - P0. intros t (((H & H1) & H2) & H3).
    destruct (0 <? vC) eqn:BV, (0 <? mC) eqn:BM, (0 <? dC) eqn:BD, (0 <? cC) eqn:BC; cbn [orb] in *;
    rewrite ?Z.ltb_lt, ?Z.ltb_ge in BV, BM, BD, BC;
    destruct t as [[]|[]|[]|]; cbv beta iota delta [D c bkinds] in H; cbn [app In] in H1, H2, H3; try lia; try (now intuition congruence);
    destruct H as [([] & H & Hc)|H]; try lia; cbn [In] in H; intuition congruence. }
  destruct T6 as [Q1 Q2 Q3 Q4 Q5]. constructor; auto.
  - intros k h x y r H. destruct (Q1 k h x y r H) as [J|]; auto. now apply ND in J.
  - intros k h x y r H. destruct (Q2 k h x y r H) as [J|]; auto. now apply ND in J.
  - intros k h x y H. destruct (Q3 k h x y H) as [J|]; auto. now apply ND in J.
  - intros i. destruct (Q4 i) as [J|]; auto. now apply ND in J.
Qed.
Lemma gc_sp force s : inv s -> rcact (co s) ->
  exists b s', garbageCollect N g nb force s = Ok b s' /\ gcsafe s s' /\
    (force = true -> (forall k n, linked (co s') k n -> nref (nod s' k n) <> 0) /\
                     (1 < ct_count (s_ct s) -> forall a, ctlive (s_ct s') a -> ce_rc (ct_heap (s_ct s') a) <> 0)).
Proof. intros I A. destruct (gc_sp' force s I A) as (b & s' & E & S & F & _). eauto. Qed.
End GcL.
