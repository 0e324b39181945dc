(** Basic facts about the invariants: they survive extension of the state. *)
From Coq Require Import ZArith List Bool Lia Arith Reals Lra.
From Verif Require Import Num Base CTable CTableWf Cx State Pkg Inv.
Import ListNotations.
Local Open Scope Z_scope.

(** ** Comparison functions *)

Lemma eaddr_eqb_spec a b : eaddr_eqb a b = true <-> a = b.
Proof.
  destruct a, b; simpl; split; intros H; try discriminate; auto;
    try (apply Nat.eqb_eq in H; congruence); injection H as ->; apply Nat.eqb_refl.
Qed.
Lemma eptr_eqb_spec p q : eptr_eqb p q = true <-> p = q.
Proof.
  unfold eptr_eqb. rewrite andb_true_iff, eaddr_eqb_spec, eqb_true_iff.
  destruct p, q; simpl. split; [intros [-> ->]; auto|intros [= -> ->]; auto].
Qed.
Lemma eptr_eqb_refl p : eptr_eqb p p = true.
Proof. now apply eptr_eqb_spec. Qed.
Lemma ceqb_spec a b : ceqb a b = true <-> a = b.
Proof.
  unfold ceqb. rewrite andb_true_iff, !eptr_eqb_spec. destruct a, b; simpl.
  split; [intros [-> ->]; auto|intros [= -> ->]; auto].
Qed.
Lemma ceqb_false a b : ceqb a b = false <-> a <> b.
Proof. rewrite <- ceqb_spec. destruct (ceqb a b); split; intros; try congruence; auto. Qed.
Lemma ceqb_refl a : ceqb a a = true.
Proof. now apply ceqb_spec. Qed.
Lemma nptr_eqb_spec p q : nptr_eqb p q = true <-> p = q.
Proof.
  destruct p, q; simpl; split; intros H; try discriminate; auto.
  - apply Nat.eqb_eq in H; congruence.
  - injection H as ->; apply Nat.eqb_refl.
Qed.
Lemma nptr_eqb_refl p : nptr_eqb p p = true.
Proof. now apply nptr_eqb_spec. Qed.
Lemma nptr_eqb_sym p q : nptr_eqb p q = nptr_eqb q p.
Proof. apply eq_true_iff_eq. rewrite !nptr_eqb_spec. split; auto. Qed.
Lemma eptr_eqb_sym p q : eptr_eqb p q = eptr_eqb q p.
Proof. apply eq_true_iff_eq. rewrite !eptr_eqb_spec. split; auto. Qed.
Lemma kind_eqb_spec a b : kind_eqb a b = true <-> a = b.
Proof. destruct a, b; simpl; split; congruence. Qed.
Lemma kind_eqb_refl a : kind_eqb a a = true.
Proof. destruct a; auto. Qed.
Lemma kind_eqb_neq a b : a <> b -> kind_eqb a b = false.
Proof. destruct a, b; simpl; congruence. Qed.
Lemma kind_eq_dec (a b : kind) : {a = b} + {a <> b}.
Proof. decide equality. Qed.
Lemma bop_eqb_spec a b : bop_eqb a b = true <-> a = b.
Proof. destruct a, b; simpl; split; congruence. Qed.
Lemma uop_eqb_spec a b : uop_eqb a b = true <-> a = b.
Proof. destruct a, b; simpl; split; congruence. Qed.
Lemma isT_spec p : isT p = true <-> p = PTerm.
Proof. destruct p; simpl; split; congruence. Qed.
Lemma isnull_spec p : isnull p = true <-> p = PNull.
Proof. destruct p; simpl; split; congruence. Qed.

(** ** Digits *)

Lemma tr4_tr4 i : tr4 (tr4 i) = i.
Proof. destruct i as [|[|[|i]]]; auto. Qed.
Lemma tr4_lt i : (i < 4 -> tr4 i < 4)%nat.
Proof. destruct i as [|[|[|i]]]; simpl; lia. Qed.
Lemma map_tr4_tr4 p : map tr4 (map tr4 p) = p.
Proof. rewrite map_map. erewrite map_ext; [apply map_id|intros; apply tr4_tr4]. Qed.

Lemma vpath_nil k : vpath k (-1) [].
Proof. split; auto. Qed.
Lemma vpath_cons k l i r : vpath k l (i :: r) <-> (i < arity k)%nat /\ vpath k (l - 1) r.
Proof.
  unfold vpath. simpl length. split.
  - intros [A B]. inversion B; subst. split; auto. split; auto. lia.
  - intros (A & B & C). split; [lia|]. constructor; auto.
Qed.
Lemma vpath_inv k l p : vpath k l p -> 0 <= l -> exists i r, p = i :: r /\ (i < arity k)%nat /\ vpath k (l - 1) r.
Proof.
  intros H L. destruct p as [|i r].
  - destruct H as [H _]. simpl in H. lia.
  - exists i, r. split; auto. now apply vpath_cons.
Qed.
Lemma vpath_m1 k p : vpath k (-1) p -> p = [].
Proof. intros [H _]. destruct p; auto. simpl in H. lia. Qed.
Lemma vpath_tr4 l p : vpath KM l p -> vpath KM l (map tr4 p).
Proof.
  intros [A B]. split. { now rewrite map_length. }
  apply Forall_map. eapply Forall_impl; [|exact B]. intros; apply tr4_lt; auto.
Qed.
Lemma vpath_app k l1 l2 p1 p2 : vpath k l1 p1 -> vpath k l2 p2 -> vpath k (l1 + l2 + 1) (p1 ++ p2).
Proof. intros [A B] [D E]. split; [rewrite app_length; lia|]. now apply Forall_app. Qed.
Lemma vpath_len k l p : vpath k l p -> length p = Z.to_nat (l + 1).
Proof. intros [H _]. lia. Qed.

Lemma mp_len rs : forall cs, length rs = length cs -> length (mp rs cs) = length rs.
Proof. induction rs; intros [|c cs]; simpl; intros; try discriminate; auto. Qed.
Lemma vpath_mp l rs cs : vpath KV l rs -> vpath KV l cs -> vpath KM l (mp rs cs).
Proof.
  intros [A B] [D E]. split. { rewrite mp_len; lia. }
  assert (L: length rs = length cs) by lia. clear A D. revert cs E L.
  induction B; intros [|c cs] E L; simpl in *; try discriminate; constructor.
  - inversion E; subst. simpl in *. lia.
  - inversion E; subst. apply IHB; auto.
Qed.
Lemma tr4_mp rs : forall cs, Forall (fun i => (i < 2)%nat) rs -> Forall (fun i => (i < 2)%nat) cs ->
  map tr4 (mp rs cs) = mp cs rs.
Proof.
  induction rs as [|r rs IH]; intros [|c cs] A B; auto. simpl.
  inversion A; inversion B; subst. f_equal; auto.
  destruct r as [|[|r]]; destruct c as [|[|c]]; try lia; auto.
Qed.
Lemma bits_vpath n : forall p, In p (bits n) <-> vpath KV (Z.of_nat n - 1) p.
Proof.
  induction n as [|n IH]; intros p; cbn [bits].
  - split; [intros [<-|[]]; apply vpath_nil|intros H; apply vpath_m1 in H; subst; left; auto].
  - rewrite in_app_iff, !in_map_iff. split.
    + intros [(r & <- & H)|(r & <- & H)]; apply vpath_cons; (split; [simpl; lia|]);
        apply IH in H; replace (Z.of_nat (S n) - 1 - 1) with (Z.of_nat n - 1) by lia; auto.
    + intros H. apply vpath_inv in H; [|lia]. destruct H as (i & r & -> & Hi & H).
      replace (Z.of_nat (S n) - 1 - 1) with (Z.of_nat n - 1) in H by lia.
      simpl in Hi. destruct i as [|[|i]]; [left|right|lia]; exists r; split; auto; apply IH; auto.
Qed.
Lemma mp_surj l p : vpath KM l p -> exists rs cs, vpath KV l rs /\ vpath KV l cs /\ p = mp rs cs.
Proof.
  revert l. induction p as [|i p IH]; intros l H.
  - destruct H as [H _]. exists [], []. simpl in *. split; [|split]; auto; split; auto.
  - apply vpath_cons in H. destruct H as [Hi H]. destruct (IH _ H) as (rs & cs & A & B & ->).
    exists (Nat.div i 2 :: rs), (Nat.modulo i 2 :: cs). simpl in Hi.
    split; [|split].
    + apply vpath_cons. split; auto. change (arity KV) with 2%nat. apply Nat.div_lt_upper_bound; lia.
    + apply vpath_cons. split; auto. change (arity KV) with 2%nat. apply Nat.mod_upper_bound; lia.
    + cbn [mp]. f_equal. apply Nat.div_mod; lia.
Qed.

Lemma idm_cons i r : idm (i :: r) = ((if Nat.eqb i 0 || Nat.eqb i 3 then C1 else C0) * idm r)%C.
Proof. unfold idm. simpl. destruct (Nat.eqb i 0 || Nat.eqb i 3); simpl; ring. Qed.

Set Default Proof Using "Type".
Section InvL.
Context {N : num} {g : cfg N} {nb : kind -> Z} {X : numx N (g_ct g)}.
Local Notation cf := (g_ct g).
Local Notation core := (core N).
Local Notation co := (co N).
Local Notation Cw := (Cw N g X).
Local Notation Cv := (Cv N g X).
Local Notation Cv2 := (Cv2 N g X).
Local Notation dn := (dn N g X).
Local Notation de := (de N g X).
Local Notation rv := (rv N g X).
Local Notation linked := (linked N).
Local Notation etn := (etn N).
Local Notation ptab := (ptab N g X).
Local Notation wtab := (wtab N g X).
Local Notation tedge := (tedge N g X).
Local Notation cinv := (cinv N g nb X).
Local Notation uinv := (uinv N g nb X).
Local Notation nodeok := (nodeok N g nb X).
Local Notation tinv := (tinv N g X).
Local Notation inv := (inv N g nb X).
Local Notation qext := (qext N).
Local Notation qn := (qn N).
Implicit Types (q : core) (s : st N).

(** ** Values *)

Lemma xaddr_ext c c' a : ctext c c' -> alive c a -> xaddr X c' a = xaddr X c a.
Proof.
  intros E L. destruct a; simpl in *; auto; try contradiction.
  unfold ct_value. now rewrite (ctext_heap _ _ _ E L).
Qed.

Lemma aval_xaddr s a : alive (s_ct s) a -> aval s a = xaddr X (s_ct s) a.
Proof. destruct a; simpl; auto; contradiction. Qed.

Lemma val_rv s p : ex X -> alive (s_ct s) (ep_at p) -> toR X (val s p) = rv (co s) p.
Proof.
  intros E L. unfold val, Inv.rv. simpl. rewrite (aval_xaddr _ _ L).
  destruct (ep_neg p); auto. now rewrite x_neg.
Qed.

Lemma Cv_Cw s w : ex X -> wtab (co s) w -> Cv s w = Cw (co s) w.
Proof.
  intros E [[A _] [B _]]. unfold Inv.Cv, Inv.Cv2, Inv.Cw, cval; simpl.
  rewrite !val_rv; auto.
Qed.

Lemma rv_ext q q' p : ctext (c_ct N q) (c_ct N q') -> alive (c_ct N q) (ep_at p) -> rv q' p = rv q p.
Proof. intros E L. unfold Inv.rv. now rewrite (xaddr_ext _ _ _ E L). Qed.
Lemma Cw_ext q q' w : ctext (c_ct N q) (c_ct N q') -> wtab q w -> Cw q' w = Cw q w.
Proof. intros E [[A _] [B _]]. unfold Inv.Cw. now rewrite !(rv_ext q q'). Qed.

(** Comparison of stored edges. *)
Lemma qval_ext q q' p : ctext (c_ct N q) (c_ct N q') -> alive (c_ct N q) (ep_at p) -> qval N g X q' p = qval N g X q p.
Proof. intros E L. unfold Inv.qval. now rewrite (xaddr_ext _ _ _ E L). Qed.
Lemma qes_eq q q' : forall es fs,
  (forall e, In e (es ++ fs) -> qval N g X q' (cr (ew e)) = qval N g X q (cr (ew e)) /\ qval N g X q' (ci (ew e)) = qval N g X q (ci (ew e))) ->
  qes N g X q' es fs = qes N g X q es fs.
Proof.
  induction es as [|e es IH]; intros [|f fs] H; cbn; auto. rewrite IH.
  - destruct (H e) as [A B]; [now left|]. destruct (H f) as [A' B']; [apply in_or_app; right; now left|].
    unfold Inv.qeq, Inv.qapx. now rewrite A, B, A', B'.
  - intros x Hx. apply H. apply in_app_or in Hx. destruct Hx as [Hx|Hx]; apply in_or_app; [left; now right|right; now right].
Qed.
Lemma qes_ext q q' es fs : ctext (c_ct N q) (c_ct N q') -> (forall e, In e es -> wtab q (ew e)) -> (forall e, In e fs -> wtab q (ew e)) ->
  qes N g X q' es fs = qes N g X q es fs.
Proof.
  intros E A B. apply qes_eq. intros e He. apply in_app_or in He. assert (W: wtab q (ew e)) by (destruct He; auto). destruct W as [[W1 _] [W2 _]].
  split; apply qval_ext; auto.
Qed.
Lemma qes_ct q q' es fs : c_ct N q' = c_ct N q -> qes N g X q' es fs = qes N g X q es fs.
Proof. intros E. apply qes_eq. intros e _. unfold Inv.qval. now rewrite E. Qed.
Lemma qes_refl q es : qes N g X q es es = true.
Proof. induction es; cbn; auto. rewrite IHes. unfold Inv.qeq, Inv.qapx. now rewrite nptr_eqb_refl, !eptr_eqb_refl. Qed.
Lemma qes_sym q : forall es fs, qes N g X q es fs = qes N g X q fs es.
Proof.
  induction es as [|e es IH]; intros [|f fs]; cbn; auto. rewrite IH. f_equal. unfold Inv.qeq, Inv.qapx.
  rewrite (l_sym X (qval N g X q (cr (ew e)))), (l_sym X (qval N g X q (ci (ew e)))), (nptr_eqb_sym (ep e)), (eptr_eqb_sym (cr (ew e))), (eptr_eqb_sym (ci (ew e))). reflexivity.
Qed.
Lemma qes_edges s : forall es fs, (forall e, In e es -> wtab (co s) (ew e)) -> (forall e, In e fs -> wtab (co s) (ew e)) ->
  edges_eqb N s es fs = qes N g X (co s) es fs.
Proof.
  assert (V: forall p, alive (s_ct s) (ep_at p) -> val s p = qval N g X (co s) p).
  { intros p A. unfold val, Inv.qval. now rewrite (aval_xaddr _ _ A). }
  induction es as [|e es IH]; intros [|f fs] A B; cbn; auto. rewrite IH by (intros; first [now (apply A; right) | now (apply B; right)]). f_equal.
  destruct (A e (or_introl eq_refl)) as [[A1 _] [A2 _]]. destruct (B f (or_introl eq_refl)) as [[B1 _] [B2 _]].
  unfold edge_eqb, wapx, eapx, Inv.qeq, Inv.qapx. now rewrite !V by assumption.
Qed.
Lemma uinv_qes q q' k v b n m : uinv q k -> ctext (c_ct N q) (c_ct N q') -> In n (ut_tab (c_ut N q k) v b) -> In m (ut_tab (c_ut N q k) v b) ->
  qes N g X q' (ne (qn q k n)) (ne (qn q k m)) = qes N g X q (ne (qn q k n)) (ne (qn q k m)).
Proof. intros U E Hn Hm. apply qes_ext; auto; intros e He; [apply (ui_node _ _ _ _ _ _ U) in Hn|apply (ui_node _ _ _ _ _ _ U) in Hm]; eapply te_w, no_es; eauto. Qed.
(** Nodes with the same successors are the same. *)
Lemma uinv_uniq q k v b n m : uinv q k -> In n (ut_tab (c_ut N q k) v b) -> In m (ut_tab (c_ut N q k) v b) ->
  ne (qn q k n) = ne (qn q k m) -> (k = KD -> nden (qn q k n) = nden (qn q k m)) -> n = m.
Proof. intros U Hn Hm E D. apply (ui_uniq _ _ _ _ _ _ U v b); auto. rewrite E. apply qes_refl. Qed.

Lemma rv_zero q : ex X -> rv q (EP false AZero) = 0%R.
Proof. intros E. unfold Inv.rv; simpl. now apply x_0. Qed.
Lemma rv_one q : ex X -> rv q (EP false AOne) = 1%R.
Proof. intros E. unfold Inv.rv; simpl. now apply x_1. Qed.
Lemma Cw_zero q : ex X -> Cw q Czero = C0.
Proof. intros E. unfold Inv.Cw; simpl. now rewrite rv_zero. Qed.
Lemma Cw_one q : ex X -> Cw q Cone = C1.
Proof. intros E. unfold Inv.Cw; simpl. now rewrite rv_zero, rv_one. Qed.
Lemma wtab_zero q : wtab q Czero.
Proof. repeat split; simpl; auto; discriminate. Qed.
Lemma wtab_one q : wtab q Cone.
Proof. repeat split; simpl; auto; discriminate. Qed.
Lemma ptab_zero q : ptab q (EP false AZero).
Proof. repeat split; simpl; auto; discriminate. Qed.
Lemma Cv_zero s : ex X -> Cv s Czero = C0.
Proof. intros E. rewrite Cv_Cw; auto. now apply Cw_zero. apply wtab_zero. Qed.
Lemma Cv_one s : ex X -> Cv s Cone = C1.
Proof. intros E. rewrite Cv_Cw; auto. now apply Cw_one. apply wtab_one. Qed.

(** A stored component is determined by its value. *)
Lemma rv_inj q p p' : ex X -> cinv q -> ptab q p -> ptab q p' -> rv q p = rv q p' -> p = p'.
Proof.
  intros E I [A A'] [B B'] H. specialize (A' E). specialize (B' E).
  pose proof (ci_ct _ _ _ _ _ I) as W. pose proof (ci_x _ _ _ _ _ I E) as XC.
  pose proof (x_pos X E _ _ W XC A) as PA. pose proof (x_pos X E _ _ W XC B) as PB.
  destruct p as [n a], p' as [n' a']. unfold Inv.rv in H. simpl in *.
  assert (Z: forall b, alive (c_ct N q) b -> toR X (xaddr X (c_ct N q) b) = 0%R -> b = AZero).
  { intros b Lb Hb. apply (x_inj X E (c_ct N q)); simpl; auto. rewrite Hb. symmetry. now apply x_0. }
  destruct n, n'.
  - f_equal. apply (x_inj X E (c_ct N q)); auto. lra.
  - exfalso. apply A'. f_equal. apply Z; auto. lra.
  - exfalso. apply B'. f_equal. apply Z; auto. lra.
  - f_equal. apply (x_inj X E (c_ct N q)); auto.
Qed.
Lemma Cw_inj q w w' : ex X -> cinv q -> wtab q w -> wtab q w' -> Cw q w = Cw q w' -> w = w'.
Proof.
  intros E I [A A'] [B B'] H. destruct w as [a b], w' as [a' b']. simpl in *.
  unfold Inv.Cw in H. simpl in H. injection H as H1 H2.
  f_equal; eapply rv_inj; eauto.
Qed.
Lemma Cw_eq0 q w : ex X -> cinv q -> wtab q w -> Cw q w = C0 -> w = Czero.
Proof. intros E I W H. apply (Cw_inj q); auto. apply wtab_zero. now rewrite Cw_zero. Qed.
Lemma Cw_eq1 q w : ex X -> cinv q -> wtab q w -> Cw q w = C1 -> w = Cone.
Proof. intros E I W H. apply (Cw_inj q); auto. apply wtab_one. now rewrite Cw_one. Qed.

(** ** Extension *)

Lemma qext_refl q : qext q q.
Proof.
  constructor; intros; auto using ctext_refl.
  - split; auto. repeat split; auto.
Qed.
Lemma qe_linked q q' k n : qext q q' -> linked q k n -> linked q' k n.
Proof. intros E (v & b & H). exists v, b. apply (qe_tab _ _ _ E) in H. apply H. Qed.
Lemma qe_same q q' k n : qext q q' -> linked q k n -> same_node (qn q k n) (qn q' k n).
Proof. intros E (v & b & H). apply (qe_tab _ _ _ E) in H. apply H. Qed.
Lemma qext_trans q1 q2 q3 : qext q1 q2 -> qext q2 q3 -> qext q1 q3.
Proof.
  intros A B. constructor.
  - rewrite (qe_nq _ _ _ B). apply A.
  - eapply ctext_trans; [apply A|apply B].
  - intros n H. destruct (qe_rc _ _ _ B _ H) as [H'|H']; auto.
    destruct (qe_rc _ _ _ A _ H') as [H''|H'']; auto. right.
    rewrite (ctext_heap _ _ _ (qe_ct _ _ _ B) H'). auto.
  - intros k v b n H. destruct (qe_tab _ _ _ A _ _ _ _ H) as [H1 (S1 & S2 & S3 & S4)].
    destruct (qe_tab _ _ _ B _ _ _ _ H1) as [H2 (T1 & T2 & T3 & T4)].
    split; auto. repeat split; congruence.
  - intros k n H. destruct (qe_ref _ _ _ B _ _ H) as [H'|H']; auto.
    destruct (qe_ref _ _ _ A _ _ H') as [H''|H'']; auto. right.
    destruct (qe_same _ _ _ _ B H') as (_ & R & _). congruence.
  - intros k. destruct (qe_act _ _ _ A k) as (A1 & A2 & A3). destruct (qe_act _ _ _ B k) as (B1 & B2 & B3).
    repeat split; congruence.
Qed.

Lemma ptab_ext q q' p : qext q q' -> ptab q p -> ptab q' p.
Proof. intros E [A B]. split; auto. eapply ctext_alive; [apply E|]; auto. Qed.
Lemma wtab_ext q q' w : qext q q' -> wtab q w -> wtab q' w.
Proof. intros E [A B]. split; eapply ptab_ext; eauto. Qed.
Lemma etn_ext q q' k l p : qext q q' -> etn q k l p -> etn q' k l p.
Proof.
  intros E H. destruct p; simpl in *; auto. destruct H as [L V].
  split; [eapply qe_linked; eauto|]. destruct (qe_same _ _ _ _ E L) as (_ & _ & S & _). congruence.
Qed.
Lemma tedge_ext q q' k l e : qext q q' -> tedge q k l e -> tedge q' k l e.
Proof.
  intros E [A B D F]. constructor; auto.
  - eapply etn_ext; eauto.
  - eapply wtab_ext; eauto.
Qed.

Lemma nthe_In es i : (i < length es)%nat -> In (nthe es i) es.
Proof. intros H. unfold nthe. now apply nth_In. Qed.

Lemma linked_ok q k n : cinv q -> linked q k n -> exists b, nodeok q k (nv (qn q k n)) b n /\ In n (ut_tab (c_ut N q k) (nv (qn q k n)) b).
Proof.
  intros I (v & b & H). pose proof (ui_node _ _ _ _ _ _ (ci_ut _ _ _ _ _ I k) _ _ _ H) as K.
  pose proof (no_nv _ _ _ _ _ _ _ _ _ K) as E. rewrite E. eauto.
Qed.

(** The successors of an existing node. *)
Lemma child_ok q k n i : cinv q -> linked q k n -> (i < arity k)%nat ->
  tedge q k (nv (qn q k n) - 1) (nthe (ne (qn q k n)) i).
Proof.
  intros I L H. destruct (linked_ok _ _ _ I L) as (b & K & _).
  apply (no_es _ _ _ _ _ _ _ _ _ K). apply nthe_In. rewrite (no_len _ _ _ _ _ _ _ _ _ K). auto.
Qed.

Lemma dn_ext q q' k : cinv q -> qext q q' -> forall path l p, etn q k l p -> vpath k l path ->
  dn q' k p path = dn q k p path.
Proof.
  intros I E. induction path as [|i r IH]; intros l p T V; auto.
  apply vpath_cons in V. destruct V as [Hi V]. simpl. destruct p as [| |n]; auto.
  simpl in T. destruct T as [L Hv].
  destruct (qe_same _ _ _ _ E L) as (Se & _). rewrite <- Se.
  pose proof (child_ok _ _ _ _ I L Hi) as [T W _ _].
  rewrite (Cw_ext q q'); auto; [|apply E]. f_equal.
  apply (IH (l - 1)); auto. now rewrite Hv in T.
Qed.
Lemma de_ext q q' k l e path : cinv q -> qext q q' -> tedge q k l e -> vpath k l path ->
  de q' k e path = de q k e path.
Proof.
  intros I E [T W _ _] V. unfold Inv.de. rewrite (Cw_ext q q'); auto; [|apply E]. f_equal.
  eapply dn_ext; eauto.
Qed.

Lemma nnorm_ext q q' k es : qext q q' -> length es = arity k -> (forall e, In e es -> wtab q (ew e)) ->
  nnorm N g X q k es -> nnorm N g X q' k es.
Proof.
  intros E Len W H. pose proof (qe_ct _ _ _ E) as EC.
  assert (R: forall i, (i < arity k)%nat -> Cw q' (ew (nthe es i)) = Cw q (ew (nthe es i))).
  { intros i Hi. apply Cw_ext; auto. apply W. apply nthe_In. lia. }
  destruct k; unfold nnorm in *.
  - rewrite !R by (simpl; lia). auto.
  - destruct H as (am & A & B & D & F). exists am. split; [auto|split; [auto|split]].
    + intros i Hi. rewrite R by (simpl; lia). auto.
    + intros i Hi. rewrite R by (simpl; lia). auto.
  - destruct H as (am & A & B & D & F). exists am. split; [auto|split; [auto|split]].
    + intros i Hi. rewrite R by (simpl; lia). auto.
    + intros i Hi. rewrite R by (simpl; lia). auto.
Qed.

(** An existing node stays good when the state is extended and its marks are kept. *)
Lemma nodeok_ext q q' k v b n : cinv q -> qext q q' -> linked q k n ->
  nsym (qn q' k n) = nsym (qn q k n) -> nid (qn q' k n) = nid (qn q k n) ->
  nodeok q k v b n -> nodeok q' k v b n.
Proof.
  intros I E L Fs Fi K. destruct (qe_same _ _ _ _ E L) as (Se & Sr & Sv & _).
  destruct K as [K1 K2 K3 K4 K5 K6 K7 K8 K9].
  assert (T: etn q k v (PNode n)) by (split; auto).
  constructor.
  - rewrite (qe_nq _ _ _ E). auto.
  - congruence.
  - congruence.
  - congruence.
  - congruence.
  - rewrite <- Se. intros e H. eapply tedge_ext; eauto.
  - intros H. rewrite <- Se. eapply nnorm_ext; eauto. intros e He. apply K6; auto.
  - intros H -> Hs path V. rewrite Fs in Hs.
    rewrite (dn_ext q q' KM I E _ v), (dn_ext q q' KM I E _ v); auto. now apply vpath_tr4.
  - intros H -> Hs path V. rewrite Fi in Hs. rewrite (dn_ext q q' KM I E _ v); auto.
Qed.

(** ** Caches *)

Lemma dv_ext q q' k l r path : cinv q -> qext q q' -> etn q k l (vp r) -> vpath k l path ->
  dv N g X q' k r path = dv N g X q k r path.
Proof. intros I E T V. unfold dv. f_equal. eapply dn_ext; eauto. Qed.
Lemma vres_ext q q' k l r : qext q q' -> vres N g X q k l r -> vres N g X q' k l r.
Proof. intros E (A & B & D). split; auto. eapply etn_ext; eauto. Qed.
Lemma isnode_ext q q' k l p : qext q q' -> isnode N q k l p -> isnode N q' k l p.
Proof. intros E [A B]. split; auto. eapply etn_ext; eauto. Qed.
Lemma isnode_n q k l p : isnode N q k l p -> exists n, p = PNode n /\ linked q k n /\ nv (qn q k n) = l.
Proof. intros [A B]. destruct p; simpl in *; try contradiction; try congruence. exists n. split; [auto|exact A]. Qed.
Lemma isnode_lvl q k l p : cinv q -> isnode N q k l p -> 0 <= l < c_nq N q.
Proof.
  intros I H. apply isnode_n in H. destruct H as (n & -> & L & <-).
  destruct (linked_ok _ _ _ I L) as (b & K & _). apply K.
Qed.

Lemma dn1_ext q q' k l e path : cinv q -> qext q q' -> etn q k l (ep e) -> ew e = Cone -> vpath k l path ->
  de q' k e path = de q k e path.
Proof.
  intros I E T W V. unfold Inv.de. rewrite W.
  rewrite (Cw_ext q q'); [|apply E|apply wtab_one]. f_equal. eapply dn_ext; eauto.
Qed.

Lemma addok_ext q q' k x y r : cinv q -> qext q q' -> addok N g X q k x y r -> addok N g X q' k x y r.
Proof.
  intros I E (l & L & A & B & D & F). exists l. split; [auto|]. split; [eapply isnode_ext; eauto|].
  split; [eapply isnode_ext; eauto|]. split; [eapply vres_ext; eauto|].
  intros H path V. rewrite (dv_ext q q' k l r), (dv_ext q q' k l x), (dv_ext q q' k l y); auto.
  - apply B. - apply A. - apply D.
Qed.

Lemma bits_len n p : In p (bits n) -> length p = n.
Proof. intros H. apply bits_vpath in H. destruct H as [H _]. lia. Qed.

Lemma vpath_bits l rs cs : vpath KV l rs -> In cs (bits (length rs)) -> vpath KV l cs.
Proof.
  intros V H. apply bits_vpath in H. destruct V as [V _]. now replace l with (Z.of_nat (length rs) - 1) by lia.
Qed.

Lemma kgood_ext q q' : cinv q -> qext q q' -> forall n e, etn q KM (Z.of_nat n - 1) (ep e) -> kgood N g X q' n e <-> kgood N g X q n e.
Proof.
  intros I E. induction n as [|n IH]; intros e T; [reflexivity|]. cbn [kgood].
  replace (Z.of_nat (S n) - 1) with (Z.of_nat n) in T by lia.
  assert (A: (forall path, vpath KM (Z.of_nat n) path -> dn q' KM (ep e) path = idm path) <->
             (forall path, vpath KM (Z.of_nat n) path -> dn q KM (ep e) path = idm path)).
  { split; intros H path V; rewrite <- (H path V); [symmetry|]; eapply dn_ext; eauto. }
  rewrite A. destruct (ep e) as [| |a]; try reflexivity. destruct T as [L Nv].
  destruct (qe_same _ _ _ _ E L) as (Ne & _). rewrite <- Ne.
  assert (B: forall i, (i < 4)%nat -> kgood N g X q' n (nthe (ne (qn q KM a)) i) <-> kgood N g X q n (nthe (ne (qn q KM a)) i)).
  { intros i Hi. apply IH. pose proof (child_ok _ _ _ i I L Hi) as C. rewrite Nv in C. apply C. }
  split; intros [P Q]; (split; [exact P|]); intros i Hi; apply B; auto.
Qed.

Lemma hnode_ext q q' l p : qext q q' -> hnode N q l p -> hnode N q' l p.
Proof. destruct p; cbn [hnode]; intros; eapply isnode_ext; eauto. Qed.
Lemma hn_ext q q' l p path : cinv q -> qext q q' -> hnode N q l p -> vpath KM l path -> hn N g X q' p path = hn N g X q p path.
Proof. intros I E H V. destruct p; cbn [hnode hn] in *; (eapply dn_ext; eauto; apply H). Qed.

Lemma binok_ext q q' b x y r : cinv q -> qext q q' -> binok N g X q b x y r -> binok N g X q' b x y r.
Proof.
  intros I E H. destruct b; unfold binok in *.
  - destruct H as (A & B & l & L & D & F & G & H). split; [auto|]. split; [auto|]. exists l.
    split; [auto|]. split; [eapply isnode_ext; eauto|]. split; [eapply isnode_ext; eauto|].
    split; [eapply vres_ext; eauto|]. intros P rs V. rewrite (dv_ext q q' KV l r); auto; [|apply G].
    rewrite (H P rs V). apply Csum_ext. intros cs Hc. pose proof (vpath_bits _ _ _ V Hc) as Vc.
    rewrite (dn1_ext q q' KM l x), (dn1_ext q q' KV l y); auto. apply F. apply D. now apply vpath_mp.
  - destruct H as (A & B & l & L & D & F & G & H). split; [auto|]. split; [auto|]. exists l.
    split; [auto|]. split; [eapply isnode_ext; eauto|]. split; [eapply isnode_ext; eauto|].
    split; [eapply vres_ext; eauto|]. intros P rs cs V V'.
    rewrite (dv_ext q q' KM l r); auto; [|apply G|now apply vpath_mp].
    rewrite (H P rs cs V V'). apply Csum_ext. intros ks Hc. pose proof (vpath_bits _ _ _ V Hc) as Vc.
    rewrite (dn1_ext q q' KM l x), (dn1_ext q q' KM l y); auto.
    apply F. now apply vpath_mp. apply D. now apply vpath_mp.
  - destruct H as (A & B & l & L & D & F & G & H). split; [auto|]. split; [auto|]. exists l.
    split; [auto|]. split; [eapply isnode_ext; eauto|]. split; [eapply isnode_ext; eauto|].
    split; [auto|]. intros P. rewrite (H P). apply Csum_ext. intros cs Hc. apply bits_vpath in Hc.
    replace (Z.of_nat (Z.to_nat (l + 1)) - 1) with l in Hc by lia.
    rewrite (dn1_ext q q' KV l x), (dn1_ext q q' KV l y); auto. apply F. apply D.
  - destruct H as (lx & ly & L & D & W & T & L' & G & R & Z & H). exists lx, ly.
    split; [auto|]. split; [eapply isnode_ext; eauto|]. split; [eapply wtab_ext; eauto|].
    split; [eapply tedge_ext; eauto|]. split; [auto|]. split; [auto|]. split; [eapply vres_ext; eauto|]. split; [auto|].
    intros P Q p1 p2 V1 V2. rewrite (dv_ext q q' KV (lx + ly + 1) r); auto; [|apply R|now apply vpath_app].
    rewrite (H P) by (auto; discriminate). f_equal.
    + unfold Inv.de. rewrite (Cw_ext q q'); auto; [|apply E]. f_equal. symmetry. eapply dn_ext; eauto. apply D.
    + symmetry. eapply de_ext; eauto.
  - destruct H as (lx & ly & L & D & W & T & L' & G & R & Z & H). exists lx, ly.
    split; [auto|]. split; [eapply isnode_ext; eauto|]. split; [eapply wtab_ext; eauto|].
    split; [eapply tedge_ext; eauto|]. split; [auto|]. split; [auto|]. split; [eapply vres_ext; eauto|]. split; [auto|].
    intros P Q p1 p2 V1 V2. rewrite (dv_ext q q' KM (lx + ly + 1) r); auto; [|apply R|now apply vpath_app].
    rewrite (H P); auto.
    + f_equal.
      * unfold Inv.de. rewrite (Cw_ext q q'); auto; [|apply E]. f_equal. symmetry. eapply dn_ext; eauto. apply D.
      * symmetry. eapply de_ext; eauto.
    + intros _. apply (kgood_ext q q' I E); auto. rewrite Z2Nat.id by lia. replace (lx + 1 - 1) with lx by lia. apply D.
  - destruct H as (A & B & l & a & b & L & Ka & Kb & D & F & G & H). split; [auto|]. split; [auto|]. exists l, a, b.
    split; [auto|]. split; [auto|]. split; [auto|]. split; [eapply hnode_ext; eauto|]. split; [eapply hnode_ext; eauto|].
    split; [eapply vres_ext; eauto|]. intros P rs cs V V'.
    assert (Vm: forall r' c', vpath KV l r' -> vpath KV l c' -> vpath KM l (mp r' c')) by (intros; now apply vpath_mp).
    rewrite (dv_ext q q' KD l r); auto; [|apply G|exact (Vm _ _ V V')].
    rewrite (H P rs cs V V'). apply Csum_ext. intros ks Hc. pose proof (vpath_bits _ _ _ V Hc) as Vc.
    rewrite (hn_ext q q' l a), (hn_ext q q' l b); auto.
Qed.

Lemma unok_ext q q' u a r : cinv q -> qext q q' -> unok N g X q u a r -> unok N g X q' u a r.
Proof.
  intros I E (l & L & A & W & T & H). exists l. split; [auto|]. split; [eapply isnode_ext; eauto|].
  split; [eapply wtab_ext; eauto|]. split; [eapply tedge_ext; eauto|].
  intros P path V. rewrite (de_ext q q' KM l r); auto; [|now apply vpath_tr4].
  rewrite (H P path V).
  assert (Q: de q' KM a path = de q KM a path).
  { unfold Inv.de. rewrite (Cw_ext q q'); auto; [|apply E]. f_equal. eapply dn_ext; eauto. apply A. }
  now rewrite Q.
Qed.

Lemma idok_ext q q' i e : cinv q -> qext q q' -> idok N g X q i e -> idok N g X q' i e.
Proof.
  intros I E H P. destruct (H P) as (A & B & B' & D). rewrite (qe_nq _ _ _ E).
  split; [auto|]. split; [eapply tedge_ext; eauto|]. split; [auto|]. intros Q. destruct (D Q) as (W & V & F).
  split; [eapply isnode_ext; eauto|]. split; [auto|].
  intros path Vp. rewrite (dn_ext q q' KM I E _ i); auto. apply W.
Qed.

Lemma tinv_ext q q' s s' : cinv q -> qext q q' -> tinv q s ->
  s_add s' = s_add s -> s_bin s' = s_bin s -> s_un s' = s_un s -> s_id s' = s_id s -> tinv q' s'.
Proof.
  intros I E [A B D F H] E1 E2 E3 E4. constructor.
  - rewrite E1. intros. eapply addok_ext; eauto.
  - rewrite E2. intros. eapply binok_ext; eauto.
  - rewrite E3. intros. eapply unok_ext; eauto.
  - rewrite E4. intros. eapply idok_ext; eauto.
  - unfold tcnt. now rewrite E1, E2, E3.
Qed.

(** ** Changes that only touch the table of numbers *)

Lemma cinv_ct q c' : cinv q -> ctwf cf c' -> ctext (c_ct N q) c' ->
  (forall n, ctlive c' n -> ctlive (c_ct N q) n \/ ce_rc (ct_heap c' n) = 0) ->
  (ex X -> xct X c') -> cinv (Co N (c_nq N q) c' (c_ut N q)) /\ qext q (Co N (c_nq N q) c' (c_ut N q)).
Proof.
  intros I W E RC XC. set (q' := Co N (c_nq N q) c' (c_ut N q)).
  assert (QE: qext q q').
  { constructor; simpl; auto. intros; split; auto. repeat split; auto. }
  split; auto. constructor; simpl; auto. apply I. intros k.
  pose proof (ci_ut _ _ _ _ _ I k) as U. destruct U as [U1 U2 U3 U4 U5 U6 U7 U8 U9 U10] eqn:EU. clear EU. constructor; auto.
  - intros v b n H. eapply nodeok_ext; eauto. exists v, b. auto.
  - intros v b n m Hn Hm. change (qn q' k n) with (qn q k n). change (qn q' k m) with (qn q k m).
    rewrite (uinv_qes q q' k v b n m (ci_ut _ _ _ _ _ I k) E Hn Hm). apply (U8 v b); auto.
Qed.

Lemma step_refl O s : inv s -> step N g nb X O s s.
Proof. intros I. constructor; auto using qext_refl. intros a H; auto. Qed.
Lemma step_trans O s1 s2 s3 : step N g nb X O s1 s2 -> step N g nb X O s2 s3 -> step N g nb X O s1 s3.
Proof.
  intros [A1 A2 A3] [B1 B2 B3]. constructor; auto.
  - eapply qext_trans; eauto.
  - intros a H. rewrite B3, A3; auto.
Qed.
Lemma step_weak O O' s s' : step N g nb X O s s' -> incl O' O -> step N g nb X O' s s'.
Proof. intros [A B D] H. constructor; auto. intros a Ha. apply D. auto. Qed.

Lemma step_trans2 O O' s1 s2 s3 : step N g nb X O s1 s2 -> step N g nb X O' s2 s3 -> incl O O' ->
  step N g nb X O s1 s3.
Proof. intros A B H. eapply step_trans; [exact A|]. eapply step_weak; eauto. Qed.

(** Values of usable weights do not change. *)
Lemma val_wok s s' O w : step N g nb X O s s' -> wok N g X (co s) O w -> cval s' w = cval s w.
Proof.
  intros [_ E K] [[[A _] [B _]]|(a & b & -> & Ha & Hb & _)].
  - pose proof (qe_ct _ _ _ E) as EC. simpl in EC.
    assert (Q: forall p, alive (s_ct s) (ep_at p) -> val s' p = val s p).
    { intros p L. unfold val. rewrite !aval_xaddr; auto.
      - now rewrite (xaddr_ext _ _ _ EC).
      - eapply ctext_alive; eauto. }
    unfold cval. simpl in A, B. now rewrite !Q.
  - unfold cval, val, aval; simpl. rewrite !K; auto.
Qed.
Lemma Cv_step s s' O w : step N g nb X O s s' -> wok N g X (co s) O w -> Cv s' w = Cv s w.
Proof. intros A B. unfold Inv.Cv. now rewrite (val_wok _ _ _ _ A B). Qed.
Lemma wok_ext q q' O w : qext q q' -> wok N g X q O w -> wok N g X q' O w.
Proof. intros E [W|W]; [left; eapply wtab_ext; eauto|right; auto]. Qed.
Lemma wok_incl q O O' w : wok N g X q O w -> incl O O' -> wok N g X q O' w.
Proof. intros [W|(a & b & E & A & B & D)] H; [left; auto|right; exists a, b; repeat split; auto]. Qed.
Lemma wok_step s s' O w : step N g nb X O s s' -> wok N g X (co s) O w -> wok N g X (co s') O w.
Proof. intros A B. eapply wok_ext; [apply A|auto]. Qed.
Lemma gedge_step s s' O k l e : step N g nb X O s s' -> gedge N g X s O k l e -> gedge N g X s' O k l e.
Proof.
  intros S [A B D F]. constructor; auto.
  - eapply etn_ext; [apply S|auto].
  - eapply wok_step; eauto.
  - intros P. rewrite (Cv_step _ _ _ _ S B). auto.
Qed.
Lemma gedge_incl s O O' k l e : gedge N g X s O k l e -> incl O O' -> gedge N g X s O' k l e.
Proof. intros [A B D F] H. constructor; auto. eapply wok_incl; eauto. Qed.
Lemma dg_step s s' O k l e path : inv s -> step N g nb X O s s' -> gedge N g X s O k l e -> vpath k l path ->
  dg N g X s' k e path = dg N g X s k e path.
Proof.
  intros I S [A B D F] V. unfold dg. rewrite (Cv_step _ _ _ _ S B). f_equal.
  eapply dn_ext; eauto. apply I. apply S.
Qed.
Lemma tedge_gedge s O k l e : inv s -> tedge (co s) k l e -> gedge N g X s O k l e.
Proof.
  intros I [A B D F]. constructor; auto.
  - left; auto.
  - intros E H. rewrite Cv_Cw in H; auto. apply Cw_eq0 in H; auto; [|apply I].
    specialize (F E H). destruct e; simpl in *. unfold Ezero. congruence.
Qed.
Lemma dg_de s k l e path : ex X -> tedge (co s) k l e -> dg N g X s k e path = de (co s) k e path.
Proof. intros E [A B D F]. unfold dg, Inv.de. now rewrite Cv_Cw. Qed.

Lemma tedge_zero q k l : tedge q k l Ezero.
Proof. constructor; simpl; auto. apply wtab_zero. Qed.
Lemma gedge_zero s O k l : gedge N g X s O k l Ezero.
Proof. constructor; simpl; auto. left. apply wtab_zero. Qed.
Lemma dg_zero s k path : ex X -> dg N g X s k Ezero path = C0.
Proof. intros E. unfold dg. simpl. rewrite Cv_zero; auto. ring. Qed.
Lemma de_zero q k path : ex X -> de q k Ezero path = C0.
Proof. intros E. unfold Inv.de. simpl. rewrite Cw_zero; auto. ring. Qed.

End InvL.
