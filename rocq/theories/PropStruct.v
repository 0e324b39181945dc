(** Properties of the data structures: unique nodes, reference counts, garbage collection,
    operation caches, temporaries.  They hold for every number system [N] with a law record
    [X]: [numG N _ S] exists for every sane number system, among them the doubles, and
    [numR0] for the exact reals. *)
From Coq Require Import ZArith List Bool Lia Arith Reals Lra Permutation.
From Verif Require Import Num Base CTable CTableWf Cx State Pkg Read Inv InvL PrimL NormL MkL TrL AddL StateL GcL RefL GateAct Run Inst PropBase.
Import ListNotations.
Local Open Scope Z_scope.

Section Struct.
Context {N : num} (g : cfg N) (nb : kind -> Z) (X : numx N (g_ct g)) (G : gok g).
Local Notation reached := (reached (g:=g) (nb:=nb) (X:=X)).
Local Notation co := (co N).
Local Notation inv := (inv N g nb X).
Implicit Types s : st N.

(** Node [n] is in the unique table. *)
Definition nstored s (k : kind) (n : nat) : Prop := exists v b, In n (ut_tab (s_ut s k) v b).
(** Entry [a] is in the table of real numbers. *)
Definition estored s (a : nat) : Prop := exists b, In a (ct_tab (s_ct s) b).
(** The pointer leads to a stored node (or the terminal); the weight consists of constants and
    stored entries. *)
Definition ptr_stored s (k : kind) (p : nptr) : Prop := p = PTerm \/ exists n, p = PNode n /\ nstored s k n.
Definition num_stored s (p : eptr) : Prop := match ep_at p with ATab a => estored s a | ACache _ => False | _ => True end.
Definition weight_stored s (w : complex) : Prop := num_stored s (cr w) /\ num_stored s (ci w).

Lemma reached_i nq s V D : reached nq s V D -> inv s /\ owns N (s_cc s) [] /\ s_nq s = nq.
Proof. intros H. pose proof (reached_sim G _ _ _ _ H) as S. split; [apply S|split; apply S]. Qed.
Lemma etn_stored s k l p : etn N (co s) k l p -> ptr_stored s k p.
Proof. destruct p; cbn; [contradiction|now left|]. intros [H _]. right. eauto. Qed.
Lemma alive_stored s p : alive (s_ct s) (ep_at p) -> num_stored s p.
Proof. unfold num_stored. destruct (ep_at p); cbn; auto. Qed.
Lemma wtab_stored s w : wtab N g X (co s) w -> weight_stored s w.
Proof. intros [[A _] [B _]]. split; apply alive_stored; auto. Qed.

(** Every occurrence of [n] as target, of [a] as weight component. *)
Definition points (n : nat) (e : edge) : bool := match ep e with PNode m => Nat.eqb m n | _ => false end.
Definition at_entry (a : nat) (p : eptr) : bool := match ep_at p with ATab b => Nat.eqb b a | _ => false end.
Definition comps (e : edge) : list eptr := [cr (ew e); ci (ew e)].
(** [L] lists the stored nodes of kind [k]. *)
Definition enumerates s (k : kind) (L : list nat) : Prop := NoDup L /\ forall m, In m L <-> nstored s k m.
(** The edges of the nodes in [L] that have references. *)
Definition out_edges s (k : kind) (L : list nat) : list edge := flat_map (fun n => if nref (nod s k n) =? 0 then [] else ne (nod s k n)) L.
(** The edges of kind [k] that the user has referenced, as often as they did. *)
Definition held (V : list edge) (D : denv) (k : kind) : list edge :=
  flat_map (fun x => match fst x with Some v => if kind_eqb k (dk v) then repeat (snd x) (dc v) else [] | None => [] end) (combine D V).

(** * C10 *)

Lemma uniq_inv s k n m : inv s -> nstored s k n -> nstored s k m -> nv (nod s k n) = nv (nod s k m) ->
  ukey N g nb k (ne (nod s k n)) = ukey N g nb k (ne (nod s k m)) -> edges_eqb N s (ne (nod s k n)) (ne (nod s k m)) = true ->
  (k = KD -> nden (nod s k n) = nden (nod s k m)) -> n = m.
Proof.
  intros I Hn Hm Ev Eb Ee Ed. pose proof (iv_c _ _ _ _ _ I) as C.
  destruct (linked_ok (g:=g) (nb:=nb) (X:=X) _ _ _ C Hn) as (b & K & L). destruct (linked_ok (g:=g) (nb:=nb) (X:=X) _ _ _ C Hm) as (b' & K' & L').
  pose proof (no_b _ _ _ _ _ _ _ _ _ K) as B. pose proof (no_b _ _ _ _ _ _ _ _ _ K') as B'.
  change (qn N (co s) k n) with (nod s k n) in *. change (qn N (co s) k m) with (nod s k m) in *.
  assert (H: b' = b) by congruence. rewrite <- Ev in L'.
  rewrite (qes_edges (g:=g) (X:=X)) in Ee; [|intros e He; exact (te_w _ _ _ _ _ _ _ (no_es _ _ _ _ _ _ _ _ _ K e He))|intros e He; exact (te_w _ _ _ _ _ _ _ (no_es _ _ _ _ _ _ _ _ _ K' e He))].
  rewrite H in L'. exact (ui_uniq _ _ _ _ _ _ (ci_ut _ _ _ _ _ C k) _ b n m L L' Ee Ed).
Qed.

(** No two stored nodes on one level with the same hash have successors that compare equal. *)
Theorem no_equal_nodes nq s V D k n m : reached nq s V D -> nstored s k n -> nstored s k m ->
  nv (nod s k n) = nv (nod s k m) -> ukey N g nb k (ne (nod s k n)) = ukey N g nb k (ne (nod s k m)) ->
  edges_eqb N s (ne (nod s k n)) (ne (nod s k m)) = true -> (k = KD -> nden (nod s k n) = nden (nod s k m)) -> n = m.
Proof. intros H. apply uniq_inv. apply (reached_i _ _ _ _ H). Qed.

(** There are no two nodes with the same level and successors, whatever the hash function. *)
Theorem no_duplicate_nodes nq s V D k n m : reached nq s V D -> nstored s k n -> nstored s k m ->
  nv (nod s k n) = nv (nod s k m) -> ne (nod s k n) = ne (nod s k m) -> (k = KD -> nden (nod s k n) = nden (nod s k m)) -> n = m.
Proof.
  intros H Hn Hm Ev Ee Ed. eapply no_equal_nodes; eauto; rewrite Ee; auto. apply edges_eqb_refl.
Qed.

Lemma eqb_val s s2 : s_ct s2 = s_ct s -> s_cc s2 = s_cc s -> forall a b, edges_eqb N s2 a b = edges_eqb N s a b.
Proof.
  intros Ec Ecc. assert (Va: forall p, val s2 p = val s p) by (intros p; unfold val, aval; now rewrite Ec, Ecc).
  induction a as [|x a IH]; intros [|y b]; cbn; auto. rewrite IH. unfold edge_eqb, wapx, eapx. now rewrite !Va.
Qed.
Lemma lookup_found k n v es den s l s' : ut_lookup N g nb k n v es den s = Ok l s' ->
  s_ct s' = s_ct s /\ s_cc s' = s_cc s /\ edges_eqb N s es (ne (nod s' k l)) = true /\ (k = KD -> nden (nod s' k l) = den) /\
  In l (ut_tab (s_ut s' k) v (ukey N g nb k es)).
Proof.
  unfold ut_lookup, bind, get. destruct (checkChildren N k v es _) as [[] s1|e s1|] eqn:E1; try discriminate.
  assert (Es: s_ct s1 = s_ct s /\ s_cc s1 = s_cc s).
  { unfold checkChildren in E1. revert E1. induction es as [|e es IH]; [intros [= <-]; auto|]. destruct (chkchild _ _ _ _ _); [discriminate|auto]. }
  destruct Es as [Ec Ecc].
  destruct ((v <? 0) || _); [discriminate|]. pose proof (search_sp (N:=N) s1 k es den (ut_tab (s_ut s1 k) v (ukey N g nb k es))) as SP.
  destruct (ut_search N s1 k es den _) as [[p|] col].
  - destruct SP as [Sin SP]. unfold nodes_eqb in SP. apply andb_true_iff in SP. destruct SP as [SP SD]. rewrite (eqb_val s s1) in SP by auto.
    destruct (negb _); [discriminate|]. unfold returnNode. destruct (memb _ _); [discriminate|]. intros [= <- <-].
    unfold nod in *. cbn. rewrite !kind_eqb_refl. cbn. split; [|split; [|split; [|split]]]; auto. intros ->. apply eqb_prop in SD. congruence.
  - intros [= <- <-]. unfold nod. cbn. rewrite kind_eqb_refl. cbn. rewrite upd_eq. cbn. split; [|split; [|split; [|split]]]; auto. apply edges_eqb_refl. rewrite !updZ_eq. now left.
Qed.
Lemma getNode_ct k s n s1 : getNode N k s = Ok n s1 -> s_ct s1 = s_ct s.
Proof. unfold getNode. destruct (ut_avail _); [destruct (_ =? _); [|discriminate]|]; intros [= <- <-]; reflexivity. Qed.

Lemma request nq s V D k v es den : reached nq s V D -> 0 <= v < nq -> length es = arity k ->
  (forall e, In e es -> tedge N g X (co s) k (v - 1) e) -> (ex X -> nnorm N g X (co s) k es) ->
  exists n s1 l s2, getNode N k s = Ok n s1 /\ ut_lookup N g nb k n v es den s1 = Ok l s2 /\ inv s2 /\ qext N (co s) (co s2) /\
    nstored s2 k l /\ nv (nod s2 k l) = v /\ edges_eqb N s2 es (ne (nod s2 k l)) = true /\ (k = KD -> nden (nod s2 k l) = den) /\
    In l (ut_tab (s_ut s2 k) v (ukey N g nb k es)).
Proof.
  intros H Hv Len Hes Hn. destruct (reached_i _ _ _ _ H) as (I & Ow & Q). subst nq.
  destruct (getNode_sp (g:=g) (nb:=nb) (X:=X) [] s k I) as (n & s1 & E1 & S1 & C1 & R1).
  pose proof (sp_ext _ _ _ _ _ _ _ S1) as X1. pose proof (qe_nq _ _ _ X1) as Nq. cbn in Nq.
  destruct (ut_lookup_sp (g:=g) (nb:=nb) (X:=X) [] s1 k n v es den) as (l & s2 & E2 & S2 & C2 & L2 & V2 & _).
  - apply S1.
  - exact R1.
  - lia.
  - exact Len.
  - intros e He. eapply tedge_ext; [exact X1|auto].
  - intros Ex. eapply nnorm_ext; eauto. intros e He. apply (Hes e He).
  - exists n, s1, l, s2. split; auto. split; auto. split; [apply S2|]. split; [eapply qext_trans; [exact X1|apply S2]|].
    split; auto. split; auto. destruct (lookup_found _ _ _ _ _ _ _ _ E2) as (A & B & F & Dn & Li). split; auto. now rewrite (eqb_val s1 s2).
Qed.

(** Asking again for a stored node returns that node. *)
Theorem stored_node_found nq s V D k n : reached nq s V D -> nstored s k n ->
  exists m s1 s2, getNode N k s = Ok m s1 /\ ut_lookup N g nb k m (nv (nod s k n)) (ne (nod s k n)) (nden (nod s k n)) s1 = Ok n s2.
Proof.
  intros H Hn. destruct (reached_i _ _ _ _ H) as (I & Ow & Q). pose proof (iv_c _ _ _ _ _ I) as C.
  destruct (linked_ok (g:=g) (nb:=nb) (X:=X) _ _ _ C Hn) as (b & K & L).
  change (qn N (co s) k n) with (nod s k n) in *.
  destruct (request nq s V D k (nv (nod s k n)) (ne (nod s k n)) (nden (nod s k n)) H) as (m & s1 & l & s2 & E1 & E2 & I2 & X2 & L2 & V2 & Q2 & D2 & Li).
  - pose proof (no_v _ _ _ _ _ _ _ _ _ K). cbn in *. lia.
  - apply K.
  - apply K.
  - apply K.
  - exists m, s1, s2. split; auto. rewrite E2. f_equal. 
    destruct Hn as (v & b0 & Hn). destruct (qe_tab _ _ _ X2 _ _ _ _ Hn) as [Hn2 (Y1 & _ & Y3 & Y4)].
    change (qn N (co s) k n) with (nod s k n) in *. change (qn N (co s2) k n) with (nod s2 k n) in *.
    pose proof (ui_node _ _ _ _ _ _ (ci_ut _ _ _ _ _ (iv_c _ _ _ _ _ I2) k) _ _ _ Li) as K2. pose proof (no_b _ _ _ _ _ _ _ _ _ K2) as B2.
    symmetry. apply (uniq_inv s2 k); auto.
    + now exists v, b0.
    + congruence.
    + rewrite <- Y1. exact B2.
    + now rewrite <- Y1.
    + intros Hk. rewrite (D2 Hk). congruence.
Qed.

(** * C11 *)

Local Notation co_ := (Inv.co N).
Lemma sum_len {A} (f : A -> bool) (h : A -> Z) l : (forall x, In x l -> h x = if f x then 1 else 0) -> sumZ h l = Z.of_nat (length (filter f l)).
Proof.
  induction l as [|a l IH]; intros H; auto. cbn. rewrite IH by (intros; apply H; now right). rewrite (H a) by now left. destruct (f a); cbn [length]; lia.
Qed.
Lemma sum_flat {A B} (h : B -> Z) (f : A -> list B) l : sumZ h (flat_map f l) = sumZ (fun a => sumZ h (f a)) l.
Proof. induction l; cbn; auto. now rewrite sumZ_app, IHl. Qed.
Lemma occN_points n e : occN n e = if points n e then 1 else 0.
Proof. unfold occN, points. destruct (ep e); auto. Qed.
Lemma occA_comps a e : occA a e = sumZ (fun p => if at_entry a p then 1 else 0) (comps e).
Proof.
  unfold occA, comps. cbn [sumZ]. assert (E: forall p, occP a p = if at_entry a p then 1 else 0) by (intros p; unfold occP, at_entry; destruct (ep_at p); auto).
  destruct (ceqb (ew e) Czero) eqn:Z0; [apply ceqb_spec in Z0; rewrite Z0; reflexivity|].
  destruct (ceqb (ew e) Cone) eqn:Z1; [apply ceqb_spec in Z1; rewrite Z1; reflexivity|]. cbn [orb]. rewrite !E. destruct (at_entry a (cr (ew e))), (at_entry a (ci (ew e))); reflexivity.
Qed.
Lemma held_refs V D k (h : edge -> Z) : sumZ (fun x => if kind_eqb k (fst x) then h (snd x) else 0) (refs D V) = sumZ h (held V D k).
Proof.
  unfold refs, held. rewrite !sum_flat. apply sumZ_ext. intros [[v|] e] _; cbn; auto.
  destruct (kind_eqb k (dk v)) eqn:Ek.
  - induction (dc v) as [|c IH]; cbn; auto. rewrite Ek, IH. reflexivity.
  - cbn. apply sumZ_zero. intros x Hx. apply repeat_spec in Hx. subst. cbn. now rewrite Ek.
Qed.
Lemma enum_perm s k L : inv s -> enumerates s k L -> Permutation L (ut_allq N nb (co_ s) k).
Proof.
  intros I [Nd E]. pose proof (iv_c _ _ _ _ _ I) as C. apply NoDup_Permutation; auto. { apply (allq_NoDup (g:=g) (X:=X)); auto. }
  intros x. rewrite E. symmetry. apply (allq_In (g:=g) (X:=X)); auto.
Qed.
Lemma SN_count s k n L : inv s -> enumerates s k L -> SN (nb:=nb) (co_ s) k n = Z.of_nat (length (filter (points n) (out_edges s k L))).
Proof.
  intros I E. unfold SN. rewrite <- (sumZ_perm _ _ _ (enum_perm s k L I E)), <- sum_flat. apply sum_len. intros x _. apply occN_points.
Qed.
Lemma SA_count s k a L : inv s -> enumerates s k L -> SA1 (nb:=nb) (co_ s) k a = Z.of_nat (length (filter (at_entry a) (flat_map comps (out_edges s k L)))).
Proof.
  intros I E. unfold SA1. rewrite <- (sumZ_perm _ _ _ (enum_perm s k L I E)), <- sum_flat.
  rewrite <- (sum_len (at_entry a) (fun p => if at_entry a p then 1 else 0)) by auto. rewrite (sum_flat (fun p => if at_entry a p then 1 else 0) comps). apply sumZ_ext. intros e _. apply occA_comps.
Qed.
Lemma all_enum s k : inv s -> enumerates s k (ut_allq N nb (co_ s) k).
Proof. intros I. pose proof (iv_c _ _ _ _ _ I) as C. split; [apply (allq_NoDup (g:=g) (X:=X)); auto|]. intros m. apply (allq_In (g:=g) (X:=X)); auto. Qed.

(** The count of a node is the number of user references to it plus the number of edges from
    referenced nodes to it, or the counter is saturated. *)
Theorem node_counts nq s V D k n L : reached nq s V D -> nstored s k n -> enumerates s k L ->
  nref (nod s k n) = RCMAX \/ nref (nod s k n) = Z.of_nat (length (filter (points n) (held V D k ++ out_edges s k L))).
Proof.
  intros H Hn E. destruct (reached_i _ _ _ _ H) as (I & _). destruct (si_rc _ _ _ _ _ (reached_sim G _ _ _ _ H)) as (pin & _ & _ & R).
  destruct (rc_n _ _ _ _ _ R k n Hn) as [A|A]; [now left|right]. change (qn N (co_ s) k n) with (nod s k n) in A.
  rewrite A, filter_app, app_length, Nat2Z.inj_add, (SN_count s k n L I E). f_equal. unfold un.
  rewrite <- (sum_len (points n) (occN n)) by (intros; apply occN_points). apply held_refs.
Qed.

(** The count of a stored number: references pinned by the table itself, plus its occurrences in
    weights of user references and of edges of referenced nodes, or the counter is saturated.
    The table pins nothing but, before the first reset, what it contains initially. *)
Theorem number_counts nq s V D : reached nq s V D ->
  exists pin, ((forall a, pin a = 0) \/
    forall a, ((exists b, In a (ct_tab (ct_init (N:=N) (g_ct g)) b)) -> pin a = ce_rc (ct_heap (ct_init (N:=N) (g_ct g)) a)) /\
              (~ (exists b, In a (ct_tab (ct_init (N:=N) (g_ct g)) b)) -> pin a = 0)) /\
  forall a LV LM LD, estored s a -> enumerates s KV LV -> enumerates s KM LM -> enumerates s KD LD ->
  ce_rc (ct_heap (s_ct s) a) = RCMAX \/
  ce_rc (ct_heap (s_ct s) a) = pin a + Z.of_nat (length (filter (at_entry a) (flat_map comps
    ((held V D KV ++ held V D KM ++ held V D KD) ++ out_edges s KV LV ++ out_edges s KM LM ++ out_edges s KD LD)))).
Proof.
  intros H. destruct (reached_i _ _ _ _ H) as (I & _). destruct (si_rc _ _ _ _ _ (reached_sim G _ _ _ _ H)) as (pin & Pk & _ & R).
  exists pin. split. { destruct Pk as [-> | ->]; auto. right. intros a. split; intros Ha; [apply ctpin_live; [apply ct_init_wf, G|exact Ha]|now apply ctpin_dead]. }
  intros a LV LM LD Ha EV EM ED. destruct (rc_a _ _ _ _ _ R a Ha) as [A|A]; [now left|right]. cbn in A.
  rewrite A. unfold uw, SA. rewrite (SA_count s KV a LV I EV), (SA_count s KM a LM I EM), (SA_count s KD a LD I ED).
  assert (U: sumZ (fun x : kind * edge => occA a (snd x)) (refs D V) = Z.of_nat (length (filter (at_entry a) (flat_map comps (held V D KV ++ held V D KM ++ held V D KD))))).
  { rewrite <- (sum_len (at_entry a) (fun p => if at_entry a p then 1 else 0)) by auto. rewrite (sum_flat (fun p => if at_entry a p then 1 else 0) comps), !sumZ_app.
    rewrite <- !held_refs. clear. induction (refs D V) as [|[k e] r IH]; auto. cbn [sumZ]. rewrite IH. cbn [fst snd]. rewrite occA_comps. destruct k; cbn [kind_eqb]; lia. }
  rewrite U. rewrite !flat_map_app, !filter_app, !app_length, !Nat2Z.inj_add. lia.
Qed.

(** The counters of referenced nodes are right. *)
Theorem active_counts nq s V D k L : reached nq s V D -> enumerates s k L ->
  ut_actcount (s_ut s k) = Z.of_nat (length (filter (fun n => negb (nref (nod s k n) =? 0)) L)) /\
  forall v, ut_active (s_ut s k) v = Z.of_nat (length (filter (fun n => (nv (nod s k n) =? v) && negb (nref (nod s k n) =? 0)) L)).
Proof.
  intros H E. destruct (reached_i _ _ _ _ H) as (I & _). destruct (si_rc _ _ _ _ _ (reached_sim G _ _ _ _ H)) as (pin & _ & _ & R). split.
  - pose proof (rc_tot _ _ _ _ _ R k) as T. cbn in T. rewrite T. unfold ACall. rewrite <- (sumZ_perm _ _ _ (enum_perm s k L I E)).
    apply sum_len. intros n _. unfold nact. change (qn N (co_ s) k n) with (nod s k n). now destruct (nref (nod s k n) =? 0).
  - intros v. pose proof (rc_act _ _ _ _ _ R k v) as T. cbn in T. rewrite T. unfold AC. rewrite <- (sumZ_perm _ _ _ (enum_perm s k L I E)).
    apply sum_len. intros n _. unfold nact. change (qn N (co_ s) k n) with (nod s k n). destruct (nv (nod s k n) =? v), (nref (nod s k n) =? 0); reflexivity.
Qed.

(** Changes that never raise a counter. *)
Definition lower s s' : Prop := (forall k n, nref (nod s' k n) <= nref (nod s k n)) /\ (forall a, ce_rc (ct_heap (s_ct s') a) <= ce_rc (ct_heap (s_ct s) a)).
Lemma lower_refl s : lower s s.
Proof. split; intros; lia. Qed.
Lemma lower_trans s1 s2 s3 : lower s1 s2 -> lower s2 s3 -> lower s1 s3.
Proof. intros [A B] [A' B']. split; intros; [specialize (A k n); specialize (A' k n)|specialize (B a); specialize (B' a)]; lia. Qed.
Lemma ct_decRef_lower (c : ctab N) p c' : ct_decRef c p = Some c' -> forall a, ce_rc (ct_heap c' a) <= ce_rc (ct_heap c a).
Proof.
  unfold ct_decRef. destruct (ep_at p) as [| | |b|]; try (intros [= <-]; intros; lia).
  destruct (rc_dec (ce_rc (ct_heap c b))) as [r|] eqn:E; [|discriminate]. intros [= <-] a. cbn. unfold upd. destruct (Nat.eqb_spec b a) as [<-|]; [|destruct (Nat.eqb_spec a b); [congruence|lia]].
  rewrite ?Nat.eqb_refl. cbn. unfold rc_dec in E. destruct (_ =? RCMAX); [injection E as <-; lia|]. destruct (_ =? 0); [discriminate|]. injection E as <-. lia.
Qed.
Lemma decRefF_lower : forall f k e s s', decRefF N f k e s = Ok tt s' -> lower s s'.
Proof.
  induction f as [|f IH]; intros k e s s' E; [discriminate|]. cbn [decRefF] in E. unfold bind at 1 in E.
  destruct (cn_decRef N (ew e) s) as [[] s1| |] eqn:E1; try discriminate.
  assert (L1: lower s s1).
  { unfold cn_decRef in E1. destruct (_ || _); [injection E1 as <-; apply lower_refl|].
    destruct (ct_decRef (s_ct s) (cr (ew e))) as [c|] eqn:C1; [|discriminate]. destruct (ct_decRef c (ci (ew e))) as [c'|] eqn:C2; [|discriminate]. injection E1 as <-.
    split; [intros; apply Z.le_refl|]. intros a. cbn. pose proof (ct_decRef_lower _ _ _ C1 a). pose proof (ct_decRef_lower _ _ _ C2 a). lia. }
  destruct (ep e) as [| |n]; try (injection E as <-; exact L1).
  unfold bind at 1, get in E. cbv beta iota in E. destruct (_ =? RCMAX); [injection E as <-; exact L1|]. destruct (_ =? 0); [discriminate|].
  unfold bind at 1 in E. unfold setNodeRef at 1 in E. cbv beta iota zeta in E. set (s2 := set_ut s1 k _) in E.
  assert (L2: lower s1 s2).
  { split; [|intros; apply Z.le_refl]. intros k' m. unfold nod, s2. cbn. destruct (kind_eqb k' k) eqn:Ek; [|lia]. apply kind_eqb_spec in Ek. subst k'. cbn. unfold upd.
    destruct (Nat.eqb_spec m n) as [->|]; [|lia]. cbn. unfold nod. lia. }
  destruct (_ =? 0); [|injection E as <-; eapply lower_trans; eauto].
  unfold bind at 1 in E. destruct (iterM N _ (ne (nod s1 k n)) s2) as [[] s3| |] eqn:E3; try discriminate.
  assert (L3: lower s2 s3).
  { clearbody s2. clear - IH E3. revert s2 E3. generalize (ne (nod s1 k n)) as l. induction l as [|x l IHl]; intros s2 E3; cbn [iterM] in E3.
    - injection E3 as <-. apply lower_refl.
    - unfold bind in E3. destruct (isnull (ep x)).
      + apply IHl. exact E3.
      + destruct (decRefF N f k x s2) as [[] s4| |] eqn:E4; try discriminate. eapply lower_trans; [eapply IH; exact E4|apply IHl; exact E3]. }
  unfold actUpd in E. destruct (_ || _); [discriminate|]. injection E as <-.
  eapply lower_trans; [exact L1|]. eapply lower_trans; [exact L2|]. eapply lower_trans; [exact L3|].
  split; [|intros; apply Z.le_refl]. intros k' m. unfold nod. cbn. destruct (kind_eqb k' k) eqn:Ek; [|lia]. apply kind_eqb_spec in Ek. subst k'. cbn. lia.
Qed.

Definition unsaturated s : Prop := (forall k n, nstored s k n -> nref (nod s k n) < RCMAX) /\ (forall a, estored s a -> ce_rc (ct_heap (s_ct s) a) < RCMAX).

Lemma counts_unique s s' UW UN UA UC : inv s -> inv s' -> rsame (co_ s) (co_ s') -> rcinv (nb:=nb) (co_ s) UW UN UA UC -> rcinv (nb:=nb) (co_ s') UW UN UA UC ->
  unsaturated s -> unsaturated s' ->
  (forall k n, nstored s k n -> nref (nod s' k n) = nref (nod s k n)) /\ (forall a, estored s a -> ce_rc (ct_heap (s_ct s') a) = ce_rc (ct_heap (s_ct s) a)).
Proof.
  intros I I' S R R' [U1 U2] [U1' U2']. pose proof (iv_c _ _ _ _ _ I) as C.
  assert (Al: forall k, ut_allq N nb (co_ s') k = ut_allq N nb (co_ s) k) by (intros; apply (rs_allq (nb:=nb) _ _ S)).
  assert (Lk: forall k n, nstored s' k n <-> nstored s k n) by (intros k n; apply (rs_linked (nb:=nb) _ _ k n S)).
  assert (Ne: forall k n, ne (nod s' k n) = ne (nod s k n)) by (intros; apply (rs_ne _ _ S)).
  assert (Main: forall d k n, nstored s k n -> s_nq s - nv (nod s k n) <= Z.of_nat d -> nref (nod s' k n) = nref (nod s k n)).
  { induction d as [|d IH]; intros k n Hn Hd.
    - destruct (linked_ok (g:=g) (nb:=nb) (X:=X) _ _ _ C Hn) as (b & K & _). pose proof (no_v _ _ _ _ _ _ _ _ _ K) as Hv. change (qn N (co_ s) k n) with (nod s k n) in Hv. change (c_nq N (co_ s)) with (s_nq s) in Hv. lia.
    - destruct (rc_n _ _ _ _ _ R k n Hn) as [A|A]; [specialize (U1 k n Hn); change (qn N (co_ s) k n) with (nod s k n) in A; lia|].
      destruct (rc_n _ _ _ _ _ R' k n (proj2 (Lk k n) Hn)) as [A'|A']; [specialize (U1' k n (proj2 (Lk k n) Hn)); change (qn N (co_ s') k n) with (nod s' k n) in A'; lia|].
      change (qn N (co_ s) k n) with (nod s k n) in A. change (qn N (co_ s') k n) with (nod s' k n) in A'. rewrite A, A'. f_equal.
      unfold SN. rewrite Al. apply sumZ_ext. intros m Hm. assert (Lm: nstored s k m) by (apply (all_enum s k I); auto).
      unfold outs. change (qn N (co_ s) k m) with (nod s k m). change (qn N (co_ s') k m) with (nod s' k m). rewrite Ne.
      destruct (existsb (points n) (ne (nod s k m))) eqn:Ex.
      + apply existsb_exists in Ex. destruct Ex as (e & He & Pe). destruct (linked_ok (g:=g) (nb:=nb) (X:=X) _ _ _ C Lm) as (b & K & _).
        pose proof (te_n _ _ _ _ _ _ _ (no_es _ _ _ _ _ _ _ _ _ K e He)) as Te. unfold points in Pe. destruct (ep e) as [| |x]; try discriminate. apply Nat.eqb_eq in Pe. subst x.
        destruct Te as [_ Te]. change (qn N (co_ s) k n) with (nod s k n) in Te. change (qn N (co_ s) k m) with (nod s k m) in Te.
        rewrite (IH k m Lm) by lia. reflexivity.
      + assert (Z0: sumZ (occN n) (ne (nod s k m)) = 0).
        { apply sumZ_zero. intros e He. rewrite occN_points. destruct (points n e) eqn:Pe; auto. exfalso. assert (F: existsb (points n) (ne (nod s k m)) = true) by (apply existsb_exists; eauto). congruence. }
        destruct (nref (nod s' k m) =? 0), (nref (nod s k m) =? 0); cbn; rewrite ?Z0; auto. }
  assert (Nr: forall k n, nstored s k n -> nref (nod s' k n) = nref (nod s k n)).
  { intros k n Hn. apply (Main (Z.to_nat (Z.max 0 (s_nq s - nv (nod s k n))))); auto. lia. }
  split; auto. intros a Ha. assert (Ha': estored s' a) by (destruct Ha as (b & Hb); exists b; pose proof (rs_ctab _ _ S) as Q; cbn in Q; rewrite Q; exact Hb).
  destruct (rc_a _ _ _ _ _ R a Ha) as [A|A]; [specialize (U2 a Ha); change (c_ct N (co_ s)) with (s_ct s) in A; lia|].
  destruct (rc_a _ _ _ _ _ R' a Ha') as [A'|A']; [specialize (U2' a Ha'); change (c_ct N (co_ s')) with (s_ct s') in A'; lia|]. cbn in A, A'. rewrite A, A'. f_equal.
  assert (E1: forall k, SA1 (nb:=nb) (co_ s') k a = SA1 (nb:=nb) (co_ s) k a).
  { intros k. unfold SA1. rewrite Al. apply sumZ_ext. intros m Hm. unfold outs. change (qn N (co_ s) k m) with (nod s k m). change (qn N (co_ s') k m) with (nod s' k m).
    rewrite Ne, Nr; auto. apply (all_enum s k I); auto. }
  unfold SA. now rewrite !E1.
Qed.

(** incRef followed by decRef of the same edge restores all counts, when no counter is saturated. *)
Theorem incRef_decRef nq s V D k l e : reached nq s V D -> (exists i f, live D i k l f /\ var V i = e) ->
  exists s1 s2, incRef N k e s = Ok tt s1 /\ decRef N k e s1 = Ok tt s2 /\
    (unsaturated s -> unsaturated s1 ->
     (forall k' n, nstored s k' n -> nref (nod s2 k' n) = nref (nod s k' n)) /\
     (forall a, estored s a -> ce_rc (ct_heap (s_ct s2) a) = ce_rc (ct_heap (s_ct s) a))).
Proof.
  intros H (i & f & Lv & <-). pose proof (reached_sim G _ _ _ _ H) as Sm. destruct (reached_i _ _ _ _ H) as (I & _).
  destruct (sim_live _ _ _ _ _ _ _ _ _ Sm Lv) as (_ & T & _). destruct (si_rc _ _ _ _ _ Sm) as (pin & _ & R).
  destruct (incRef_sp (g:=g) (nb:=nb) (X:=X) G s k l (var V i) pin (refs D V) I T R) as (s1 & E1 & T1 & R1).
  pose proof (rt_inv _ _ T1) as I1. assert (Te1: tedge N g X (co_ s1) k l (var V i)) by (eapply (rs_tedge (nb:=nb)); eauto; apply T1).
  destruct (decRef_sp (g:=g) (nb:=nb) (X:=X) G s1 k l (var V i) pin (refs D V) I1 Te1 R1) as (s2 & E2 & T2 & R2).
  exists s1, s2. split; auto. split; auto. intros U U1.
  pose proof (decRefF_lower _ _ _ _ _ E2) as [Lo1 Lo2]. pose proof (rt_inv _ _ T2) as I2.
  assert (S12: rsame (co_ s) (co_ s2)) by (eapply (rsame_trans (nb:=nb)); [apply T1|apply T2]).
  assert (U2: unsaturated s2); [|exact (counts_unique s s2 _ _ _ _ I I2 S12 (proj2 R) (proj2 R2) U U2)]. destruct U1 as [V1 V2]. split.
  - intros k' n Hn. assert (Hn1: nstored s1 k' n) by (apply (rs_linked (nb:=nb) _ _ k' n (rt_same _ _ T2)); auto). specialize (V1 k' n Hn1). specialize (Lo1 k' n). lia.
  - intros a Ha. assert (Ha1: estored s1 a) by (destruct Ha as (b & Hb); exists b; pose proof (rs_ctab _ _ (rt_same _ _ T2)) as Q; cbn in Q; rewrite <- Q; exact Hb). specialize (V2 a Ha1). specialize (Lo2 a). lia.
Qed.

(** * C12 *)

(** The edges met when following [e] downwards. *)
Inductive below s (k : kind) : edge -> edge -> Prop :=
  | bl_here e : below s k e e
  | bl_down e n c f : ep e = PNode n -> In c (ne (nod s k n)) -> below s k c f -> below s k e f.

(** Garbage collection does not fail, and keeps everything below an edge the user has referenced:
    nodes are still stored with the same contents, weights are still stored with the same values. *)
Theorem collection_keeps nq s V D force : reached nq s V D ->
  exists b s', garbageCollect N g nb force s = Ok b s' /\
  forall k e, In e (held V D k) -> forall f, below s k e f ->
    ptr_stored s' k (ep f) /\ (forall n, ep f = PNode n -> nod s' k n = nod s k n) /\ weight_stored s' (ew f) /\ cval s' (ew f) = cval s (ew f).
Proof.
  intros H. pose proof (reached_sim G _ _ _ _ H) as Sm. destruct (reached_i _ _ _ _ H) as (I & _). destruct (si_rc _ _ _ _ _ Sm) as (pin & _ & R).
  pose proof (rcok_rcact (g:=g) (nb:=nb) (X:=X) _ _ _ I R) as Ac.
  destruct (gc_sp (g:=g) (nb:=nb) (X:=X) G force s I Ac) as (b & s' & E & Sf & _). exists b, s'. split; auto.
  intros k e He.
  assert (Hr: In (k, e) (refs D V)).
  { unfold held in He. unfold refs. apply in_flat_map in He. destruct He as (x & Hx & He). apply in_flat_map. exists x. split; auto. unfold refs1.
    destruct (fst x) as [v|]; [|destruct He]. destruct (kind_eqb k (dk v)) eqn:Ek; [|destruct He]. apply kind_eqb_spec in Ek. apply repeat_spec in He as Es. subst e k.
    destruct (dc v); [destruct He|now left]. }
  assert (Te: exists l, tedge N g X (co_ s) k l e).
  { pose proof (si_var _ _ _ _ _ Sm) as F. unfold refs in Hr. apply in_flat_map in Hr. destruct Hr as ((o & e0) & Hx & Hr). unfold refs1 in Hr. cbn in Hr.
    destruct o as [v|]; [|destruct Hr]. apply repeat_spec in Hr. injection Hr as -> ->. exists (dl v). clear - F Hx.
    induction F as [|y z D0 V0 A F IH]; [destruct Hx|]. destruct Hx as [[= -> ->]|Hx]; auto. apply A. }
  destruct Te as [l Te]. destruct (rcok_prot (g:=g) (nb:=nb) (X:=X) s pin (refs D V) k l e I R Hr Te) as [Pa Wp].
  pose proof (gs_same _ _ Sf) as (_ & Hct & Hut).
  assert (Val: forall w, weight_stored s w -> cval s' w = cval s w).
  { intros w [W1 W2]. assert (Vp: forall p, num_stored s p -> val s' p = val s p).
    { intros p Hp. unfold num_stored in Hp. unfold val, aval, ct_value. cbn in Hct. rewrite Hct. destruct (ep_at p); auto; contradiction. }
    unfold cval. now rewrite !Vp. }
  clear Hr He. intros f B. revert l Te Pa Wp. induction B as [e|e n c f En Hc B IH]; intros l Te Pa Wp.
  - pose proof (gs_edge _ _ Sf k l e Te Pa Wp) as Te'. split; [eapply etn_stored, Te'|]. split; [|split].
    + intros n _. unfold nod. specialize (Hut k). cbn in Hut. now rewrite Hut.
    + eapply wtab_stored, Te'.
    + apply Val. eapply wtab_stored, Te.
  - pose proof (te_n _ _ _ _ _ _ _ Te) as Tn. rewrite En in Tn, Pa. destruct Tn as [Ln Lv].
    destruct (linked_ok (g:=g) (nb:=nb) (X:=X) _ _ _ (iv_c _ _ _ _ _ I) Ln) as (b0 & K & _).
    destruct (Ac k n Ln Pa c Hc) as [Pc Wc]. eapply IH; eauto. apply (no_es _ _ _ _ _ _ _ _ _ K c Hc).
Qed.

(** A forced collection removes every node without references, and every number without
    references if the table holds more than one. *)
Theorem forced_collection nq s V D : reached nq s V D ->
  exists b s', garbageCollect N g nb true s = Ok b s' /\
  (forall k n, nstored s' k n <-> nstored s k n /\ nref (nod s k n) <> 0) /\
  (1 < ct_count (s_ct s) -> forall a, estored s' a <-> estored s a /\ ce_rc (ct_heap (s_ct s) a) <> 0).
Proof.
  intros H. pose proof (reached_sim G _ _ _ _ H) as Sm. destruct (reached_i _ _ _ _ H) as (I & _). destruct (si_rc _ _ _ _ _ Sm) as (pin & _ & R).
  pose proof (rcok_rcact (g:=g) (nb:=nb) (X:=X) _ _ _ I R) as Ac.
  destruct (gc_sp (g:=g) (nb:=nb) (X:=X) G true s I Ac) as (b & s' & E & Sf & F). exists b, s'. split; auto. destruct (F eq_refl) as [F1 F2].
  pose proof (gs_same _ _ Sf) as (_ & Hct & Hut). cbn in Hct, Hut. split.
  - intros k n. split.
    + intros Hn. split; [apply (gs_lk _ _ Sf); auto|]. specialize (F1 k n Hn). unfold nod in *. now rewrite Hut in F1.
    + intros [A B]. apply (gs_keepn _ _ Sf); auto.
  - intros Ct a. specialize (F2 Ct a). split.
    + intros Ha. split; [apply (gs_live _ _ Sf); auto|]. specialize (F2 Ha). now rewrite Hct in F2.
    + intros [A B]. apply (gs_keepa _ _ Sf); auto.
Qed.

(** * C13 *)

(** Whatever an operation cache or the table of identities returns is stored: in every reachable
    state, in particular after a collection. *)
Definition bin_kind (b : bop) : kind := match b with BMV | BKV => KV | BDD => KD | _ => KM end.
Theorem cached_results_stored nq s V D : reached nq s V D ->
  (forall k x y r s', addLookup g k x y s = Ok (Some r) s' -> ptr_stored s' k (vp r)) /\
  (forall b x y r s', binLookup g b x y s = Ok (Some r) s' -> ptr_stored s' (bin_kind b) (vp r)) /\
  (forall u x r s', unLookup g u x s = Ok (Some r) s' -> ptr_stored s' KM (ep r) /\ weight_stored s' (ew r)) /\
  (forall i, ep (s_id s i) <> PNull -> ptr_stored s KM (ep (s_id s i)) /\ weight_stored s (ew (s_id s i))).
Proof.
  intros H. destruct (reached_i _ _ _ _ H) as (I & _). split; [|split; [|split]].
  - intros k x y r s' E. destruct (addLookup_sp (g:=g) (nb:=nb) (X:=X) [] s k x y I) as (r' & s2 & E' & _ & _ & Q & A). rewrite E in E'. injection E' as <- <-.
    destruct A as (x' & y' & (l & _ & _ & _ & (A & _) & _) & _). rewrite <- Q in A. eapply etn_stored; eauto.
  - intros b x y r s' E. destruct (binLookup_sp (g:=g) (nb:=nb) (X:=X) [] s b x y I) as (r' & s2 & E' & _ & _ & Q & A). rewrite E in E'. injection E' as <- <-.
    destruct A as (x' & y' & A & _). rewrite <- Q in A. destruct b; cbn [bin_kind binok] in *.
    + destruct A as (_ & _ & l & _ & _ & _ & (A & _) & _). eapply etn_stored; eauto.
    + destruct A as (_ & _ & l & _ & _ & _ & (A & _) & _). eapply etn_stored; eauto.
    + destruct A as (_ & _ & l & _ & _ & _ & A & _). now left.
    + destruct A as (lx & ly & _ & _ & _ & _ & _ & _ & (A & _) & _). eapply etn_stored; eauto.
    + destruct A as (lx & ly & _ & _ & _ & _ & _ & _ & (A & _) & _). eapply etn_stored; eauto.
    + destruct A as (_ & _ & l & a & b & _ & _ & _ & _ & _ & (A & _) & _). eapply etn_stored; eauto.
  - intros u x r s' E. destruct (unLookup_sp (g:=g) (nb:=nb) (X:=X) [] s u x I) as (r' & s2 & E' & _ & _ & Q & A). rewrite E in E'. injection E' as <- <-.
    destruct A as (a & (l & _ & _ & _ & T & _) & _). rewrite <- Q in T. split; [eapply etn_stored, T|eapply wtab_stored, T].
  - intros i Hi. destruct (iv_t _ _ _ _ _ I) as [_ _ _ T4 _]. destruct (T4 i Hi) as (_ & T & _). split; [eapply etn_stored, T|eapply wtab_stored, T].
Qed.

(** * C15 *)

(** A user who, besides running operations, holds temporary numbers [H] from the cache: they take
    new ones, overwrite them and return them in any order. *)
Inductive session (nq : Z) : st N -> list edge -> denv -> list complex -> Prop :=
  | ss_start s V D : reached nq s V D -> session nq s V D []
  | ss_get s V D H v c s' : session nq s V D H -> getCached g v s = Ok c s' -> session nq s' V D (c :: H)
  | ss_set s V D H c v s' : session nq s V D H -> In c H -> bind (wr (cr c) (fst v)) (fun _ => wr (ci c) (snd v)) s = Ok tt s' -> session nq s' V D H
  | ss_return s V D H1 c H2 s' : session nq s V D (H1 ++ c :: H2) -> retCache c s = Ok tt s' -> session nq s' V D (H1 ++ H2)
  | ss_exec s V D H c D' os V' outs s' : session nq s V D H -> dstep (g:=g) (X:=X) nq D c D' os -> c <> IReset ->
      exec N g nb c V s = Ok (V', outs) s' -> session nq s' V' D' H.

Lemma sim_step O O' nq s s' V D : sim (g:=g) (nb:=nb) (X:=X) O nq s V D -> step N g nb X [] s s' -> owns N (s_cc s') O' -> sim (g:=g) (nb:=nb) (X:=X) O' nq s' V D.
Proof.
  intros [S1 S2 S3 (pin & S4 & S5) S6] St Ow. pose proof (sp_ext _ _ _ _ _ _ _ St) as E. constructor; auto.
  - rewrite <- S1. apply (qe_nq _ _ _ E).
  - apply St.
  - exists pin. split; auto. eapply rcok_step; eauto.
  - eapply Forall2_imp; [|exact S6]. intros x e _. eapply varok_step; eauto.
Qed.

Definition slot_pair (c : complex) : Prop := exists a b, c = cslot a b.
Lemma session_sim nq s V D H : session nq s V D H -> Forall slot_pair H /\ sim (g:=g) (nb:=nb) (X:=X) (flat_map wslots H) nq s V D.
Proof.
  induction 1 as [s V D R|s V D H v c s' Hs [F S] E|s V D H c v s' Hs [F S] Hc E|s V D H1 c H2 s' Hs [F S] E|s V D H c D' os V' outs s' Hs [F S] Hd Hr E].
  - split; [constructor|]. now apply (reached_sim G).
  - destruct (getCached_sp (g:=g) (nb:=nb) (X:=X) G s v _ (si_inv _ _ _ _ _ S) (si_ow _ _ _ _ _ S)) as (a & b & s2 & E2 & Ow & St & _). rewrite E in E2. injection E2 as -> ->.
    split; [constructor; auto; now exists a, b|]. eapply sim_step; [exact S|eapply step_weak; [exact St|intros x []]|exact Ow].
  - split; auto. assert (Sp: slot_pair c) by (rewrite Forall_forall in F; auto). destruct Sp as (a & b & ->). cbn in E. injection E as <-.
    eapply sim_step; [exact S| |].
    + change (step N g nb X [] s (setc a b v s)). apply setc_step; auto. apply S.
    + apply (owns_ccw a b v). apply S.
  - apply Forall_app in F. destruct F as [F1 F]. inversion F as [|c' H2' Sc F2]; subst. destruct Sc as (a & b & ->). split; [apply Forall_app; auto|].
    assert (Ow: owns N (s_cc s) (a :: b :: flat_map wslots (H1 ++ H2))).
    { eapply owns_perm; [|apply S]. rewrite !flat_map_app. cbn. change (a :: b :: flat_map wslots H2) with ([a; b] ++ flat_map wslots H2).
      rewrite app_assoc. rewrite (Permutation_app_comm (flat_map wslots H1) [a; b]). reflexivity. }
    destruct (retCache_sp s a b _ Ow) as (c' & E2 & Vc & Ow' & _). rewrite E in E2. injection E2 as ->.
    eapply sim_step; [exact S|apply step_cc_any; auto; apply S|exact Ow'].
  - split; auto. assert (W: c = IReset -> flat_map wslots H = []) by (intros; contradiction).
    pose proof (exec_sp (g:=g) (nb:=nb) (X:=X) G _ nq s V D c D' os W S Hd) as P. unfold Inv.wp in P. rewrite E in P. apply P.
Qed.

(** Every operation returns with as many temporaries outstanding as before and does not change
    the temporaries the caller holds. *)
Theorem no_temporaries_left nq s V D H c D' os V' outs s' : session nq s V D H -> dstep (g:=g) (X:=X) nq D c D' os -> c <> IReset ->
  exec N g nb c V s = Ok (V', outs) s' ->
  cc_count (s_cc s') = cc_count (s_cc s) /\ cc_count (s_cc s) = 2 * Z.of_nat (length H) /\ forall h, In h H -> cval s' h = cval s h.
Proof.
  intros Hs Hd Hr E. destruct (session_sim _ _ _ _ _ Hs) as [F S].
  assert (W: c = IReset -> flat_map wslots H = []) by (intros; contradiction).
  pose proof (exec_sp (g:=g) (nb:=nb) (X:=X) G _ nq s V D c D' os W S Hd) as P. unfold Inv.wp in P. rewrite E in P. destruct P as (S' & _ & K). cbn in S'.
  pose proof (ow_ct _ _ _ (si_ow _ _ _ _ _ S)) as C1. pose proof (ow_ct _ _ _ (si_ow _ _ _ _ _ S')) as C2. split; [congruence|]. split.
  - rewrite C1. clear - F. induction F as [|c H (a & b & ->) F IH]; cbn [flat_map]; auto. rewrite app_length. cbn [length]. cbn. lia.
  - intros h Hh. rewrite Forall_forall in F. destruct (F h Hh) as (a & b & ->).
    assert (I2: forall x, In x [a; b] -> In x (flat_map wslots H)) by (intros x Hx; apply in_flat_map; exists (cslot a b); auto).
    unfold cval, val. cbn. rewrite !K by (apply I2; cbn; auto). reflexivity.
Qed.
End Struct.

(** * Requests for nodes, and concrete instances *)

Section Any.
Context {N : num} (g : cfg N) (nb : kind -> Z) (S : sane N) (G : gok g).
Local Notation X := (numG N (g_ct g) S).
Local Notation reachedG := (reached (g:=g) (nb:=nb) (X:=X)).

(** A successor of a node on level [v]: an edge to a stored node on the level below, or to the
    terminal, which only the lowest level and zero edges have. *)
Definition successor (s : st N) (k : kind) (v : Z) (e : edge) : Prop :=
  weight_stored s (ew e) /\
  ((ep e = PTerm /\ (v = 0 \/ ew e = Czero)) \/ exists n, ep e = PNode n /\ nstored s k n /\ nv (nod s k n) = v - 1).

(** A request for a node returns a stored node with the requested level and successors that
    compare equal to the requested ones; nothing stored before disappears or changes. *)
Theorem node_request nq s V D k v es den : reachedG nq s V D -> 0 <= v < nq -> length es = arity k ->
  (forall e, In e es -> successor s k v e) ->
  exists n s1 l s2, getNode N k s = Ok n s1 /\ ut_lookup N g nb k n v es den s1 = Ok l s2 /\
    nstored s2 k l /\ nv (nod s2 k l) = v /\ edges_eqb N s2 es (ne (nod s2 k l)) = true /\ (k = KD -> nden (nod s2 k l) = den) /\
    forall k' m, nstored s k' m -> nstored s2 k' m /\ ne (nod s2 k' m) = ne (nod s k' m) /\ nv (nod s2 k' m) = nv (nod s k' m) /\ nref (nod s2 k' m) = nref (nod s k' m).
Proof.
  intros H Hv Len Hes. destruct (request g nb X G nq s V D k v es den H Hv Len) as (n & s1 & l & s2 & E1 & E2 & I2 & X2 & L2 & V2 & Q2 & D2 & _).
  - intros e He. destruct (Hes e He) as [[W1 W2] Hn]. constructor.
    + destruct Hn as [(-> & _)|(n & -> & A & B)]; cbn; auto.
    + assert (Al: forall p, num_stored s p -> ptab N g X (co N s) p).
      { intros p Hp. split; [|intros []]. unfold num_stored in Hp. destruct (ep_at p); cbn; auto. }
      split; apply Al; assumption.
    + intros Et. destruct Hn as [(_ & [A|A])|(n & A & _)]; [left; lia|now right|congruence].
    + intros [].
  - intros [].
  - exists n, s1, l, s2. split; [exact E1|]. split; [exact E2|]. split; [exact L2|]. split; [exact V2|]. split; [exact Q2|]. split; [exact D2|].
    intros k' m (v' & b' & Hm). destruct (qe_tab _ _ _ X2 _ _ _ _ Hm) as [A (B1 & B2 & B3 & _)]. split; [now exists v', b'|].
    change (qn N (co N s) k' m) with (nod s k' m) in *. change (qn N (co N s2) k' m) with (nod s2 k' m) in *. auto.
Qed.
End Any.

(** ** Instances in double arithmetic *)

(** Small tables keep the computation short; the theorems hold for every size. *)
Definition gS : cfg NumF :=
  Cfg NumF (CTcfg 65 2048 2 65536) 4 2 131072 (fun _ es => fold_right (fun e h => hedge e + 3 * h) 0 es)
      (fun _ _ _ => 0) (fun _ a b => hedge a + 5 * hedge b) (fun _ a => hedge a).
Definition nbS (k : kind) : Z := 16.
Lemma gS_ok : gok gS.
Proof. split; [repeat split; cbn; try lia; reflexivity|]. cbn. split; [lia|]. split; [lia|]. exists 2. reflexivity. Qed.
Notation XS := (numG NumF (g_ct gS) saneF).
Notation reachedS := (reached (g:=gS) (nb:=nbS) (X:=XS)).
Notation f0 := (F0 : NumF). Notation f1 := (F1 : NumF). Notation f2 := (nadd f1 f1 : NumF).
(** Two vectors over two qubits, the second twice the first, the identity, and their products;
    references to the first vector (twice) and to the identity; a vector over one qubit. *)
Definition vecS : list (NumF * NumF) := [(f1, f0); (f2, f0); (f2, f0); (f1, f1)].
Definition progS : list (ins NumF) := [IVec vecS; IAdd KV 0 0; IIdent 1; IMul KV 2 0; IInc KV 0; IInc KV 0; IInc KM 2; IVec [(f1, f0); (f0, f1)]].
Definition endS (prog : list (ins NumF)) : st NumF * list edge :=
  match run NumF gS nbS prog [] (pkg_init NumF gS 3) with Ok (V, _) s => (s, V) | _ => (pkg_init NumF gS 3, []) end.
Definition sS : st NumF := fst (endS progS).
Definition VS : list edge := snd (endS progS).
Definition fS : list nat -> C := fun p => Cv2 NumF gS XS (nth (vidx p) vecS (n0, n0)).
Definition DS : denv :=
  [Some (DV KV 1 2 (Some fS)); Some (DV KV 1 0 (Some (dadd fS fS))); Some (DV KM 1 1 (Some idm)); Some (DV KV 1 0 (Some (dmul KV idm fS)));
   Some (DV KV 0 0 (Some (fun p => Cv2 NumF gS XS (nth (vidx p) [(f1, f0); (f0, f1)] (n0, n0)))))].
Lemma drunsS : druns (g:=gS) (X:=XS) 3 [] progS DS [].
Proof.
  unfold progS. change (@nil (option dout)) with ([] ++ ([] ++ ([] ++ ([] ++ ([] ++ ([] ++ ([] ++ ([] ++ @nil (option dout))))))))).
  eapply dr_cons. { apply (d_vec (N:=NumF) 3 [] 2 vecS); [reflexivity|simpl; lia]. }
  eapply dr_cons. { eapply d_add; [discriminate|exists 0%nat; reflexivity|exists 0%nat; reflexivity]. }
  eapply dr_cons. { apply (d_ident 3 _ 1). lia. }
  eapply dr_cons. { eapply d_mul; [discriminate|exists 0%nat; reflexivity|exists 0%nat; reflexivity]. }
  eapply dr_cons. { eapply d_inc. exists 0%nat. reflexivity. }
  eapply dr_cons. { eapply d_inc. exists 1%nat. reflexivity. }
  eapply dr_cons. { eapply d_inc. exists 0%nat. reflexivity. }
  eapply dr_cons. { apply (d_vec (N:=NumF) 3 _ 1 [(f1, f0); (f0, f1)]); [reflexivity|simpl; lia]. }
  apply dr_nil.
Qed.
Lemma reachS : reachedS 3 sS VS DS.
Proof.
  assert (E: exists o, run NumF gS nbS progS [] (pkg_init NumF gS 3) = Ok (VS, o) sS).
  { unfold VS, sS, endS. assert (Ok': match run NumF gS nbS progS [] (pkg_init NumF gS 3) with Ok _ _ => True | _ => False end) by (vm_compute; exact Logic.I).
    destruct (run _ _ _ _ _ _) as [[V o] s| |]; [now exists o|contradiction|contradiction]. }
  destruct E as (o & E). eapply (reached_run gS_ok 3 progS); [constructor; [lia|reflexivity]|apply drunsS|exact E].
Qed.
Lemma storedS n : In n [0; 1; 2]%nat -> nstored sS KV n.
Proof. intros [<-|[<-|[<-|[]]]]; [exists 0, 0|exists 0, 0|exists 1, 7]; vm_compute; auto. Qed.
Definition LS (k : kind) : list nat := match k with KV => [3; 1; 0; 2]%nat | KM => [0; 1]%nat | KD => [] end.
Lemma enumS k : enumerates sS k (LS k).
Proof.
  assert (E: LS k = ut_allq NumF nbS (co NumF sS) k) by (destruct k; vm_compute; reflexivity). rewrite E.
  apply (all_enum gS nbS XS). apply (reached_i gS nbS XS gS_ok 3 sS VS DS reachS).
Qed.

(** C10: the vector and its product with the identity lead to the same node; two different nodes
    share level and bucket. *)
Example no_equal_nodes_ex : ep (var VS 0) = PNode 2 /\ ep (var VS 3) = PNode 2 /\
  ukey NumF gS nbS KV (ne (nod sS KV 0)) = ukey NumF gS nbS KV (ne (nod sS KV 1)) /\ nv (nod sS KV 0) = nv (nod sS KV 1) /\
  edges_eqb NumF sS (ne (nod sS KV 0)) (ne (nod sS KV 1)) = false /\ edges_eqb NumF sS (ne (nod sS KV 0)) (ne (nod sS KV 0)) = true.
Proof. vm_compute. repeat split. Qed.
Example stored_node_found_ex : exists m s1 s2, getNode NumF KV sS = Ok m s1 /\
  ut_lookup NumF gS nbS KV m (nv (nod sS KV 0)) (ne (nod sS KV 0)) (nden (nod sS KV 0)) s1 = Ok 0%nat s2.
Proof. eapply (stored_node_found gS nbS XS gS_ok); [apply reachS|]. apply storedS. now left. Qed.
(** A new node on level 2 with the successors node 2 and zero. *)
Example node_request_ex : forall e, In e [Ed (PNode 2) Cone; Ezero] -> successor sS KV 2 e.
Proof.
  intros e [<-|[<-|[]]]; (split; [split; exact Logic.I|]); [right; exists 2%nat|left; auto]. split; auto. split; [apply storedS; cbn; auto|]. vm_compute. reflexivity.
Qed.

(** C11: node 2 is referenced twice by the user, node 0 once by node 2, node 3 not at all. *)
Example node_counts_ex : map (fun n => nref (nod sS KV n)) [2; 0; 3]%nat = [2; 1; 0] /\
  map (fun n => length (filter (points n) (held VS DS KV ++ out_edges sS KV (LS KV)))) [2; 0; 3]%nat = [2; 1; 0]%nat.
Proof. split; vm_compute; reflexivity. Qed.
Example number_counts_ex : ce_rc (ct_heap (s_ct sS) 7) = 2 /\
  length (filter (at_entry 7) (flat_map comps ((held VS DS KV ++ held VS DS KM ++ held VS DS KD) ++ out_edges sS KV (LS KV) ++ out_edges sS KM (LS KM) ++ out_edges sS KD (LS KD)))) = 2%nat.
Proof. split; vm_compute; reflexivity. Qed.
Example active_counts_ex : ut_actcount (s_ut sS KV) = 3 /\ ut_active (s_ut sS KV) 0 = 2 /\ ut_active (s_ut sS KV) 1 = 1.
Proof. vm_compute. repeat split. Qed.
Lemma unsat_dec (s : st NumF) : inv NumF gS nbS XS s ->
  forallb (fun k => forallb (fun n => nref (nod s k n) <? RCMAX) (ut_allq NumF nbS (co NumF s) k)) [KV; KM; KD] = true ->
  forallb (fun a => ce_rc (ct_heap (s_ct s) a) <? RCMAX) (seq 0 (ct_next (s_ct s))) = true -> unsaturated s.
Proof.
  intros I A B. split.
  - intros k n Hn. rewrite forallb_forall in A. assert (Hk: In k [KV; KM; KD]) by (destruct k; cbn; auto). specialize (A k Hk). rewrite forallb_forall in A.
    apply Z.ltb_lt, A. now apply (all_enum gS nbS XS s k I).
  - intros a (b & Ha). rewrite forallb_forall in B. apply Z.ltb_lt, B, in_seq. split; [lia|]. exact (wf_lt _ _ (ci_ct _ _ _ _ _ (iv_c _ _ _ _ _ I)) _ _ Ha).
Qed.
(** One more reference to the vector. *)
Definition after {N A} (r : res N A) (s : st N) : st N := match r with Ok _ s' => s' | _ => s end.
Definition s1S : st NumF := after (exec NumF gS nbS (IInc KV 0) VS sS) sS.
Lemma okay {N A B} (r : res N (A * B)) s : match r with Ok _ _ => True | _ => False end -> exists V o, r = Ok (V, o) (after r s).
Proof. destruct r as [[V o] s'| |]; [now exists V, o|contradiction|contradiction]. Qed.
Lemma exec1S : exists V o, exec NumF gS nbS (IInc KV 0) VS sS = Ok (V, o) s1S.
Proof.
  apply okay. vm_compute. exact Logic.I.
Qed.
Lemma exec_inc {N} (g : cfg N) nb V s V' o s1 : exec N g nb (IInc KV 0) V s = Ok (V', o) s1 -> incRef N KV (var V 0) s = Ok tt s1.
Proof. unfold exec, quiet, bind, ret. destruct (incRef _ _ _ _) as [[] s'| |]; try discriminate. intros E. injection E; intros; subst. reflexivity. Qed.
Lemma inc1S : incRef NumF KV (var VS 0) sS = Ok tt s1S.
Proof. destruct exec1S as (V & o & E). eapply exec_inc, E. Qed.
Example incRef_decRef_ex : unsaturated sS /\ incRef NumF KV (var VS 0) sS = Ok tt s1S /\ unsaturated s1S /\ nref (nod s1S KV 2) = 3.
Proof.
  assert (I: inv NumF gS nbS XS sS) by apply (reached_i gS nbS XS gS_ok 3 sS VS DS reachS). split; [apply unsat_dec; auto; vm_compute; reflexivity|].
  split; [apply inc1S|]. split; [|vm_compute; reflexivity].
  assert (L: live DS 0 KV 1 (Some fS)) by (exists 2%nat; reflexivity). destruct exec1S as (V & o & E).
  pose proof (rc_exec 3 _ _ _ _ _ _ _ _ _ reachS (d_inc 3 DS KV 1 0 _ L) E) as R1.
  apply unsat_dec; [apply (reached_i gS nbS XS gS_ok 3 _ _ _ R1)|vm_compute; reflexivity|vm_compute; reflexivity].
Qed.

(** C12: the vector's subnode 1 lies below a referenced edge and survives; node 3 does not. *)
Example collection_keeps_ex : In (var VS 0) (held VS DS KV) /\ below sS KV (var VS 0) (nth 1 (ne (nod sS KV 2)) Enull) /\
  ep (nth 1 (ne (nod sS KV 2)) Enull) = PNode 1.
Proof.
  split; [vm_compute; auto|]. split; [|vm_compute; reflexivity].
  eapply bl_down; [vm_compute; reflexivity| |apply bl_here]. vm_compute. auto.
Qed.
Definition sgS : st NumF := after (garbageCollect NumF gS nbS true sS) sS.
Example forced_collection_ex : (exists b, ut_tab (s_ut sS KV) 0 b = [3; 1; 0]%nat) /\
  ut_allq NumF nbS (co NumF sgS) KV = [1; 0; 2]%nat /\ 1 < ct_count (s_ct sS) /\ ct_count (s_ct sgS) < ct_count (s_ct sS).
Proof. split; [exists 0|split; [|split]]; vm_compute; congruence. Qed.

(** C13: the product computed above is found in the cache. *)
Example cached_results_stored_ex :
  match binLookup gS BMV (Ed (PNode 1) Cone) (Ed (PNode 2) Cone) sS with Ok (Some r) _ => vp r = PNode 2 | _ => False end.
Proof. vm_compute. reflexivity. Qed.

(** C15: a temporary is taken, and an addition is run while it is held. *)
Definition tS : complex := match getCached gS (f1, f2) sS with Ok c _ => c | _ => Czero end.
Definition stS : st NumF := after (getCached gS (f1, f2) sS) sS.
Lemma okayc {N A} (r : res N A) s d : match r with Ok _ _ => True | _ => False end -> r = Ok (match r with Ok c _ => c | _ => d end) (after r s).
Proof. destruct r; [reflexivity|contradiction|contradiction]. Qed.
Example no_temporaries_left_ex : session gS nbS XS 3 stS VS DS [tS] /\ (exists D', dstep (g:=gS) (X:=XS) 3 DS (IAdd KV 0 1) D' []) /\
  (exists V o, exec NumF gS nbS (IAdd KV 0 1) VS stS = Ok (V, o) (after (exec NumF gS nbS (IAdd KV 0 1) VS stS) sS)) /\
  cc_count (s_cc (after (exec NumF gS nbS (IAdd KV 0 1) VS stS) sS)) = 2.
Proof.
  split; [|split; [|split]].
  - eapply ss_get; [apply ss_start, reachS|]. apply okayc. vm_compute. exact Logic.I.
  - eexists. eapply d_add; [discriminate|exists 2%nat; reflexivity|exists 0%nat; reflexivity].
  - apply okay. vm_compute. exact Logic.I.
  - vm_compute. reflexivity.
Qed.

Print Assumptions no_equal_nodes.
Print Assumptions no_duplicate_nodes.
Print Assumptions stored_node_found.
Print Assumptions node_request.
Print Assumptions node_counts.
Print Assumptions number_counts.
Print Assumptions active_counts.
Print Assumptions incRef_decRef.
Print Assumptions collection_keeps.
Print Assumptions forced_collection.
Print Assumptions cached_results_stored.
Print Assumptions no_temporaries_left.
