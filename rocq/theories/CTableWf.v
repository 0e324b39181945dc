(** Structural invariant of the real-number table; holds for every number system. *)
From Coq Require Import ZArith List Bool Lia Arith Permutation.
From Verif Require Import Num Base CTable.
Import ListNotations.
Local Open Scope Z_scope.

Definition cfgok (cf : ctcfg) : Prop :=
  1 <= cf_nbucket cf /\ 1 <= cf_initalloc cf /\ 1 <= cf_growth cf /\ 0 <= cf_initgc cf.

Lemma ct_default_ok : cfgok ct_default.
Proof. unfold cfgok, ct_default; simpl; lia. Qed.

(** ** Sums over buckets *)

Fixpoint sumlen (tab : Z -> list nat) (keys : list Z) : Z :=
  match keys with [] => 0 | k :: ks => Z.of_nat (length (tab k)) + sumlen tab ks end.

Lemma sumlen_nonneg tab keys : 0 <= sumlen tab keys.
Proof. induction keys; simpl; lia. Qed.

Lemma sumlen_ext tab tab' keys :
  (forall k, In k keys -> length (tab k) = length (tab' k)) -> sumlen tab keys = sumlen tab' keys.
Proof. induction keys; simpl; intros; auto. rewrite IHkeys, H; auto. Qed.

Lemma sumlen_upd tab keys k l :
  NoDup keys -> In k keys ->
  sumlen (updZ tab k l) keys = sumlen tab keys - Z.of_nat (length (tab k)) + Z.of_nat (length l).
Proof.
  induction keys as [|k' ks IH]; simpl; [tauto|].
  intros ND [->|H]; inversion ND; subst.
  - rewrite updZ_eq.
    rewrite (sumlen_ext (updZ tab k l) tab ks). lia.
    intros x Hx. rewrite updZ_neq; auto. intros ->; auto.
  - rewrite IH by auto. rewrite updZ_neq. lia. intros ->; auto.
Qed.

Lemma ct_keys_In cf k : In k (ct_keys cf) <-> 0 <= k < cf_nbucket cf.
Proof.
  unfold ct_keys. rewrite in_map_iff. split.
  - intros (x & <- & H). apply in_seq in H. lia.
  - intros H. exists (Z.to_nat k). split. lia. apply in_seq. lia.
Qed.

Lemma ct_keys_NoDup cf : NoDup (ct_keys cf).
Proof.
  unfold ct_keys. apply FinFun.Injective_map_NoDup. intros x y; lia. apply seq_NoDup.
Qed.

(** ** gc loops *)

Lemma gc_chain_spec rc chain : forall kept avail lastp col rem,
  gc_chain rc chain kept avail lastp col rem =
  (kept ++ filter (fun p => negb (rc p =? 0)) chain,
   rev (filter (fun p => rc p =? 0) chain) ++ avail,
   match lastopt (filter (fun p => negb (rc p =? 0)) chain) with Some a => Some a | None => lastp end,
   col + Z.of_nat (length (filter (fun p => rc p =? 0) chain)),
   rem + Z.of_nat (length (filter (fun p => negb (rc p =? 0)) chain))).
Proof.
  induction chain as [|p rest IH]; intros; simpl.
  - rewrite app_nil_r, !Z.add_0_r. reflexivity.
  - destruct (rc p =? 0) eqn:E; simpl; rewrite IH.
    + rewrite <- app_assoc. cbn [app length].
      rewrite ?Zpos_P_of_succ_nat, <- Z.add_1_l, Z.add_assoc. reflexivity.
    + rewrite <- app_assoc. cbn [app].
      assert (EQ: match lastopt (filter (fun p0 : nat => negb (rc p0 =? 0)) rest) with
                  | Some a => Some a | None => Some p end =
                  match match filter (fun p0 => negb (rc p0 =? 0)) rest with
                        | [] => Some p | _ :: _ => lastopt (filter (fun p0 => negb (rc p0 =? 0)) rest) end with
                  | Some a => Some a | None => lastp end).
      { destruct (filter (fun p0 : nat => negb (rc p0 =? 0)) rest) as [|y l] eqn:F; auto.
        destruct (lastopt (y :: l)) eqn:G; auto. apply lastopt_None in G. discriminate. }
      rewrite EQ. cbn [length]. rewrite ?Zpos_P_of_succ_nat, <- Z.add_1_l, Z.add_assoc. reflexivity.
Qed.

Definition keepf (rc : nat -> Z) (l : list nat) := filter (fun p => negb (rc p =? 0)) l.
Definition dropf (rc : nat -> Z) (l : list nat) := filter (fun p => rc p =? 0) l.

Lemma gc_buckets_spec rc keys : NoDup keys -> forall tab tail avail col rem,
  (forall k, tail k = lastopt (tab k)) ->
  exists tab' tail' avail' ,
  gc_buckets rc keys tab tail avail col rem =
    (tab', tail', avail',
     col + sumlen (fun k => dropf rc (tab k)) keys,
     rem + sumlen (fun k => keepf rc (tab k)) keys) /\
  (forall k, In k keys -> tab' k = keepf rc (tab k)) /\
  (forall k, ~ In k keys -> tab' k = tab k) /\
  (forall k, tail' k = lastopt (tab' k)) /\
  (exists dropped, avail' = dropped ++ avail /\
     Permutation dropped (flat_map (fun k => dropf rc (tab k)) keys)).
Proof.
  induction 1 as [|k ks Hk ND IH]; intros tab tail avail col rem Htail.
  - simpl. exists tab, tail, avail. split. now rewrite !Z.add_0_r.
    repeat split; auto; try tauto. exists []. split; auto.
  - cbn [gc_buckets]. rewrite gc_chain_spec. cbn [app].
    fold (keepf rc (tab k)). fold (dropf rc (tab k)).
    set (tab1 := updZ tab k (keepf rc (tab k))).
    set (tail1 := match tab k with [] => tail | _ => updZ tail k _ end).
    destruct (IH tab1 tail1 (rev (dropf rc (tab k)) ++ avail)
        (col + Z.of_nat (length (dropf rc (tab k)))) (rem + Z.of_nat (length (keepf rc (tab k)))))
      as (tab' & tail' & avail' & E & K1 & K2 & K3 & (dr & D1 & D2)).
    { intros k'. unfold tail1, tab1.
      destruct (Z.eq_dec k' k) as [->|NE].
      - rewrite updZ_eq. destruct (tab k) as [|y l] eqn:Q.
        + rewrite Htail, Q. reflexivity.
        + rewrite updZ_eq. destruct (lastopt (keepf rc (y :: l))) eqn:L; auto.
      - rewrite updZ_neq by auto. destruct (tab k); auto. rewrite updZ_neq; auto. }
    exists tab', tail', avail'. split.
    { rewrite E. cbn [sumlen].
      assert (S1: sumlen (fun k0 => dropf rc (tab1 k0)) ks = sumlen (fun k0 => dropf rc (tab k0)) ks).
      { apply sumlen_ext. intros x Hx. unfold tab1. rewrite updZ_neq; auto. intros ->; auto. }
      assert (S2: sumlen (fun k0 => keepf rc (tab1 k0)) ks = sumlen (fun k0 => keepf rc (tab k0)) ks).
      { apply sumlen_ext. intros x Hx. unfold tab1. rewrite updZ_neq; auto. intros ->; auto. }
      rewrite S1, S2, !Z.add_assoc. reflexivity. }
    repeat split; auto.
    + intros k' [<-|H].
      * rewrite K2 by auto. unfold tab1. now rewrite updZ_eq.
      * rewrite K1 by auto. unfold tab1. rewrite updZ_neq; auto. intros ->; auto.
    + intros k' H. rewrite K2 by (intros Q; apply H; now right).
      unfold tab1. rewrite updZ_neq; auto. intros ->; apply H; now left.
    + exists (dr ++ rev (dropf rc (tab k))). split. now rewrite <- app_assoc.
      cbn [flat_map].
      rewrite Permutation_app_comm. apply Permutation_app.
      * symmetry. apply Permutation_rev.
      * rewrite D2. apply Permutation_refl'. clear -Hk. unfold tab1.
        induction ks as [|x ks IH]; simpl; auto.
        rewrite updZ_neq by (intros ->; apply Hk; now left). f_equal. apply IH.
        intros H; apply Hk; now right.
Qed.

Section Wf.
Context {N : num} (cf : ctcfg) (Hcf : cfgok cf).
Implicit Types c : ctab N.

Record ctwf c : Prop := {
  wf_range : forall k a, In a (ct_tab c k) -> 0 <= k <= ct_mask cf;
  wf_nodup : forall k, NoDup (ct_tab c k);
  wf_disj : forall k k' a, In a (ct_tab c k) -> In a (ct_tab c k') -> k = k';
  wf_avnd : NoDup (ct_avail c);
  wf_avdisj : forall k a, In a (ct_avail c) -> ~ In a (ct_tab c k);
  wf_lt : forall k a, In a (ct_tab c k) -> (a < ct_next c)%nat;
  wf_avlt : forall a, In a (ct_avail c) -> (a < ct_next c)%nat;
  wf_fresh : forall a, (ct_next c <= a)%nat -> ce_rc (ct_heap c a) = 0;
  wf_tail : forall k, ct_tail c k = lastopt (ct_tab c k);
  wf_count : ct_count c = sumlen (ct_tab c) (ct_keys cf);
  wf_rc : forall a, 0 <= ce_rc (ct_heap c a) <= RCMAX;
  wf_peak : ct_count c <= ct_peak c;
  wf_stats : ct_lookups c = ct_hits c + ct_inserts c;
  wf_alloc : Z.of_nat (ct_next c) <= ct_allocs c /\ 1 <= ct_allocsz c
}.

(** An address is live if it is in a chain of the table. *)
Definition ctlive c (a : nat) : Prop := exists k, In a (ct_tab c k).
Definition alive c (a : eaddr) : Prop :=
  match a with ATab n => ctlive c n | ACache _ => False | _ => True end.

(** [c'] extends [c]: live entries stay where they are, unchanged. *)
Definition ctext c c' : Prop :=
  forall k a, In a (ct_tab c k) -> In a (ct_tab c' k) /\ ct_heap c' a = ct_heap c a.

Lemma ctext_refl c : ctext c c.
Proof. intros k a H; auto. Qed.
Lemma ctext_trans c1 c2 c3 : ctext c1 c2 -> ctext c2 c3 -> ctext c1 c3.
Proof. intros A B k a H. destruct (A k a H) as [H1 E1]. destruct (B k a H1) as [H2 E2]. split; congruence. Qed.
Lemma ctext_live c c' a : ctext c c' -> ctlive c a -> ctlive c' a.
Proof. intros E (k & H). exists k. now apply E. Qed.
Lemma ctext_alive c c' a : ctext c c' -> alive c a -> alive c' a.
Proof. destruct a; simpl; auto. apply ctext_live. Qed.
Lemma ctext_heap c c' a : ctext c c' -> ctlive c a -> ct_heap c' a = ct_heap c a.
Proof. intros E (k & H). now apply (E k a H). Qed.

Lemma ctwf_empty : ctwf (ct_empty cf).
Proof.
  destruct Hcf as (A & B & C & D).
  constructor; simpl; try tauto; try (intros; lia); auto using NoDup_nil.
  - assert (Q: forall keys, sumlen (fun _ : Z => []) keys = 0) by (induction keys; simpl; lia).
    now rewrite Q.
  - intros; unfold RCMAX; lia.
Qed.

Lemma ctwf_ticklookup c : ctwf c -> ctwf (ct_tick_hit (ct_tick_lookup c)).
Proof. intros W; destruct W; constructor; simpl; auto. lia. Qed.

Lemma getEntry_spec c a c1 : ctwf c -> ct_getEntry cf c = (a, c1) ->
  (forall k, ~ In a (ct_tab c k)) /\ ~ In a (ct_avail c1) /\ (a < ct_next c1)%nat /\
  (ct_next c <= ct_next c1)%nat /\
  (forall x, In x (ct_avail c1) -> In x (ct_avail c)) /\ NoDup (ct_avail c1) /\
  ct_tab c1 = ct_tab c /\ ct_tail c1 = ct_tail c /\
  ct_count c1 = ct_count c /\ ct_peak c1 = ct_peak c /\
  ct_lookups c1 = ct_lookups c /\ ct_hits c1 = ct_hits c /\ ct_inserts c1 = ct_inserts c /\
  ce_rc (ct_heap c1 a) = 0 /\ (forall x, x <> a -> ct_heap c1 x = ct_heap c x) /\
  Z.of_nat (ct_next c1) <= ct_allocs c1 /\ 1 <= ct_allocsz c1.
Proof.
  destruct Hcf as (P1 & P2 & P3 & P4).
  intros W. unfold ct_getEntry. destruct (ct_avail c) as [|y rest] eqn:E.
  - intros [= <- <-]. simpl.
    pose proof (wf_alloc _ W) as [A1 A2].
    repeat split; auto using NoDup_nil.
    + intros k H. apply (wf_lt _ W) in H. lia.
    + apply (wf_fresh _ W). lia.
    + destruct (Z.eqb_spec (Z.of_nat (ct_next c)) (ct_allocs c)); lia.
    + destruct (Z.eqb_spec (Z.of_nat (ct_next c)) (ct_allocs c)); nia.
  - intros [= <- <-]. simpl.
    pose proof (wf_avnd _ W) as ND. rewrite E in ND. inversion ND; subst.
    pose proof (wf_alloc _ W) as [A1 A2].
    repeat split; auto.
    + intros k. apply (wf_avdisj _ W). rewrite E; now left.
    + apply (wf_avlt _ W). rewrite E; now left.
    + now rewrite upd_eq.
    + intros. now rewrite upd_neq.
Qed.

Lemma splice_spec c key pre post v a c' : ctwf c -> 0 <= key <= ct_mask cf ->
  ct_tab c key = pre ++ post -> ct_splice cf c key pre post v = (a, c') ->
  ct_lookups c = ct_hits c + ct_inserts c + 1 ->
  (forall k, ~ In a (ct_tab c k)) /\
  ct_tab c' key = pre ++ a :: post /\ (forall k, k <> key -> ct_tab c' k = ct_tab c k) /\
  ct_heap c' a = CE v 0 /\ (forall x, x <> a -> ct_heap c' x = ct_heap c x).
Proof.
  intros W Hk E. unfold ct_splice. destruct (ct_getEntry cf c) as [a0 c1] eqn:G.
  intros [= <- <-] St. simpl.
  destruct (getEntry_spec c a0 c1 W G)
   as (F1 & F2 & F3 & F4 & F5 & F6 & F7 & F8 & F9 & F10 & F11 & F12 & F13 & F14 & F15 & F16 & F17).
  repeat split; auto.
  - rewrite F7. now rewrite updZ_eq.
  - intros. rewrite F7. now rewrite updZ_neq.
  - rewrite upd_eq. now rewrite F14.
  - intros. rewrite upd_neq; auto.
Qed.

Lemma splice_wf c key pre post v a c' :
  ctwf (ct_tick_hit c) -> 0 <= key <= ct_mask cf ->
  ct_tab c key = pre ++ post -> ct_splice cf c key pre post v = (a, c') ->
  ctwf c' /\ ctext c c' /\ ctlive c' a /\ (forall k, ~ In a (ct_tab c k)) /\
  ct_tab c' key = pre ++ a :: post /\ (forall k, k <> key -> ct_tab c' k = ct_tab c k) /\
  ct_heap c' a = CE v 0 /\ (forall x, x <> a -> ct_heap c' x = ct_heap c x).
Proof.
  intros W Hk E. unfold ct_splice. destruct (ct_getEntry cf c) as [a0 c1] eqn:G.
  intros [= <- <-].
  assert (G': ct_getEntry cf (ct_tick_hit c) = (a0, ct_tick_hit c1)).
  { clear -G. unfold ct_getEntry in *. simpl. destruct (ct_avail c); injection G as <- <-; reflexivity. }
  destruct (getEntry_spec _ _ _ W G')
   as (F1 & F2 & F3 & F4 & F5 & F6 & F7 & F8 & F9 & F10 & F11 & F12 & F13 & F14 & F15 & F16 & F17).
  simpl in *.
  assert (T1: updZ (ct_tab c1) key (pre ++ a0 :: post) key = pre ++ a0 :: post) by now rewrite updZ_eq.
  assert (T2: forall k, k <> key -> updZ (ct_tab c1) key (pre ++ a0 :: post) k = ct_tab c k).
  { intros. rewrite updZ_neq by auto. now rewrite F7. }
  assert (I: forall k x, In x (updZ (ct_tab c1) key (pre ++ a0 :: post) k) ->
            (x = a0 /\ k = key) \/ (x <> a0 /\ In x (ct_tab c k))).
  { intros k x. destruct (Z.eq_dec k key) as [->|NE].
    - rewrite T1. intros H. apply in_app_or in H. cbn in H.
      destruct (Nat.eq_dec x a0); auto. right; split; auto. rewrite E. apply in_or_app.
      destruct H as [H|[H|H]]; auto; congruence.
    - rewrite T2 by auto. intros H. right; split; auto. intros ->. now apply (F1 k). }
  assert (I': forall k x, In x (ct_tab c k) -> In x (updZ (ct_tab c1) key (pre ++ a0 :: post) k)).
  { intros k x. destruct (Z.eq_dec k key) as [->|NE].
    - rewrite T1, E. intros H. apply in_app_or in H. apply in_or_app. cbn. tauto.
    - now rewrite T2. }
  split; [|split; [|split; [|split; [|split; [|split; [|split]]]]]]; simpl; auto.
  - constructor; simpl.
    + intros k x H. destruct (I k x H) as [[-> ->]|[_ H']]; auto. now apply (wf_range _ W) in H'.
    + intros k. destruct (Z.eq_dec k key) as [->|NE].
      * rewrite T1. pose proof (wf_nodup _ W key) as Q. simpl in Q. rewrite E in Q.
        apply NoDup_Add with (a := a0) (l := pre ++ post).
        apply Add_app. split; auto. rewrite <- E. apply F1.
      * rewrite T2 by auto. apply (wf_nodup _ W k).
    + intros k k' x H1 H2. destruct (I _ _ H1) as [[-> ->]|[N1 H1']], (I _ _ H2) as [[E2 ->]|[N2 H2']]; auto; try congruence.
      apply (wf_disj _ W k k' x H1' H2').
    + auto.
    + intros k x H H'. destruct (I _ _ H') as [[-> ->]|[N1 H1']]; auto.
      apply F5 in H. now apply (wf_avdisj _ W k x) in H.
    + intros k x H. destruct (I _ _ H) as [[-> ->]|[N1 H1']]; auto.
      apply (wf_lt _ W) in H1'. simpl in H1'. lia.
    + intros x H. apply F5, (wf_avlt _ W) in H. simpl in H. lia.
    + intros x H. rewrite upd_neq by lia. rewrite F15 by lia. apply (wf_fresh _ W). simpl. lia.
    + intros k. destruct (Z.eq_dec k key) as [->|NE].
      * rewrite T1. destruct post as [|y l].
        -- rewrite updZ_eq. now rewrite lastopt_snoc.
        -- rewrite F8. pose proof (wf_tail _ W key) as Q. simpl in Q. rewrite Q, E.
           rewrite !lastopt_app_cons. reflexivity.
      * rewrite T2 by auto. pose proof (wf_tail _ W k) as Q. simpl in Q. rewrite <- Q.
        destruct post; rewrite ?updZ_neq, ?F8; auto.
    + rewrite F9. pose proof (wf_count _ W) as Q. simpl in Q. rewrite Q.
      rewrite sumlen_upd.
      * rewrite F7, E. rewrite !app_length. simpl. lia.
      * apply ct_keys_NoDup.
      * apply ct_keys_In. unfold ct_mask in Hk. lia.
    + intros x. destruct (upd_cases (ct_heap c1) a0 (CE v (ce_rc (ct_heap c1 a0))) x) as [[-> ->]|[NE ->]].
      * simpl. rewrite F14. unfold RCMAX; lia.
      * rewrite F15 by auto. apply (wf_rc _ W x).
    + lia.
    + pose proof (wf_stats _ W) as Q. simpl in Q. lia.
    + auto.
  - intros k x H. assert (x <> a0) by (intros ->; now apply (F1 k)).
    split; simpl; auto. rewrite upd_neq; auto.
  - exists key. simpl. rewrite T1. apply in_or_app. cbn. auto.
  - rewrite upd_eq. now rewrite F14.
  - intros. rewrite upd_neq; auto.
Qed.

Lemma ct_scan_found c v vt : forall chain pre a,
  ct_scan c v vt pre chain = inl a -> In a chain.
Proof.
  induction chain as [|x rest IH]; simpl; intros pre a; [discriminate|].
  destruct (nleb (ct_value c x) vt); [|discriminate].
  destruct (approx_eq (ct_value c x) v).
  - destruct rest as [|y r]; [intros [= ->]; auto|].
    destruct (_ && _); intros [= ->]; simpl; auto.
  - intros H. right. eapply IH; eauto.
Qed.

Lemma ct_scan_split c v vt : forall chain pre p q,
  ct_scan c v vt pre chain = inr (p, q) -> pre ++ chain = p ++ q.
Proof.
  induction chain as [|x rest IH]; simpl; intros pre p q.
  - intros [= <- <-]. auto.
  - destruct (nleb (ct_value c x) vt); [|intros [= <- <-]; auto].
    destruct (approx_eq (ct_value c x) v).
    + destruct rest as [|y r]; [discriminate|]. destruct (_ && _); discriminate.
    + intros H. apply IH in H. rewrite <- H, <- app_assoc. reflexivity.
Qed.

Lemma ct_insertPos_split c v : forall chain pre p q,
  ct_insertPos c v pre chain = (p, q) -> pre ++ chain = p ++ q.
Proof.
  induction chain as [|x rest IH]; simpl; intros pre p q.
  - intros [= <- <-]. auto.
  - destruct (nleb (ct_value c x) v); [|intros [= <- <-]; auto].
    intros H. apply IH in H. rewrite <- H, <- app_assoc. reflexivity.
Qed.

Lemma ct_hash_range v k : ct_hash (N:=N) cf v = inl k -> 0 <= k <= ct_mask cf.
Proof.
  unfold ct_hash. destruct (nleb n0 v); [|discriminate].
  destruct (nkey (ct_mask cf) v) as [z|]; [|discriminate].
  destruct (Z.ltb_spec z 0); [discriminate|]. intros [= <-].
  destruct Hcf as (A & _). unfold ct_mask. lia.
Qed.

(** What a successful lookup does to the table. *)
Definition hit c c' := c' = ct_tick_hit (ct_tick_lookup c).
Definition ins c c' v key pre post n :=
  0 <= key <= ct_mask cf /\ ct_tab c key = pre ++ post /\
  ct_splice cf (ct_tick_lookup c) key pre post v = (n, c').

Lemma ct_lookup_shape c v a c' : ctwf c -> ct_lookup cf c v = inl (a, c') ->
  (hit c c' /\ alive c a) \/
  (exists key pre post n, a = ATab n /\ ins c c' v key pre post n).
Proof.
  intros W. unfold ct_lookup.
  destruct (nleb n0 v); [|discriminate]. cbn [negb].
  destruct (approx_zero v); [intros [= <- <-]; left; split; [reflexivity|exact I]|].
  destruct (approx_one v); [intros [= <- <-]; left; split; [reflexivity|exact I]|].
  destruct (approx_eq v nsq2); [intros [= <- <-]; left; split; [reflexivity|exact I]|].
  destruct (ct_hash cf (nsub v ntol)) as [lk|] eqn:HL; [|discriminate].
  destruct (ct_hash cf (nadd v ntol)) as [uk|] eqn:HU; [|discriminate].
  destruct (Z.eqb_spec uk lk) as [->|NE].
  - unfold ct_findOrInsert.
    destruct (ct_scan _ v _ [] _) as [n|[pre post]] eqn:SC.
    + intros [= <- <-]. left. split; [reflexivity|].
      exists lk. apply ct_scan_found in SC. exact SC.
    + destruct (ct_splice cf _ lk pre post v) as [n c1] eqn:SP.
      intros [= <- <-]. right. exists lk, pre, post, n. split; auto. split.
      * eapply ct_hash_range; eauto.
      * split; auto. apply ct_scan_split in SC. exact SC.
  - destruct (ct_hash cf v) as [key|] eqn:HK; [|discriminate].
    set (pl := if negb (lk =? key) then _ else _).
    set (pu := if negb (lk =? key) then hd_error _ else _).
    assert (Lpl: forall n, pl = Some n -> ctlive c n).
    { intros n. unfold pl. simpl. rewrite !(wf_tail _ W).
      destruct (negb (lk =? key)); intros E; apply lastopt_Some in E; destruct E as (l' & E);
        [exists lk|exists key]; rewrite E; apply in_or_app; right; now left. }
    assert (Lpu: forall n, pu = Some n -> ctlive c n).
    { intros n. unfold pu. simpl.
      destruct (negb (lk =? key)); intros E; [exists key|exists uk];
      destruct (ct_tab c _); try discriminate; injection E as ->; now left. }
    assert (INS: forall r, (let '(a0, c1) := ct_insert cf (ct_tick_lookup c) key v in @inl _ bad (ATab a0, c1)) = inl r ->
       r = (a, c') -> exists key pre post n, a = ATab n /\ ins c c' v key pre post n).
    { intros r. unfold ct_insert. destruct (ct_insertPos _ v [] _) as [pre post] eqn:IP.
      destruct (ct_splice cf _ key pre post v) as [n c1] eqn:SP.
      intros [= <-] [= <- <-]. exists key, pre, post, n. split; auto. split.
      - eapply ct_hash_range; eauto.
      - split; auto. apply ct_insertPos_split in IP. exact IP. }
    destruct (ct_match _ v pl) eqn:ML, (ct_match _ v pu) eqn:MU, pl as [l|], pu as [u|];
      try discriminate;
      try (intros [= <- <-]; left; split; [reflexivity| simpl; auto]);
      try (intros Q; right; eapply INS; [exact Q|reflexivity]).
    destruct (nltb _ _); intros [= <- <-]; left; split; try reflexivity; simpl; auto.
Qed.

Lemma hit_wf c c' : ctwf c -> hit c c' -> ctwf c' /\ ctext c c'.
Proof. intros W ->. split. now apply ctwf_ticklookup. intros k a H; auto. Qed.

Lemma ins_wf c c' v key pre post n : ctwf c -> ins c c' v key pre post n ->
  ctwf c' /\ ctext c c' /\ ctlive c' n /\ (forall k, ~ In n (ct_tab c k)) /\
  ct_tab c' key = pre ++ n :: post /\ (forall k, k <> key -> ct_tab c' k = ct_tab c k) /\
  ct_heap c' n = CE v 0 /\ (forall x, x <> n -> ct_heap c' x = ct_heap c x).
Proof.
  intros W (A & B & C).
  apply (splice_wf (ct_tick_lookup c) key pre post v n c'); auto.
  now apply ctwf_ticklookup.
Qed.

Lemma ct_lookup_wf c v a c' : ctwf c -> ct_lookup cf c v = inl (a, c') ->
  ctwf c' /\ ctext c c' /\ alive c' a.
Proof.
  intros W H. destruct (ct_lookup_shape _ _ _ _ W H) as [[A B]|(k & pre & post & n & -> & I)].
  - destruct (hit_wf _ _ W A). split; auto. split; auto. eapply ctext_alive; eauto.
  - destruct (ins_wf _ _ _ _ _ _ _ W I) as (X1 & X2 & X3 & _). auto.
Qed.

(** A lookup never changes reference counts: entries that are not live afterwards
    or were live before keep theirs; a new entry starts at 0. *)
Lemma ct_lookup_rc c v a c' : ctwf c -> ct_lookup cf c v = inl (a, c') ->
  forall n, ctlive c' n -> ct_heap c' n = ct_heap c n /\ ctlive c n \/ ~ ctlive c n /\ ct_heap c' n = CE v 0.
Proof.
  intros W H n Ln. destruct (ct_lookup_shape _ _ _ _ W H) as [[A B]|(k & pre & post & m & -> & I)].
  - left. rewrite A in *. split; auto.
  - destruct (ins_wf _ _ _ _ _ _ _ W I) as (X1 & X2 & X3 & X4 & X5 & X6 & X7 & X8).
    destruct (Nat.eq_dec n m) as [->|NE].
    + right. split; auto. intros (k' & Q). now apply (X4 k').
    + left. split; auto. destruct Ln as (k' & Q). exists k'.
      destruct (Z.eq_dec k' k) as [->|NK].
      * rewrite X5 in Q. destruct I as (_ & E & _). rewrite E. apply in_app_or in Q. apply in_or_app. cbn in Q.
        destruct Q as [Q|[Q|Q]]; auto; congruence.
      * now rewrite X6 in Q.
Qed.

Lemma rc_inc_range r : 0 <= r <= RCMAX -> 0 <= rc_inc r <= RCMAX.
Proof. unfold rc_inc. destruct (Z.eqb_spec r RCMAX); lia. Qed.
Lemma rc_dec_range r r' : 0 <= r <= RCMAX -> rc_dec r = Some r' -> 0 <= r' <= RCMAX.
Proof. unfold rc_dec. destruct (Z.eqb_spec r RCMAX); [intros ? [= <-]; lia|].
  destruct (Z.eqb_spec r 0); [discriminate|]. intros ? [= <-]; lia. Qed.

Lemma ct_incRef_wf c p : ctwf c -> alive c (ep_at p) -> ctwf (ct_incRef c p).
Proof.
  intros W L. unfold ct_incRef. destruct (ep_at p); auto. simpl in L.
  destruct W; constructor; simpl; auto.
  - intros a H. rewrite upd_neq; auto. intros ->. destruct L as (k & L). apply wf_lt0 in L. lia.
  - intros a. destruct (upd_cases (ct_heap c) n (CE (ct_value c n) (rc_inc (ce_rc (ct_heap c n)))) a) as [[-> ->]|[NE ->]]; auto.
    simpl. apply rc_inc_range; auto.
Qed.

Lemma ct_decRef_wf c p c' : ctwf c -> alive c (ep_at p) -> ct_decRef c p = Some c' -> ctwf c'.
Proof.
  intros W L. unfold ct_decRef. destruct (ep_at p); try (intros [= <-]; auto). simpl in L.
  destruct (rc_dec _) as [r|] eqn:R; [|discriminate]. intros [= <-].
  destruct W; constructor; simpl; auto.
  - intros a H. rewrite upd_neq; auto. intros ->. destruct L as (k & L). apply wf_lt0 in L. lia.
  - intros a. destruct (upd_cases (ct_heap c) n (CE (ct_value c n) r) a) as [[-> ->]|[NE ->]]; auto.
    simpl. eapply rc_dec_range; eauto.
Qed.

Lemma keepf_In rc l a : In a (keepf rc l) <-> In a l /\ rc a <> 0.
Proof. unfold keepf. rewrite filter_In. rewrite negb_true_iff, Z.eqb_neq. tauto. Qed.
Lemma dropf_In rc l a : In a (dropf rc l) <-> In a l /\ rc a = 0.
Proof. unfold dropf. rewrite filter_In, Z.eqb_eq. tauto. Qed.

Lemma flat_map_NoDup {A B} (f : A -> list B) (l : list A) :
  NoDup l -> (forall x, In x l -> NoDup (f x)) ->
  (forall x y a, In x l -> In y l -> In a (f x) -> In a (f y) -> x = y) -> NoDup (flat_map f l).
Proof.
  induction 1 as [|x l Hx ND IH]; simpl; intros H1 H2. constructor.
  assert (ND1: NoDup (f x)) by (apply H1; auto).
  assert (ND2: NoDup (flat_map f l)) by (apply IH; intros; [apply H1; auto|eapply H2; eauto]).
  assert (D: forall a, In a (f x) -> ~ In a (flat_map f l)).
  { intros a Ha Hb. apply in_flat_map in Hb. destruct Hb as (y & Hy & Hb).
    assert (x = y) by (eapply H2; eauto). subst; auto. }
  revert ND1 D. generalize (f x) as lx. induction lx as [|b lx IHx]; simpl; intros; auto.
  inversion ND1; subst. constructor.
  - intros Q. apply in_app_or in Q. destruct Q; auto. apply (D b); auto.
  - apply IHx; auto.
Qed.

Lemma sumlen_all0 tab keys : (forall k, In k keys -> tab k = []) -> sumlen tab keys = 0.
Proof. induction keys; simpl; intros H; auto. rewrite H by auto. rewrite IHkeys; auto. Qed.

Lemma sumlen_zero tab keys : sumlen tab keys = 0 -> forall k, In k keys -> tab k = [].
Proof.
  induction keys as [|x ks IH]; simpl; [tauto|]. intros H k [->|Hk].
  - pose proof (sumlen_nonneg tab ks). destruct (tab k); auto. cbn [length] in H. lia.
  - apply IH; auto. pose proof (sumlen_nonneg tab ks). lia.
Qed.

(** What a collection does. *)
Lemma ct_gc_spec force c n c' : ctwf c -> ct_gc cf force c = (n, c') ->
  ctwf c' /\ ct_heap c' = ct_heap c /\
  ((n = 0 /\ ct_tab c' = ct_tab c /\ ct_tail c' = ct_tail c /\ ct_avail c' = ct_avail c /\
    ct_count c' = ct_count c /\ ct_gcruns c' = ct_gcruns c) \/
   (ct_gcruns c' = ct_gcruns c + 1 /\ n = ct_count c - ct_count c' /\
    forall k a, In a (ct_tab c' k) <-> In a (ct_tab c k) /\ ce_rc (ct_heap c a) <> 0)) /\
  (n = 0 -> forall k, ct_tab c' k = ct_tab c k) /\
  (forall k, exists f, ct_tab c' k = filter f (ct_tab c k)).
Proof.
  intros W. unfold ct_gc. destruct (_ || _).
  - intros [= <- <-]. simpl. split; [|split; [|split; [|split]]]; auto.
    + destruct W; constructor; simpl; auto.
    + left. repeat split; auto.
    + intros k. exists (fun _ => true). clear. induction (ct_tab c k); simpl; congruence.
  - destruct (gc_buckets_spec (fun a => ce_rc (ct_heap c a)) (ct_keys cf) (ct_keys_NoDup cf)
                (ct_tab c) (ct_tail c) (ct_avail c) 0 0 (wf_tail _ W))
      as (tab' & tail' & avail' & E & K1 & K2 & K3 & (dr & D1 & D2)).
    rewrite E. intros [= <- <-]. simpl.
    set (rc := fun a => ce_rc (ct_heap c a)) in *.
    assert (IK: forall k a, In a (ct_tab c k) -> In k (ct_keys cf)).
    { intros k a H. apply ct_keys_In. apply (wf_range _ W) in H. unfold ct_mask in H. lia. }
    assert (KK: forall k, tab' k = keepf rc (ct_tab c k)).
    { intros k. destruct (in_dec Z.eq_dec k (ct_keys cf)) as [i|n]; auto.
      rewrite K2 by auto. destruct (ct_tab c k) as [|a l] eqn:Q; auto.
      exfalso. apply n, (IK k a). rewrite Q; now left. }
    assert (IT: forall k a, In a (tab' k) <-> In a (ct_tab c k) /\ rc a <> 0).
    { intros. rewrite KK. apply keepf_In. }
    assert (ID: forall a, In a dr <-> exists k, In a (ct_tab c k) /\ rc a = 0).
    { intros a. split; intros H.
      - apply (Permutation_in _ D2) in H. apply in_flat_map in H. destruct H as (k & _ & H).
        apply dropf_In in H. eauto.
      - destruct H as (k & H & R). apply (Permutation_in _ (Permutation_sym D2)).
        apply in_flat_map. exists k. split; eauto. now apply dropf_In. }
    assert (NDdr: NoDup dr).
    { apply (Permutation_NoDup (Permutation_sym D2)). apply flat_map_NoDup.
      - apply ct_keys_NoDup.
      - intros. apply NoDup_filter. apply (wf_nodup _ W).
      - intros x y a _ _ H1 H2. apply dropf_In in H1, H2. eapply (wf_disj _ W); [apply H1|apply H2]. }
    split; [|split; [|split; [|split]]]; auto.
    + constructor; simpl.
      * intros k a H. apply IT in H. eapply (wf_range _ W). apply H.
      * intros k. rewrite KK. apply NoDup_filter, (wf_nodup _ W).
      * intros k k' a H1 H2. apply IT in H1, H2. eapply (wf_disj _ W); [apply H1|apply H2].
      * rewrite D1. clear -NDdr W ID. pose proof (wf_avnd _ W) as A.
        assert (D: forall a, In a dr -> ~ In a (ct_avail c)).
        { intros a H Q. apply ID in H. destruct H as (k & H & _). now apply (wf_avdisj _ W k a). }
        clear ID. induction dr as [|x l IH]; simpl; auto. inversion NDdr; subst.
        constructor. intros Q. apply in_app_or in Q. destruct Q; auto. apply (D x); simpl; auto.
        apply IH; auto. intros; apply D; now right.
      * intros k a H Q. apply IT in Q. rewrite D1 in H. apply in_app_or in H. destruct H as [H|H].
        -- apply ID in H. destruct H as (k' & _ & R). tauto.
        -- apply (wf_avdisj _ W k a); tauto.
      * intros k a H. apply IT in H. eapply (wf_lt _ W). apply H.
      * intros a H. rewrite D1 in H. apply in_app_or in H. destruct H as [H|H].
        -- apply ID in H. destruct H as (k' & H & _). now apply (wf_lt _ W) in H.
        -- now apply (wf_avlt _ W).
      * apply (wf_fresh _ W).
      * intros k. apply K3.
      * apply sumlen_ext. intros. rewrite KK. reflexivity.
      * apply (wf_rc _ W).
      * transitivity (ct_count c); [|apply (wf_peak _ W)]. rewrite (wf_count _ W).
        clear. induction (ct_keys cf) as [|k ks IH]; simpl; [lia|].
        assert (length (keepf rc (ct_tab c k)) <= length (ct_tab c k))%nat.
        { unfold keepf. clear. induction (ct_tab c k) as [|a l IH]; simpl; [lia|]. destruct (negb _); simpl; lia. }
        lia.
      * apply (wf_stats _ W).
      * apply (wf_alloc _ W).
    + right. split; auto. split; auto. rewrite (wf_count _ W).
      clear. induction (ct_keys cf) as [|k ks IH]; cbn [sumlen]; [lia|].
      assert (length (dropf rc (ct_tab c k)) + length (keepf rc (ct_tab c k)) = length (ct_tab c k))%nat.
      { unfold keepf, dropf. clear. induction (ct_tab c k) as [|a l IH]; simpl; [lia|].
        destruct (rc a =? 0); simpl; lia. }
      fold sumlen in *. lia.
    + intros Z0 k. rewrite KK. 
      destruct (in_dec Z.eq_dec k (ct_keys cf)) as [i|n].
      * pose proof (sumlen_zero _ _ Z0 k i) as Q. cbn beta in Q.
        clear -Q. unfold dropf, keepf in *. induction (ct_tab c k) as [|a l IH]; simpl in *; auto.
        destruct (rc a =? 0); simpl in *; [discriminate|]. rewrite IH; auto.
      * destruct (ct_tab c k) as [|a l] eqn:Q; auto. exfalso. apply n, (IK k a). rewrite Q; now left.
    + intros k. exists (fun p => negb (rc p =? 0)). apply KK.
Qed.

Lemma ct_gc_wf force c n c' : ctwf c -> ct_gc cf force c = (n, c') -> ctwf c'.
Proof. intros W H. now destruct (ct_gc_spec _ _ _ _ W H). Qed.

Lemma ct_clear_wf c : ctwf (ct_clear cf c).
Proof.
  destruct Hcf as (A & B & C & D).
  constructor; simpl; try tauto; try (intros; lia); auto using NoDup_nil.
  - rewrite sumlen_all0; auto.
  - intros; unfold RCMAX; lia.
Qed.

Lemma ct_init_wf : ctwf (ct_init (N:=N) cf).
Proof.
  unfold ct_init. destruct (ct_lookup cf (ct_empty cf) nhalf) as [[a c]|] eqn:E; [|apply ctwf_empty].
  destruct (ct_lookup_wf _ _ _ _ ctwf_empty E) as (W & _ & L). apply ct_incRef_wf; auto.
Qed.

End Wf.
