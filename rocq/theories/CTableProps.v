(** Lemmas about the table of real numbers in the form the property theorems use. *)
From Coq Require Import ZArith List Bool Lia Arith Reals Lra Permutation.
From Verif Require Import Num Base CTable CTableWf CTableR CTableHist.
Import ListNotations.
Local Open Scope Z_scope.

Lemma sumlen_flat_map tab keys : sumlen tab keys = Z.of_nat (length (flat_map tab keys)).
Proof. induction keys; simpl; auto. rewrite app_length. lia. Qed.

(** The number reported by getCount is the number of entries. *)
Lemma count_is_number {N : num} cf (c : ctab N) : ctwf cf c ->
  exists l, NoDup l /\ (forall a, In a l <-> ctlive c a) /\ ct_count c = Z.of_nat (length l).
Proof.
  intros W. exists (flat_map (ct_tab c) (ct_keys cf)). split; [|split].
  - apply flat_map_NoDup.
    + apply ct_keys_NoDup.
    + intros; apply (wf_nodup _ _ W).
    + intros x y a _ _ Hx Hy. eapply (wf_disj _ _ W); eauto.
  - intros a. rewrite in_flat_map. split.
    + intros (k & _ & H). now exists k.
    + intros (k & H). exists k. split; auto. apply ct_keys_In.
      apply (wf_range _ _ W) in H. unfold ct_mask in H. lia.
  - rewrite (wf_count _ _ W). apply sumlen_flat_map.
Qed.

Section R.
Context (cf : ctcfg) (Hcf : cfgok cf) (tol : R) (Htol : (0 <= tol)%R)
        (Hsmall : (2 * tol * IZR (ct_mask cf) < 1)%R).
Local Notation N := (NumR tol).
Implicit Types c : ctab N.

Lemma within_tolerance c v : ctreach cf c -> (0 <= v)%R ->
  exists a c', ct_lookup cf c v = inl (a, c') /\ alive c' a /\
    (Rabs (valueof tol c' a - v) <= tol)%R.
Proof.
  intros R P. destruct (ctreach_ord cf Hcf tol Htol Hsmall c R) as [W O].
  destruct (ct_lookup_R cf Hcf tol Htol Hsmall c v W O P) as (a & c' & E & _ & _ & _ & A & B & _).
  eauto.
Qed.

Lemma no_duplicates c : ctreach cf c ->
  (forall a b, ctlive c a -> ctlive c b -> a <> b ->
     (tol < Rabs (ct_value c a - ct_value c b))%R) /\
  (forall a, ctlive c a -> (tol < Rabs (ct_value c a - 0))%R /\
     (tol < Rabs (ct_value c a - 1))%R /\ (tol < Rabs (ct_value c a - sqrt 2 / 2))%R) /\
  (forall v a c', ct_lookup cf c v = inl (a, c') ->
     (exists b, alive c b /\ (Rabs (valueof tol c b - v) <= tol)%R) ->
     forall n, ctlive c' n <-> ctlive c n).
Proof.
  intros R. destruct (ctreach_ord cf Hcf tol Htol Hsmall c R) as [W O].
  split; [|split].
  - apply (co_sep _ _ _ O).
  - intros a L. split; [|split]. now apply (co_zero _ _ _ O). now apply (co_one _ _ _ O).
    now apply (co_sq2 _ _ _ O).
  - intros v a c' H (b & Lb & Db) n.
    assert (P: (0 <= v)%R).
    { unfold ct_lookup in H. simpl nleb in H. unfold Rleb in H. destruct (Rle_dec 0 v); [auto|discriminate]. }
    destruct (ct_lookup_R cf Hcf tol Htol Hsmall c v W O P) as (a' & c1 & E & _ & _ & X & A & B & D).
    rewrite H in E. injection E as <- <-.
    destruct D as [(Hh & _)|((m & -> & NL & VV & Far & _) & F0 & F1 & F2)].
    + unfold hit in Hh. subst c'. reflexivity.
    + exfalso. destruct b as [| | |b|]; simpl in Db.
      * rewrite Rabs_minus_sym in Db. lra.
      * rewrite Rabs_minus_sym in Db. lra.
      * rewrite Rabs_minus_sym in Db. lra.
      * specialize (Far b Lb). unfold V in *. lra.
      * destruct Lb.
Qed.

Lemma stable c : ctreach cf c ->
  (forall n, ctlive c n ->
     exists c', ct_lookup cf c (ct_value c n) = inl (ATab n, c') /\ ct_count c' = ct_count c) /\
  (forall v a c', ct_lookup cf c v = inl (a, c') ->
     exists c'', ct_lookup cf c' v = inl (a, c'') /\ ct_count c'' = ct_count c').
Proof.
  intros R. destruct (ctreach_ord cf Hcf tol Htol Hsmall c R) as [W O]. split.
  - intros n L.
    assert (P: (0 <= V tol c n)%R) by (destruct L as (k & L); now apply (co_hash _ _ _ O) in L).
    destruct (ct_lookup_R cf Hcf tol Htol Hsmall c _ W O P) as (a & c' & E & _).
    destruct (lookup_own cf Hcf tol Htol Hsmall c n a c' W O L E) as [-> Hh].
    exists c'. split. exact E. unfold hit in Hh; subst c'; reflexivity.
  - intros v a c' H.
    assert (P: (0 <= v)%R).
    { unfold ct_lookup in H. simpl nleb in H. unfold Rleb in H. destruct (Rle_dec 0 v); [auto|discriminate]. }
    destruct (lookup_twice cf Hcf tol Htol Hsmall c v a c' W O P H) as (c'' & E & Hh).
    exists c''. split; auto. unfold hit in Hh; subst c''; reflexivity.
Qed.

(** After a collection every referenced entry is still found by its value. *)
Lemma found_after_gc c f n c' a : ctreach cf c -> ct_gc cf f c = (n, c') ->
  ctlive c a -> ce_rc (ct_heap c a) <> 0 ->
  exists c'', ct_lookup cf c' (ct_value c a) = inl (ATab a, c'').
Proof.
  intros R G L NZ.
  assert (R': ctreach cf c') by (eapply re_step; [exact R|econstructor; exact G]).
  pose proof (ctreach_wf cf c Hcf R) as W.
  destruct (ct_gc_spec cf f c n c' W G) as (W' & H & D & _ & _).
  assert (L': ctlive c' a).
  { destruct L as (k & L). exists k. destruct D as [(_ & E & _)|(_ & _ & D)].
    - now rewrite E.
    - apply D; auto. }
  destruct (proj1 (stable c' R') a L') as (c'' & E & _). exists c''.
  unfold ct_value in *. rewrite H in E. exact E.
Qed.

End R.

Lemma gc_exact {N : num} cf (c : ctab N) f n c' : cfgok cf -> ctreach cf c -> ct_gc cf f c = (n, c') ->
  ct_gcruns c' <> ct_gcruns c ->
  (forall a, ctlive c' a <-> ctlive c a /\ ce_rc (ct_heap c a) <> 0) /\
  (forall a, ct_heap c' a = ct_heap c a) /\
  n = ct_count c - ct_count c' /\
  (exists l, NoDup l /\ (forall a, In a l <-> ctlive c' a) /\ ct_count c' = Z.of_nat (length l)).
Proof.
  intros Hcf R G Ran. pose proof (ctreach_wf cf c Hcf R) as W.
  destruct (ct_gc_spec cf f c n c' W G) as (W' & H & D & _ & _).
  destruct D as [(_ & _ & _ & _ & _ & E)|(_ & E & D)]; [congruence|].
  split; [|split; [|split]]; auto.
  - intros a. split.
    + intros (k & L). apply D in L. split; [now exists k|tauto].
    + intros ((k & L) & NZ). exists k. apply D; auto.
  - intros; now rewrite H.
  - now apply (count_is_number cf).
Qed.

Lemma gc_not_run {N : num} cf (c : ctab N) f n c' : cfgok cf -> ctreach cf c -> ct_gc cf f c = (n, c') ->
  ct_gcruns c' = ct_gcruns c ->
  n = 0 /\ (forall a, ctlive c' a <-> ctlive c a) /\ (forall a, ct_heap c' a = ct_heap c a).
Proof.
  intros Hcf R G Ran. pose proof (ctreach_wf cf c Hcf R) as W.
  destruct (ct_gc_spec cf f c n c' W G) as (W' & H & D & _ & _).
  destruct D as [(E1 & E2 & _)|(E & _)]; [|lia].
  split; auto. split; intros; [|now rewrite H]. unfold ctlive. now rewrite E2.
Qed.

(** ** Reference counters *)

Lemma rc_inc_dec r : 0 <= r <= RCMAX -> 
  (r < RCMAX - 1 -> rc_dec (rc_inc r) = Some r) /\
  (rc_inc r = RCMAX -> rc_dec (rc_inc r) = Some RCMAX) /\
  rc_inc RCMAX = RCMAX /\ rc_dec RCMAX = Some RCMAX /\
  rc_dec 0 = None /\ (0 < r -> rc_dec r <> None) /\
  r <= rc_inc r <= RCMAX.
Proof.
  unfold rc_dec, rc_inc, RCMAX. intros H.
  repeat match goal with |- context [?a =? ?b] => destruct (Z.eqb_spec a b) end;
  repeat split; intros; try lia; try discriminate; try (f_equal; lia).
Qed.

(** Applying a sequence of changes ([true] = increment) to a counter; a throwing
    decrement leaves it alone. *)
Fixpoint rc_run (l : list bool) (r : Z) : Z :=
  match l with
  | [] => r
  | true :: l => rc_run l (rc_inc r)
  | false :: l => rc_run l (match rc_dec r with Some r' => r' | None => r end)
  end.

Lemma rc_run_range l : forall r, 0 <= r <= RCMAX -> 0 <= rc_run l r <= RCMAX.
Proof.
  induction l as [|[] l IH]; intros r H; simpl; auto; apply IH.
  - unfold rc_inc. destruct (Z.eqb_spec r RCMAX); lia.
  - unfold rc_dec. destruct (Z.eqb_spec r RCMAX); auto. destruct (Z.eqb_spec r 0); lia.
Qed.
Lemma rc_run_max l : rc_run l RCMAX = RCMAX.
Proof. induction l as [|[] l IH]; simpl; auto. Qed.

(** As long as the maximum is not reached the counter is the plain difference. *)
Lemma rc_run_exact l : forall r, 0 <= r ->
  (forall l1 l2, l = l1 ++ l2 ->
     0 <= r + Z.of_nat (count_occ bool_dec l1 true) - Z.of_nat (count_occ bool_dec l1 false) < RCMAX) ->
  rc_run l r = r + Z.of_nat (count_occ bool_dec l true) - Z.of_nat (count_occ bool_dec l false).
Proof.
  induction l as [|b l IH]; intros r Hr H; [simpl; lia|].
  pose proof (H [] (b :: l) eq_refl) as H0. cbn [count_occ] in H0.
  pose proof (H [b] l eq_refl) as H1.
  destruct b; cbn [count_occ rc_run bool_dec bool_rec bool_rect] in *.
  - unfold rc_inc. destruct (Z.eqb_spec r RCMAX); [lia|]. simpl in H1. rewrite IH; [|lia|].
    + simpl. lia.
    + intros l1 l2 ->. specialize (H (true :: l1) l2 eq_refl). simpl in H. lia.
  - unfold rc_dec. destruct (Z.eqb_spec r RCMAX); [lia|]. simpl in H1.
    destruct (Z.eqb_spec r 0); [lia|]. rewrite IH; [|lia|].
    + simpl. lia.
    + intros l1 l2 ->. specialize (H (false :: l1) l2 eq_refl). simpl in H. lia.
Qed.

(** An entry whose counter is at the maximum survives everything but [clear]. *)
Lemma pinned_forever {N : num} cf (c : ctab N) o c' a : cfgok cf -> ctwf cf c ->
  ctlive c a -> ce_rc (ct_heap c a) = RCMAX -> ctstep cf c o c' -> o <> OClear ->
  ctlive c' a /\ ct_heap c' a = ct_heap c a.
Proof.
  intros Hcf W L M S NC. destruct S; try congruence.
  - destruct (ct_lookup_wf cf Hcf _ _ _ _ W H) as (_ & X & _). split.
    eapply ctext_live; eauto. eapply ctext_heap; eauto.
  - unfold ct_incRef. destruct (ep_at p) as [| | |m|]; auto. split; auto. simpl.
    destruct (Nat.eq_dec a m) as [->|NE]; [rewrite upd_eq|rewrite upd_neq; auto].
    rewrite M. unfold rc_inc, ct_value. rewrite Z.eqb_refl, <- M. now destruct (ct_heap c m).
  - unfold ct_decRef in H0. destruct (ep_at p) as [| | |m|]; try (injection H0 as <-; auto; fail).
    destruct (rc_dec _) as [r|] eqn:E; [|discriminate]. injection H0 as <-. split; auto. simpl.
    destruct (Nat.eq_dec a m) as [->|NE]; [rewrite upd_eq|rewrite upd_neq; auto].
    rewrite M in E. unfold rc_dec in E. rewrite Z.eqb_refl in E. injection E as <-.
    unfold ct_value. rewrite <- M. now destruct (ct_heap c m).
  - auto.
  - destruct (ct_gc_spec cf f c n c' W H) as (_ & E & D & _ & _). split; [|now rewrite E].
    destruct L as (k & L). exists k. destruct D as [(_ & -> & _)|(_ & _ & D)]; auto.
    apply D. split; auto. rewrite M. unfold RCMAX; lia.
Qed.

(** Changing the counter of an entry that was handed out keeps the invariant. *)
Lemma set_rc_wf {N : num} cf (c : ctab N) a r : ctwf cf c -> (a < ct_next c)%nat -> 0 <= r <= RCMAX ->
  ctwf cf (set_heap c (upd (ct_heap c) a (CE (ct_value c a) r))).
Proof.
  intros W L H. destruct W; constructor; simpl; auto.
  - intros x Hx. rewrite upd_neq by lia. auto.
  - intros x. destruct (Nat.eq_dec x a) as [->|NE]; [rewrite upd_eq|rewrite upd_neq]; auto.
Qed.
