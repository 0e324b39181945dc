(** Histories of the table of real numbers and the invariants along them. *)
From Coq Require Import ZArith List Bool Lia Arith Reals Lra Sorted.
From Verif Require Import Num Base CTable CTableWf CTableR.
Import ListNotations.
Local Open Scope Z_scope.

(** The public calls on a ComplexTable object (ComplexTable.hpp:150, 257, 280, 304, 352). *)
Inductive ctop (N : num) :=
  | OLookup (v : N) | OInc (p : eptr) | ODec (p : eptr) | OGc (force : bool) | OClear.
Arguments OLookup {N}. Arguments OInc {N}. Arguments ODec {N}. Arguments OGc {N}. Arguments OClear {N}.

(** One call.  A [decRef] that throws leaves the table as it was
    (ComplexTable.hpp:293-296), so it is a possible step as well.  Reference counts may
    only be changed through pointers to entries that exist (or static ones). *)
Inductive ctstep {N : num} (cf : ctcfg) : ctab N -> ctop N -> ctab N -> Prop :=
  | st_lookup c v a c' : ct_lookup cf c v = inl (a, c') -> ctstep cf c (OLookup v) c'
  | st_inc c p : alive c (ep_at p) -> ctstep cf c (OInc p) (ct_incRef c p)
  | st_dec c p c' : alive c (ep_at p) -> ct_decRef c p = Some c' -> ctstep cf c (ODec p) c'
  | st_decthrow c p : alive c (ep_at p) -> ct_decRef c p = None -> ctstep cf c (ODec p) c
  | st_gc c f n c' : ct_gc cf f c = (n, c') -> ctstep cf c (OGc f) c'
  | st_clear c : ctstep cf c OClear (ct_clear cf c).

(** States reachable from a freshly constructed table. *)
Inductive ctreach {N : num} (cf : ctcfg) : ctab N -> Prop :=
  | re_init : ctreach cf (ct_init cf)
  | re_step c o c' : ctreach cf c -> ctstep cf c o c' -> ctreach cf c'.

Lemma ctstep_wf {N : num} cf (c : ctab N) o c' : cfgok cf -> ctwf cf c -> ctstep cf c o c' -> ctwf cf c'.
Proof.
  intros Hcf W S. destruct S.
  - now destruct (ct_lookup_wf cf Hcf _ _ _ _ W H).
  - now apply ct_incRef_wf.
  - eapply ct_decRef_wf; eauto.
  - auto.
  - eapply ct_gc_wf; eauto.
  - now apply ct_clear_wf.
Qed.

Lemma ctreach_wf {N : num} cf (c : ctab N) : cfgok cf -> ctreach cf c -> ctwf cf c.
Proof.
  intros Hcf R. induction R. now apply ct_init_wf. eapply ctstep_wf; eauto.
Qed.

(** State after a lookup (unchanged if the lookup is outside its domain). *)
Definition ct_lookup_st {N : num} cf (c : ctab N) v : ctab N :=
  match ct_lookup cf c v with inl (_, c') => c' | inr _ => c end.
Lemma ct_lookup_st_reach {N : num} cf (c : ctab N) v : ctreach cf c -> ctreach cf (ct_lookup_st cf c v).
Proof.
  intros R. unfold ct_lookup_st. destruct (ct_lookup cf c v) as [[a c']|] eqn:E; auto.
  eapply re_step; [exact R|econstructor; exact E].
Qed.

Section R.
Context (cf : ctcfg) (Hcf : cfgok cf) (tol : R) (Htol : (0 <= tol)%R)
        (Hsmall : (2 * tol * IZR (ct_mask cf) < 1)%R).
Local Notation N := (NumR tol).
Implicit Types c : ctab N.

(** Same chains, same values (only counts or statistics differ). *)
Lemma ord_same c c' : (forall k, ct_tab c' k = ct_tab c k) -> (forall a, V tol c' a = V tol c a) ->
  ctord cf tol c -> ctord cf tol c'.
Proof.
  intros E1 E2 O.
  assert (L: forall a, ctlive c' a -> ctlive c a) by (intros a (k & H); exists k; now rewrite <- E1).
  constructor.
  - intros k a. rewrite E1, !E2. apply (co_hash _ _ _ O).
  - intros a b Ha Hb. rewrite !E2. apply (co_sep _ _ _ O); auto.
  - intros a Ha. rewrite E2. apply (co_zero _ _ _ O); auto.
  - intros a Ha. rewrite E2. apply (co_one _ _ _ O); auto.
  - intros a Ha. rewrite E2. apply (co_sq2 _ _ _ O); auto.
  - intros k. rewrite E1. pose proof (co_sorted _ _ _ O k) as S.
    induction S; constructor; auto.
    rewrite Forall_forall in *. intros x Hx. rewrite !E2. auto.
Qed.

Lemma V_incRef c p a : V tol (ct_incRef c p) a = V tol c a.
Proof.
  unfold V, ct_incRef, ct_value. destruct (ep_at p) as [| | |m|]; auto.
  simpl. destruct (Nat.eq_dec a m) as [->|E]; [rewrite upd_eq|rewrite upd_neq]; auto.
Qed.
Lemma V_decRef c p c' a : ct_decRef c p = Some c' -> V tol c' a = V tol c a.
Proof.
  unfold V, ct_decRef, ct_value. destruct (ep_at p) as [| | |m|]; try (intros [= <-]; auto).
  destruct (rc_dec _) as [r|]; intros E; [|discriminate]. injection E as <-.
  simpl. destruct (Nat.eq_dec a m) as [->|Q]; [rewrite upd_eq|rewrite upd_neq]; auto.
Qed.

Lemma ord_filter c c' : (forall k, exists f, ct_tab c' k = filter f (ct_tab c k)) ->
  (forall a, V tol c' a = V tol c a) -> ctord cf tol c -> ctord cf tol c'.
Proof.
  intros E1 E2 O.
  assert (I: forall k a, In a (ct_tab c' k) -> In a (ct_tab c k)).
  { intros k a. destruct (E1 k) as (f & ->). rewrite filter_In. tauto. }
  assert (L: forall a, ctlive c' a -> ctlive c a) by (intros a (k & H); exists k; now apply I).
  constructor.
  - intros k a H. rewrite !E2. apply (co_hash _ _ _ O). auto.
  - intros a b Ha Hb. rewrite !E2. apply (co_sep _ _ _ O); auto.
  - intros a Ha. rewrite E2. apply (co_zero _ _ _ O); auto.
  - intros a Ha. rewrite E2. apply (co_one _ _ _ O); auto.
  - intros a Ha. rewrite E2. apply (co_sq2 _ _ _ O); auto.
  - intros k. destruct (E1 k) as (f & ->). pose proof (co_sorted _ _ _ O k) as S.
    induction S as [|a l S IH F]; simpl; [constructor|].
    destruct (f a); auto. constructor; auto.
    rewrite Forall_forall in *. intros x Hx. rewrite filter_In in Hx. rewrite !E2. apply F; tauto.
Qed.

Lemma ord_nil c : (forall k, ct_tab c k = []) -> ctord cf tol c.
Proof.
  intros E. assert (L: forall a, ~ ctlive c a) by (intros a (k & H); rewrite E in H; auto).
  constructor; intros; try (now exfalso; eapply L; eauto).
  - rewrite E in H. destruct H.
  - rewrite E. constructor.
Qed.

Lemma ctstep_ord c o c' : ctwf cf c -> ctord cf tol c -> ctstep cf c o c' -> ctord cf tol c'.
Proof.
  intros W O S. destruct S.
  - destruct (Rle_dec 0 v) as [P|P].
    + destruct (ct_lookup_R cf Hcf tol Htol Hsmall c v W O P) as (a' & c1 & E & _ & O' & _).
      rewrite H in E. injection E as <- <-. auto.
    + unfold ct_lookup in H. simpl nleb in H. unfold Rleb in H.
      destruct (Rle_dec 0 v); [contradiction|discriminate].
  - apply (ord_same c); auto. intros k. unfold ct_incRef; destruct (ep_at p); auto.
    apply V_incRef.
  - apply (ord_same c); auto. intros k. unfold ct_decRef in H0.
    destruct (ep_at p); try (injection H0 as <-; auto; fail).
    destruct (rc_dec _); [|discriminate]. injection H0 as <-; auto.
    intros; eapply V_decRef; eauto.
  - auto.
  - destruct (ct_gc_spec cf f c n c' W H) as (_ & E & _ & _ & F).
    apply (ord_filter c); auto. intros a. unfold V, ct_value. now rewrite E.
  - apply ord_nil. auto.
Qed.

Lemma ct_init_ord : ctord cf tol (ct_init cf).
Proof.
  unfold ct_init.
  assert (O: ctord cf tol (ct_empty (N:=N) cf)) by (apply ord_nil; auto).
  pose proof (ctwf_empty (N:=N) cf Hcf) as W.
  destruct (ct_lookup cf (ct_empty cf) nhalf) as [[a c]|] eqn:E; auto.
  apply (ctstep_ord c (OInc (EP false a))); auto.
  - now destruct (ct_lookup_wf cf Hcf _ _ _ _ W E).
  - eapply ctstep_ord; [exact W|exact O|]. econstructor; eauto.
  - constructor. now destruct (ct_lookup_wf cf Hcf _ _ _ _ W E) as (_ & _ & ?).
Qed.

Lemma ctreach_ord c : ctreach cf c -> ctwf cf c /\ ctord cf tol c.
Proof.
  intros R. induction R as [|c o c' R [W O] S].
  - split; [now apply ct_init_wf|apply ct_init_ord].
  - split; [eapply ctstep_wf; eauto|eapply ctstep_ord; eauto].
Qed.

(** Two addresses of existing entries whose values are within tolerance of the same
    looked-up value; shared helper for stability. *)
Lemma lookup_own c n a c' : ctwf cf c -> ctord cf tol c -> ctlive c n ->
  ct_lookup cf c (V tol c n) = inl (a, c') -> a = ATab n /\ hit c c'.
Proof.
  intros W O L H.
  assert (P: (0 <= V tol c n)%R) by (destruct L as (k & L); now apply (co_hash _ _ _ O) in L).
  destruct (ct_lookup_R cf Hcf tol Htol Hsmall c _ W O P) as (a' & c1 & E & W' & O' & X & A & B & D).
  rewrite H in E. injection E as <- <-.
  destruct D as [(Hh & Al & St)|((m & -> & NL & VV & Far & _) & _)].
  - split; auto.
    destruct a as [| | |m|].
    + exfalso. pose proof (co_zero _ _ _ O n L). pose proof (co_one _ _ _ O n L).
      pose proof (co_sq2 _ _ _ O n L). simpl in St. destruct (St I) as [|[|]]; lra.
    + exfalso. pose proof (co_zero _ _ _ O n L). pose proof (co_one _ _ _ O n L).
      pose proof (co_sq2 _ _ _ O n L). simpl in St. destruct (St I) as [|[|]]; lra.
    + exfalso. pose proof (co_zero _ _ _ O n L). pose proof (co_one _ _ _ O n L).
      pose proof (co_sq2 _ _ _ O n L). simpl in St. destruct (St I) as [|[|]]; lra.
    + destruct (Nat.eq_dec m n) as [->|NE]; auto. exfalso.
      assert (L': ctlive c' n) by (eapply ctext_live; eauto).
      pose proof (co_sep _ _ _ O' m n A L' NE) as S. simpl in B.
      assert (VE: V tol c' n = V tol c n) by (unfold V, ct_value; now rewrite (ctext_heap _ _ _ X L)).
      rewrite VE in S. lra.
    + destruct Al.
  - exfalso. specialize (Far n L). unfold Rminus in Far. rewrite Rplus_opp_r, Rabs_R0 in Far. lra.
Qed.

Lemma ct_lookup_ticks c c' v a c1 :
  ct_heap c' = ct_heap c -> ct_tab c' = ct_tab c -> ct_tail c' = ct_tail c ->
  ct_lookup cf c v = inl (a, c1) -> hit c c1 ->
  ct_lookup cf c' v = inl (a, ct_tick_hit (ct_tick_lookup c')).
Proof.
  intros E1 E2 E3 H Hh. unfold hit in Hh.
  assert (NI: forall k pre post n cx, ct_splice cf (ct_tick_lookup c) k pre post v = (n, cx) -> cx <> c1).
  { intros k pre post n cx S ->. rewrite Hh in S. unfold ct_splice in S.
    destruct (ct_getEntry cf (ct_tick_lookup c)) as [x cc] eqn:G.
    apply (f_equal (fun q => ct_inserts (snd q))) in S. simpl in S.
    assert (ct_inserts cc = ct_inserts c).
    { unfold ct_getEntry in G. destruct (ct_avail (ct_tick_lookup c)); injection G as <- <-; auto. }
    lia. }
  unfold ct_lookup in *.
  destruct (nleb n0 v); [cbn [negb] in *|discriminate].
  destruct (approx_zero v); [injection H as <- _; auto|].
  destruct (approx_one v); [injection H as <- _; auto|].
  destruct (approx_eq v nsq2); [injection H as <- _; auto|].
  destruct (ct_hash cf (nsub v ntol)) as [lk|] eqn:HL; [|discriminate].
  destruct (ct_hash cf (nadd v ntol)) as [uk|] eqn:HU; [|discriminate].
  destruct (Z.eqb_spec uk lk) as [->|NE].
  - unfold ct_findOrInsert in *. simpl ct_tab in *. rewrite E2.
    assert (SC: forall l pre, ct_scan (ct_tick_lookup c') v (nadd v ntol) pre l =
                 ct_scan (ct_tick_lookup c) v (nadd v ntol) pre l).
    { induction l as [|x l IH]; intros; simpl; auto. unfold ct_value; simpl. rewrite E1.
      destruct (Rleb _ _); auto. destruct (approx_eq _ _); auto. }
    rewrite SC. destruct (ct_scan _ v _ [] _) as [n|[pre post]].
    + injection H as <- _. auto.
    + destruct (ct_splice cf _ lk pre post v) as [n cx] eqn:SP. injection H as _ <-.
      exfalso. eapply NI; eauto.
  - destruct (ct_hash cf v) as [key|]; [|discriminate].
    simpl ct_tail in *. simpl ct_tab in *. rewrite E2, E3.
    assert (M: forall p, ct_match (ct_tick_lookup c') v p = ct_match (ct_tick_lookup c) v p).
    { intros [p|]; auto. simpl. unfold ct_value; simpl. now rewrite E1. }
    rewrite !M.
    assert (VV: forall l, ct_value (ct_tick_lookup c') l = ct_value (ct_tick_lookup c) l)
      by (intros; unfold ct_value; simpl; now rewrite E1).
    set (pl := if negb (lk =? key) then _ else _) in *.
    set (pu := if negb (lk =? key) then hd_error _ else _) in *.
    assert (INS: (let '(a0, c2) := ct_insert cf (ct_tick_lookup c) key v in @inl _ bad (ATab a0, c2)) = inl (a, c1) -> False).
    { unfold ct_insert. destruct (ct_insertPos _ v [] _) as [pre post].
      destruct (ct_splice cf _ key pre post v) as [n cx] eqn:SP. intros [= _ <-]. eapply NI; eauto. }
    destruct (ct_match _ v pl), (ct_match _ v pu), pl as [l|], pu as [u|];
      try (exfalso; apply INS; exact H); try (injection H as <- _; reflexivity).
    rewrite !VV. destruct (nltb _ _); injection H as <- _; reflexivity.
Qed.

(** Looking a value up twice gives the same entry. *)
Lemma lookup_twice c v a c' : ctwf cf c -> ctord cf tol c -> (0 <= v)%R ->
  ct_lookup cf c v = inl (a, c') ->
  exists c'', ct_lookup cf c' v = inl (a, c'') /\ hit c' c''.
Proof.
  intros W O P H.
  destruct (ct_lookup_R cf Hcf tol Htol Hsmall c _ W O P) as (a' & c1 & E & W' & O' & X & A & B & D).
  rewrite H in E. injection E as <- <-.
  destruct D as [(Hh & Al & St)|((m & -> & NL & VV & Far & _) & _)].
  - exists (ct_tick_hit (ct_tick_lookup c')). split; [|reflexivity].
    unfold hit in Hh. subst c'.
    apply (ct_lookup_ticks c _ v a (ct_tick_hit (ct_tick_lookup c))); auto. reflexivity.
  - destruct (ct_lookup_R cf Hcf tol Htol Hsmall c' _ W' O' P) as (a2 & c2 & E2 & _).
    rewrite <- VV in E2. destruct (lookup_own c' m a2 c2 W' O' A E2) as [-> Hh].
    exists c2. split; auto. now rewrite <- VV.
Qed.

End R.
