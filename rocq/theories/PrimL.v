(** Specifications of the operations on complex numbers and temporaries. *)
From Coq Require Import ZArith List Bool Lia Arith Reals Lra Permutation.
From Verif Require Import Num Base CTable CTableWf Cx State Pkg Inv InvL.
Import ListNotations.
Local Open Scope Z_scope.

(** Parameters for which the package is meant to work (the defaults satisfy this). *)
Definition gok {N} (g : cfg N) : Prop :=
  cfgok (g_ct g) /\ 1 <= g_ccgrow g /\ 2 <= g_ccinit g /\ Z.Even (g_ccinit g).

Section PrimL.
Context {N : num} {g : cfg N} {nb : kind -> Z} {X : numx N (g_ct g)} (G : gok g).
Local Notation cf := (g_ct g).
Local Notation co := (co N).
Local Notation Cw := (Cw N g X).
Local Notation Cv := (Cv N g X).
Local Notation Cv2 := (Cv2 N g X).
Local Notation rv := (rv N g X).
Local Notation ptab := (ptab N g X).
Local Notation wtab := (wtab N g X).
Local Notation cinv := (cinv N g nb X).
Local Notation tinv := (tinv N g X).
Local Notation inv := (inv N g nb X).
Local Notation step := (step N g nb X).
Local Notation owns := (owns N).
Local Notation wok := (wok N g X).
Local Notation wp := (wp N).
Local Notation al0 := (al0 N g X).
Implicit Types (s : st N).

(** ** Plumbing *)

Lemma wp_ok {A} al (m : M N A) s a s' (Q : A -> st N -> Prop) : m s = Ok a s' -> Q a s' -> wp al m s Q.
Proof. intros E H. unfold Inv.wp. now rewrite E. Qed.
Lemma wp_assert al b s (Q : unit -> st N -> Prop) : b = true -> Q tt s -> wp al (assertM b) s Q.
Proof. intros -> H. exact H. Qed.

Lemma inv_cc s c : inv s -> inv (set_cc s c).
Proof. intros [A [B1 B2 B3 B4]]. constructor. exact A. constructor; auto. Qed.
Lemma step_cc O s c : inv s -> keep N O (s_cc s) c -> step O s (set_cc s c).
Proof. intros I K. constructor. now apply inv_cc. apply (qext_refl (co s)). exact K. Qed.
Lemma step_cc_any O s c : inv s -> cc_val c = cc_val (s_cc s) -> step O s (set_cc s c).
Proof. intros I K. apply step_cc; auto. intros a _. now rewrite K. Qed.

Lemma owns_perm c O O' : Permutation O O' -> owns c O -> owns c O'.
Proof.
  intros P [A1 A2 A3 A4 A5 A6 A7 A8 A9 A10]. constructor; auto.
  - eapply Permutation_NoDup; eauto.
  - intros a. rewrite <- A4. split; apply Permutation_in; auto using Permutation_sym.
  - now rewrite <- (Permutation_length P).
Qed.

(** The cache with the values of two slots replaced. *)
Definition ccw (p q : nat) (v : N * N) (c : ccache N) : ccache N :=
  CC (upd (upd (cc_val c) p (fst v)) q (snd v)) (cc_avail c) (cc_next c) (cc_allocs c)
     (cc_allocsz c) (cc_count c) (cc_peak c).
Definition setc (p q : nat) (v : N * N) s : st N := set_cc s (ccw p q v (s_cc s)).

Lemma owns_ccw p q v c O : owns c O -> owns (ccw p q v c) O.
Proof. intros []. constructor; auto. Qed.
Lemma setc_step O s p q v : inv s -> ~ In p O -> ~ In q O -> step O s (setc p q v s).
Proof.
  intros I Hp Hq. apply step_cc; auto. intros a Ha. simpl. rewrite !upd_neq; auto; congruence.
Qed.
Lemma setc_val s p q v : p <> q -> cval (setc p q v s) (cslot p q) = v.
Proof.
  intros H. unfold cval, val; simpl. rewrite upd_neq, !upd_eq by auto. now destruct v.
Qed.
Lemma setc_Cv s p q v : p <> q -> Cv (setc p q v s) (cslot p q) = Cv2 v.
Proof. intros H. unfold Inv.Cv. now rewrite setc_val. Qed.
Lemma setc_setc s p q v v' : p <> q -> setc p q v' (setc p q v s) =
  set_cc s (CC (upd (upd (upd (upd (cc_val (s_cc s)) p (fst v)) q (snd v)) p (fst v')) q (snd v'))
               (cc_avail (s_cc s)) (cc_next (s_cc s)) (cc_allocs (s_cc s))
     (cc_allocsz (s_cc s)) (cc_count (s_cc s)) (cc_peak (s_cc s))).
Proof. reflexivity. Qed.

Lemma val_other s c p : (forall a, ep_at p = ACache a -> cc_val c a = cc_val (s_cc s) a) ->
  val (set_cc s c) p = val s p.
Proof.
  intros H. unfold val, aval; simpl. destruct (ep_at p); auto. now rewrite H.
Qed.

Lemma wr_slot p v s : wr (EP false (ACache p)) v s = Ok tt (set_cc s
  (CC (upd (cc_val (s_cc s)) p v) (cc_avail (s_cc s)) (cc_next (s_cc s)) (cc_allocs (s_cc s))
      (cc_allocsz (s_cc s)) (cc_count (s_cc s)) (cc_peak (s_cc s)))).
Proof. reflexivity. Qed.

Lemma wr2 p q (a b : N) s :
  bind (wr (EP false (ACache p)) a) (fun _ => wr (EP false (ACache q)) b) s = Ok tt (setc p q (a, b) s).
Proof. reflexivity. Qed.

Lemma ceqb_slot p q : ceqb (cslot p q) Czero = false /\ ceqb (cslot p q) Cone = false.
Proof. split; reflexivity. Qed.

Lemma setVal_eq s p q w : ep_at (ci w) <> ACache p ->
  setVal (cslot p q) w s = Ok tt (setc p q (cval s w) s).
Proof.
  intros H. unfold setVal, bind, gets. simpl cr. simpl ci. rewrite wr_slot.
  match goal with |- context [val ?x (ci w)] => assert (E: val x (ci w) = val s (ci w)) end.
  { apply val_other. intros a Ea. simpl. rewrite upd_neq; auto. congruence. }
  rewrite E. reflexivity.
Qed.

Lemma addInto_eq s p q a b : ep_at (ci a) <> ACache p -> ep_at (ci b) <> ACache p ->
  addInto (cslot p q) a b s =
  Ok tt (setc p q (nadd (val s (cr a)) (val s (cr b)), nadd (val s (ci a)) (val s (ci b))) s).
Proof.
  intros Ha Hb. unfold addInto, bind, assertM, gets. simpl negb. cbn [andb]. cbv beta iota.
  simpl cr. simpl ci. rewrite wr_slot.
  match goal with |- context [val ?x (ci a)] => set (s1 := x) end.
  assert (E: val s1 (ci a) = val s (ci a) /\ val s1 (ci b) = val s (ci b)).
  { split; apply val_other; intros c Ec; simpl; rewrite upd_neq; auto; congruence. }
  destruct E as [-> ->]. reflexivity.
Qed.

(** ** Exact comparisons *)

Lemma x_apx0 : ex X -> forall a : N, approx_zero a = true <-> toR X a = 0%R.
Proof.
  intros E a. unfold approx_zero. rewrite (x_leb X E), (x_abs X E), (x_tol X E). split.
  - intros H. pose proof (Rabs_pos (toR X a)).
    destruct (Req_dec (toR X a) 0); auto. apply Rabs_pos_lt in H1. lra.
  - intros ->. rewrite Rabs_R0. lra.
Qed.
Lemma x_apx : ex X -> forall a b : N, approx_eq a b = true <-> toR X a = toR X b.
Proof.
  intros E a b. unfold approx_eq. rewrite orb_true_iff, andb_true_iff, !(x_leb X E), (x_abs X E), (x_tol X E), (x_sub X E).
  split.
  - intros [H|H]; [lra|]. pose proof (Rabs_pos (toR X a - toR X b)).
    destruct (Req_dec (toR X a - toR X b) 0); [lra|]. apply Rabs_pos_lt in H1. lra.
  - intros ->. left; lra.
Qed.
Lemma x_apx1 : ex X -> forall a : N, approx_one a = true <-> toR X a = 1%R.
Proof. intros E a. unfold approx_one. rewrite x_apx, (x_1 X E); tauto. Qed.

Lemma x_eapx s p q : ex X -> eapx s p q = true <-> toR X (val s p) = toR X (val s q).
Proof.
  intros E. unfold eapx. rewrite orb_true_iff, eptr_eqb_spec, x_apx by auto. split; [intros [->|]|]; auto.
Qed.
Lemma x_eapx0 s p : ex X -> eapx0 s p = true <-> toR X (val s p) = 0%R.
Proof.
  intros E. unfold eapx0. rewrite orb_true_iff, eptr_eqb_spec, x_apx0 by auto.
  split; [intros [->|]|]; auto. now apply x_0.
Qed.
Lemma x_eapx1 s p : ex X -> eapx1 s p = true <-> toR X (val s p) = 1%R.
Proof.
  intros E. unfold eapx1. rewrite orb_true_iff, eptr_eqb_spec, x_apx1 by auto.
  split; [intros [->|]|]; auto. now apply x_1.
Qed.
Lemma Cv_def s w : Cv s w = (toR X (val s (cr w)), toR X (val s (ci w))).
Proof. reflexivity. Qed.
Lemma x_wapx s a b : ex X -> wapx s a b = true <-> Cv s a = Cv s b.
Proof.
  intros E. unfold wapx. rewrite andb_true_iff, !x_eapx by auto. rewrite !Cv_def. split.
  - intros [-> ->]. auto.
  - intros [= -> ->]. auto.
Qed.
Lemma x_wapx0 s a : ex X -> wapx0 s a = true <-> Cv s a = C0.
Proof.
  intros E. unfold wapx0. rewrite andb_true_iff, !x_eapx0 by auto. rewrite !Cv_def. split.
  - intros [-> ->]. auto.
  - intros [= -> ->]. auto.
Qed.
Lemma x_wapx1 s a : ex X -> wapx1 s a = true <-> Cv s a = C1.
Proof.
  intros E. unfold wapx1. rewrite andb_true_iff, x_eapx0, x_eapx1 by auto. rewrite !Cv_def. split.
  - intros [-> ->]. auto.
  - intros [= -> ->]. auto.
Qed.
Lemma x_vapx0 v : ex X -> vapx0 v = true <-> Cv2 v = C0.
Proof.
  intros E. unfold vapx0, Inv.Cv2. rewrite andb_true_iff, !x_apx0 by auto. split.
  - intros [-> ->]. auto.
  - intros [= -> ->]. auto.
Qed.
Lemma x_vapx v w : ex X -> vapx v w = true <-> Cv2 v = Cv2 w.
Proof.
  intros E. unfold vapx, Inv.Cv2. rewrite andb_true_iff, !x_apx by auto. split.
  - intros [-> ->]. auto.
  - intros [= -> ->]. auto.
Qed.
Lemma vapx0_zero : vapx0 (n0, n0 : N) = true.
Proof. unfold vapx0; simpl. now rewrite (l_az0 X). Qed.
Lemma wapx0_zero s : wapx0 s Czero = true.
Proof. reflexivity. Qed.
Lemma cval_zero s : cval s Czero = (n0, n0).
Proof. reflexivity. Qed.
Lemma x_mag2 v : ex X -> toR X (mag2 v) = Cmag2 (Cv2 v).
Proof. intros E. unfold mag2, Cmag2, Inv.Cv2; simpl. now rewrite (x_add X E), !(x_mul X E). Qed.
Lemma x_wmag2 s w : ex X -> toR X (wmag2 s w) = Cmag2 (Cv s w).
Proof. intros E. unfold wmag2. now rewrite x_mag2. Qed.

(** ** Arithmetic *)

Lemma addInto_sp s p q a b : ep_at (ci a) <> ACache p -> ep_at (ci b) <> ACache p ->
  exists v, addInto (cslot p q) a b s = Ok tt (setc p q v s) /\ (ex X -> Cv2 v = (Cv s a + Cv s b)%C).
Proof.
  intros Ha Hb. eexists. split. apply addInto_eq; auto. intros E. unfold Inv.Cv2; simpl.
  now rewrite !(x_add X E), !Cv_def.
Qed.

Lemma mulInto_sp s p q a b : ep_at (ci a) <> ACache p -> ep_at (ci b) <> ACache p ->
  exists v, mulInto (cslot p q) a b s = Ok tt (setc p q v s) /\ (ex X -> Cv2 v = (Cv s a * Cv s b)%C).
Proof.
  intros Ha Hb. unfold mulInto, bind at 1, assertM. simpl negb. cbn [andb]. cbv beta iota.
  destruct (wapx1 s a) eqn:A1.
  { eexists. split. apply setVal_eq; auto. intros E. apply x_wapx1 in A1; auto. rewrite A1.
    fold (Cv s b). ring. }
  destruct (wapx1 s b) eqn:B1.
  { eexists. split. apply setVal_eq; auto. intros E. apply x_wapx1 in B1; auto. rewrite B1.
    fold (Cv s a). ring. }
  destruct (wapx0 s a || wapx0 s b) eqn:Z0.
  { eexists. split. apply wr2. intros E. unfold Inv.Cv2; simpl. rewrite (x_0 X E).
    apply orb_true_iff in Z0. destruct Z0 as [Z0|Z0]; apply x_wapx0 in Z0; auto; rewrite Z0; unfold C0; cx. }
  unfold cval. eexists. split. apply wr2. intros E. unfold Inv.Cv2; simpl.
  rewrite (x_sub X E), (x_add X E), !(x_mul X E), !Cv_def. reflexivity.
Qed.

Lemma divInto_sp s p q a b : ep_at (ci a) <> ACache p ->
  exists v, divInto (cslot p q) a b s = Ok tt (setc p q v s) /\
    (ex X -> Cv s b <> C0 -> Cv2 v = (Cv s a / Cv s b)%C).
Proof.
  intros Ha. unfold divInto, bind at 1, assertM. simpl negb. cbn [andb]. cbv beta iota.
  destruct (wapx s a b) eqn:A1.
  { eexists. split. apply wr2. intros E NZ. apply x_wapx in A1; auto. rewrite A1. unfold Inv.Cv2; simpl.
    rewrite (x_0 X E), (x_1 X E). change (1, 0)%R with C1. field. auto. }
  destruct (wapx1 s b) eqn:B1.
  { eexists. split. apply setVal_eq; auto. intros E NZ. apply x_wapx1 in B1; auto. rewrite B1.
    fold (Cv s a). field. apply C1_neq_0. }
  unfold cval. eexists. split. apply wr2. intros E NZ. unfold Inv.Cv2; simpl.
  rewrite !(x_div X E), !(x_add X E), !(x_sub X E), !(x_mul X E).
  rewrite !Cv_def in *. assert (P: Cmag2 (toR X (val s (cr b)), toR X (val s (ci b))) <> 0%R).
  { rewrite Cmag2_zero. auto. }
  unfold Cmag2 in P; simpl in P.
  unfold Cdiv, Cinv, Cmul, Cmag2; simpl. f_equal; field; auto.
Qed.

(** ** Looking numbers up *)

Lemma ct_lookup_bad c v b : ct_lookup (N:=N) cf c v = inr b -> b = BadNum.
Proof.
  unfold ct_lookup. destruct (negb (nleb n0 v)). { congruence. }
  destruct (approx_zero v); [discriminate|]. destruct (approx_one v); [discriminate|].
  destruct (approx_eq v nsq2); [discriminate|].
  assert (H: forall x b', ct_hash (N:=N) cf x = inr b' -> b' = BadNum).
  { intros x b'. unfold ct_hash. destruct (nleb _ _); [|congruence]. destruct (nkey _ _) as [k|]; [destruct (k <? 0)|]; congruence. }
  destruct (ct_hash cf (nsub v ntol)) as [lk|b1] eqn:E1; [|intros [= <-]; eauto].
  destruct (ct_hash cf (nadd v ntol)) as [uk|b2] eqn:E2; [|intros [= <-]; eauto].
  destruct (uk =? lk). { destruct (ct_findOrInsert _ _ _ _). discriminate. }
  repeat match goal with
  | |- context [match ?x with _ => _ end] => destruct x eqn:?; try discriminate
  end; intros [= <-]; eauto.
Qed.

Lemma step_ct O s c' : inv s -> ctwf cf c' -> ctext (s_ct s) c' ->
  (forall n, ctlive c' n -> ctlive (s_ct s) n \/ ce_rc (ct_heap c' n) = 0) ->
  (ex X -> xct X c') -> step O s (set_ct s c').
Proof.
  intros [I T] W E R XC.
  destruct (cinv_ct (nb:=nb) (X:=X) (co s) c' I W E R XC) as [I' Q].
  constructor.
  - constructor. exact I'. apply (tinv_ext (co s) _ s _ I Q T); reflexivity.
  - exact Q.
  - intros a _. reflexivity.
Qed.

Lemma lookup1_sp O s v : inv s -> wp al0 (cn_lookup1 g v) s (fun p s' =>
  step O s s' /\ s_cc s' = s_cc s /\ ptab (co s') p /\ (ex X -> rv (co s') p = toR X v)).
Proof.
  intros I. unfold Inv.wp, cn_lookup1. pose proof (ci_ct _ _ _ _ _ (iv_c _ _ _ _ _ I)) as W. simpl in W.
  assert (XC: ex X -> xct X (s_ct s)) by (intros E; apply (ci_x _ _ _ _ _ (iv_c _ _ _ _ _ I) E)).
  assert (L: forall u a c, ct_lookup cf (s_ct s) u = inl (a, c) ->
     step O s (set_ct s c) /\ alive c a /\ (ex X -> 0 <= toR X u -> toR X (xaddr X c a) = toR X u)%R).
  { intros u a c H. pose proof H as H'. apply (ct_lookup_wf _ (proj1 G)) in H; auto. destruct H as (A & B & D).
    split; [|split]; auto.
    - apply step_ct; auto.
      + intros n Hn. destruct (ct_lookup_rc _ (proj1 G) _ _ _ _ W H' _ Hn) as [[_ H]|[_ H]]; auto.
        right. now rewrite H.
      + intros E. eapply (x_lookup_ct X E); [exact W|now apply XC|exact H'].
    - intros E P. destruct (x_lookup X E (s_ct s) u) as (a' & c2 & H2 & H3); auto.
      rewrite H' in H2. injection H2 as <- <-. auto. }
  assert (B: forall u b, ct_lookup cf (s_ct s) u = inr b -> (ex X -> 0 <= toR X u)%R -> al0 b).
  { intros u b H P. split. eapply ct_lookup_bad; eauto. intros E.
    destruct (x_lookup X E (s_ct s) u) as (a' & c2 & H2 & H3); auto. congruence. }
  destruct (nsign v) eqn:S.
  - assert (SN: ex X -> (toR X v < 0)%R) by (intros E; now apply (x_sign X E)).
    destruct (nltb (nabs v) ntol) eqn:LT.
    + split; [now apply step_refl|]. split; [auto|]. split; [apply ptab_zero|]. intros E.
      apply (x_ltb X E) in LT. rewrite (x_abs X E), (x_tol X E) in LT. pose proof (Rabs_pos (toR X v)). lra.
    + destruct (ct_lookup cf (s_ct s) (nabs v)) as [[a c]|b] eqn:H.
      * destruct (L _ _ _ H) as (H1 & H2 & H3). split; [auto|]. split; [auto|].
        assert (P: ex X -> toR X (xaddr X c a) = (- toR X v)%R).
        { intros E. rewrite (H3 E); rewrite (x_abs X E). apply Rabs_left; auto. apply Rabs_pos. }
        split; [split; simpl; auto|].
        -- intros E [= ->]. specialize (P E). simpl in P. rewrite (x_0 X E) in P. specialize (SN E). lra.
        -- intros E. unfold Inv.rv; simpl. rewrite (P E). lra.
      * eapply B; eauto. intros E. rewrite (x_abs X E). apply Rabs_pos.
  - assert (SN: ex X -> (0 <= toR X v)%R).
    { intros E. destruct (Rle_dec 0 (toR X v)); auto. assert (nsign v = true) by (apply (x_sign X E); lra). congruence. }
    destruct (ct_lookup cf (s_ct s) v) as [[a c]|b] eqn:H.
    + destruct (L _ _ _ H) as (H1 & H2 & H3). split; [auto|]. split; [auto|].
      split; [split; simpl; auto; discriminate|]. intros E. unfold Inv.rv; simpl. auto.
    + eapply B; eauto.
Qed.

Lemma lookup_sp O s a b : inv s -> wp al0 (cn_lookup g a b) s (fun w s' =>
  step O s s' /\ s_cc s' = s_cc s /\ wtab (co s') w /\ (ex X -> Cw (co s') w = Cv2 (a, b))).
Proof.
  intros I. unfold cn_lookup. apply wp_bind. eapply wp_mono; [apply (lookup1_sp O); auto|].
  intros p s1 (S1 & C1 & P1 & V1). apply wp_bind.
  eapply wp_mono; [apply (lookup1_sp O); apply S1|].
  intros q s2 (S2 & C2 & P2 & V2). apply wp_ret.
  split; [eapply step_trans; eauto|]. split; [congruence|].
  split; [split; simpl; auto; eapply ptab_ext; eauto; apply S2|].
  intros E. unfold Inv.Cw, Inv.Cv2; simpl. rewrite V2 by auto. f_equal.
  rewrite (rv_ext (co s1) (co s2)); auto. apply S2. apply P1.
Qed.

Lemma lookupC_sp O s w : inv s -> wp al0 (cn_lookupC g w) s (fun w' s' =>
  step O s s' /\ s_cc s' = s_cc s /\ wtab (co s') w' /\ (ex X -> Cw (co s') w' = Cv s w)).
Proof.
  intros I. unfold cn_lookupC.
  destruct (ceqb w Czero) eqn:Z.
  { apply ceqb_spec in Z. subst. unfold Inv.wp. split; [now apply step_refl|]. split; auto.
    split; [apply wtab_zero|]. intros E. rewrite Cw_zero, Cv_zero; auto. }
  destruct (ceqb w Cone) eqn:Z1.
  { apply ceqb_spec in Z1. subst. unfold Inv.wp. split; [now apply step_refl|]. split; auto.
    split; [apply wtab_one|]. intros E. rewrite Cw_one, Cv_one; auto. }
  apply lookup_sp; auto.
Qed.

(** ** Temporaries *)

Lemma grow_owns c O : owns c O -> owns (cc_grow g c) O /\ cc_val (cc_grow g c) = cc_val c /\
  cc_avail (cc_grow g c) = cc_avail c /\ cc_next (cc_grow g c) = cc_next c /\
  Z.of_nat (cc_next c) + 2 <= cc_allocs (cc_grow g c) /\ cc_count (cc_grow g c) = cc_count c.
Proof.
  destruct G as (_ & G1 & G2 & G3).
  intros [A1 A2 A3 A4 A5 A6 A7 A8 [A9 A9'] A10]. unfold cc_grow. destruct (Z.eqb_spec (Z.of_nat (cc_next c)) (cc_allocs c)) as [E|E].
  - split; [|simpl; repeat split; auto; lia]. constructor; simpl; auto; try lia.
    + destruct A8 as [x Hx], A9' as [y Hy]. exists (x + y). lia.
    + split. nia. destruct A9' as [y Hy]. exists (y * g_ccgrow g). rewrite Hy. ring.
  - split; [constructor; auto|]. repeat split; auto.
    destruct A6 as [x Hx], A8 as [y Hy]. lia.
Qed.

Lemma even_S2 n : Nat.Even (S (S n)) <-> Nat.Even n.
Proof. split; intros [x Hx]; [exists (x - 1)%nat|exists (x + 1)%nat]; lia. Qed.

Lemma getCached0_sp s O : owns (s_cc s) O -> exists a b c',
  getCached0 g s = Ok (cslot a b) (set_cc s c') /\ cc_val c' = cc_val (s_cc s) /\ owns c' (a :: b :: O).
Proof.
  intros H. unfold getCached0. pose proof (grow_owns _ _ H) as K. destruct H as [A1 A2 A3 A4 A5 A6 A7 A8 A9 A10].
  destruct (cc_avail (s_cc s)) as [|a [|b r]] eqn:E.
  - set (c1 := cc_grow g (s_cc s)) in *. destruct K as (K & K1 & K2 & K3 & K4 & K5).
    destruct K as [B1 B2 B3 B4 B5 B6 B7 B8 B9 B10].
    destruct (Z.ltb_spec (cc_allocs c1) (Z.of_nat (cc_next c1) + 2)). { lia. }
    exists (cc_next c1), (S (cc_next c1)). eexists. split; [reflexivity|]. split; [auto|].
    assert (D: forall x, In x O -> (x < cc_next c1)%nat) by (intros x Hx; apply B4 in Hx; tauto).
    constructor; simpl; auto; try lia.
    + constructor. simpl. intros [F|F]; [lia|apply D in F; lia]. constructor; auto. intros F; apply D in F; lia.
    + intros x. rewrite K2 in B4. split.
      * intros [<-|[<-|F]]; split; auto; try lia. apply D in F. lia.
      * intros [F _]. destruct (Nat.eq_dec (cc_next c1) x); auto. destruct (Nat.eq_dec (S (cc_next c1)) x); auto.
        right; right. apply B4. split; auto. lia.
    + rewrite even_S2. auto.
  - destruct A5 as [x Hx]. simpl in Hx. lia.
  - exists a, b. eexists. split; [reflexivity|]. split; [auto|].
    inversion A2 as [|? ? F1 F2]; subst. inversion F2 as [|? ? F3 F4]; subst.
    constructor; simpl; auto; try lia.
    + constructor; [|constructor]; auto.
      * intros [->|F]. apply F1; simpl; auto. apply A4 in F. simpl in F. tauto.
      * intros F. apply A4 in F. simpl in F. tauto.
    + intros x Hx. apply A3. simpl; auto.
    + intros x. split.
      * intros [<-|[<-|F]].
        -- split; [apply A3; simpl; auto|]. simpl in F1. tauto.
        -- split; [apply A3; simpl; auto|]. auto.
        -- apply A4 in F. simpl in F. tauto.
      * intros [F1' F2']. destruct (Nat.eq_dec a x); auto. destruct (Nat.eq_dec b x); auto.
        right; right. apply A4. simpl. split; auto. intros [?|[?|?]]; auto.
    + simpl in A5. now rewrite even_S2 in A5.
Qed.

Lemma getTemp_sp s O : owns (s_cc s) O -> exists a b c',
  getTemp g s = Ok (cslot a b) (set_cc s c') /\ cc_val c' = cc_val (s_cc s) /\ owns c' O /\
  a <> b /\ ~ In a O /\ ~ In b O /\
  (forall p q r, cc_avail (s_cc s) = p :: q :: r -> a = p /\ b = q).
Proof.
  intros H. unfold getTemp. pose proof (grow_owns _ _ H) as K. pose proof H as H0.
  destruct H as [A1 A2 A3 A4 A5 A6 A7 A8 A9 A10].
  destruct (cc_avail (s_cc s)) as [|a [|b r]] eqn:E.
  - set (c1 := cc_grow g (s_cc s)) in *. destruct K as (K & K1 & K2 & K3 & K4 & K5).
    destruct (Z.ltb_spec (cc_allocs c1) (Z.of_nat (cc_next c1) + 2)). { lia. }
    exists (cc_next c1), (S (cc_next c1)), c1. split; [reflexivity|]. split; [auto|]. split; [auto|].
    destruct K as [B1 B2 B3 B4 B5 B6 B7 B8 B9 B10].
    split; [lia|]. split; [|split].
    + intros F. apply B4 in F. lia.
    + intros F. apply B4 in F. lia.
    + discriminate.
  - destruct A5 as [x Hx]. simpl in Hx. lia.
  - exists a, b, (s_cc s). split; [destruct s; reflexivity|]. split; [auto|]. split; [auto|].
    inversion A2 as [|? ? F1 F2]; subst.
    split; [intros ->; apply F1; simpl; auto|]. split; [|split].
    + intros F. apply A4 in F. simpl in F. tauto.
    + intros F. apply A4 in F. simpl in F. tauto.
    + intros p q r' [= -> -> ->]. auto.
Qed.

Lemma retCache_sp s a b O : owns (s_cc s) (a :: b :: O) -> exists c',
  retCache (cslot a b) s = Ok tt (set_cc s c') /\ cc_val c' = cc_val (s_cc s) /\ owns c' O /\
  (exists r, cc_avail c' = a :: b :: r).
Proof.
  intros [A1 A2 A3 A4 A5 A6 A7 A8 A9 A10]. unfold retCache, cslot.
  assert (Ha: (a < cc_next (s_cc s))%nat /\ ~ In a (cc_avail (s_cc s))) by (apply A4; simpl; auto).
  assert (Hb: (b < cc_next (s_cc s))%nat /\ ~ In b (cc_avail (s_cc s))) by (apply A4; simpl; auto).
  inversion A1 as [|? ? F1 F2]; subst. inversion F2 as [|? ? F3 F4]; subst.
  destruct (Z.ltb_spec (cc_count (s_cc s)) 2) as [L|L]. { simpl in A10. lia. }
  assert (Q: cc_isout (s_cc s) a && cc_isout (s_cc s) b && negb (Nat.eqb a b) = true).
  { unfold cc_isout. rewrite !andb_true_iff, !negb_true_iff, !memb_false, !Nat.ltb_lt, Nat.eqb_neq.
    repeat split; try tauto. intros ->. apply F1. simpl; auto. }
  rewrite Q. eexists. split; [reflexivity|]. split; [auto|]. split; [|simpl; eauto].
  constructor; simpl; auto; try (simpl in A10; lia).
  - constructor; [|constructor]; try tauto. simpl. intros [->|F]; try tauto. apply F1; simpl; auto.
  - intros x [<-|[<-|F]]; try tauto. auto.
  - intros x. split.
    + intros F. assert (H: In x (a :: b :: O)) by (simpl; auto). apply A4 in H. split; [tauto|].
      intros [->|[->|F']]; try tauto. apply F1; simpl; auto.
    + intros [F1' F2']. assert (H: In x (a :: b :: O)) by (apply A4; split; auto).
      destruct H as [->|[->|H]]; auto; exfalso; apply F2'; simpl; auto.
  - now rewrite even_S2.
Qed.

Lemma owns_nodup c a b O : owns c (a :: b :: O) -> a <> b /\ ~ In a O /\ ~ In b O.
Proof.
  intros [A1 _ _ _ _ _ _ _ _ _]. inversion A1 as [|? ? F1 F2]; subst. inversion F2 as [|? ? F3 F4]; subst.
  simpl in F1. split; [|split]; auto.
Qed.

Lemma getCached_sp s v O : inv s -> owns (s_cc s) O -> exists a b s',
  getCached g v s = Ok (cslot a b) s' /\ owns (s_cc s') (a :: b :: O) /\ step O s s' /\
  cval s' (cslot a b) = v.
Proof.
  intros I H. destruct (getCached0_sp _ _ H) as (a & b & c' & E & V & K).
  destruct (owns_nodup _ _ _ _ K) as (D & D1 & D2).
  exists a, b, (setc a b v (set_cc s c')). unfold getCached, bind at 1. rewrite E. cbv beta iota.
  split; [|split; [|split]].
  - unfold bind. simpl cr; simpl ci. rewrite !wr_slot. reflexivity.
  - apply owns_ccw. exact K.
  - eapply step_trans; [apply step_cc_any; eauto|]. apply setc_step; auto. now apply inv_cc.
  - now apply setc_val.
Qed.

(** Weights that can be read and are not overwritten by the temporary obtained next. *)
Definition wokT s O (w : complex) : Prop :=
  wok (co s) O w \/ exists p q r, w = cslot p q /\ cc_avail (s_cc s) = p :: q :: r.

Lemma wok_ci q O w p : wok q O w -> ~ In p O -> ep_at (ci w) <> ACache p.
Proof.
  intros [[_ [B _]]|(a & b & -> & _ & Hb & _)] H E.
  - rewrite E in B. exact B.
  - simpl in E. injection E as ->. auto.
Qed.
Lemma wokT_ci s O w p q : wokT s O w -> p <> q -> ~ In p O ->
  (forall p' q' r, cc_avail (s_cc s) = p' :: q' :: r -> p = p' /\ q = q') -> ep_at (ci w) <> ACache p.
Proof.
  intros [H|(a & b & r & -> & E)] D H1 H2.
  - eapply wok_ci; eauto.
  - apply H2 in E. destruct E as [-> ->]. simpl. congruence.
Qed.

Lemma Cv_cc_same s c w : cc_val c = cc_val (s_cc s) -> Cv (set_cc s c) w = Cv s w.
Proof.
  intros H. unfold Inv.Cv, cval. now rewrite !val_other by (intros; now rewrite H).
Qed.

Definition alok (al : bad -> Prop) : Prop := forall b, al0 b -> al b.


Lemma wp_al_mono {A} (al al' : bad -> Prop) (m : M N A) s (Q Q' : A -> st N -> Prop) :
  wp al m s Q -> (forall b, al b -> al' b) -> (forall a s', Q a s' -> Q' a s') -> wp al' m s Q'.
Proof. unfold Inv.wp. destruct (m s); auto. Qed.

(** Looking up zero gives Complex::zero, with any arithmetic. *)
Lemma lookup1_z s w s' : cn_lookup1 g n0 s = Ok w s' -> w = EP false AZero.
Proof.
  unfold cn_lookup1. rewrite (l_sg0 X). unfold ct_lookup. rewrite (l_le0 X), (l_az0 X). intros E. now injection E.
Qed.
Lemma lookup_z s w s' : cn_lookup g n0 n0 s = Ok w s' -> w = Czero.
Proof.
  unfold cn_lookup, bind. destruct (cn_lookup1 g n0 s) as [p s1| |] eqn:E1; try discriminate.
  destruct (cn_lookup1 g n0 s1) as [p2 s2| |] eqn:E2; try discriminate.
  apply lookup1_z in E1. apply lookup1_z in E2. subst. intros E. now injection E as <- _.
Qed.
Lemma wapx1_zero s : wapx1 s Czero = false.
Proof. unfold wapx1, eapx1. simpl. unfold val. simpl. rewrite (l_ao0 X). reflexivity. Qed.
Lemma mulInto_z s p q a b : a = Czero \/ b = Czero -> ep_at (ci a) <> ACache p -> ep_at (ci b) <> ACache p ->
  mulInto (cslot p q) a b s = Ok tt (setc p q (n0, n0) s).
Proof.
  intros H Ha Hb. unfold mulInto, bind at 1, assertM. destruct (ceqb_slot p q) as [-> ->]. simpl.
  destruct H as [-> | ->].
  - rewrite wapx1_zero. destruct (wapx1 s b).
    + rewrite setVal_eq by auto. now rewrite cval_zero.
    + rewrite wapx0_zero. simpl. apply wr2.
  - destruct (wapx1 s a).
    + rewrite setVal_eq by auto. now rewrite cval_zero.
    + rewrite wapx1_zero, wapx0_zero, orb_true_r. apply wr2.
Qed.
Lemma lookupC_slotz s p q w s' : p <> q -> cn_lookupC g (cslot p q) (setc p q (n0, n0) s) = Ok w s' -> w = Czero.
Proof.
  intros D. unfold cn_lookupC. destruct (ceqb_slot p q) as [-> ->].
  pose proof (setc_val s p q (n0, n0) D) as E. unfold cval in E. injection E as E1 E2.
  cbn [cr ci cslot] in *. rewrite E1, E2. apply lookup_z.
Qed.

Lemma wp_and {A} al (m : M N A) s (Q R : A -> st N -> Prop) :
  wp al m s Q -> (forall a s', m s = Ok a s' -> R a s') -> wp al m s (fun a s' => Q a s' /\ R a s').
Proof. unfold Inv.wp. intros H K. destruct (m s); auto. Qed.

Lemma wp_tmul {A} al O a b (k : complex -> M N A) s Q : alok al -> inv s -> owns (s_cc s) O -> wokT s O a -> wokT s O b ->
  (forall w s', step O s s' -> owns (s_cc s') O -> wtab (co s') w ->
     (ex X -> Cw (co s') w = (Cv s a * Cv s b)%C) -> (a = Czero \/ b = Czero -> w = Czero) -> wp al (k w) s' Q) ->
  wp al (bind (getTemp g) (fun t => bind (mulInto t a b) (fun _ => bind (cn_lookupC g t) k))) s Q.
Proof.
  intros AL I H Wa Wb K. destruct (getTemp_sp _ _ H) as (p & q & c' & E & V & Ow & D & Hp & Hq & T).
  apply wp_bind. eapply wp_ok; [exact E|]. apply wp_bind.
  destruct (mulInto_sp (set_cc s c') p q a b) as (v & E2 & V2); try (eapply wokT_ci; eauto).
  assert (Zv: a = Czero \/ b = Czero -> setc p q v (set_cc s c') = setc p q (n0, n0) (set_cc s c')).
  { intros Hz. rewrite mulInto_z in E2; auto; try (eapply wokT_ci; eauto). congruence. }
  eapply wp_ok; [exact E2|]. apply wp_bind.
  assert (S1: step O s (setc p q v (set_cc s c'))).
  { eapply step_trans; [apply step_cc_any; eauto|]. apply setc_step; auto. now apply inv_cc. }
  eapply wp_al_mono; [apply wp_and; [apply (lookupC_sp O); apply S1|intros ? ? EE; exact EE]|apply AL|].
  intros w s' ((S2 & C2 & W2 & V3) & EE). apply K; auto.
  - eapply step_trans; eauto.
  - rewrite C2. apply owns_ccw. exact Ow.
  - intros Ex. rewrite V3 by auto. rewrite setc_Cv by auto. rewrite V2 by auto. now rewrite !Cv_cc_same.
  - intros Hz. rewrite (Zv Hz) in EE. eapply lookupC_slotz; eauto.
Qed.

Lemma wp_tdiv {A} al O a b (k : complex -> M N A) s Q : alok al -> inv s -> owns (s_cc s) O -> wokT s O a ->
  (forall w s', step O s s' -> owns (s_cc s') O -> wtab (co s') w ->
     (ex X -> Cv s b <> C0 -> Cw (co s') w = (Cv s a / Cv s b)%C) -> wp al (k w) s' Q) ->
  wp al (bind (getTemp g) (fun t => bind (divInto t a b) (fun _ => bind (cn_lookupC g t) k))) s Q.
Proof.
  intros AL I H Wa K. destruct (getTemp_sp _ _ H) as (p & q & c' & E & V & Ow & D & Hp & Hq & T).
  apply wp_bind. eapply wp_ok; [exact E|]. apply wp_bind.
  destruct (divInto_sp (set_cc s c') p q a b) as (v & E2 & V2); try (eapply wokT_ci; eauto).
  eapply wp_ok; [exact E2|]. apply wp_bind.
  assert (S1: step O s (setc p q v (set_cc s c'))).
  { eapply step_trans; [apply step_cc_any; eauto|]. apply setc_step; auto. now apply inv_cc. }
  eapply wp_al_mono; [apply (lookupC_sp O); apply S1|apply AL|].
  intros w s' (S2 & C2 & W2 & V3). apply K; auto.
  - eapply step_trans; eauto.
  - rewrite C2. apply owns_ccw. exact Ow.
  - intros Ex NZ. rewrite V3 by auto. rewrite setc_Cv by auto. rewrite V2; rewrite ?Cv_cc_same by auto; auto.
Qed.

(** mulCached, addCached *)
Lemma mulCached_sp s O a b : inv s -> owns (s_cc s) O -> wok (co s) O a -> wok (co s) O b ->
  exists p q s', mulCached g a b s = Ok (cslot p q) s' /\ owns (s_cc s') (p :: q :: O) /\ step O s s' /\
    (ex X -> Cv s' (cslot p q) = (Cv s a * Cv s b)%C).
Proof.
  intros I H Wa Wb. destruct (getCached0_sp _ _ H) as (p & q & c' & E & V & K).
  destruct (owns_nodup _ _ _ _ K) as (D & D1 & D2).
  destruct (mulInto_sp (set_cc s c') p q a b) as (v & E2 & V2); try (eapply wok_ci; eauto).
  exists p, q, (setc p q v (set_cc s c')). unfold mulCached, bind. rewrite E, E2.
  split; [reflexivity|]. split; [apply owns_ccw; exact K|]. split.
  - eapply step_trans; [apply step_cc_any; eauto|]. apply setc_step; auto. now apply inv_cc.
  - intros Ex. rewrite setc_Cv by auto. rewrite V2 by auto. now rewrite !Cv_cc_same.
Qed.
Lemma addCached_sp s O a b : inv s -> owns (s_cc s) O -> wok (co s) O a -> wok (co s) O b ->
  exists p q s', addCached g a b s = Ok (cslot p q) s' /\ owns (s_cc s') (p :: q :: O) /\ step O s s' /\
    (ex X -> Cv s' (cslot p q) = (Cv s a + Cv s b)%C).
Proof.
  intros I H Wa Wb. destruct (getCached0_sp _ _ H) as (p & q & c' & E & V & K).
  destruct (owns_nodup _ _ _ _ K) as (D & D1 & D2).
  destruct (addInto_sp (set_cc s c') p q a b) as (v & E2 & V2); try (eapply wok_ci; eauto).
  exists p, q, (setc p q v (set_cc s c')). unfold addCached, bind. rewrite E, E2.
  split; [reflexivity|]. split; [apply owns_ccw; exact K|]. split.
  - eapply step_trans; [apply step_cc_any; eauto|]. apply setc_step; auto. now apply inv_cc.
  - intros Ex. rewrite setc_Cv by auto. rewrite V2 by auto. now rewrite !Cv_cc_same.
Qed.

(** Multiplying a temporary in place. *)
Lemma mulSelf_sp s p q O b : inv s -> owns (s_cc s) (p :: q :: O) -> wok (co s) O b ->
  exists s', mulInto (cslot p q) (cslot p q) b s = Ok tt s' /\ owns (s_cc s') (p :: q :: O) /\ step O s s' /\
    (ex X -> Cv s' (cslot p q) = (Cv s (cslot p q) * Cv s b)%C).
Proof.
  intros I H Wb. destruct (owns_nodup _ _ _ _ H) as (D & D1 & D2).
  destruct (mulInto_sp s p q (cslot p q) b) as (v & E2 & V2).
  { simpl. congruence. } { eapply wok_ci; eauto. }
  exists (setc p q v s). split; [auto|]. split; [now apply owns_ccw|].
  split; [apply setc_step; auto|]. intros Ex. now rewrite setc_Cv, V2.
Qed.

End PrimL.
