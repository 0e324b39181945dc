(** C71: sets of controls indexed by a qubit. *)
From Coq Require Import ZArith List Bool Lia Arith Sorted.
From Verif Require Import Control ControlQ PropGate.
Import ListNotations.
Local Open Scope Z_scope.

(** * The comparison with a qubit *)
(** It is consistent with the order of controls: the controls below a qubit come first, those above it last. *)
Theorem comparison_consistent a b q :
  (lt_cq a q = true -> lt_qc q b = true -> ctl_ltb a b = true) /\
  (ctl_ltb a b = true -> lt_cq b q = true -> lt_cq a q = true) /\
  (ctl_ltb a b = true -> lt_qc q a = true -> lt_qc q b = true) /\
  (lt_cq a q = false /\ lt_qc q a = false <-> cqb a = q).
Proof.
  unfold lt_cq, lt_qc, ctl_ltb. rewrite !orb_true_iff, !andb_true_iff, !Z.ltb_lt, !Z.ltb_ge, !Z.eqb_eq. repeat split; intros; try lia.
Qed.
Example comparison_consistent_example : lt_cq (Ctl 2 true) 3 = true /\ lt_qc 3 (Ctl 5 false) = true /\ ctl_ltb (Ctl 2 true) (Ctl 5 false) = true.
Proof. repeat split. Qed.

(** * Insertion *)
Lemma ins_before a c : ctl_ltb a c = true -> forall L R, cs_insert a (L ++ c :: R) = cs_insert a L ++ c :: R.
Proof.
  intros H. induction L as [|x L IH]; intros R; cbn [app cs_insert]; [now rewrite H|]. destruct (ctl_ltb a x); [reflexivity|]. destruct (ctl_ltb x a); [|reflexivity]. cbn. now rewrite IH.
Qed.
Lemma ins_after a : forall L S, Forall (fun x => ctl_ltb x a = true) L -> cs_insert a (L ++ S) = L ++ cs_insert a S.
Proof.
  induction L as [|x L IH]; intros S H; [reflexivity|]. inversion H as [|? ? H1 H2]; subst. cbn [app cs_insert].
  destruct (control_order x a a) as (_ & As & _). rewrite (As H1), H1. now rewrite IH.
Qed.
Lemma sorted_app L c R : StronglySorted clt (L ++ c :: R) -> StronglySorted clt L /\ StronglySorted clt R /\ Forall (fun x => clt x c) L /\ Forall (clt c) R /\ Forall (fun x => Forall (clt x) R) L.
Proof.
  induction L as [|x L IH]; cbn [app]; intros H; inversion H as [|? ? H1 H2]; subst; [repeat split; auto; constructor|].
  destruct (IH H1) as (A & B & D & E & F). apply Forall_app in H2. destruct H2 as [H2 H3]. inversion H3; subst. repeat split; auto; constructor; auto.
Qed.
Lemma insT_gen a : forall t p, StronglySorted clt (inorder t) -> (forall b, p = Some b -> ctl_ltb a b = false /\ Forall (clt b) (inorder t)) ->
  inorder (insT a p t) = match p with Some b => if ctl_ltb b a then cs_insert a (inorder t) else inorder t | None => cs_insert a (inorder t) end.
Proof.
  induction t as [|l IHl c r IHr]; intros p Hs Hp.
  - cbn [insT inorder]. destruct p as [b|]; [destruct (ctl_ltb b a); reflexivity|reflexivity].
  - cbn [insT inorder] in *. destruct (sorted_app _ _ _ Hs) as (SL & SR & FL & FR & _).
    assert (Hb: forall b, p = Some b -> ctl_ltb a b = false /\ Forall (clt b) (inorder l) /\ clt b c).
    { intros b E. destruct (Hp b E) as [A B]. apply Forall_app in B. destruct B as [B1 B2]. inversion B2; subst. auto. }
    destruct (ctl_ltb a c) eqn:E.
    + cbn [inorder]. rewrite IHl; auto; [|intros b Eb; destruct (Hb b Eb) as (A & B & _); auto].
      destruct p as [b|]; [destruct (ctl_ltb b a)|]; rewrite ?ins_before by auto; reflexivity.
    + cbn [inorder]. rewrite IHr; auto; [|intros b [= <-]; split; auto].
      destruct (ctl_ltb c a) eqn:E2.
      * assert (Q: cs_insert a (inorder l ++ c :: inorder r) = inorder l ++ c :: cs_insert a (inorder r)).
        { rewrite ins_after; [|eapply Forall_impl; [|exact FL]; intros x Hx; exact (clt_trans _ _ _ Hx E2)]. cbn [cs_insert]. now rewrite E, E2. }
        rewrite Q. destruct p as [b|]; [|reflexivity]. destruct (ctl_ltb b a) eqn:E3; [reflexivity|]. exfalso. destruct (Hb b eq_refl) as (A & _ & B).
        pose proof (clt_trans _ _ _ B E2) as T. unfold clt in T. congruence.
      * assert (a = c) as ->. { apply ctl_eqb_spec. destruct (control_order a c a) as (_ & _ & _ & _ & Q & _). apply Q. auto. }
        assert (Q: cs_insert c (inorder l ++ c :: inorder r) = inorder l ++ c :: inorder r).
        { rewrite ins_after by exact FL. cbn [cs_insert]. now rewrite E. }
        rewrite Q. destruct p as [b|]; [destruct (ctl_ltb b c)|]; reflexivity.
Qed.
(** Inserting into the tree, of whatever shape, is inserting into the set. *)
Theorem tree_insertion l t a : inorder t = cs_of l -> inorder (insT a None t) = cs_of (l ++ [a]).
Proof.
  intros H. rewrite insT_gen; [|rewrite H; apply (control_set l)|discriminate]. rewrite H. unfold cs_of. now rewrite fold_left_app.
Qed.
Definition tree3 : tree := TNode (TNode TLeaf (Ctl 1 false) TLeaf) (Ctl 1 true) (TNode TLeaf (Ctl 4 true) TLeaf).
Example tree_insertion_example : inorder tree3 = cs_of [Ctl 4 true; Ctl 1 true; Ctl 1 false] /\
  inorder (insT (Ctl 3 false) None tree3) = [Ctl 1 false; Ctl 1 true; Ctl 3 false; Ctl 4 true] /\ insT (Ctl 1 true) None tree3 = tree3.
Proof. repeat split. Qed.

(** * Searching for a qubit *)
Fixpoint dropw (q : Z) (l : list control) : list control := match l with [] => [] | c :: r => if lt_cq c q then dropw q r else l end.
Lemma dropw_stop q c : lt_cq c q = false -> forall L R, dropw q (L ++ c :: R) = dropw q L ++ c :: R.
Proof. intros H. induction L as [|x L IH]; intros R; cbn [app dropw]; [now rewrite H|]. destruct (lt_cq x q); [apply IH|reflexivity]. Qed.
Lemma dropw_skip q : forall L R, Forall (fun x => lt_cq x q = true) L -> dropw q (L ++ R) = dropw q R.
Proof. induction L as [|x L IH]; intros R H; [reflexivity|]. inversion H as [|? ? H1 H2]; subst. cbn [app dropw]. rewrite H1. auto. Qed.
Lemma lowerBound_list q : forall t rest, StronglySorted clt (inorder t) -> lowerBound t q rest = dropw q (inorder t) ++ rest.
Proof.
  induction t as [|l IHl c r IHr]; intros rest Hs; [reflexivity|]. cbn [lowerBound inorder] in *. destruct (sorted_app _ _ _ Hs) as (SL & SR & FL & FR & _).
  destruct (lt_cq c q) eqn:E.
  - rewrite IHr by auto. rewrite dropw_skip; [cbn [dropw]; now rewrite E|]. eapply Forall_impl; [|exact FL]. intros x Hx. destruct (comparison_consistent x c q) as (_ & B & _). auto.
  - rewrite IHl by auto. rewrite dropw_stop by auto. rewrite <- app_assoc. reflexivity.
Qed.
Lemma range_list q : forall l, StronglySorted clt l -> upTo q (dropw q l) = filter (fun c => cqb c =? q) l.
Proof.
  assert (U: forall l, StronglySorted clt l -> Forall (fun x => lt_cq x q = false) l -> upTo q l = filter (fun c => cqb c =? q) l).
  { induction l as [|c r IH]; intros Hs F; [reflexivity|]. inversion Hs as [|? ? H1 H2]; subst. inversion F as [|? ? F1 F2]; subst. cbn [upTo filter].
    destruct (lt_qc q c) eqn:E.
    - assert (A: forall x, lt_qc q x = true -> (cqb x =? q) = false) by (intros x; unfold lt_qc; rewrite Z.ltb_lt, Z.eqb_neq; lia).
      rewrite A by auto. symmetry. assert (B: Forall (fun x => lt_qc q x = true) r).
      { eapply Forall_impl; [|exact H2]. intros x Hx. destruct (comparison_consistent c x q) as (_ & _ & B & _). auto. }
      clear -A B. induction B as [|x r Hx B IH]; [reflexivity|]. cbn. now rewrite A.
    - destruct (comparison_consistent c c q) as (_ & _ & _ & B). rewrite (proj1 B) by auto. rewrite Z.eqb_refl, IH; auto. }
  induction l as [|c r IH]; intros Hs; [reflexivity|]. inversion Hs as [|? ? H1 H2]; subst. cbn [dropw]. destruct (lt_cq c q) eqn:E.
  - rewrite IH by auto. cbn [filter]. replace (cqb c =? q) with false; auto. symmetry. apply Z.eqb_neq. unfold lt_cq in E. apply Z.ltb_lt in E. lia.
  - apply U; auto. constructor; auto. eapply Forall_impl; [|exact H2]. intros x Hx. destruct (lt_cq x q) eqn:E2; auto.
    destruct (comparison_consistent c x q) as (_ & B & _). rewrite (B Hx E2) in E. discriminate.
Qed.
Lemma sorted_ext : forall a b, StronglySorted clt a -> StronglySorted clt b -> (forall c, In c a <-> In c b) -> a = b.
Proof.
  assert (Ir: forall x, ~ clt x x). { intros x. unfold clt. rewrite (proj1 (control_order x x x)). discriminate. }
  induction a as [|x a IH]; intros [|y b] Ha Hb H; [reflexivity|destruct (proj2 (H y)); cbn; auto|destruct (proj1 (H x)); cbn; auto|].
  inversion Ha as [|? ? A1 A2]; subst. inversion Hb as [|? ? B1 B2]; subst. rewrite Forall_forall in A2, B2.
  assert (E: x = y).
  { destruct (proj1 (H x) (or_introl eq_refl)) as [E|E]; [auto|]. destruct (proj2 (H y) (or_introl eq_refl)) as [F|F]; [auto|].
    destruct (Ir x). eapply clt_trans; [apply A2, F|apply B2, E]. }
  subst y. f_equal. apply IH; auto. intros c. split; intros Hc.
  - destruct (proj1 (H c) (or_intror Hc)) as [<-|]; auto. destruct (Ir x). now apply A2.
  - destruct (proj2 (H c) (or_intror Hc)) as [<-|]; auto. destruct (Ir x). now apply B2.
Qed.
Lemma filter_sorted f : forall l, StronglySorted clt l -> StronglySorted clt (filter f l).
Proof.
  induction 1 as [|x l Hs IH F]; cbn [filter]; [constructor|]. destruct (f x); auto. constructor; auto. apply Forall_forall. intros y Hy. apply filter_In in Hy. rewrite Forall_forall in F. now apply F.
Qed.

(** For every set and every shape of its tree, the range of a qubit has exactly the controls on it that were
    inserted, the negative one first. *)
Theorem range_of_qubit l t q : inorder t = cs_of l ->
  equalRange t q = filter (fun c => existsb (ctl_eqb c) l) [Ctl q false; Ctl q true].
Proof.
  intros H. destruct (control_set l) as (In1 & _ & Hs & _). unfold equalRange. rewrite lowerBound_list by (rewrite H; auto). rewrite app_nil_r, range_list, H by (rewrite H; auto).
  apply sorted_ext; [now apply filter_sorted|apply filter_sorted; repeat constructor; unfold clt, ctl_ltb; cbn; rewrite Z.eqb_refl, orb_true_r; reflexivity|].
  intros [q' p]. rewrite !filter_In, In1, existsb_exists, Z.eqb_eq. cbn [cqb]. split.
  - intros [A ->]. split; [destruct p; cbn; auto|]. exists (Ctl q p). split; auto. now apply ctl_eqb_spec.
  - intros [A (x & B & Ex)]. apply ctl_eqb_spec in Ex. subst x. split; auto. destruct A as [[= -> _]|[[= -> _]|[]]]; auto.
Qed.
Theorem count_of_qubit l t q : inorder t = cs_of l -> (countQ t q <= 2)%nat /\ (countQ t q = 0%nat <-> forall c, In c l -> cqb c <> q).
Proof.
  intros H. unfold countQ. rewrite (range_of_qubit l t q H). split.
  - cbn [filter]. destruct (existsb _ l), (existsb _ l); cbn; lia.
  - rewrite length_zero_iff_nil. split.
    + intros E [q' p] Hc Q. cbn in Q. subst q'. assert (A: In (Ctl q p) (filter (fun c => existsb (ctl_eqb c) l) [Ctl q false; Ctl q true])).
      { apply filter_In. split; [destruct p; cbn; auto|]. apply existsb_exists. exists (Ctl q p). split; auto. now apply ctl_eqb_spec. }
      rewrite E in A. destruct A.
    + intros A. assert (B: forall p, existsb (ctl_eqb (Ctl q p)) l = false).
      { intros p. destruct (existsb (ctl_eqb (Ctl q p)) l) eqn:E; auto. apply existsb_exists in E. destruct E as (x & Hx & E). apply ctl_eqb_spec in E. subst x. destruct (A _ Hx). reflexivity. }
      cbn [filter]. now rewrite !B.
Qed.
(** What is found is a control on the qubit, the negative one if there are both. *)
Theorem found_by_qubit l t q : inorder t = cs_of l ->
  match findQ t q with
  | Some c => In c l /\ cqb c = q /\ (In (Ctl q false) l -> c = Ctl q false)
  | None => forall c, In c l -> cqb c <> q
  end.
Proof.
  intros H. assert (F: findQ t q = hd_error (equalRange t q)).
  { unfold findQ, equalRange. destruct (lowerBound t q []) as [|c r]; [reflexivity|]. cbn [upTo]. destruct (lt_qc q c); reflexivity. }
  rewrite F. destruct (count_of_qubit l t q H) as [_ Z]. unfold countQ in Z. rewrite (range_of_qubit l t q H) in *. cbn [filter] in *.
  assert (I: forall p, existsb (ctl_eqb (Ctl q p)) l = true <-> In (Ctl q p) l).
  { intros p. rewrite existsb_exists. split; [intros (x & Hx & E); apply ctl_eqb_spec in E; now subst|]. intros Hx. exists (Ctl q p). split; auto. now apply ctl_eqb_spec. }
  destruct (existsb (ctl_eqb (Ctl q false)) l) eqn:E0; cbn [hd_error].
  - apply I in E0. auto.
  - destruct (existsb (ctl_eqb (Ctl q true)) l) eqn:E1; cbn [hd_error length] in *; [|now apply Z]. apply I in E1. split; auto. split; auto. intros A. apply I in A. congruence.
Qed.
Example by_qubit_example : equalRange tree3 1 = [Ctl 1 false; Ctl 1 true] /\ countQ tree3 4 = 1%nat /\ countQ tree3 2 = 0%nat /\
  findQ tree3 1 = Some (Ctl 1 false) /\ findQ tree3 4 = Some (Ctl 4 true) /\ findQ tree3 2 = None /\ findQ tree3 7 = None.
Proof. repeat split. Qed.

(** * Literals *)
Theorem literals q : 0 <= q < 128 -> lit_pc q = Ctl q true /\ lit_nc q = Ctl q false.
Proof. intros H. unfold lit_pc, lit_nc, qubitOf. rewrite Z.mod_small by lia. replace (q + 128 - 128) with q by lia. auto. Qed.
Example literals_example : lit_nc 127 = Ctl 127 false /\ lit_pc 0 = Ctl 0 true.
Proof. split; reflexivity. Qed.
(** Larger numbers wrap around: 256 is a control on qubit 0. *)
Theorem literal_wraps_refuted : exists q, 0 <= q < 2 ^ 64 /\ lit_pc q = lit_pc 0 /\ q <> 0.
Proof. exists 256. repeat split; discriminate. Qed.

Print Assumptions comparison_consistent.
Print Assumptions tree_insertion.
Print Assumptions range_of_qubit.
Print Assumptions count_of_qubit.
Print Assumptions found_by_qubit.
Print Assumptions literals.
Print Assumptions literal_wraps_refuted.
