(** C42: the marks that prepare density-matrix nodes for an operation, and undoing them. *)
From Coq Require Import ZArith List Bool Lia Arith SpecFloat.
From Verif Require Import Num Base CTable State Density.
Import ListNotations.
Local Open Scope Z_scope.

(** The four successors of a node (Node.hpp:85). *)
Definition succs4 (x : dnode) : list dedge := [dn_e0 x; dn_e1 x; dn_e2 x; dn_e3 x].
(** A node as it is stored: no marks on it or on its successors' pointers. *)
Definition at_rest (x : dnode) : Prop :=
  dn_mk x = mk0 /\ Forall (fun e => dp_mk (de_p e) = mk0) (succs4 x).
(** No weight of a successor has the negative zero pointer as imaginary part. *)
Definition no_neg_zero (x : dnode) : Prop := Forall (fun e => ci (de_w e) <> EP true AZero) (succs4 x).
(** The pointers handed to the preparation: unmarked, or marked as part of a density matrix. *)
Definition markable (p : dptr) : Prop := mk_dm (dp_mk p) = true \/ dp_mk p = mk0.

Lemma flip_flip p : p <> EP true AZero -> ep_flip (ep_flip p) = p.
Proof.
  intros Z. destruct p as [[] []]; try reflexivity; try (destruct (Z eq_refl)); unfold ep_flip; cbn; reflexivity.
Qed.
Lemma flipI2 e : ci (de_w e) <> EP true AZero -> flipI (flipI e) = e.
Proof. destruct e as [p [r i]]. unfold flipI. cbn. intros Z. now rewrite flip_flip. Qed.
Lemma onp_align_set f e : (forall p, dp_at (f p) = dp_at p) -> onp alignP (onp f e) = onp alignP e.
Proof. intros H. destruct e as [p w]. unfold onp, alignP. cbn. now rewrite H. Qed.
Lemma align_rest e : dp_mk (de_p e) = mk0 -> onp alignP e = e.
Proof. destruct e as [[a m] w]. cbn. intros ->. reflexivity. Qed.
Lemma onp_flip f e : onp f (flipI e) = flipI (onp f e).
Proof. reflexivity. Qed.
Lemma mk_or0 m : mk_or mk0 m = m.
Proof. now destruct m as [[] [] []]. Qed.
(** The same node up to marks on the pointers of its successors. *)
Definition sameup (x y : dnode) : Prop :=
  dn_v x = dn_v y /\ dn_mk x = dn_mk y /\ dn_rest x = dn_rest y /\ forall i, onp alignP (succ x i) = onp alignP (succ y i).
Lemma sameup_refl x : sameup x x.
Proof. repeat split. Qed.
Lemma sameup_trans x y z : sameup x y -> sameup y z -> sameup x z.
Proof. intros (A & B & C & E) (A' & B' & C' & E'). repeat split; try (etransitivity; eassumption). intros i. now rewrite E. Qed.
Lemma undo_sameup x y : sameup x y -> withM (undoE x) mk0 = withM (undoE y) mk0.
Proof.
  intros (A & B & C & E). pose proof (E 0%nat) as E0. pose proof (E 1%nat) as E1. pose proof (E 2%nat) as E2. pose proof (E 3%nat) as E3. cbn [succ] in *. unfold undoE, withM, withE. rewrite A, B, C, E0, E1, E2, E3. destruct (mk_first (dn_mk y) && negb (mk_conj (dn_mk y))); [reflexivity|]. destruct (negb (mk_conj (dn_mk y))); reflexivity.
Qed.
Lemma undo_prep m x : at_rest x -> no_neg_zero x -> withM (undoE (withM (prepE m x) m)) mk0 = x.
Proof.
  intros [R0 R] Z. unfold succs4 in *. apply Forall_inv in R as Ra. apply Forall_inv_tail in R. apply Forall_inv in R as Rb. apply Forall_inv_tail in R. apply Forall_inv in R as Rc. apply Forall_inv_tail in R. apply Forall_inv in R as Rd.
  apply Forall_inv in Z as Za. apply Forall_inv_tail in Z. apply Forall_inv in Z as Zb. apply Forall_inv_tail in Z. apply Forall_inv in Z as Zc. apply Forall_inv_tail in Z. apply Forall_inv in Z as Zd. clear R Z.
  destruct x as [[[a ma] [ar ai]] [[b mb] [br bi]] [[c mc] [cr' ci']] [[d md] [dr di]] v mk rest]. cbn in *. subst.
  pose proof (flip_flip _ Za) as Fa. pose proof (flip_flip _ Zb) as Fb. pose proof (flip_flip _ Zc) as Fc. pose proof (flip_flip _ Zd) as Fd.
  destruct m as [[] [] []]; cbv -[ep_flip]; rewrite ?Fa, ?Fb, ?Fc, ?Fd; reflexivity.
Qed.
Lemma mk_none_iff m : mk_none m = true <-> m = mk0.
Proof. destruct m as [[] [] []]; unfold mk0; cbn; split; congruence. Qed.

(** Preparing a pointer to a node at rest. *)
Lemma apply_node h p n : dp_at p = PNode n -> markable p -> dn_mk (h n) = mk0 -> 0 <= dn_v (h n) ->
  exists h1, applyDm h p = inl (h1, alignP p) /\ (forall k, k <> n -> h1 k = h k) /\
    h1 n = (if mk_dm (dp_mk p) then withM (prepE (dp_mk p) (h n)) (dp_mk p) else h n).
Proof.
  intros A M R V. unfold applyDm. rewrite A, R. destruct (mk_dm (dp_mk p)) eqn:D.
  - destruct (Z.leb_spec (dn_v (h n)) (-1)); [lia|]. cbn. eexists. split; [reflexivity|]. split; [intros k K; now rewrite upd_neq|]. rewrite upd_eq. destruct (dp_mk p) as [[] [] []]; reflexivity.
  - destruct M as [M|M]; [congruence|]. exists h. split; [|split; auto]. destruct p; cbn in *. now rewrite M.
Qed.
(** Undoing it after the marks of the successors may have changed. *)
Lemma revert_node h1 p n x : dp_at p = PNode n -> at_rest x -> no_neg_zero x -> markable p ->
  sameup (h1 n) (if mk_dm (dp_mk p) then withM (prepE (dp_mk p) x) (dp_mk p) else x) ->
  (mk_dm (dp_mk p) = false -> h1 n = x) ->
  exists h2, revertDm h1 (alignP p) = inl (h2, alignP p) /\ (forall k, k <> n -> h2 k = h1 k) /\ h2 n = x.
Proof.
  intros A R Z M S E. unfold revertDm. cbn [dp_mk alignP mk_none mk0 negb andb]. cbn [dp_at alignP]. rewrite A.
  destruct (mk_dm (dp_mk p)) eqn:D.
  - assert (Em: dn_mk (h1 n) = dp_mk p) by (destruct S as (_ & S & _); exact S). rewrite Em, D. eexists. split; [reflexivity|]. split; [intros k K; now rewrite upd_neq|].
    rewrite upd_eq. rewrite (undo_sameup _ _ S). apply undo_prep; auto.
  - rewrite (E eq_refl). destruct R as [R _]. rewrite R. cbn. exists h1. split; auto.
Qed.

(** * C42 *)

(** Undoing the preparation of an edge brings every node back to what it was. *)
Theorem marks_undone_partial h p n :
  dp_at p = PNode n -> markable p -> at_rest (h n) -> no_neg_zero (h n) -> 0 <= dn_v (h n) ->
  exists h1 h2, applyDm h p = inl (h1, alignP p) /\ revertDm h1 (alignP p) = inl (h2, alignP p) /\ forall k, h2 k = h k.
Proof.
  intros A M R Z V. destruct (apply_node h p n A M (proj1 R) V) as (h1 & E1 & F1 & G1). exists h1.
  destruct (revert_node h1 p n (h n) A R Z M) as (h2 & E2 & F2 & G2); [rewrite G1; apply sameup_refl|intros D; rewrite G1, D; reflexivity|].
  exists h2. split; auto. split; auto. intros k. destruct (Nat.eq_dec k n) as [->|K]; auto. rewrite F2, F1; auto.
Qed.
(** The same for the two operands of an operation on different nodes. *)
Theorem marks_undone_pair_partial h p q n m : n <> m ->
  dp_at p = PNode n -> markable p -> at_rest (h n) -> no_neg_zero (h n) -> 0 <= dn_v (h n) ->
  dp_at q = PNode m -> markable q -> at_rest (h m) -> no_neg_zero (h m) -> 0 <= dn_v (h m) ->
  exists h1 h2, applyDm2 h p q = inl (h1, alignP p, alignP q) /\
    revertDm2 h1 (alignP p) (alignP q) = inl (h2, alignP p, alignP q) /\ forall k, h2 k = h k.
Proof.
  intros Ne A M R Z V A' M' R' Z' V'. destruct (apply_node h p n A M (proj1 R) V) as (h1 & E1 & F1 & G1).
  assert (Em: h1 m = h m) by (apply F1; auto).
  destruct (apply_node h1 q m A' M') as (h2 & E2 & F2 & G2); [rewrite Em; apply R'|rewrite Em; auto|].
  destruct (revert_node h2 p n (h n) A R Z M) as (h3 & E3 & F3 & G3); [rewrite F2, G1 by auto; apply sameup_refl|intros D; rewrite F2, G1, D by auto; reflexivity|].
  assert (E3m: h3 m = h2 m) by (apply F3; auto).
  destruct (revert_node h3 q m (h m) A' R' Z' M') as (h4 & E4 & F4 & G4); [rewrite E3m, G2, Em; apply sameup_refl|intros D; rewrite E3m, G2, Em, D; reflexivity|].
  exists h2, h4. unfold applyDm2, revertDm2. rewrite E1, E2, E3, E4. split; auto. split; auto.
  intros k. destruct (Nat.eq_dec k m) as [->|K]; auto. rewrite F4 by auto. destruct (Nat.eq_dec k n) as [->|K']; auto. rewrite F3, F2, F1; auto.
Qed.

(** A node with all four marks' effects visible: distinct successors and weights. *)
Definition wI (n : nat) : complex := CX (EP false (ATab n)) (EP true (ATab (S n))).
Definition dnEx : dnode :=
  DN (DE (DP PTerm mk0) (wI 0)) (DE (DP (PNode 1) mk0) (wI 2)) (DE (DP (PNode 2) mk0) (wI 4)) (DE (DP PTerm mk0) (wI 6)) 3 mk0 8.
Example marks_case : let p := DP (PNode 0) (MK true false true) in
  at_rest dnEx /\ no_neg_zero dnEx /\ markable p /\
  match applyDm (fun _ => dnEx) p with
  | inl (h, _) => dn_e1 (h 0%nat) = DE (DP (PNode 2) (MK true false true)) (CX (EP false (ATab 4)) (EP false (ATab 5)))
  | inr _ => False
  end.
Proof. split; [repeat split; repeat constructor|]. split; [repeat constructor; discriminate|]. split; [left; reflexivity|reflexivity]. Qed.

(** What is not restored: the marks of the edge itself ... *)
Theorem marks_of_edge_refuted : exists h p h1 q h2 q', applyDm h p = inl (h1, q) /\ revertDm h1 q = inl (h2, q') /\
  at_rest (h 0%nat) /\ no_neg_zero (h 0%nat) /\ q' <> p.
Proof.
  exists (fun _ => dnEx), (DP (PNode 0) (MK false false true)). do 4 eexists. split; [reflexivity|]. split; [reflexivity|].
  split; [repeat split; repeat constructor|]. split; [repeat constructor; discriminate|]. intros E. discriminate E.
Qed.
(** ... weights with the negative zero pointer that ComplexNumbers::lookup returns for -TOLERANCE ... *)
Theorem marks_negative_zero_refuted : exists h p h1 q h2 q', applyDm h p = inl (h1, q) /\ revertDm h1 q = inl (h2, q') /\
  at_rest (h 0%nat) /\ h2 0%nat <> h 0%nat.
Proof.
  exists (fun _ => withE dnEx (dn_e0 dnEx) (dn_e1 dnEx) (DE (DP PTerm mk0) (CX (EP false AOne) (EP true AZero))) (dn_e3 dnEx)), (DP (PNode 0) (MK false false true)).
  do 4 eexists. split; [reflexivity|]. split; [reflexivity|]. split; [repeat split; repeat constructor|]. intros E. discriminate E.
Qed.
(** ... and nothing works when both operands are the same node: the assertion fails. *)
Theorem marks_same_node_refuted : exists h p, at_rest (h 0%nat) /\ no_neg_zero (h 0%nat) /\ markable p /\ dp_at p = PNode 0 /\
  applyDm2 h p p = inr BadAssert.
Proof.
  exists (fun _ => dnEx), (DP (PNode 0) (MK false false true)). split; [repeat split; repeat constructor|]. split; [repeat constructor; discriminate|].
  split; [left; reflexivity|]. split; reflexivity.
Qed.

(** ** Reading a density matrix *)

(** A set of stored nodes, closed under successors; levels decrease. *)
Definition stored (h : dheap) (D : nat -> Prop) : Prop :=
  forall n, D n -> 0 <= dn_v (h n) /\ at_rest (h n) /\ no_neg_zero (h n) /\
    Forall (fun e => match dp_at (de_p e) with
                     | PNull => False
                     | PTerm => True
                     | PNode m => D m /\ dn_v (h m) < dn_v (h n)
                     end) (succs4 (h n)).

Section Read.
Context (N : num) (av : eaddr -> N) (h0 : dheap) (D : nat -> Prop) (W : stored h0 D).

(** The pointers met below a node of level [l]. *)
Definition good (l : Z) (e : dedge) : Prop :=
  markable (de_p e) /\ match dp_at (de_p e) with PNull => False | PTerm => True | PNode m => D m /\ dn_v (h0 m) < l end.

Lemma good_prep m x : mk_dm m = true -> at_rest x -> forall l,
  Forall (fun e => match dp_at (de_p e) with PNull => False | PTerm => True | PNode m => D m /\ dn_v (h0 m) < l end) (succs4 x) ->
  Forall (good l) (succs4 (prepE m x)).
Proof.
  intros Hm [_ R] l T. unfold succs4 in *. inversion_clear R as [|? ? Ra R1]. inversion_clear R1 as [|? ? Rb R2]. inversion_clear R2 as [|? ? Rc R3]. inversion_clear R3 as [|? ? Rd _].
  inversion_clear T as [|? ? Ta T1]. inversion_clear T1 as [|? ? Tb T2]. inversion_clear T2 as [|? ? Tc T3]. inversion_clear T3 as [|? ? Td _].
  unfold prepE, good, markable. destruct (mk_first m && negb (mk_conj m)); [|destruct (negb (mk_conj m))]; cbn; repeat (apply Forall_cons; [split; auto|]); apply Forall_nil.
Qed.
Lemma in_succ x k : In (succ x k) (succs4 x).
Proof. destruct k as [|[|[|]]]; cbn; auto. Qed.
Lemma setSucc_same x k p : dp_at p = dp_at (de_p (succ x k)) -> sameup (setSucc x k p) x.
Proof.
  intros E. assert (E1: onp alignP (DE p (de_w (succ x k))) = onp alignP (succ x k)) by (unfold onp, alignP; cbn; now rewrite E).
  destruct k as [|[|[|]]]; (split; [reflexivity|]); (split; [reflexivity|]); (split; [reflexivity|]); intros [|[|[|i]]]; cbn [setSucc succ withE dn_e0 dn_e1 dn_e2 dn_e3] in *; auto.
Qed.
Lemma setSucc_good l x k p : Forall (good l) (succs4 x) -> markable p -> dp_at p = dp_at (de_p (succ x k)) -> Forall (good l) (succs4 (setSucc x k p)).
Proof.
  intros F M E. assert (G: good l (DE p (de_w (succ x k)))).
  { rewrite Forall_forall in F. destruct (F _ (in_succ x k)) as [_ T]. split; auto. cbn. now rewrite E. }
  unfold succs4 in *. inversion_clear F as [|? ? Ta T1]. inversion_clear T1 as [|? ? Tb T2]. inversion_clear T2 as [|? ? Tc T3]. inversion_clear T3 as [|? ? Td _].
  destruct k as [|[|[|]]]; cbn; repeat (apply Forall_cons; [assumption|]); apply Forall_nil.
Qed.
Lemma same_v x y : sameup x y -> dn_v x = dn_v y.
Proof. now intros [A _]. Qed.
Lemma same_at x y k : sameup x y -> dp_at (de_p (succ x k)) = dp_at (de_p (succ y k)).
Proof. intros (_ & _ & _ & E). specialize (E k). destruct (succ x k) as [[]], (succ y k) as [[]]. unfold onp, alignP in E. cbn in *. congruence. Qed.

(** What the traversal writes, on the nodes as they are stored: successor [k] of a node prepared with
    the marks [mm] ... *)
Definition chE (mm : marks) (x : dnode) (k : nat) : dedge := succ (if mk_dm mm then prepE mm x else x) k.
(** ... and the matrix after the traversal. *)
Definition rdStep (rec : marks -> nat -> complex -> N * N -> Z -> Z -> cmat N -> cmat N) (mm : marks) (n : nat) (c : N * N) (i j : Z) (k : nat) (m : cmat N) : cmat N :=
  let e := chE mm (h0 n) k in
  let bit := 2 ^ dn_v (h0 n) in
  let i' := if Nat.leb 2 k then Z.lor i bit else i in
  let j' := if Nat.odd k then Z.lor j bit else j in
  if dz N (dcval N av (de_w e)) then m
  else match dp_at (de_p e) with
       | PNull => m
       | PTerm => setM N m i' j' (dmul N (dcval N av (de_w e)) c)
       | PNode t => rec (dp_mk (de_p e)) t (de_w e) c i' j' m
       end.
Fixpoint rdF (fuel : nat) (mm : marks) (n : nat) (w : complex) (amp : N * N) (i j : Z) (m : cmat N) : cmat N :=
  match fuel with
  | O => m
  | S f => let c := dmul N (dcval N av w) amp in
           let step := rdStep (rdF f) mm n c i j in step 3%nat (step 2%nat (step 1%nat (step 0%nat m)))
  end.
Lemma succ_other x k k' p : (k < 4)%nat -> (k' < 4)%nat -> k' <> k -> succ (setSucc x k p) k' = succ x k'.
Proof. intros A B C. destruct k as [|[|[|[|]]]], k' as [|[|[|[|]]]]; try lia; reflexivity. Qed.

Lemma getDMF_reads : forall fuel n h w amp i j m mm, D n -> (Z.to_nat (dn_v (h0 n)) + 1 < fuel)%nat ->
  (mk_dm mm = true \/ mm = mk0) -> h n = (if mk_dm mm then withM (prepE mm (h0 n)) mm else h0 n) ->
  (forall k, D k -> dn_v (h0 k) < dn_v (h0 n) -> h k = h0 k) ->
  exists h', getDMF N av fuel h (PNode n) w amp i j m = inl (h', rdF fuel mm n w amp i j m) /\ sameup (h' n) (h n) /\ (mm = mk0 -> h' n = h n) /\ (forall k, k <> n -> h' k = h k).
Proof.
  induction fuel as [|f IH]; intros n h w amp i j m mm Hn Hf Hm En El; [lia|].
  destruct (W n Hn) as (V & R & Z & T). cbn [getDMF rdF].
  set (c := dmul N (dcval N av w) amp). set (bit := 2 ^ dn_v (h n)).
  set (step := getStep N av (getDMF N av f) n c bit i j).
  assert (Ebit: bit = 2 ^ dn_v (h0 n)) by (unfold bit; rewrite En; destruct (mk_dm mm); [|reflexivity]; unfold withM, prepE; cbn; destruct (_ && _); [|destruct (negb _)]; reflexivity).
  pose (inv := fun (k0 : nat) (hc : dheap) => (forall k, (k0 <= k < 4)%nat -> succ (hc n) k = chE mm (h0 n) k) /\ sameup (hc n) (h n) /\ (mm = mk0 -> hc n = h n) /\ Forall (good (dn_v (h0 n))) (succs4 (hc n)) /\ (forall k, k <> n -> hc k = h k)).
  assert (St: forall k hc mc, (k < 4)%nat -> inv k hc -> exists hc', step k (inl (hc, mc)) = inl (hc', rdStep (rdF f) mm n c i j k mc) /\ inv (S k) hc').
  { intros k hc mc Hk (IV & I1 & I0 & I2 & I3). pose proof (IV k ltac:(lia)) as Ek. unfold step, getStep, rdStep. rewrite <- Ek. rewrite <- Ebit. destruct (dz N (dcval N av (de_w (succ (hc n) k)))); [exists hc; split; [reflexivity|split; [intros k' K'; apply IV; lia|repeat split; auto; apply I1]]|].
    pose proof I2 as I2'. rewrite Forall_forall in I2'. destruct (I2' _ (in_succ (hc n) k)) as [Mk Tg]. set (e := succ (hc n) k) in *.
    destruct (dp_at (de_p e)) as [| |t] eqn:At; [destruct Tg| |].
    - (* terminal *)
      assert (E: applyDm hc (de_p e) = inl (hc, alignP (de_p e)) \/ applyDm hc (de_p e) = inl (hc, de_p e)).
      { unfold applyDm. rewrite At. destruct (mk_dm (dp_mk (de_p e))); auto. }
      assert (E': applyDm hc (de_p e) = inl (hc, alignP (de_p e))).
      { destruct E as [E|E]; auto. rewrite E. unfold applyDm in E. rewrite At in E. destruct (mk_dm (dp_mk (de_p e))) eqn:Dm; [congruence|]. destruct Mk as [Mk|Mk]; [congruence|]. destruct (de_p e) as [a q]. cbn in *. now rewrite Mk. }
      rewrite E'. cbn [dp_at alignP]. rewrite At. destruct f as [|f']; [lia|]. cbn [getDMF]. unfold revertDm. cbn [dp_mk alignP mk_none mk0 negb andb dp_at]. rewrite At. eexists. split; [reflexivity|].
      set (hc1 := upd hc n (setSucc (hc n) k (DP PTerm mk0))).
      assert (Q: inv (S k) hc1).
      { split; [intros k' K'; unfold hc1; rewrite upd_eq, succ_other by lia; apply IV; lia|]. split; [unfold hc1; rewrite upd_eq; eapply sameup_trans; [apply setSucc_same; cbn; fold e; now rewrite At|auto]|].
        split; [|split; [unfold hc1; rewrite upd_eq; apply setSucc_good; [assumption|right; reflexivity|cbn; fold e; now rewrite At]|intros k' K; unfold hc1; rewrite upd_neq; auto]].
        intros M0. unfold hc1. rewrite upd_eq. rewrite <- (I0 M0). assert (Al: dp_mk (de_p e) = mk0).
        { unfold e. rewrite (I0 M0), En, M0. cbn. destruct R as [_ R]. rewrite Forall_forall in R. apply R, in_succ. }
        unfold setSucc. fold e. replace (DE (DP PTerm mk0) (de_w e)) with e by (destruct e as [[a q] we]; cbn in *; congruence).
        unfold e. destruct (hc n); destruct k as [|[|[|]]]; reflexivity. }
      assert (E2: alignP (de_p e) = DP PTerm mk0) by (unfold alignP; now rewrite At). rewrite E2.
      set (hc2 := upd hc1 n (setSucc (hc1 n) k (DP PTerm mk0))). fold hc1. assert (Hh: forall k', hc2 k' = hc1 k').
      { intros k'. unfold hc2. destruct (Nat.eq_dec k' n) as [->|K]; [|rewrite upd_neq; auto]. rewrite upd_eq. unfold hc1. rewrite upd_eq.
        destruct (hc n), k as [|[|[|]]]; reflexivity. }
      destruct Q as (QV & Q1 & Q0 & Q2 & Q3). fold hc2. split; [intros k' K'; rewrite Hh; auto|]. split; [rewrite Hh; auto|]. split; [intros M0; rewrite Hh; auto|]. split; [rewrite Hh; auto|intros k' K; rewrite Hh; auto].
    - (* node *)
      destruct Tg as [Dt Lt]. destruct (W t Dt) as (Vt & Rt & Zt & _).
      assert (Nt: t <> n) by (intros ->; lia).
      assert (Ht: hc t = h0 t) by (rewrite I3 by auto; apply El; auto).
      destruct (apply_node hc (de_p e) t At Mk) as (h1 & E1 & F1 & G1); [rewrite Ht; apply Rt|rewrite Ht; auto|]. rewrite E1. cbn [dp_at alignP]. rewrite At.
      set (h1' := upd h1 n (setSucc (h1 n) k (alignP (de_p e)))). rewrite Ht in G1.
      destruct (IH t h1' (de_w e) c (if Nat.leb 2 k then Z.lor i bit else i) (if Nat.odd k then Z.lor j bit else j) mc (dp_mk (de_p e)))
        as (h2 & E2 & S2 & M2 & F2); auto; [lia|unfold h1'; rewrite upd_neq by auto; apply G1| |].
      { intros k' Dk Lk. unfold h1'. rewrite upd_neq by (intros ->; lia). rewrite F1 by (intros ->; lia). rewrite I3 by (intros ->; lia). apply El; auto; lia. }
      rewrite E2.
      assert (S1: h1' t = h1 t) by (unfold h1'; rewrite upd_neq; auto). rewrite S1 in S2, M2.
      destruct (revert_node h2 (de_p e) t (h0 t) At Rt Zt Mk) as (h3 & E3 & F3 & G3); [rewrite <- G1; exact S2| |].
      { intros Dm. rewrite M2; [rewrite G1, Dm; reflexivity|]. destruct Mk as [Mk|Mk]; congruence. }
      rewrite E3. eexists. split; [reflexivity|].
      assert (Hn3: h3 n = setSucc (hc n) k (alignP (de_p e))).
      { rewrite F3 by auto. rewrite F2 by auto. unfold h1'. rewrite upd_eq. now rewrite F1 by auto. }
      set (h4 := upd h3 n (setSucc (h3 n) k (alignP (de_p e)))).
      assert (Hn4: h4 n = setSucc (hc n) k (alignP (de_p e))).
      { unfold h4. rewrite upd_eq, Hn3. destruct (hc n), k as [|[|[|]]]; reflexivity. }
      split; [intros k' K'; rewrite Hn4, succ_other by lia; apply IV; lia|].
      split; [rewrite Hn4; eapply sameup_trans; [apply setSucc_same; reflexivity|auto]|].
      split; [|split; [rewrite Hn4; apply setSucc_good; [assumption|right; reflexivity|reflexivity]|]].
      + intros M0. rewrite Hn4. rewrite <- (I0 M0). assert (Al: dp_mk (de_p e) = mk0).
        { unfold e. rewrite (I0 M0), En, M0. cbn. destruct R as [_ R]. rewrite Forall_forall in R. apply R, in_succ. }
        unfold setSucc. fold e. replace (DE (alignP (de_p e)) (de_w e)) with e by (destruct e as [[a q] we]; cbn in *; unfold alignP; cbn; congruence).
        unfold e. destruct (hc n); destruct k as [|[|[|]]]; reflexivity.
      + intros k' K. unfold h4. rewrite upd_neq by auto. destruct (Nat.eq_dec k' t) as [->|K']; [rewrite G3; symmetry; rewrite <- I3 by auto; auto|].
        rewrite F3, F2 by auto. unfold h1'. rewrite upd_neq, F1, I3; auto. }
  assert (I0: inv 0%nat h).
  { split; [intros k K; rewrite En; unfold chE; destruct (mk_dm mm); [|reflexivity]; unfold withM; destruct k as [|[|[|]]]; reflexivity|]. split; [apply sameup_refl|]. split; [auto|]. split; [|auto]. rewrite En. destruct (mk_dm mm) eqn:Dm; [apply good_prep; auto|].
    destruct R as [_ R]. revert R T. generalize (succs4 (h0 n)). intros l R T. rewrite Forall_forall in *. intros x Hx. split; [right; apply R; auto|apply T; auto]. }
  set (rs := rdStep (rdF f) mm n c i j) in *.
  destruct (St 0%nat h m ltac:(lia) I0) as (h1 & E1 & I1). rewrite E1.
  destruct (St 1%nat h1 (rs 0%nat m) ltac:(lia) I1) as (h2 & E2 & I2). rewrite E2.
  destruct (St 2%nat h2 (rs 1%nat (rs 0%nat m)) ltac:(lia) I2) as (h3 & E3 & I3). rewrite E3.
  destruct (St 3%nat h3 (rs 2%nat (rs 1%nat (rs 0%nat m))) ltac:(lia) I3) as (h4 & E4 & I4). rewrite E4.
  destruct I4 as (QV & Q1 & Q0 & Q2 & Q3). exists h4. auto.
Qed.

(** Reading a density matrix terminates normally and leaves all nodes as they were. *)
Lemma reading p n w fuel : D n -> dp_at p = PNode n -> markable p -> (Z.to_nat (dn_v (h0 n)) + 1 < fuel)%nat -> dn_v (h0 n) < 63 ->
  exists h, getDensityMatrix N av h0 (DE p w) fuel = inl (h, DE (alignP p) w, rdF fuel (dp_mk p) n w (n1, n0) 0 0 (fun _ _ => (n0, n0))) /\ forall k, h k = h0 k.
Proof.
  intros Hn At Mk Hf V63. destruct (W n Hn) as (V & R & Z & T). unfold getDensityMatrix. cbn [de_p de_w].
  destruct (apply_node h0 p n At Mk (proj1 R) V) as (h1 & E1 & F1 & G1). rewrite E1. cbn [dp_at alignP]. rewrite At.
  assert (Ed: dimOk h1 (PNode n) = true). { unfold dimOk. rewrite G1. apply Z.ltb_lt. destruct (mk_dm (dp_mk p)); [|exact V63]. unfold withM, prepE. cbn. destruct (_ && _); [|destruct (negb _)]; exact V63. }
  rewrite Ed. cbn [negb].
  destruct (getDMF_reads fuel n h1 w (n1, n0) 0 0 (fun _ _ => (n0, n0)) (dp_mk p) Hn Hf Mk G1) as (h2 & E2 & S2 & M2 & F2).
  { intros k Dk Lk. apply F1. intros ->. lia. }
  rewrite E2. destruct (revert_node h2 p n (h0 n) At R Z Mk) as (h3 & E3 & F3 & G3); [rewrite <- G1; auto| |].
  { intros Dm. rewrite M2; [rewrite G1, Dm; reflexivity|]. destruct Mk as [Mk|Mk]; congruence. }
  rewrite E3. eexists. split; [reflexivity|]. intros k. destruct (Nat.eq_dec k n) as [->|K]; auto. now rewrite F3, F2, F1 by auto.
Qed.
Theorem reading_restores_nodes_partial p n w fuel : D n -> dp_at p = PNode n -> markable p -> (Z.to_nat (dn_v (h0 n)) + 1 < fuel)%nat -> dn_v (h0 n) < 63 ->
  exists h e m, getDensityMatrix N av h0 (DE p w) fuel = inl (h, e, m) /\ forall k, h k = h0 k.
Proof. intros Hn At Mk Hf V63. destruct (reading p n w fuel Hn At Mk Hf V63) as (h & E & F). eauto 6. Qed.
End Read.

(** A one-qubit density matrix with entries 1/2, i/2, -i/2, 1/2: the node stores the upper right
    entry twice, and the mark on the root edge asks for its conjugate in the lower left. *)
Definition dwR : complex := CX (EP false (ATab 0)) (EP false AZero).
Definition dwI : complex := CX (EP false AZero) (EP false (ATab 0)).
Definition dheapEx : dheap := fun _ =>
  DN (DE (DP PTerm mk0) dwR) (DE (DP PTerm mk0) dwI) (DE (DP PTerm mk0) dwI) (DE (DP PTerm mk0) dwR) 0 mk0 8.
Definition davEx (a : eaddr) : NumF := match a with AZero => F0 | AOne => F1 | ASqrt2 => Fsq2 | _ => Fhalf end.
Definition rootEx : dedge := DE (DP (PNode 0) (MK false false true)) (CX (EP false AOne) (EP false AZero)).
Example reading_case : stored dheapEx (fun n => n = 0%nat) /\ markable (de_p rootEx) /\
  match getDensityMatrix NumF davEx dheapEx rootEx 2 with
  | inl (_, _, m) => m 0 1 = (F0, Fhalf) /\ m 1 0 = (F0, SFopp Fhalf) /\ m 0 0 = (Fhalf, F0) /\ m 1 1 = (Fhalf, F0)
  | inr _ => False
  end.
Proof.
  split; [|split; [left; reflexivity|vm_compute; auto]].
  intros n ->. split; [cbn; lia|]. split; [repeat split; repeat constructor|]. split; repeat constructor; discriminate.
Qed.
(** getDensityMatrix takes its edge by reference and strips its mark: reading the same edge a second
    time gives a different matrix. *)
Theorem reading_twice_refuted : exists (h : dheap) (e : dedge), stored h (fun n => n = 0%nat) /\ markable (de_p e) /\
  match getDensityMatrix NumF davEx h e 2 with
  | inl (h1, e1, m1) => match getDensityMatrix NumF davEx h1 e1 2 with
                        | inl (_, _, m2) => m1 1 0 <> m2 1 0
                        | inr _ => False
                        end
  | inr _ => False
  end.
Proof.
  exists dheapEx, rootEx. destruct reading_case as (A & B & _). split; auto. split; auto. vm_compute. discriminate.
Qed.

Print Assumptions marks_undone_partial.
Print Assumptions marks_undone_pair_partial.
Print Assumptions marks_of_edge_refuted.
Print Assumptions marks_negative_zero_refuted.
Print Assumptions marks_same_node_refuted.
Print Assumptions reading_restores_nodes_partial.
Print Assumptions reading_twice_refuted.
