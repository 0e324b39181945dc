(** The real-number table over exact reals: order, separation, accuracy. *)
From Coq Require Import ZArith List Bool Lia Arith Reals Lra Sorted.
From Verif Require Import Num Base CTable CTableWf.
Import ListNotations.
Local Open Scope R_scope.

(** ** Rounding *)

Lemma rneR_bounds x : x - 1/2 <= IZR (rneR x) <= x + 1/2.
Proof.
  unfold rneR. destruct (archimed x) as [A B].
  rewrite minus_IZR.
  destruct (Rlt_dec _ _). { rewrite minus_IZR. lra. }
  destruct (Rlt_dec _ _). { rewrite plus_IZR, minus_IZR. lra. }
  destruct (Z.even _); rewrite ?plus_IZR, minus_IZR; lra.
Qed.

Lemma rneR_mono x y : x <= y -> (rneR x <= rneR y)%Z.
Proof.
  intros H. destruct (Z.le_gt_cases (rneR x) (rneR y)) as [|G]; auto.
  assert (G': (rneR y + 1 <= rneR x)%Z) by lia. apply IZR_le in G'. rewrite plus_IZR in G'.
  pose proof (rneR_bounds x). pose proof (rneR_bounds y).
  assert (x = y) by lra. subst. lia.
Qed.

Lemma rneR_gap x d : d < 1 -> (rneR (x + d) <= rneR x + 1)%Z.
Proof.
  intros H. destruct (Z.le_gt_cases (rneR (x+d)) (rneR x + 1)) as [|G]; auto.
  assert (G': (rneR x + 2 <= rneR (x+d))%Z) by lia. apply IZR_le in G'. rewrite plus_IZR in G'.
  pose proof (rneR_bounds x). pose proof (rneR_bounds (x+d)). lra.
Qed.

Lemma rneR_nonneg x : 0 <= x -> (0 <= rneR x)%Z.
Proof.
  intros H. pose proof (rneR_bounds x).
  destruct (Z.le_gt_cases 0 (rneR x)) as [|G]; auto.
  assert (G': (rneR x <= -1)%Z) by lia. apply IZR_le in G'. lra.
Qed.

Section R.
Context (cf : ctcfg) (Hcf : cfgok cf) (tol : R) (Htol : 0 <= tol)
        (Hsmall : 2 * tol * IZR (ct_mask cf) < 1).
Local Notation N := (NumR tol).
Implicit Types c : ctab N.

Definition hashR (v : R) : Z := Z.min (rneR (v * IZR (ct_mask cf))) (ct_mask cf).

Lemma mask_nonneg : 0 <= IZR (ct_mask cf).
Proof. destruct Hcf as (A & _). apply IZR_le. unfold ct_mask. lia. Qed.

Lemma ct_hash_R v : 0 <= v -> ct_hash (N:=N) cf v = inl (hashR v).
Proof.
  intros H. unfold ct_hash, hashR. simpl.
  rewrite (proj2 (Rleb_iff 0 v) H).
  destruct (Z.ltb_spec (rneR (v * IZR (ct_mask cf))) 0) as [L|L]; auto.
  pose proof mask_nonneg.
  assert (Q: 0 <= v * IZR (ct_mask cf)) by (apply Rmult_le_pos; auto).
  apply rneR_nonneg in Q. lia.
Qed.

Lemma hashR_mono u v : u <= v -> (hashR u <= hashR v)%Z.
Proof.
  intros H. unfold hashR.
  assert (Q: u * IZR (ct_mask cf) <= v * IZR (ct_mask cf)).
  { apply Rmult_le_compat_r; auto. apply mask_nonneg. } apply rneR_mono in Q. lia.
Qed.

Lemma hashR_lt u v : (hashR u < hashR v)%Z -> u < v.
Proof. intros H. destruct (Rlt_le_dec u v); auto. apply hashR_mono in r. lia. Qed.

Lemma hashR_gap v : (hashR (v + tol) <= hashR (v - tol) + 1)%Z.
Proof.
  unfold hashR.
  pose proof (rneR_gap ((v - tol) * IZR (ct_mask cf)) (2 * tol * IZR (ct_mask cf)) Hsmall) as H.
  replace ((v - tol) * IZR (ct_mask cf) + 2 * tol * IZR (ct_mask cf))
    with ((v + tol) * IZR (ct_mask cf)) in H by ring.
  lia.
Qed.

Lemma approx_eq_R (a b : R) : approx_eq (N:=N) a b = true <-> Rabs (a - b) <= tol.
Proof.
  unfold approx_eq. simpl. rewrite orb_true_iff, andb_true_iff, !Rleb_iff. split; [|auto].
  intros [[A B]|]; auto. replace (a - b) with 0 by lra. rewrite Rabs_R0; auto.
Qed.
Lemma approx_eq_R_false (a b : R) : approx_eq (N:=N) a b = false <-> tol < Rabs (a - b).
Proof.
  rewrite <- not_true_iff_false, approx_eq_R. split; intros; lra.
Qed.

Definition V c a : R := ct_value c a.

Record ctord c : Prop := {
  co_hash : forall k a, In a (ct_tab c k) -> 0 <= V c a /\ k = hashR (V c a);
  co_sep : forall a b, ctlive c a -> ctlive c b -> a <> b -> tol < Rabs (V c a - V c b);
  co_zero : forall a, ctlive c a -> tol < Rabs (V c a - 0);
  co_one : forall a, ctlive c a -> tol < Rabs (V c a - 1);
  co_sq2 : forall a, ctlive c a -> tol < Rabs (V c a - sqrt 2 / 2);
  co_sorted : forall k, StronglySorted (fun a b => V c a < V c b) (ct_tab c k)
}.

Lemma abs_le_iff x y : Rabs x <= y <-> - y <= x <= y.
Proof. split; intros.
  - unfold Rabs in H; destruct (Rcase_abs x); lra.
  - unfold Rabs; destruct (Rcase_abs x); lra. Qed.
Lemma abs_gt_iff x y : y < Rabs x <-> (x < - y \/ y < x).
Proof. split; intros.
  - unfold Rabs in H; destruct (Rcase_abs x); lra.
  - unfold Rabs; destruct (Rcase_abs x); lra. Qed.

(** ** The scanning loop *)

Lemma scan_found c v : forall chain pre a,
  StronglySorted (fun x y => V c x < V c y) chain ->
  (forall x y, In x chain -> In y chain -> x <> y -> tol < Rabs (V c x - V c y)) ->
  NoDup chain ->
  ct_scan c v (v + tol) pre chain = inl a ->
  In a chain /\ Rabs (V c a - v) <= tol /\
  forall b, In b chain -> Rabs (V c a - v) <= Rabs (V c b - v).
Proof.
  induction chain as [|x rest IH]; intros pre a SS SEP ND; [discriminate|].
  cbn [ct_scan]. simpl nleb. change (ct_value c) with (V c).
  inversion SS as [|? ? SS' FA]; subst. inversion ND as [|? ? NI ND']; subst.
  destruct (Rleb (V c x) (v + tol)) eqn:L; [|discriminate]. apply Rleb_iff in L.
  destruct (approx_eq (N:=N) (V c x) v) eqn:A.
  - apply approx_eq_R in A. pose proof (proj1 (abs_le_iff _ _) A) as A'.
    rewrite Forall_forall in FA.
    destruct rest as [|y r].
    + intros [= <-]. split; [now left|]. split; auto. intros b [->|[]]. lra.
    + assert (S1: tol < Rabs (V c x - V c y)).
      { apply SEP; simpl; auto. intros ->. apply NI; simpl; auto. }
      assert (xy: V c x < V c y) by (apply FA; simpl; auto).
      apply abs_gt_iff in S1.
      inversion SS' as [|? ? SS'' FA'']; subst. rewrite Forall_forall in FA''.
      simpl nleb. simpl nltb. simpl nabs. simpl nsub. 
      destruct (Rleb (V c y) (v + tol)) eqn:L2; cbn [andb].
      * apply Rleb_iff in L2. destruct (Rltb _ _) eqn:L3.
        -- apply Rltb_iff in L3. intros [= <-]. split; [simpl; auto|]. split; [lra|].
           intros b [->|[->|Hb]]; try lra. specialize (FA'' b Hb).
           rewrite !Rabs_right by lra. lra.
        -- apply Rltb_false in L3. intros [= <-]. split; [simpl; auto|]. split; [auto|].
           intros b [->|[->|Hb]]; try lra. specialize (FA'' b Hb).
           apply Rle_trans with (1 := L3). rewrite !Rabs_right by lra. lra.
      * apply Rleb_false in L2. intros [= <-]. split; [simpl; auto|]. split; [auto|].
        intros b [->|[->|Hb]]; try lra.
        -- apply Rle_trans with (1 := A). rewrite Rabs_right by lra. lra.
        -- specialize (FA'' b Hb). apply Rle_trans with (1 := A). rewrite Rabs_right by lra. lra.
  - apply approx_eq_R_false in A. apply abs_gt_iff in A.
    intros H. destruct (IH _ _ SS' (fun p q Hp Hq => SEP p q (or_intror Hp) (or_intror Hq)) ND' H) as (P1 & P2 & P3).
    split; [now right|]. split; auto. intros b [->|Hb]; auto.
    apply Rle_trans with (1 := P2). unfold Rabs; destruct (Rcase_abs (V c b - v)); lra.
Qed.

Lemma scan_notfound c v : forall chain pre p q,
  StronglySorted (fun x y => V c x < V c y) chain ->
  ct_scan c v (v + tol) pre chain = inr (p, q) ->
  exists p', p = pre ++ p' /\ chain = p' ++ q /\
  (forall b, In b p' -> V c b < v - tol) /\ (forall b, In b q -> v + tol < V c b).
Proof.
  induction chain as [|x rest IH]; intros pre p q SS; cbn [ct_scan].
  - intros [= <- <-]. exists []. rewrite app_nil_r. repeat split; auto; simpl; tauto.
  - simpl nleb. change (ct_value c) with (V c).
    inversion SS as [|? ? SS' FA]; subst. rewrite Forall_forall in FA.
    destruct (Rleb (V c x) (v + tol)) eqn:L.
    + apply Rleb_iff in L. destruct (approx_eq (N:=N) (V c x) v) eqn:A.
      * destruct rest as [|y r]; [discriminate|]. destruct (_ && _); discriminate.
      * apply approx_eq_R_false, abs_gt_iff in A. intros H.
        destruct (IH _ _ _ SS' H) as (p' & -> & -> & Q1 & Q2).
        exists (x :: p'). split; [now rewrite <- app_assoc|]. split; auto. split; auto.
        intros b [->|Hb]; auto. lra.
    + apply Rleb_false in L. intros [= <- <-]. exists []. rewrite app_nil_r.
      repeat split; auto; simpl; [tauto|].
      intros b [->|Hb]; auto. specialize (FA b Hb). lra.
Qed.

Lemma insertPos_spec c v : forall chain pre p q,
  StronglySorted (fun x y => V c x < V c y) chain ->
  ct_insertPos c v pre chain = (p, q) ->
  exists p', p = pre ++ p' /\ chain = p' ++ q /\
  (forall b, In b p' -> V c b <= v) /\ (forall b, In b q -> v < V c b).
Proof.
  induction chain as [|x rest IH]; intros pre p q SS; cbn [ct_insertPos].
  - intros [= <- <-]. exists []. rewrite app_nil_r. repeat split; auto; simpl; tauto.
  - simpl nleb. change (ct_value c) with (V c).
    inversion SS as [|? ? SS' FA]; subst. rewrite Forall_forall in FA.
    destruct (Rleb (V c x) v) eqn:L.
    + apply Rleb_iff in L. intros H.
      destruct (IH _ _ _ SS' H) as (p' & -> & -> & Q1 & Q2).
      exists (x :: p'). split; [now rewrite <- app_assoc|]. split; auto. split; auto.
      intros b [->|Hb]; auto.
    + apply Rleb_false in L. intros [= <- <-]. exists []. rewrite app_nil_r.
      repeat split; auto; simpl; [tauto|].
      intros b [->|Hb]; auto. specialize (FA b Hb). lra.
Qed.

Lemma SS_app_inv {A} (P : A -> A -> Prop) l1 l2 :
  StronglySorted P (l1 ++ l2) -> StronglySorted P l1 /\ StronglySorted P l2 /\
  forall x y, In x l1 -> In y l2 -> P x y.
Proof.
  induction l1 as [|a l1 IH]; simpl; intros H.
  - repeat split; auto; [constructor|tauto].
  - inversion H as [|? ? S F]; subst. destruct (IH S) as (S1 & S2 & S3).
    rewrite Forall_forall in F. repeat split; auto.
    + constructor; auto. apply Forall_forall. intros; apply F, in_or_app; auto.
    + intros x y [->|Hx] Hy; auto. apply F, in_or_app; auto.
Qed.

Lemma SS_insert {A} (P Q : A -> A -> Prop) p a q :
  StronglySorted Q (p ++ q) -> (forall x y, In x (p ++ q) -> In y (p ++ q) -> Q x y -> P x y) ->
  (forall x, In x p -> P x a) -> (forall x, In x q -> P a x) -> StronglySorted P (p ++ a :: q).
Proof.
  induction p as [|x p IH]; simpl; intros H M P1 P2.
  - constructor; [|apply Forall_forall; auto].
    clear P1 P2. induction H; constructor.
    + apply IHStronglySorted. intros; apply M; simpl; auto.
    + rewrite Forall_forall in *. intros; apply M; simpl; auto.
  - inversion H as [|? ? S F]; subst. rewrite Forall_forall in F. constructor.
    + apply IH; auto.
    + apply Forall_forall. intros y Hy. apply in_app_or in Hy. destruct Hy as [Hy|[<-|Hy]]; auto.
      * apply M; auto. right; apply in_or_app; auto. apply F, in_or_app; auto.
      * apply M; auto. right; apply in_or_app; auto. apply F, in_or_app; auto.
Qed.

(** Inserting a value that is far from everything keeps the order invariant. *)
Lemma ins_ord c c' v key pre post n : ctwf cf c -> ctord c -> ins cf c c' v key pre post n ->
  0 <= v -> key = hashR v ->
  (forall b, ctlive c b -> tol < Rabs (V c b - v)) ->
  tol < Rabs (v - 0) -> tol < Rabs (v - 1) -> tol < Rabs (v - sqrt 2 / 2) ->
  (forall b, In b pre -> V c b < v) -> (forall b, In b post -> v < V c b) ->
  ctord c'.
Proof.
  intros W O I v0 Hk Far F0 F1 F2 Pre Post.
  destruct (ins_wf cf Hcf _ _ _ _ _ _ _ W I) as (W' & E & L & X4 & X5 & X6 & X7 & X8).
  destruct I as (_ & Etab & _).
  assert (Vn: V c' n = v) by (unfold V, ct_value; now rewrite X7).
  assert (Vo: forall x, x <> n -> V c' x = V c x) by (intros; unfold V, ct_value; now rewrite X8).
  assert (L': forall k x, In x (ct_tab c' k) -> (x = n /\ k = key) \/ (x <> n /\ In x (ct_tab c k))).
  { intros k x H. destruct (Z.eq_dec k key) as [->|NE].
    - rewrite X5 in H. destruct (Nat.eq_dec x n); auto. right; split; auto. rewrite Etab.
      apply in_app_or in H. apply in_or_app. destruct H as [H|[H|H]]; auto; congruence.
    - rewrite X6 in H by auto. right; split; auto. intros ->; now apply (X4 k). }
  assert (LL: forall x, ctlive c' x -> x = n \/ (x <> n /\ ctlive c x)).
  { intros x (k & H). destruct (L' k x H) as [[-> _]|[]]; auto. right; split; auto. now exists k. }
  constructor.
  - intros k a H. destruct (L' k a H) as [[-> ->]|[NE H']].
    + rewrite Vn; auto.
    + rewrite Vo by auto. now apply (co_hash _ O).
  - intros a b Ha Hb NE. destruct (LL a Ha) as [->|[Na Ha']], (LL b Hb) as [->|[Nb Hb']]; try congruence.
    + rewrite Vn, (Vo b) by auto. rewrite Rabs_minus_sym. now apply Far.
    + rewrite Vn, (Vo a) by auto. now apply Far.
    + rewrite !Vo by auto. now apply (co_sep _ O).
  - intros a Ha. destruct (LL a Ha) as [->|[Na Ha']]; [rewrite Vn|rewrite Vo]; auto. now apply (co_zero _ O).
  - intros a Ha. destruct (LL a Ha) as [->|[Na Ha']]; [rewrite Vn|rewrite Vo]; auto. now apply (co_one _ O).
  - intros a Ha. destruct (LL a Ha) as [->|[Na Ha']]; [rewrite Vn|rewrite Vo]; auto. now apply (co_sq2 _ O).
  - intros k. destruct (Z.eq_dec k key) as [->|NE].
    + rewrite X5. pose proof (co_sorted _ O key) as SS. rewrite Etab in SS.
      assert (NN: forall x, In x (pre ++ post) -> x <> n) by (intros x H ->; apply (X4 key); now rewrite Etab).
      eapply SS_insert; [exact SS| | |].
      * intros x y Hx Hy Q. rewrite !Vo by auto. exact Q.
      * intros x Hx. rewrite Vn, Vo; auto. apply NN, in_or_app; auto.
      * intros x Hx. rewrite Vn, Vo; auto. apply NN, in_or_app; auto.
    + rewrite X6 by auto. pose proof (co_sorted _ O k) as SS.
      assert (NN: forall x, In x (ct_tab c k) -> x <> n) by (intros x H ->; now apply (X4 k)).
      revert NN. induction SS; intros; constructor.
      * apply IHSS. intros; apply NN; now right.
      * rewrite Forall_forall in *. intros x Hx. rewrite !Vo; auto. apply NN; now right. apply NN; now left.
Qed.

(** Value of an address. *)
Definition valueof c (a : eaddr) : R :=
  match a with AZero => 0 | AOne => 1 | ASqrt2 => sqrt 2 / 2 | ATab n => V c n | ACache _ => 0 end.

Definition is_static (a : eaddr) := match a with AZero | AOne | ASqrt2 => True | _ => False end.

(** Everything about one lookup. *)
Lemma ct_lookup_R c v : ctwf cf c -> ctord c -> 0 <= v ->
  exists a c', ct_lookup cf c v = inl (a, c') /\
    ctwf cf c' /\ ctord c' /\ ctext c c' /\ alive c' a /\
    Rabs (valueof c' a - v) <= tol /\
    (* either a hit, which changes nothing, or a new entry holding exactly v *)
    ( (hit c c' /\ alive c a /\
       (is_static a -> Rabs (v - 0) <= tol \/ Rabs (v - 1) <= tol \/ Rabs (v - sqrt 2 / 2) <= tol))
      \/ (exists n, a = ATab n /\ ~ ctlive c n /\ V c' n = v /\
          (forall b, ctlive c b -> tol < Rabs (V c b - v)) /\
          (forall x, ctlive c' x <-> x = n \/ ctlive c x)) /\
          tol < Rabs (v - 0) /\ tol < Rabs (v - 1) /\ tol < Rabs (v - sqrt 2 / 2)).
Proof.
  intros W O v0.
  assert (S: forall a c', ct_lookup cf c v = inl (a, c') ->
     ctwf cf c' /\ ctext c c' /\ alive c' a) by (intros; eapply ct_lookup_wf; eauto).
  assert (HO: ctord (ct_tick_hit (ct_tick_lookup c))) by (destruct O; constructor; auto).
  unfold ct_lookup in *. simpl nleb in *.
  rewrite (proj2 (Rleb_iff 0 v) v0) in *. cbn [negb] in *.
  assert (H2: forall a, (forall r b, @inl _ bad (a, ct_tick_hit (ct_tick_lookup c)) = inl (r, b) -> ctwf cf b /\ ctext c b /\ alive b r) ->
     alive c a ->
     Rabs (valueof c a - v) <= tol -> 
     (is_static a -> Rabs (v - 0) <= tol \/ Rabs (v - 1) <= tol \/ Rabs (v - sqrt 2 / 2) <= tol) ->
     exists a0 c', @inl _ bad (a, ct_tick_hit (ct_tick_lookup c)) = inl (a0, c') /\
    ctwf cf c' /\ ctord c' /\ ctext c c' /\ alive c' a0 /\
    Rabs (valueof c' a0 - v) <= tol /\
    ( (hit c c' /\ alive c a0 /\
       (is_static a0 -> Rabs (v - 0) <= tol \/ Rabs (v - 1) <= tol \/ Rabs (v - sqrt 2 / 2) <= tol))
      \/ (exists n, a0 = ATab n /\ ~ ctlive c n /\ V c' n = v /\
          (forall b, ctlive c b -> tol < Rabs (V c b - v)) /\
          (forall x, ctlive c' x <-> x = n \/ ctlive c x)) /\
          tol < Rabs (v - 0) /\ tol < Rabs (v - 1) /\ tol < Rabs (v - sqrt 2 / 2))).
  { intros a Q Al Cl St. exists a, (ct_tick_hit (ct_tick_lookup c)).
    destruct (Q _ _ eq_refl) as (Q1 & Q2 & Q3).
    split; auto. split; auto. split; auto. split; auto. split; auto. split.
    - destruct a; exact Cl.
    - left. split; [reflexivity|]. auto. }
  destruct (approx_zero (N:=N) v) eqn:A0.
  { apply H2; simpl; auto.
    - unfold approx_zero in A0. simpl in A0. apply Rleb_iff in A0. rewrite Rabs_minus_sym, Rminus_0_r. auto.
    - intros _. left. unfold approx_zero in A0. simpl in A0. apply Rleb_iff in A0. now rewrite Rminus_0_r. }
  destruct (approx_one (N:=N) v) eqn:A1.
  { unfold approx_one in A1. apply approx_eq_R in A1. apply H2; simpl; auto. now rewrite Rabs_minus_sym. }
  destruct (approx_eq (N:=N) v nsq2) eqn:A2.
  { apply approx_eq_R in A2. apply H2; simpl; auto. now rewrite Rabs_minus_sym. }
  assert (B0: tol < Rabs (v - 0)).
  { unfold approx_zero in A0. simpl in A0. apply Rleb_false in A0. now rewrite Rminus_0_r. }
  apply approx_eq_R_false in A1. apply approx_eq_R_false in A2. simpl n1 in A1. simpl nsq2 in A2.
  assert (vt: tol < v) by (apply abs_gt_iff in B0; lra).
  simpl nsub in *. simpl nadd in *. simpl ntol in *.
  rewrite !ct_hash_R in * by lra.
  assert (NEAR: forall u, ctlive c u -> Rabs (V c u - v) <= tol ->
            In u (ct_tab c (hashR (v - tol))) \/ In u (ct_tab c (hashR (v + tol)))).
  { intros u (k & Hu) D. apply abs_le_iff in D. pose proof Hu as Hu'. apply (co_hash _ O) in Hu'.
    destruct Hu' as [_ ->].
    assert ((hashR (v - tol) <= hashR (V c u))%Z) by (apply hashR_mono; lra).
    assert ((hashR (V c u) <= hashR (v + tol))%Z) by (apply hashR_mono; lra).
    pose proof (hashR_gap v).
    destruct (Z.eq_dec (hashR (V c u)) (hashR (v - tol))) as [Q|Q]; [rewrite Q in Hu; auto|].
    replace (hashR (v + tol)) with (hashR (V c u)) by lia. auto. }
  pose proof (hashR_gap v) as GAP.
  assert (K1: (hashR (v - tol) <= hashR v)%Z) by (apply hashR_mono; lra).
  assert (K2: (hashR v <= hashR (v + tol))%Z) by (apply hashR_mono; lra).
  destruct (Z.eqb_spec (hashR (v + tol)) (hashR (v - tol))) as [EK|NEK].
  - (* findOrInsert *)
    unfold ct_findOrInsert in *.
    change (ct_tab (ct_tick_lookup c)) with (ct_tab c) in *.
    destruct (ct_scan (N:=N) _ v _ [] _) as [n|[pre post]] eqn:SC.
    + assert (SC': ct_scan c v (v + tol) [] (ct_tab c (hashR (v - tol))) = inl n).
      { rewrite <- SC. clear. generalize (@nil nat) as pre.
        induction (ct_tab c (hashR (v - tol))) as [|x l IH]; intros; simpl; auto.
        rewrite IH. reflexivity. }
      assert (SEP: forall x y, In x (ct_tab c (hashR (v - tol))) -> In y (ct_tab c (hashR (v - tol))) ->
                   x <> y -> tol < Rabs (V c x - V c y)).
      { intros x y Hx Hy. apply (co_sep _ O); eexists; eauto. }
      destruct (scan_found c v _ _ _ (co_sorted _ O _) SEP (wf_nodup _ _ W _) SC')
        as (P1 & P2 & P3).
      apply H2; auto.
      * exists (hashR (v - tol)). exact P1.
      * simpl. tauto.
    + assert (SC': ct_scan c v (v + tol) [] (ct_tab c (hashR (v - tol))) = inr (pre, post)).
      { rewrite <- SC. clear. generalize (@nil nat) as p0.
        induction (ct_tab c (hashR (v - tol))) as [|x l IH]; intros; simpl; auto.
        rewrite IH. reflexivity. }
      destruct (scan_notfound c v _ _ _ _ (co_sorted _ O _) SC') as (p' & E1 & E2 & Q1 & Q2).
      cbn [app] in E1. subst p'.
      destruct (ct_splice cf (ct_tick_lookup c) (hashR (v - tol)) pre post v) as [n c'] eqn:SP.
      destruct (S _ _ eq_refl) as (S1 & S2 & S3).
      assert (KR: (0 <= hashR (v - tol) <= ct_mask cf)%Z).
      { eapply (ct_hash_range (N:=N) cf Hcf). apply ct_hash_R. lra. }
      assert (I: ins cf c c' v (hashR (v - tol)) pre post n) by (split; [|split]; auto).
      assert (Far: forall b, ctlive c b -> tol < Rabs (V c b - v)).
      { intros b Lb. destruct (Rle_lt_dec (Rabs (V c b - v)) tol) as [C|]; auto. exfalso.
        pose proof (NEAR b Lb C) as Hb. rewrite EK in Hb.
        assert (Hb': In b (pre ++ post)) by (rewrite <- E2; tauto).
        apply abs_le_iff in C. apply in_app_or in Hb'. destruct Hb' as [Hb'|Hb'].
        apply Q1 in Hb'. lra. apply Q2 in Hb'. lra. }
      destruct (ins_wf cf Hcf _ _ _ _ _ _ _ W I) as (W' & E & L & X4 & X5 & X6 & X7 & X8).
      exists (ATab n), c'. split; auto. split; auto. split.
      { apply (ins_ord _ _ _ _ _ _ _ W O I); auto.
        - clear -EK K1 K2. lia.
        - intros b Hb. apply Q1 in Hb. lra.
        - intros b Hb. apply Q2 in Hb. lra. }
      split; auto. split; auto.
      assert (Vn: V c' n = v) by (unfold V, ct_value; now rewrite X7).
      split. { simpl. rewrite Vn. replace (v - v) with 0 by ring. rewrite Rabs_R0; auto. }
      right. split; auto. exists n. split; auto. split; [intros (k & Hk); now apply (X4 k)|]. split; auto.
      split; auto. intros x. split.
      * intros (k & Hx). destruct (Z.eq_dec k (hashR (v - tol))) as [->|NE].
        -- rewrite X5 in Hx. apply in_app_or in Hx. destruct (Nat.eq_dec x n); auto. right.
           exists (hashR (v - tol)). rewrite E2. apply in_or_app. destruct Hx as [H|[H|H]]; auto; congruence.
        -- rewrite X6 in Hx by auto. right. now exists k.
      * intros [->|Hx]; auto. eapply ctext_live; eauto.
  - (* border *)
    assert (EKK: hashR (v + tol) = (hashR (v - tol) + 1)%Z).
    { assert ((hashR (v - tol) <= hashR (v + tol))%Z) by lia. lia. }
    set (lk := hashR (v - tol)) in *. set (uk := hashR (v + tol)) in *. set (key := hashR v) in *.
    set (pl := if negb (lk =? key)%Z then _ else _) in *.
    set (pu := if negb (lk =? key)%Z then hd_error _ else _) in *.
    assert (Epl: pl = lastopt (ct_tab c lk)).
    { unfold pl. simpl. rewrite !(wf_tail _ _ W). destruct (Z.eqb_spec lk key) as [Q|Q]; cbn [negb]; [rewrite Q|]; reflexivity. }
    assert (Epu: pu = hd_error (ct_tab c uk)).
    { unfold pu. simpl. destruct (Z.eqb_spec lk key) as [|NE]; cbn [negb]; auto.
      replace key with uk by lia. reflexivity. }
    clearbody pl pu. subst pl pu.
    (* a near entry forces a match *)
    assert (NL: forall u, In u (ct_tab c lk) -> Rabs (V c u - v) <= tol ->
       exists t, lastopt (ct_tab c lk) = Some t /\ Rabs (V c t - v) <= tol).
    { intros u Hu D. destruct (lastopt (ct_tab c lk)) as [t|] eqn:LT.
      - exists t. split; auto. destruct (lastopt_Some _ _ LT) as (l' & El).
        assert (Ht: In t (ct_tab c lk)) by (rewrite El; apply in_or_app; right; now left).
        assert (V c u <= V c t).
        { rewrite El in Hu. apply in_app_or in Hu. destruct Hu as [Hu|[->|[]]]; [|lra].
          pose proof (co_sorted _ O lk) as SS. rewrite El in SS.
          destruct (SS_app_inv _ _ _ SS) as (_ & _ & S3). left. apply S3; simpl; auto. }
        assert (V c t < v + tol).
        { apply hashR_lt. apply (co_hash _ O) in Ht. destruct Ht as [_ <-]. fold uk. lia. }
        apply abs_le_iff. apply abs_le_iff in D. lra.
      - apply lastopt_None in LT. rewrite LT in Hu. destruct Hu. }
    assert (NU: forall u, In u (ct_tab c uk) -> Rabs (V c u - v) <= tol ->
       exists t, hd_error (ct_tab c uk) = Some t /\ Rabs (V c t - v) <= tol).
    { intros u Hu D. destruct (ct_tab c uk) as [|t l] eqn:LT; [destruct Hu|].
      exists t. split; auto.
      assert (Ht: In t (ct_tab c uk)) by (rewrite LT; now left).
      assert (V c t <= V c u).
      { destruct Hu as [->|Hu]; [lra|]. pose proof (co_sorted _ O uk) as SS. rewrite LT in SS.
        inversion SS as [|? ? ? FA]; subst. rewrite Forall_forall in FA. left; auto. }
      assert (v - tol < V c t).
      { apply hashR_lt. apply (co_hash _ O) in Ht. destruct Ht as [_ <-]. fold lk. lia. }
      apply abs_le_iff. apply abs_le_iff in D. lra. }
    assert (Lpl: forall n, lastopt (ct_tab c lk) = Some n -> ctlive c n).
    { intros n E. apply lastopt_Some in E; destruct E as (l' & E).
      exists lk; rewrite E; apply in_or_app; right; now left. }
    assert (Lpu: forall n, hd_error (ct_tab c uk) = Some n -> ctlive c n).
    { intros n E. exists uk. destruct (ct_tab c uk); try discriminate; injection E as ->; now left. }
    assert (MA: forall p n, p = Some n -> ct_match (ct_tick_lookup c) v p = true -> Rabs (V c n - v) <= tol).
    { intros p n -> M. unfold ct_match in M. apply approx_eq_R in M. now rewrite Rabs_minus_sym. }
    assert (MF: forall p n, p = Some n -> ct_match (ct_tick_lookup c) v p = false -> tol < Rabs (V c n - v)).
    { intros p n -> M. unfold ct_match in M. apply approx_eq_R_false in M. now rewrite Rabs_minus_sym. }
    assert (INS: (forall r b, (let '(a, c1) := ct_insert cf (ct_tick_lookup c) key v in @inl _ bad (ATab a, c1)) = inl (r, b) -> ctwf cf b /\ ctext c b /\ alive b r) ->
      ct_match (ct_tick_lookup c) v (lastopt (ct_tab c lk)) = false ->
      ct_match (ct_tick_lookup c) v (hd_error (ct_tab c uk)) = false ->
      exists a c', (let '(a, c1) := ct_insert cf (ct_tick_lookup c) key v in @inl _ bad (ATab a, c1)) = inl (a, c') /\
    ctwf cf c' /\ ctord c' /\ ctext c c' /\ alive c' a /\
    Rabs (valueof c' a - v) <= tol /\
    ( (hit c c' /\ alive c a /\
       (is_static a -> Rabs (v - 0) <= tol \/ Rabs (v - 1) <= tol \/ Rabs (v - sqrt 2 / 2) <= tol))
      \/ (exists n, a = ATab n /\ ~ ctlive c n /\ V c' n = v /\
          (forall b, ctlive c b -> tol < Rabs (V c b - v)) /\
          (forall x, ctlive c' x <-> x = n \/ ctlive c x)) /\
          tol < Rabs (v - 0) /\ tol < Rabs (v - 1) /\ tol < Rabs (v - sqrt 2 / 2))).
    { intros Q ML MU. unfold ct_insert in *.
      change (ct_tab (ct_tick_lookup c)) with (ct_tab c) in *.
      destruct (ct_insertPos (ct_tick_lookup c) v [] (ct_tab c key)) as [pre post] eqn:IP.
      assert (IP': ct_insertPos c v [] (ct_tab c key) = (pre, post)).
      { rewrite <- IP. clear. generalize (@nil nat) as p0.
        induction (ct_tab c key) as [|x l IH]; intros; simpl; auto. rewrite IH. reflexivity. }
      destruct (insertPos_spec c v _ _ _ _ (co_sorted _ O _) IP') as (p' & E1 & E2 & Q1 & Q2).
      cbn [app] in E1. subst p'.
      destruct (ct_splice cf (ct_tick_lookup c) key pre post v) as [n c'] eqn:SP.
      destruct (Q _ _ eq_refl) as (S1 & S2 & S3).
      assert (KR: (0 <= key <= ct_mask cf)%Z).
      { eapply (ct_hash_range (N:=N) cf Hcf). apply ct_hash_R. lra. }
      assert (I: ins cf c c' v key pre post n) by (split; [|split]; auto).
      assert (Far: forall b, ctlive c b -> tol < Rabs (V c b - v)).
      { intros b Lb. destruct (Rle_lt_dec (Rabs (V c b - v)) tol) as [C|]; auto. exfalso.
        destruct (NEAR b Lb C) as [Hb|Hb].
        - destruct (NL b Hb C) as (t & Et & D). pose proof (MF _ _ Et ML). lra.
        - destruct (NU b Hb C) as (t & Et & D). pose proof (MF _ _ Et MU). lra. }
      destruct (ins_wf cf Hcf _ _ _ _ _ _ _ W I) as (W' & E & L & X4 & X5 & X6 & X7 & X8).
      exists (ATab n), c'. split; auto. split; auto. split.
      { apply (ins_ord _ _ _ _ _ _ _ W O I); auto.
        intros b Hb. assert (Lb: ctlive c b) by (exists key; rewrite E2; apply in_or_app; auto).
        specialize (Far b Lb). apply Q1 in Hb. apply abs_gt_iff in Far. lra. }
      split; auto. split; auto.
      assert (Vn: V c' n = v) by (unfold V, ct_value; now rewrite X7).
      split. { simpl. rewrite Vn. replace (v - v) with 0 by ring. rewrite Rabs_R0; auto. }
      right. split; auto. exists n. split; auto. split; [intros (k & Hk); now apply (X4 k)|]. split; auto.
      split; auto. intros x. split.
      * intros (k & Hx). destruct (Z.eq_dec k key) as [->|NE].
        -- rewrite X5 in Hx. apply in_app_or in Hx. destruct (Nat.eq_dec x n); auto. right.
           exists key. rewrite E2. apply in_or_app. destruct Hx as [H|[H|H]]; auto; congruence.
        -- rewrite X6 in Hx by auto. right. now exists k.
      * intros [->|Hx]; auto. eapply ctext_live; eauto. }
    clear NL NU.
    destruct (ct_match (N:=N) _ v (lastopt (ct_tab c lk))) eqn:ML, (ct_match (N:=N) _ v (hd_error (ct_tab c uk))) eqn:MU,
      (lastopt (ct_tab c lk)) as [l|], (hd_error (ct_tab c uk)) as [u|]; try discriminate;
      try (apply INS; auto; fail);
      try (apply H2; [exact S|simpl; auto|simpl; eauto|simpl; tauto]).
    destruct (nltb _ _); apply H2; auto; simpl; eauto; tauto.
Qed.

End R.
