(** Arithmetic on weights (C73). *)
From Coq Require Import ZArith List Bool Lia Arith Reals Lra SpecFloat.
From Verif Require Import Num Base CTable CTableWf Cx State Pkg Read Arith Inv InvL PrimL NormL MkL TrL AddL ReadL StateL Inst GateAct Run PropBase PropSem PropState PropRefute.
Import ListNotations.
Local Open Scope Z_scope.

(** Only the values of the temporaries [p] and [q] may differ between [s] and [s']. *)
Definition only_slots {N : num} (p q : nat) (s s' : st N) : Prop :=
  set_cc s' (s_cc s) = s /\ (forall e, ep_at e <> ACache p -> ep_at e <> ACache q -> val s' e = val s e) /\
  cc_avail (s_cc s') = cc_avail (s_cc s) /\ cc_count (s_cc s') = cc_count (s_cc s).
(** The imaginary part of [w] is not stored in the temporary [p]. *)
Definition apart (p : nat) (w : complex) : Prop := ep_at (ci w) <> ACache p.

Lemma setc_only {N : num} p q v (s : st N) : only_slots p q s (setc p q v s).
Proof.
  split; [now destruct s|]. split; [|split; reflexivity]. intros [neg at_] Hp Hq. cbn [ep_at] in *. unfold val. cbn [ep_neg ep_at].
  assert (E: aval (setc p q v s) at_ = aval s at_).
  { destruct at_; try reflexivity. cbn. rewrite !upd_neq by congruence. reflexivity. }
  now rewrite E.
Qed.
Lemma setc_cval {N : num} p q v (s : st N) : p <> q -> cval (setc p q v s) (cslot p q) = v.
Proof.
  intros D. destruct v as [x y]. unfold cval, val. cbn. rewrite upd_eq, upd_neq, upd_eq by congruence. reflexivity.
Qed.
Lemma subInto_eq {N : num} (s : st N) p q a b : ep_at (ci a) <> ACache p -> ep_at (ci b) <> ACache p ->
  subInto (cslot p q) a b s =
  Ok tt (setc p q (nsub (val s (cr a)) (val s (cr b)), nsub (val s (ci a)) (val s (ci b))) s).
Proof.
  intros Ha Hb. unfold subInto, bind, assertM, gets. simpl negb. cbn [andb]. cbv beta iota.
  simpl cr. simpl ci. rewrite wr_slot.
  match goal with |- context [val ?x (ci a)] => set (s1 := x) end.
  assert (E: val s1 (ci a) = val s (ci a) /\ val s1 (ci b) = val s (ci b)).
  { split; apply val_other; intros c Ec; simpl; rewrite upd_neq; auto; congruence. }
  destruct E as [-> ->]. reflexivity.
Qed.

(** * C73 *)
Section Exact.
Context (g : cfg R0) (nb : kind -> Z) (G : gok g).
Local Notation X := (XR g G).
Local Notation reachedR := (reachedR g nb G).
Local Notation unchanged := (unchanged g G).

Lemma cval_Cv (s : st R0) w : Cv R0 g X s w = cval s w.
Proof. reflexivity. Qed.

(** In every state, for every two temporaries and all operands, which may be the target itself. *)
Theorem weights_add (s : st R0) p q a b : p <> q -> apart p a -> apart p b ->
  exists s', addInto (cslot p q) a b s = Ok tt s' /\ cval s' (cslot p q) = (cval s a + cval s b)%C /\ only_slots p q s s'.
Proof.
  intros D A B. eexists. split; [apply addInto_eq; auto|]. rewrite setc_cval by auto. split; [reflexivity|apply setc_only].
Qed.
Theorem weights_sub (s : st R0) p q a b : p <> q -> apart p a -> apart p b ->
  exists s', subInto (cslot p q) a b s = Ok tt s' /\ cval s' (cslot p q) = (cval s a - cval s b)%C /\ only_slots p q s s'.
Proof.
  intros D A B. eexists. split; [apply subInto_eq; auto|]. rewrite setc_cval by auto. split; [reflexivity|apply setc_only].
Qed.
Theorem weights_mul (s : st R0) p q a b : p <> q -> apart p a -> apart p b ->
  exists s', mulInto (cslot p q) a b s = Ok tt s' /\ cval s' (cslot p q) = (cval s a * cval s b)%C /\ only_slots p q s s'.
Proof.
  intros D A B. destruct (mulInto_sp (g:=g) (X:=X) s p q a b A B) as (v & E & Ev). eexists. split; [exact E|]. rewrite setc_cval by auto.
  split; [|apply setc_only]. rewrite <- !cval_Cv, <- (Ev Logic.I). symmetry. apply Cv2id.
Qed.
Theorem weights_div (s : st R0) p q a b : p <> q -> apart p a ->
  exists s', divInto (cslot p q) a b s = Ok tt s' /\ only_slots p q s s' /\
    (cval s b <> C0 -> cval s' (cslot p q) = (cval s a / cval s b)%C) /\ (cval s a = cval s b -> cval s' (cslot p q) = C1).
Proof.
  intros D A. destruct (divInto_sp (g:=g) (X:=X) s p q a b A) as (v & E & Ev). eexists. split; [exact E|]. rewrite setc_cval by auto.
  split; [apply setc_only|]. split.
  - intros Nz. rewrite <- !cval_Cv in *. rewrite <- (Ev Logic.I Nz). symmetry. apply Cv2id.
  - intros Q. unfold divInto, bind at 1, assertM in E. simpl negb in E. cbn [andb] in E. cbv beta iota in E.
    replace (wapx s a b) with true in E by (symmetry; apply (x_wapx (g:=g) (X:=X)); [exact Logic.I|exact Q]).
    cbn [cslot cr ci] in E. rewrite wr2 in E. pose proof (f_equal (fun r : res R0 unit => match r with Ok _ t => cval t (cslot p q) | _ => C0 end) E) as F. cbv beta iota in F.
    rewrite !setc_cval in F by auto. now rewrite <- F.
Qed.

(** The variants that take a temporary, applied to the weights of diagrams: two more entries are
    in use, giving them back restores the number, and no diagram changes. *)
Definition fresh_result (V : list edge) (D : denv) (op : M R0 complex) (s : st R0) (z : C) : Prop :=
  exists c s' s'', op s = Ok c s' /\ cval s' c = z /\ unchanged V D s s' /\ cc_count (s_cc s') = cc_count (s_cc s) + 2 /\
    retCache c s' = Ok tt s'' /\ unchanged V D s s'' /\ cc_count (s_cc s'') = cc_count (s_cc s).
Lemma fresh_into nq s V D (f : complex -> M R0 unit) z : reachedR nq s V D ->
  (forall p q c', cc_val c' = cc_val (s_cc s) -> exists v, f (cslot p q) (set_cc s c') = Ok tt (setc p q v (set_cc s c')) /\ v = z) ->
  fresh_result V D (bind (getCached0 g) (fun c => bind (f c) (fun _ => ret c))) s z.
Proof.
  intros H F. destruct (reached_inv _ _ _ _ _ _ _ H) as (I & Ow & Q). destruct (getCached0_sp (g:=g) G s [] Ow) as (p & q & c' & E & Vc & K).
  destruct (owns_nodup _ _ _ _ K) as (Dp & D1 & D2). destruct (F p q c' Vc) as (v & E2 & ->).
  assert (K2: owns R0 (s_cc (setc p q z (set_cc s c'))) [p; q]) by (apply owns_ccw; exact K).
  assert (S1: step R0 g nb X [] s (setc p q z (set_cc s c'))).
  { eapply step_trans; [apply step_cc_any; eauto|]. apply setc_step; auto. now apply inv_cc. }
  destruct (retCache_sp _ p q [] K2) as (c2 & E3 & V3 & K3 & _).
  exists (cslot p q), (setc p q z (set_cc s c')), (set_cc (setc p q z (set_cc s c')) c2).
  split; [unfold bind; rewrite E, E2; reflexivity|]. split; [now apply setc_cval|]. split; [eapply step_unchanged; eauto|].
  split; [rewrite (ow_ct _ _ _ K2), (ow_ct _ _ _ Ow); reflexivity|]. split; [exact E3|]. split.
  - eapply step_unchanged; eauto. eapply step_trans; [exact S1|]. eapply step_cc_any; eauto. apply S1.
  - cbn [s_cc set_cc]. rewrite (ow_ct _ _ _ K3), (ow_ct _ _ _ Ow). reflexivity.
Qed.
Theorem temporaries_with_results nq s V D k l x k' l' y : reachedR nq s V D -> usr V D k l x -> usr V D k' l' y ->
  let a := cval s (ew x) in let b := cval s (ew y) in
  fresh_result V D (addCached g (ew x) (ew y)) s (a + b)%C /\
  fresh_result V D (subCached R0 g (ew x) (ew y)) s (a - b)%C /\
  fresh_result V D (mulCached g (ew x) (ew y)) s (a * b)%C /\
  (b <> C0 -> fresh_result V D (divCached R0 g (ew x) (ew y)) s (a / b)%C).
Proof.
  intros H Hx Hy a b. destruct (usr_tt _ _ _ _ _ _ _ _ _ _ H Hx) as [_ Tx]. destruct (usr_tt _ _ _ _ _ _ _ _ _ _ H Hy) as [_ Ty].
  assert (Ap: forall l0 k0 e p, tedge R0 g X (co R0 s) k0 l0 e -> apart p (ew e)).
  { intros l0 k0 e p T. apply (wok_ci (g:=g) (X:=X) (co R0 s) [] (ew e) p); [left; apply T|easy]. }
  assert (Vs: forall c' e, cc_val c' = cc_val (s_cc s) -> cval (set_cc s c') e = cval s e).
  { intros c' e Hc. rewrite <- !cval_Cv. now apply Cv_cc_same. }
  split; [|split; [|split]].
  - apply (fresh_into nq s V D (fun c => addInto c (ew x) (ew y))); auto. intros p q c' Hc.
    destruct (addInto_sp (g:=g) (X:=X) (set_cc s c') p q (ew x) (ew y)) as (v & E & Ev); [eapply Ap; eauto|eapply Ap; eauto|].
    exists v. split; [exact E|]. rewrite <- (Cv2id g G v), (Ev Logic.I), !cval_Cv, !Vs by auto. reflexivity.
  - apply (fresh_into nq s V D (fun c => subInto c (ew x) (ew y))); auto. intros p q c' Hc. eexists. split; [apply subInto_eq; eapply Ap; eauto|].
    pose proof (Vs c' (ew x) Hc) as Ex. pose proof (Vs c' (ew y) Hc) as Ey. unfold a, b. rewrite <- Ex, <- Ey. reflexivity.
  - apply (fresh_into nq s V D (fun c => mulInto c (ew x) (ew y))); auto. intros p q c' Hc.
    destruct (mulInto_sp (g:=g) (X:=X) (set_cc s c') p q (ew x) (ew y)) as (v & E & Ev); [eapply Ap; eauto|eapply Ap; eauto|].
    exists v. split; [exact E|]. rewrite <- (Cv2id g G v), (Ev Logic.I), !cval_Cv, !Vs by auto. reflexivity.
  - intros Nz. apply (fresh_into nq s V D (fun c => divInto c (ew x) (ew y))); auto. intros p q c' Hc.
    destruct (divInto_sp (g:=g) (X:=X) (set_cc s c') p q (ew x) (ew y)) as (v & E & Ev); [eapply Ap; eauto|].
    exists v. split; [exact E|]. rewrite <- (Cv2id g G v), (Ev Logic.I), !cval_Cv, !Vs by (rewrite ?cval_Cv, ?Vs; auto). reflexivity.
Qed.
(** mag is the magnitude. *)
Theorem weights_mag (s : st R0) w : (0 <= wmag R0 s w /\ wmag R0 s w * wmag R0 s w = Cmag2 (cval s w))%R.
Proof.
  unfold wmag. change (wmag2 s w) with (Cmag2 (cval s w)). change (@nsqrt R0) with sqrt.
  assert (P: (0 <= Cmag2 (cval s w))%R). { unfold Cmag2. pose proof (Rle_0_sqr (fst (cval s w))). pose proof (Rle_0_sqr (snd (cval s w))). unfold Rsqr in *. cbn in *. lra. }
  split; [apply sqrt_pos|now apply sqrt_sqrt].
Qed.
End Exact.

(** * Cases meeting the hypotheses *)
(** Temporaries with 1 + 2i and 3 - i *)
Definition two (N : num) (g : cfg N) (a b : N * N) : st N := setc 2 3 b (setc 0 1 a (pkg_init N g 1)).
Definition z1 : R0 * R0 := (1, 2)%R.
Definition z2 : R0 * R0 := (3, -1)%R.
Lemma two_val : cval (two R0 gR z1 z2) (cslot 0 1) = z1 /\ cval (two R0 gR z1 z2) (cslot 2 3) = z2.
Proof. split; reflexivity. Qed.
(** The target is the first operand; (1 + 2i) (3 - i) = 5 + 5i. *)
Example weights_mul_example : exists s', mulInto (cslot 0 1) (cslot 0 1) (cslot 2 3) (two R0 gR z1 z2) = Ok tt s' /\ cval s' (cslot 0 1) = (5, 5)%R.
Proof.
  destruct (weights_mul gR GR (two R0 gR z1 z2) 0 1 (cslot 0 1) (cslot 2 3)) as (s' & E & Q & _); [lia|discriminate|discriminate|].
  exists s'. split; auto. rewrite Q. destruct two_val as [-> ->]. unfold z1, z2, Cmul. cbn. f_equal; lra.
Qed.
(** The target is the second operand. *)
Example weights_add_example : exists s', addInto (cslot 2 3) (cslot 0 1) (cslot 2 3) (two R0 gR z1 z2) = Ok tt s' /\ cval s' (cslot 2 3) = (4, 1)%R.
Proof.
  destruct (weights_add (two R0 gR z1 z2) 2 3 (cslot 0 1) (cslot 2 3)) as (s' & E & Q & _); [lia|discriminate|discriminate|].
  exists s'. split; auto. rewrite Q. destruct two_val as [-> ->]. unfold z1, z2, Cadd. cbn. f_equal; lra.
Qed.
Example weights_sub_example : exists s', subInto (cslot 4 5) (cslot 0 1) (cslot 2 3) (two R0 gR z1 z2) = Ok tt s' /\ cval s' (cslot 4 5) = (-2, 3)%R.
Proof.
  destruct (weights_sub (two R0 gR z1 z2) 4 5 (cslot 0 1) (cslot 2 3)) as (s' & E & Q & _); [lia|discriminate|discriminate|].
  exists s'. split; auto. rewrite Q. destruct two_val as [-> ->]. unfold z1, z2, Csub, Cadd, Copp. cbn. f_equal; lra.
Qed.
(** (1 + 2i) / (3 - i) = (1 + 7i) / 10 *)
Example weights_div_example : exists s', divInto (cslot 0 1) (cslot 0 1) (cslot 2 3) (two R0 gR z1 z2) = Ok tt s' /\ cval s' (cslot 0 1) = (1 / 10, 7 / 10)%R.
Proof.
  destruct (weights_div gR GR (two R0 gR z1 z2) 0 1 (cslot 0 1) (cslot 2 3)) as (s' & E & _ & Q & _); [lia|discriminate|].
  exists s'. split; auto. rewrite Q; destruct two_val as [E1 E2]; rewrite ?E1, ?E2; unfold z1, z2.
  - unfold Cdiv, Cinv, Cmul, Cmag2. cbn. f_equal; field.
  - intros F. injection F. intros. lra.
Qed.
Example weights_mag_example : wmag R0 (two R0 gR (3, 4)%R z2) (cslot 0 1) = 5%R.
Proof.
  destruct (weights_mag (two R0 gR (3, 4)%R z2) (cslot 0 1)) as [P Q]. set (m := wmag R0 (two R0 gR (3, 4)%R z2) (cslot 0 1)) in *.
  change (cval (two R0 gR (3, 4)%R z2) (cslot 0 1)) with (3, 4)%R in Q. unfold Cmag2 in Q. cbn in Q, P. cbn. nra.
Qed.
(** The weight of a vector divided by itself and subtracted from itself *)
Example temporaries_example : exists s V, reachedR gR nbdef GR 3 s V D0 /\
  fresh_result gR GR V D0 (divCached R0 gR (ew (var V 1)) (ew (var V 1))) s C1 /\ fresh_result gR GR V D0 (subCached R0 gR (ew (var V 1)) (ew (var V 1))) s C0.
Proof.
  destruct reached0 as (s & V & H). exists s, V. split; auto.
  destruct (temporaries_with_results gR nbdef GR 3 s V D0 _ _ _ _ _ _ H (usr0_v V) (usr0_v V)) as (_ & A & _ & B).
  assert (Nz: cval s (ew (var V 1)) <> C0).
  { intros Z. assert (F: entry gR GR s KV (var V 1) [1; 0]%nat = RtoC 2) by (vals; cval). unfold entry, Inv.de in F.
    destruct (usr_tt _ _ _ _ _ _ _ _ _ _ H (usr0_v V)) as [_ T]. rewrite <- Cv_Cw in F by (exact Logic.I || apply T). rewrite cval_Cv, Z in F. injection F. intros. cbn in *. lra. }
  specialize (B Nz). split.
  - replace C1 with (cval s (ew (var V 1)) / cval s (ew (var V 1)))%C; auto. field. exact Nz.
  - replace C0 with (cval s (ew (var V 1)) - cval s (ew (var V 1)))%C; auto. ring.
Qed.

(** * Where the claim fails *)
(** Doubles 2^70, 2^-60 and 2^-61 *)
Definition big : NumF := S754_finite false 4503599627370496 18.
Definition small : NumF := S754_finite false 4503599627370496 (-112).
Definition smaller : NumF := S754_finite false 4503599627370496 (-113).
Definition after (r : res NumF unit) (w : complex) : option (NumF * NumF) := match r with Ok _ s => Some (cval s w) | _ => None end.
(** 2^-60 counts as zero, whatever it is multiplied by: the product 2^10 becomes 0. *)
Theorem product_of_small_refuted : exists a b : NumF,
  nmul a b = S754_finite false 4503599627370496 (-42) /\
  after (mulInto (cslot 0 1) (cslot 0 1) (cslot 2 3) (two NumF gF (a, f0) (b, f0))) (cslot 0 1) = Some (f0, f0).
Proof. exists small, big. split; vm_compute; reflexivity. Qed.
(** 2^-60 / 2^-61 is 1: numbers below the tolerance count as equal. *)
Theorem quotient_of_small_refuted : exists a b : NumF, ndiv a b = f2 /\
  after (divInto (cslot 0 1) (cslot 0 1) (cslot 2 3) (two NumF gF (a, f0) (b, f0))) (cslot 0 1) = Some (f1, f0).
Proof. exists small, smaller. split; vm_compute; reflexivity. Qed.
(** The hypothesis [apart]: an operand with the parts of the target exchanged is read after it was
    written to; 0 + (1 + 2i) gives 1 + i. *)
Theorem crossed_target_refuted : exists w : complex, ~ apart 0 w /\
  cval (two NumF gF (f2, f1) (f0, f0)) w = (f1, f2) /\
  after (addInto (cslot 0 1) Czero w (two NumF gF (f2, f1) (f0, f0))) (cslot 0 1) = Some (f1, f1).
Proof.
  exists (cslot 1 0). split; [intros A; apply A; reflexivity|]. split; vm_compute; reflexivity.
Qed.

Print Assumptions weights_add.
Print Assumptions weights_sub.
Print Assumptions weights_mul.
Print Assumptions weights_div.
Print Assumptions temporaries_with_results.
Print Assumptions weights_mag.
Print Assumptions product_of_small_refuted.
Print Assumptions quotient_of_small_refuted.
Print Assumptions crossed_target_refuted.
