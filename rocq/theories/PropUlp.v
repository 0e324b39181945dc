(** The distance of two doubles in units of the last place (C70). *)
From Coq Require Import ZArith List Bool Lia Arith SpecFloat.
From Verif Require Import Num Base State Serial Text Binary BinaryL.
Import ListNotations.
Local Open Scope Z_scope.

(** ** The doubles by position *)
Definition ofOrd (z : Z) : spec_float := if z <? 0 then SFopp (ofBits (- z)) else ofBits z.

Lemma bits_ord x : number x -> Fsign x = false -> bitsOf x = ord x.
Proof.
  intros [V Nn] S. destruct x as [t|t| |t m e]; cbn [Fsign] in S; subst; try congruence; try reflexivity.
  unfold bitsOf. cbn [ord]. consts. apply valid_iff in V. destruct (Z.ltb_spec (Z.pos m) 4503599627370496); lia.
Qed.
Lemma opp_number x : number x -> number (SFopp x) /\ ord (SFopp x) = - ord x /\ Fsign (SFopp x) = negb (Fsign x).
Proof.
  intros [V Nn]. destruct x as [t|t| |t m e]; try congruence; cbn [SFopp ord Fsign].
  - repeat split; discriminate.
  - split; [split; [reflexivity|discriminate]|]. split; auto. destruct t; reflexivity.
  - split; [split; [exact V|discriminate]|]. split; auto. destruct t; cbn [negb]; lia.
Qed.
Lemma ofOrd_ord x : number x -> x <> S754_zero true -> ofOrd (ord x) = x.
Proof.
  intros H Nz. destruct (Fsign x) eqn:S.
  - assert (L: ord x < 0).
    { destruct (Z.eq_dec (ord x) 0) as [E|E]; [|rewrite (ord_sign x H E) in S; now apply Z.ltb_lt in S].
      exfalso. destruct H as [V Nn]. destruct x as [t|t| |t m e]; cbn [ord Fsign] in *; subst; try congruence; try lia. apply valid_iff in V. lia. }
    unfold ofOrd. replace (ord x <? 0) with true by (symmetry; now apply Z.ltb_lt). destruct (opp_number x H) as (H' & O' & S').
    rewrite <- O', <- bits_ord by (auto; rewrite S', S; reflexivity). rewrite bits_back by apply H'. destruct x as [t|t| |t m e]; cbn; rewrite ?negb_involutive; reflexivity.
  - assert (L: 0 <= ord x).
    { destruct (Z.eq_dec (ord x) 0) as [E|E]; [lia|]. rewrite (ord_sign x H E) in S. now apply Z.ltb_ge in S. }
    unfold ofOrd. replace (ord x <? 0) with false by (symmetry; now apply Z.ltb_ge). rewrite <- bits_ord by auto. apply bits_back, H.
Qed.
Lemma ofBits_pos z : 0 <= z <= 2047 * 4503599627370496 -> number (ofBits z) /\ ord (ofBits z) = z /\ Fsign (ofBits z) = false.
Proof.
  intros Hz. assert (R: 0 <= z < 2 ^ 64) by (consts; lia). destruct (ofBits_valid z R) as [V B].
  assert (S: ofBits z <> S754_nan /\ Fsign (ofBits z) = false).
  { unfold ofBits. consts. replace (9223372036854775808 <=? z) with false by (symmetry; apply Z.leb_gt; lia).
    assert (M: (z / 4503599627370496) mod 2048 = z / 4503599627370496) by (apply Z.mod_small; split; [apply Z.div_pos; lia|apply Z.div_lt_upper_bound; lia]).
    rewrite M. pose proof (Z.div_mod z 4503599627370496 ltac:(lia)) as D. pose proof (Z.mod_pos_bound z 4503599627370496 ltac:(lia)) as P.
    destruct (z / 4503599627370496 =? 0); [destruct (z mod 4503599627370496); split; (discriminate || reflexivity)|].
    destruct (Z.eqb_spec (z / 4503599627370496) 2047) as [E|E].
    - destruct (Z.eqb_spec (z mod 4503599627370496) 0); [split; [discriminate|reflexivity]|]. lia.
    - destruct (z mod 4503599627370496 + 4503599627370496) eqn:Q; [lia| |lia]. split; [discriminate|reflexivity]. }
  destruct S as [Nn S]. assert (H: number (ofBits z)) by (split; auto). split; auto. split; auto. rewrite <- bits_ord by auto. now apply B.
Qed.
Lemma ofOrd_number z : - (2047 * 4503599627370496) <= z <= 2047 * 4503599627370496 -> number (ofOrd z) /\ ord (ofOrd z) = z /\ ofOrd z <> S754_zero true.
Proof.
  intros Hz. unfold ofOrd. destruct (Z.ltb_spec z 0) as [L|L].
  - destruct (ofBits_pos (- z)) as (H & O & S); [lia|]. destruct (opp_number _ H) as (H' & O' & S'). split; auto. split; [lia|].
    intros E. rewrite E in O'. cbn [ord] in O'. lia.
  - destruct (ofBits_pos z) as (H & O & S); [lia|]. split; auto. split; auto. intros E. rewrite E in S. discriminate.
Qed.

(** ** The loop *)
Lemma loop_ord b (Hb : number b) : forall n x ulps fuel, number x -> Z.abs (ord b - ord x) = Z.of_nat n -> (n <= fuel)%nat -> 0 <= ulps -> ulps + Z.of_nat n < 2 ^ 64 ->
  ulpLoop fuel ulps x b = Some (ulps + Z.of_nat n).
Proof.
  induction n as [|n IH]; intros x ulps fuel Hx E F U W.
  - assert (Q: SFeqb x b = true) by (rewrite eqb_ord by auto; apply Z.eqb_eq; lia). destruct fuel; cbn [ulpLoop]; rewrite Q; f_equal; lia.
  - destruct fuel as [|fuel]; [lia|]. cbn [ulpLoop]. rewrite eqb_ord by auto. destruct (Z.eqb_spec (ord x) (ord b)) as [Q|Q]; [lia|].
    destruct (next_ord x b Hx Hb Q) as [Hn On]. rewrite Z.mod_small by lia. rewrite IH; auto; try lia; [f_equal; lia|].
    rewrite On. destruct (Z.ltb_spec (ord x) (ord b)); lia.
Qed.
Lemma ulp_ord a b : number a -> number b -> exists fuel0, forall fuel, (fuel0 <= fuel)%nat -> ulpDistance fuel a b = Some (Z.abs (ord b - ord a)).
Proof.
  intros Ha Hb. exists (Z.to_nat (Z.abs (ord b - ord a))). intros fuel F. unfold ulpDistance. rewrite eqb_ord by auto.
  destruct (Z.eqb_spec (ord a) (ord b)) as [Q|Q]; [f_equal; lia|]. destruct (next_ord a b Ha Hb Q) as [Hn On].
  pose proof (ord_range a Ha). pose proof (ord_range b Hb).
  assert (E: Z.abs (ord b - ord (nextafter a b)) = Z.abs (ord b - ord a) - 1) by (rewrite On; destruct (Z.ltb_spec (ord a) (ord b)); lia).
  rewrite (loop_ord b Hb (Z.to_nat (Z.abs (ord b - ord a) - 1))); auto; try lia. f_equal. lia.
Qed.
(** The loop gives the same result whatever the number of rounds allowed. *)
Lemma loop_more : forall fuel ulps x b r, ulpLoop fuel ulps x b = Some r -> forall fuel', (fuel <= fuel')%nat -> ulpLoop fuel' ulps x b = Some r.
Proof.
  induction fuel as [|fuel IH]; intros ulps x b r E fuel' F; cbn [ulpLoop] in E.
  - destruct fuel'; cbn [ulpLoop]; destruct (SFeqb x b); congruence.
  - destruct fuel' as [|fuel']; [lia|]. cbn [ulpLoop]. destruct (SFeqb x b); [congruence|]. apply IH; auto. lia.
Qed.
Lemma ulp_ord_some a b fuel r : number a -> number b -> ulpDistance fuel a b = Some r -> r = Z.abs (ord b - ord a).
Proof.
  intros Ha Hb E. destruct (ulp_ord a b Ha Hb) as [f0 H]. specialize (H (max f0 fuel) (Nat.le_max_l _ _)). unfold ulpDistance in *.
  destruct (SFeqb a b); [congruence|]. rewrite (loop_more _ _ _ _ _ E) in H by lia. congruence.
Qed.

(** * C70 *)
(** The call ends and returns the number of doubles [x] with a < x <= b, or b <= x < a; the two zeros count as one. *)
Theorem ulp_counts a b : number a -> number b -> exists fuel0 l,
  (forall fuel, (fuel0 <= fuel)%nat -> ulpDistance fuel a b = Some (Z.of_nat (length l))) /\ NoDup l /\
  forall x, In x l <-> number x /\ x <> S754_zero true /\ (SFltb a x = true /\ SFleb x b = true \/ SFleb b x = true /\ SFltb x a = true).
Proof.
  intros Ha Hb. destruct (ulp_ord a b Ha Hb) as [f0 H]. pose proof (ord_range a Ha) as Ra. pose proof (ord_range b Hb) as Rb.
  set (lo := if ord a <? ord b then ord a + 1 else ord b). set (n := Z.to_nat (Z.abs (ord b - ord a))).
  exists f0, (map (fun i => ofOrd (lo + Z.of_nat i)) (seq 0 n)).
  assert (Rg: forall i, (i < n)%nat -> - (2047 * 4503599627370496) <= lo + Z.of_nat i <= 2047 * 4503599627370496).
  { intros i Hi. unfold lo, n in *. destruct (Z.ltb_spec (ord a) (ord b)); lia. }
  split; [|split].
  - intros fuel F. rewrite H by auto. rewrite map_length, seq_length. unfold n. f_equal. lia.
  - assert (G: forall k o, (o + k <= n)%nat -> NoDup (map (fun i => ofOrd (lo + Z.of_nat i)) (seq o k))).
    { induction k as [|k IH]; intros o L; cbn [seq map]; constructor; [|apply IH; lia].
      intros I. apply in_map_iff in I. destruct I as (j & E & J). apply in_seq in J.
      destruct (ofOrd_number (lo + Z.of_nat j)) as (_ & O1 & _); [apply Rg; lia|]. destruct (ofOrd_number (lo + Z.of_nat o)) as (_ & O2 & _); [apply Rg; lia|].
      rewrite E in O1. lia. }
    apply G. lia.
  - intros x. rewrite in_map_iff. split.
    + intros (i & <- & I). apply in_seq in I. destruct (ofOrd_number (lo + Z.of_nat i)) as (Hx & O & Nz); [apply Rg; lia|]. split; auto. split; auto.
      rewrite !ltb_ord, !leb_ord, O, !Z.ltb_lt, !Z.leb_le by auto. unfold lo, n in *. destruct (Z.ltb_spec (ord a) (ord b)); lia.
    + intros (Hx & Nz & C). rewrite !ltb_ord, !leb_ord, !Z.ltb_lt, !Z.leb_le in C by auto.
      exists (Z.to_nat (ord x - lo)). rewrite in_seq. unfold lo, n.
      assert (Q: (if ord a <? ord b then ord a + 1 else ord b) + Z.of_nat (Z.to_nat (ord x - (if ord a <? ord b then ord a + 1 else ord b))) = ord x)
        by (destruct (Z.ltb_spec (ord a) (ord b)); lia).
      rewrite Q. split; [now apply ofOrd_ord|]. destruct (Z.ltb_spec (ord a) (ord b)); lia.
Qed.
(** The order of the arguments does not matter. *)
Theorem ulp_symmetric a b fuel fuel' r r' : number a -> number b -> ulpDistance fuel a b = Some r -> ulpDistance fuel' b a = Some r' -> r = r'.
Proof. intros Ha Hb E E'. apply ulp_ord_some in E; auto. apply ulp_ord_some in E'; auto. lia. Qed.
(** Distances along the line add up. *)
Theorem ulp_adds a b c f1 f2 f3 r1 r2 r3 : number a -> number b -> number c -> SFleb a b = true -> SFleb b c = true ->
  ulpDistance f1 a b = Some r1 -> ulpDistance f2 b c = Some r2 -> ulpDistance f3 a c = Some r3 -> r3 = r1 + r2.
Proof.
  intros Ha Hb Hc L1 L2 E1 E2 E3. rewrite leb_ord, Z.leb_le in L1, L2 by auto. apply ulp_ord_some in E1; auto. apply ulp_ord_some in E2; auto. apply ulp_ord_some in E3; auto. lia.
Qed.
(** Only equal doubles have distance zero. *)
Theorem ulp_zero a b fuel r : number a -> number b -> ulpDistance fuel a b = Some r -> (r = 0 <-> SFeqb a b = true).
Proof. intros Ha Hb E. apply ulp_ord_some in E; auto. rewrite eqb_ord, Z.eqb_eq by auto. lia. Qed.
(** Of doubles with the same sign and exponent it is the difference in units of the last place. *)
Theorem ulp_units s m m' e fuel r : number (S754_finite s m e) -> number (S754_finite s m' e) ->
  ulpDistance fuel (S754_finite s m e) (S754_finite s m' e) = Some r -> r = Z.abs (Z.pos m' - Z.pos m).
Proof. intros Ha Hb E. apply ulp_ord_some in E; auto. cbn [ord] in E. destruct s; lia. Qed.
(** [nextafter] gives the neighbour in the direction of the second argument. *)
Theorem nextafter_up x y : number x -> number y -> SFltb x y = true ->
  let z := nextafter x y in number z /\ SFltb x z = true /\ SFleb z y = true /\ forall u, number u -> SFltb x u = true -> SFleb z u = true.
Proof.
  intros Hx Hy L z. rewrite ltb_ord, Z.ltb_lt in L by auto. destruct (next_ord x y Hx Hy) as [Hz Oz]; [lia|]. fold z in Hz, Oz.
  replace (ord x <? ord y) with true in Oz by (symmetry; now apply Z.ltb_lt). split; auto. rewrite ltb_ord, leb_ord, Z.ltb_lt, Z.leb_le by auto.
  split; [lia|]. split; [lia|]. intros u Hu. rewrite ltb_ord, leb_ord, Z.ltb_lt, Z.leb_le by auto. lia.
Qed.
Theorem nextafter_down x y : number x -> number y -> SFltb y x = true ->
  let z := nextafter x y in number z /\ SFltb z x = true /\ SFleb y z = true /\ forall u, number u -> SFltb u x = true -> SFleb u z = true.
Proof.
  intros Hx Hy L z. rewrite ltb_ord, Z.ltb_lt in L by auto. destruct (next_ord x y Hx Hy) as [Hz Oz]; [lia|]. fold z in Hz, Oz.
  replace (ord x <? ord y) with false in Oz by (symmetry; apply Z.ltb_ge; lia). split; auto. rewrite ltb_ord, leb_ord, Z.ltb_lt, Z.leb_le by auto.
  split; [lia|]. split; [lia|]. intros u Hu. rewrite ltb_ord, leb_ord, Z.ltb_lt, Z.leb_le by auto. lia.
Qed.

(** With NaN the loop does not end. *)
Theorem ulp_ends_refuted : exists a b, forall fuel, ulpDistance fuel a b = None.
Proof.
  exists S754_nan, F1. intros fuel. unfold ulpDistance. change (SFeqb S754_nan F1) with false. change (nextafter S754_nan F1) with S754_nan. cbn match.
  assert (G: forall n, ulpLoop fuel n S754_nan F1 = None); [|apply G]. induction fuel as [|f IH]; intros n; [reflexivity|]. cbn [ulpLoop].
  change (SFeqb S754_nan F1) with false. change (nextafter S754_nan F1) with S754_nan. cbn match. apply IH.
Qed.

(** ** Concrete cases *)
(** 1 + 2^-50, 1 and the double before 1 *)
Definition ex1p : spec_float := S754_finite false (4503599627370496 + 4) (-52).
Definition ex1m : spec_float := S754_finite false 9007199254740991 (-53).
Lemma ex_numbers : number ex1p /\ number ex1m /\ number F1 /\ number (S754_zero true) /\ number (S754_finite true 1 (-1074)) /\ number (S754_infinity false).
Proof. repeat split; try reflexivity; discriminate. Qed.
Example ulp_counts_example : exists l, Z.of_nat (length l) = 5 /\ (forall fuel, (5 <= fuel)%nat -> ulpDistance fuel ex1m ex1p = Some 5) /\ NoDup l /\
  In F1 l /\ In ex1p l /\ ~ In ex1m l.
Proof.
  destruct ex_numbers as (H1 & H2 & H3 & _). destruct (ulp_counts ex1m ex1p H2 H1) as (f0 & l & E & Nd & I).
  assert (E5: ulpDistance 5 ex1m ex1p = Some 5) by reflexivity.
  assert (Es: forall fuel, (5 <= fuel)%nat -> ulpDistance fuel ex1m ex1p = Some 5).
  { intros fuel F. change (ulpDistance 5 ex1m ex1p) with (ulpLoop 5 1 (nextafter ex1m ex1p) ex1p) in E5. exact (loop_more _ _ _ _ _ E5 fuel F). }
  exists l. specialize (E (max f0 5) (Nat.le_max_l _ _)). rewrite Es in E by lia. split; [congruence|]. split; [exact Es|]. split; [exact Nd|].
  rewrite !I. split; [|split].
  - split; auto. split; [discriminate|]. left. split; reflexivity.
  - split; auto. split; [discriminate|]. left. split; reflexivity.
  - intros (_ & _ & [[A _]|[A _]]); discriminate.
Qed.
(** The call in the test of the package (test_package.cpp:1268): 1 + 1e-12 and 1 *)
Example ulp_test_example : ulpDistance 5000 (SFadd 53 1024 F1 (SFdiv 53 1024 F1 (binary_normalize 53 1024 1000000000000 0 false))) F1 = Some 4504.
Proof. vm_compute. reflexivity. Qed.
Example ulp_symmetric_example : ulpDistance 9 ex1p ex1m = Some 5 /\ ulpDistance 9 ex1m ex1p = Some 5.
Proof. split; reflexivity. Qed.
Example ulp_adds_example : SFleb ex1m F1 = true /\ SFleb F1 ex1p = true /\ ulpDistance 9 ex1m F1 = Some 1 /\ ulpDistance 9 F1 ex1p = Some 4 /\ ulpDistance 9 ex1m ex1p = Some 5.
Proof. repeat split. Qed.
Example ulp_zero_example : ulpDistance 9 (S754_zero true) F0 = Some 0 /\ SFeqb (S754_zero true) F0 = true.
Proof. split; reflexivity. Qed.
Example ulp_units_example : ulpDistance 9 F1 ex1p = Some (Z.abs (Z.pos (4503599627370496 + 4) - Z.pos 4503599627370496)).
Proof. reflexivity. Qed.
(** From the smallest negative number over zero *)
Example nextafter_up_example : SFltb (S754_finite true 1 (-1074)) F1 = true /\ nextafter (S754_finite true 1 (-1074)) F1 = S754_zero true /\
  nextafter (S754_zero true) F1 = S754_finite false 1 (-1074).
Proof. repeat split. Qed.
Example nextafter_down_example : SFltb F1 (S754_infinity false) = true /\ nextafter (S754_infinity false) F1 = S754_finite false 9007199254740991 971 /\ nextafter F1 F0 = ex1m.
Proof. repeat split. Qed.

Print Assumptions ulp_counts.
Print Assumptions ulp_symmetric.
Print Assumptions ulp_adds.
Print Assumptions ulp_zero.
Print Assumptions ulp_units.
Print Assumptions nextafter_up.
Print Assumptions nextafter_down.
Print Assumptions ulp_ends_refuted.
