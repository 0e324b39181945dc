(** C68: labels, colours and widths of drawings. *)
From Coq Require Import ZArith List Bool Lia Reals Lra.
From Verif Require Import Num Fraction Format PropFrac.
Import ListNotations.
Local Open Scope R_scope.

(** Angles close to each other have close sines and cosines. *)
Lemma sin_small x : Rabs (sin x) <= Rabs x.
Proof.
  assert (P: forall y, 0 <= y -> Rabs (sin y) <= y).
  { intros y Hy. destruct (Rle_lt_dec y PI) as [L|L].
    - rewrite Rabs_pos_eq by (apply sin_ge_0; lra). destruct (Req_dec y 0) as [->|Ny]; [rewrite sin_0; lra|]. apply Rlt_le, sin_lt_x. lra.
    - pose proof (SIN_bound y). pose proof PI2_1. apply Rabs_le. lra. }
  destruct (Rle_lt_dec 0 x) as [H|H]; [rewrite (Rabs_pos_eq x) by lra; auto|].
  rewrite (Rabs_left x) by lra. rewrite <- (Ropp_involutive x) at 1. rewrite sin_neg, Rabs_Ropp. apply P. lra.
Qed.
Lemma half_abs x : Rabs (x / 2) = Rabs x / 2.
Proof. unfold Rdiv. rewrite Rabs_mult, (Rabs_pos_eq (/ 2)) by lra. reflexivity. Qed.
Lemma cos_lip a b : Rabs (cos a - cos b) <= Rabs (a - b).
Proof.
  rewrite form2, !Rabs_mult. pose proof (sin_small ((a - b) / 2)) as H. rewrite half_abs in H. pose proof (SIN_bound ((a + b) / 2)) as B.
  assert (Rabs (sin ((a + b) / 2)) <= 1) by (apply Rabs_le; lra). pose proof (Rabs_pos (sin ((a + b) / 2))). pose proof (Rabs_pos (sin ((a - b) / 2))).
  replace (Rabs (-2)) with 2 by (rewrite Rabs_left; lra). nra.
Qed.
Lemma sin_lip a b : Rabs (sin a - sin b) <= Rabs (a - b).
Proof.
  rewrite form4, !Rabs_mult. pose proof (sin_small ((a - b) / 2)) as H. rewrite half_abs in H. pose proof (COS_bound ((a + b) / 2)) as B.
  assert (Rabs (cos ((a + b) / 2)) <= 1) by (apply Rabs_le; lra). pose proof (Rabs_pos (cos ((a + b) / 2))). pose proof (Rabs_pos (sin ((a - b) / 2))).
  replace (Rabs 2) with 2 by (rewrite Rabs_right; lra). nra.
Qed.

Section Format.
Context (t : R) (Ht : 0 < t).
Notation NR := (NumR t).
(** What a reader makes of the texts: the angle of "ℯ(±iπ f)" and the complex number *)
Definition angle (p : phtext R) : R := PI * ((if fst p then -1 else 1) * rd (snd p)).
Definition polv (x : poltext R) : R * R :=
  match x with
  | PZero => (0, 0) | POne => (1, 0) | PI_ => (0, 1) | PMinusI => (0, -1) | PMinusOne => (-1, 0)
  | PPhase p => (cos (angle p), sin (angle p))
  | PMag neg l => ((if neg then -1 else 1) * rd l, 0)
  | PBoth l p => (rd l * cos (angle p), rd l * sin (angle p))
  end.

Lemma suitableP_sp fuel a b n d : suitableP NR IZR fuel a = Some (b, n, d) -> (Z.of_nat fuel < 2 ^ 50)%Z ->
  d <> 0%Z /\ (b = true -> Rabs (a - IZR n / IZR d) <= t).
Proof.
  unfold suitableP. destruct (getLowestFraction NR IZR fuel a defaultMax ntol) as [[n' d']|] eqn:E; [|discriminate]. intros H W. injection H as <- <- <-.
  apply fraction_lowest_terms in E; [|unfold defaultMax; lia|unfold defaultMax; change (2 * 2 ^ 10)%Z with 2048%Z; lia]. split; [lia|]. intros B. apply Rltb_iff in B. cbn in B. lra.
Qed.
Lemma phPlain_rd n d : rd (phPlain NR n d) = IZR n / IZR d.
Proof. unfold phPlain. destruct (Z.eqb_spec n 1) as [->|Hn]; destruct (Z.eqb_spec d 1) as [->|Hd]; cbn [andb rd tv]; unfold Rdiv; rewrite ?Rinv_1; ring. Qed.
Lemma phRoot_rd n d : d <> 0%Z -> rd (phRoot NR n d) = IZR n / IZR d / sqrt 2.
Proof.
  intros D. apply IZR_neq in D. pose proof pos_sqrt2 as P. unfold phRoot.
  destruct (Z.eqb_spec n 1) as [->|Hn]; destruct (Z.eqb_spec d 1) as [->|Hd]; cbn [andb rd tv]; field; lra.
Qed.
Lemma phPi_rd n d : rd (phPi NR n d) = IZR n / IZR d * PI.
Proof. unfold phPi. destruct (Z.eqb_spec n 1) as [->|Hn]; destruct (Z.eqb_spec d 1) as [->|Hd]; cbn [andb rd tv]; unfold Rdiv; rewrite ?Rinv_1; ring. Qed.

(** The angle written is the phase up to PI squared times the tolerance. *)
Theorem phase_value fuel (phase : R) p : (Z.of_nat fuel < 2 ^ 50)%Z -> printPhase NR IZR PI fuel phase = Some p -> Rabs (phase - angle p) <= PI * PI * t.
Proof.
  intros W E. assert (P4: 1 < PI) by (pose proof PI2_1; lra). pose proof pos_sqrt2 as P2. unfold printPhase in E. cbn [ndiv nabs nsign nsq2 NumR] in E.
  set (r := phase / PI) in *.
  assert (Ph: phase = PI * r) by (unfold r; field; lra).
  enough (K: forall l, Some (Rltb r 0, l) = Some p -> Rabs (Rabs r - rd l) <= PI * t -> Rabs (phase - angle p) <= PI * PI * t).
  { destruct (suitableP NR IZR fuel (Rabs r)) as [[[b n] d]|] eqn:E1; [|discriminate]. apply suitableP_sp in E1 as [D1 C1]; auto. destruct b.
    { apply (K _ E). rewrite phPlain_rd. specialize (C1 eq_refl). nra. }
    destruct (suitableP NR IZR fuel (Rabs r / (sqrt 2 / 2))) as [[[b n2] d2]|] eqn:E2; [|discriminate]. apply suitableP_sp in E2 as [D2 C2]; auto. destruct b.
    { apply (K _ E). rewrite phRoot_rd by auto. specialize (C2 eq_refl).
      assert (S2: sqrt 2 * sqrt 2 = 2) by (apply sqrt_sqrt; lra). assert (S3: sqrt 2 <= 2) by nra.
      replace (Rabs r - IZR n2 / IZR d2 / sqrt 2) with (sqrt 2 / 2 * (Rabs r / (sqrt 2 / 2) - IZR n2 / IZR d2)).
      + rewrite Rabs_mult, (Rabs_pos_eq (sqrt 2 / 2)) by lra. pose proof (Rabs_pos (Rabs r / (sqrt 2 / 2) - IZR n2 / IZR d2)). nra.
      + assert (Hi: / sqrt 2 = sqrt 2 / 2) by (apply (Rmult_eq_reg_l (sqrt 2)); [rewrite Rinv_r; lra|lra]).
        assert (Hj: IZR n2 / IZR d2 / sqrt 2 = IZR n2 / IZR d2 * (sqrt 2 / 2)) by (rewrite <- Hi; reflexivity). rewrite Hj. apply IZR_neq in D2. field. lra. }
    destruct (suitableP NR IZR fuel (Rabs r / PI)) as [[[b n3] d3]|] eqn:E3; [|discriminate]. apply suitableP_sp in E3 as [D3 C3]; auto. destruct b.
    { apply (K _ E). rewrite phPi_rd. specialize (C3 eq_refl).
      replace (Rabs r - IZR n3 / IZR d3 * PI) with (PI * (Rabs r / PI - IZR n3 / IZR d3)) by (apply IZR_neq in D3; field; lra).
      rewrite Rabs_mult, (Rabs_pos_eq PI) by lra. apply Rmult_le_compat_l; lra. }
    apply (K _ E). cbn [rd tv]. rewrite Rmult_1_r, Rminus_diag_eq, Rabs_R0 by reflexivity. nra. }
  intros l [= <-] H. unfold angle. cbn [fst snd]. rewrite Ph at 1. rewrite <- Rmult_minus_distr_l, Rabs_mult, (Rabs_pos_eq PI) by lra. rewrite Rmult_assoc. apply Rmult_le_compat_l; [lra|].
  rewrite (sg_abs r) at 1. apply sgm; [apply sg_pm|exact H].
Qed.

(** Magnitude and angle close to those of a number give a number close to it. *)
Lemma polar_close mag phase m th e1 e2 : 0 <= mag -> Rabs (mag - m) <= e1 -> Rabs (phase - th) <= e2 ->
  Rabs (mag * cos phase - m * cos th) <= e1 + mag * e2 /\ Rabs (mag * sin phase - m * sin th) <= e1 + mag * e2.
Proof.
  intros M H1 H2. pose proof (cos_lip phase th) as Lc. pose proof (sin_lip phase th) as Ls. pose proof (COS_bound th). pose proof (SIN_bound th).
  assert (Rabs (cos th) <= 1) by (apply Rabs_le; lra). assert (Rabs (sin th) <= 1) by (apply Rabs_le; lra). pose proof (Rabs_pos (mag - m)).
  split.
  - replace (mag * cos phase - m * cos th) with ((mag - m) * cos th + mag * (cos phase - cos th)) by ring. eapply Rle_trans; [apply Rabs_triang|]. rewrite !Rabs_mult, (Rabs_pos_eq mag) by auto.
    apply Rplus_le_compat; [pose proof (Rabs_pos (cos th)); nra|apply Rmult_le_compat_l; lra].
  - replace (mag * sin phase - m * sin th) with ((mag - m) * sin th + mag * (sin phase - sin th)) by ring. eapply Rle_trans; [apply Rabs_triang|]. rewrite !Rabs_mult, (Rabs_pos_eq mag) by auto.
    apply Rplus_le_compat; [pose proof (Rabs_pos (sin th)); nra|apply Rmult_le_compat_l; lra].
Qed.

(** The text of a complex number in polar form reads as that number up to a multiple of the tolerance. *)
Theorem polar_value fuel (mag phase : R) x : (Z.of_nat fuel < 2 ^ 50)%Z -> 0 <= mag -> - PI <= phase <= PI ->
  polarFormat NR IZR PI (PI / 2) fuel mag phase = Some x ->
  let b := (PI + mag * (PI * PI)) * t in
  Rabs (mag * cos phase - fst (polv x)) <= b /\ Rabs (mag * sin phase - snd (polv x)) <= b.
Proof.
  intros W M Hp E b. assert (P4: 1 < PI) by (pose proof PI2_1; lra). assert (PP: 1 < PI * PI) by nra.
  assert (T1: forall e1 e2, e1 <= PI * t -> e2 <= PI * PI * t -> e1 + mag * e2 <= b).
  { intros e1 e2 H1 H2. unfold b. assert (mag * e2 <= mag * (PI * PI * t)) by (apply Rmult_le_compat_l; lra). lra. }
  assert (Lt: t <= PI * t) by nra. assert (Lt2: t <= PI * PI * t) by nra. assert (L0: 0 <= PI * PI * t) by nra.
  unfold polarFormat in E. cbn [nltb nabs nsub nadd ntol n1 NumR] in E.
  destruct (Rltb (Rabs mag) t) eqn:Q0.
  { apply Rltb_iff in Q0. injection E as <-. cbn [polv fst snd]. rewrite Rabs_pos_eq in Q0 by auto.
    destruct (polar_close mag phase 0 phase t 0 M) as [A B]; [rewrite Rminus_0_r, Rabs_pos_eq by auto; lra|rewrite Rminus_diag_eq, Rabs_R0 by reflexivity; lra|].
    rewrite !Rmult_0_l in A, B. specialize (T1 t 0 Lt L0). lra. }
  (* the angles named by words *)
  assert (Word: forall m th e1 c s, cos th = c -> sin th = s -> Rabs (mag - m) <= e1 -> e1 <= PI * t -> Rabs (phase - th) < t -> Rabs (mag * cos phase - m * c) <= b /\ Rabs (mag * sin phase - m * s) <= b).
  { intros m th e1 c s <- <- H1 H1' H2. destruct (polar_close mag phase m th e1 t M H1) as [A B]; [lra|]. specialize (T1 e1 t H1' Lt2). lra. }
  assert (Pi': Rltb (Rabs (Rabs phase - PI)) t = true -> exists th, cos th = -1 /\ sin th = 0 /\ Rabs (phase - th) < t).
  { intros H. apply Rltb_iff in H. destruct (Rle_lt_dec 0 phase) as [G|G].
    - exists PI. rewrite cos_PI, sin_PI. split; auto. split; auto. rewrite (Rabs_pos_eq phase) in H by auto. exact H.
    - exists (- PI). rewrite cos_neg, sin_neg, cos_PI, sin_PI. split; [reflexivity|]. split; [ring|]. rewrite (Rabs_left phase) in H by auto. rewrite <- Rabs_Ropp. replace (- (phase - - PI)) with (- phase - PI) by ring. exact H. }
  destruct (Rltb (Rabs (mag - 1)) t) eqn:Q1.
  - apply Rltb_iff in Q1. assert (Q1': Rabs (mag - 1) <= t) by lra.
    destruct (Rltb (Rabs phase) t) eqn:Q2.
    { apply Rltb_iff in Q2. injection E as <-. cbn [polv fst snd]. destruct (Word 1 0 t 1 0 cos_0 sin_0 Q1' Lt) as [A B]; [now rewrite Rminus_0_r|]. rewrite Rmult_1_l in A, B. auto. }
    destruct (Rltb (Rabs (phase - PI / 2)) t) eqn:Q3.
    { apply Rltb_iff in Q3. injection E as <-. cbn [polv fst snd]. destruct (Word 1 (PI / 2) t 0 1 cos_PI2 sin_PI2 Q1' Lt Q3) as [A B]. rewrite Rmult_1_l in A, B. auto. }
    destruct (Rltb (Rabs (phase + PI / 2)) t) eqn:Q4.
    { apply Rltb_iff in Q4. injection E as <-. cbn [polv fst snd]. destruct (Word 1 (- (PI / 2)) t 0 (-1)) as [A B]; auto; [rewrite cos_neg; apply cos_PI2|rewrite sin_neg, sin_PI2; reflexivity|now replace (phase - - (PI / 2)) with (phase + PI / 2) by ring|].
      rewrite Rmult_1_l in A, B. auto. }
    destruct (Rltb (Rabs (Rabs phase - PI)) t) eqn:Q5.
    { destruct (Pi' eq_refl) as (th & C & S & Q). injection E as <-. cbn [polv fst snd]. destruct (Word 1 th t (-1) 0 C S Q1' Lt Q) as [A B]. rewrite Rmult_1_l in A, B. auto. }
    destruct (printPhase NR IZR PI fuel phase) as [p|] eqn:F; [|discriminate]. injection E as <-. apply phase_value in F; auto. cbn [polv fst snd].
    destruct (polar_close mag phase 1 (angle p) t _ M Q1' F) as [A B]. rewrite Rmult_1_l in A, B. specialize (T1 t _ Lt (Rle_refl _)). lra.
  - destruct (Rltb (Rabs (Rabs phase - PI)) t) eqn:Q5; [|destruct (Rltb (Rabs phase) t) eqn:Q6];
      (destruct (printFormatted NR IZR PI fuel mag false) as [l|] eqn:F; [|discriminate]; apply formatted_value in F as [F _]; auto).
    + destruct (Pi' eq_refl) as (th & C & S & Q). injection E as <-. cbn [polv fst snd]. destruct (Word (rd l) th _ (-1) 0 C S F (Rle_refl _) Q) as [A B].
      rewrite Rmult_0_r in B. replace (-1 * rd l) with (rd l * -1) by ring. auto.
    + apply Rltb_iff in Q6. injection E as <-. cbn [polv fst snd]. destruct (Word (rd l) 0 _ 1 0 cos_0 sin_0 F (Rle_refl _)) as [A B]; [now rewrite Rminus_0_r|].
      rewrite Rmult_1_r in A. rewrite Rmult_0_r in B. rewrite Rmult_1_l. auto.
    + destruct (printPhase NR IZR PI fuel phase) as [p|] eqn:F'; [|discriminate]. injection E as <-. apply phase_value in F'; auto. cbn [polv fst snd].
      destruct (polar_close mag phase (rd l) (angle p) _ _ M F F') as [A B]. specialize (T1 _ _ (Rle_refl _) (Rle_refl (PI * PI * t))). lra.
Qed.
End Format.
Section FormatD.
Context (t : R) (Ht : 0 < t).
Notation NR := (NumR t).
(** Numbers up to 2^40 are written after finitely many steps. *)
Theorem polar_defined fuel (mag phase : R) : 0 <= mag <= 2 ^ 40 -> - PI <= phase <= PI -> (2 ^ 41 + 2050 <= Z.of_nat fuel < 2 ^ 50)%Z ->
  exists x, polarFormat NR IZR PI (PI / 2) fuel mag phase = Some x.
Proof.
  intros Hm Hp Hf. assert (P4: 1 < PI) by (pose proof PI2_1; lra). pose proof pos_sqrt2 as P2.
  assert (S2: sqrt 2 * sqrt 2 = 2) by (apply sqrt_sqrt; lra). assert (S3: 1 <= sqrt 2) by nra. assert (S4: sqrt 2 <= 2) by nra.
  assert (Su: forall a, 0 <= a <= 2 -> exists b n d, suitableP NR IZR fuel a = Some (b, n, d)).
  { intros a Ha. unfold suitableP.
    destruct (fraction_close t fuel a defaultMax t 2) as (n & d & F & _); [unfold defaultMax; lia|lra|exact Ha|unfold defaultMax; change (2 * 2 ^ 10)%Z with 2048%Z; lia|unfold defaultMax; change (2 * 2 ^ 10)%Z with 2048%Z; lia|].
    change (ntol (n:=NR)) with t. rewrite F. eauto. }
  assert (Ph: exists p, printPhase NR IZR PI fuel phase = Some p).
  { unfold printPhase. cbn [ndiv nabs nsign nsq2 NumR]. set (r := phase / PI). assert (Hr: 0 <= Rabs r <= 1).
    { split; [apply Rabs_pos|]. apply Rabs_le. unfold r. assert (E: phase = PI * (phase / PI)) by (field; lra). set (u := phase / PI) in *. clearbody u. nra. }
    destruct (Su (Rabs r)) as ([] & n & d & ->); [lra|eauto|].
    destruct (Su (Rabs r / (sqrt 2 / 2))) as ([] & n2 & d2 & ->); [|eauto|].
    { assert (Hi: / (sqrt 2 / 2) = sqrt 2) by (apply (Rmult_eq_reg_l (sqrt 2 / 2)); [rewrite Rinv_r; lra|lra]). unfold Rdiv at 1 3. rewrite Hi. nra. }
    destruct (Su (Rabs r / PI)) as ([] & n3 & d3 & ->); [|eauto|eauto].
    assert (0 < / PI <= 1). { split; [apply Rinv_0_lt_compat; lra|]. rewrite <- Rinv_1. apply Rinv_le_contravar; lra. } unfold Rdiv. nra. }
  destruct Ph as [p Ep]. destruct (formatted_defined t Ht fuel mag false) as [l El]; [rewrite Rabs_pos_eq by lra; lra|lia|].
  unfold polarFormat. rewrite Ep, El. repeat match goal with |- context [if ?c then _ else _] => destruct c end; eauto.
Qed.

(** A phase is written only for numbers that are not about real, and then not for ±i; a magnitude only if it is not about one. *)
Theorem polar_short fuel (mag phase : R) x : polarFormat NR IZR PI (PI / 2) fuel mag phase = Some x ->
  match x with
  | PPhase _ => t <= Rabs phase /\ t <= Rabs (Rabs phase - PI) /\ t <= Rabs (Rabs phase - PI / 2)
  | PBoth _ _ => t <= Rabs phase /\ t <= Rabs (Rabs phase - PI) /\ t <= Rabs (mag - 1)
  | PMag _ _ => t <= Rabs (mag - 1)
  | _ => True
  end.
Proof.
  unfold polarFormat. cbn [nltb nabs nsub nadd ntol n1 NumR]. assert (P4: 1 < PI) by (pose proof PI2_1; lra).
  destruct (Rltb (Rabs mag) t); [intros [= <-]; exact I|]. destruct (Rltb (Rabs (mag - 1)) t) eqn:Q1.
  - destruct (Rltb (Rabs phase) t) eqn:Q2; [intros [= <-]; exact I|]. destruct (Rltb (Rabs (phase - PI / 2)) t) eqn:Q3; [intros [= <-]; exact I|].
    destruct (Rltb (Rabs (phase + PI / 2)) t) eqn:Q4; [intros [= <-]; exact I|]. destruct (Rltb (Rabs (Rabs phase - PI)) t) eqn:Q5; [intros [= <-]; exact I|].
    destruct (printPhase NR IZR PI fuel phase); [intros [= <-]|discriminate]. apply Rltb_false in Q2, Q3, Q4, Q5. split; [lra|]. split; [lra|].
    destruct (Rle_lt_dec 0 phase); [rewrite (Rabs_pos_eq phase) by lra; lra|]. rewrite (Rabs_left phase) by lra. rewrite <- Rabs_Ropp. replace (- (- phase - PI / 2)) with (phase + PI / 2) by ring. lra.
  - apply Rltb_false in Q1. destruct (Rltb (Rabs (Rabs phase - PI)) t) eqn:Q5; [|destruct (Rltb (Rabs phase) t) eqn:Q6];
      (destruct (printFormatted NR IZR PI fuel mag false); [|discriminate]).
    + intros [= <-]. lra.
    + intros [= <-]. lra.
    + destruct (printPhase NR IZR PI fuel phase); [intros [= <-]|discriminate]. apply Rltb_false in Q5, Q6. lra.
Qed.
Example polar_short_case : polarFormat NumF ofZF piF pi2F 3000 Fhalf F0 = Some (PMag false [TNat 1; TSlash; TNat 2]) /\ polarFormat NumF ofZF piF pi2F 3000 F1 pi2F = Some PI_.
Proof. split; vm_compute; reflexivity. Qed.

(** Phases that are fractions of PI with a denominator up to 1024 are written as that fraction. *)
Theorem phase_fraction fuel (p q : Z) : (0 < p < 2 ^ 30)%Z -> (1 <= q <= 1024)%Z -> Z.gcd p q = 1%Z -> t < / 2 ^ 21 -> (p + q + 1025 < Z.of_nat fuel)%Z ->
  printPhase NR IZR PI fuel (PI * (IZR p / IZR q)) = Some (false, phPlain NR p q) /\ printPhase NR IZR PI fuel (- (PI * (IZR p / IZR q))) = Some (true, phPlain NR p q).
Proof.
  intros Hp Hq Gq Tt Hf. assert (P4: 1 < PI) by (pose proof PI2_1; lra). assert (Q0: 0 < IZR q) by (apply IZR_lt; lia). assert (P0: 0 < IZR p) by (apply IZR_lt; lia).
  assert (F: getLowestFraction NR IZR fuel (IZR p / IZR q) defaultMax t = Some (p, q)).
  { apply fraction_exact; unfold defaultMax; try lia; auto. split; [lra|]. change (IZR (2 ^ 10)) with 1024. replace (2 * (1024 * 1024)) with (2 ^ 21) by ring. exact Tt. }
  assert (Pos: 0 < IZR p / IZR q) by (apply Rdiv_lt_0_compat; auto). set (x := IZR p / IZR q) in *.
  assert (Su: suitableP NR IZR fuel x = Some (true, p, q)).
  { unfold suitableP. change (ntol (n:=NR)) with t. rewrite F. cbn [nltb nabs nsub ndiv NumR]. fold x. rewrite (Rminus_diag_eq x x), Rabs_R0 by reflexivity. now rewrite (proj2 (Rltb_iff 0 t) Ht). }
  unfold printPhase. cbn [ndiv nabs nsign NumR]. replace (PI * x / PI) with x by (field; lra). replace (- (PI * x) / PI) with (- x) by (field; lra).
  rewrite Rabs_Ropp, Rabs_pos_eq by lra. rewrite Su. rewrite (proj2 (Rltb_false x 0)) by lra. rewrite (proj2 (Rltb_iff (- x) 0)) by lra. auto.
Qed.

(** The hue is the phase in turns, between 0 and 1; the width grows with the magnitude, from 0.3 on. *)
Theorem hue_turns (phase : R) : - PI <= phase <= PI ->
  let h := hue NR (2 * PI) phase in 0 <= h < 1 /\ cos (2 * PI * h) = cos phase /\ sin (2 * PI * h) = sin phase.
Proof.
  intros Hp. assert (P4: 1 < PI) by (pose proof PI2_1; lra). unfold hue. cbn [ndiv nltb nadd n0 n1 NumR]. assert (E: phase = 2 * PI * (phase / (2 * PI))) by (field; lra). set (u := phase / (2 * PI)) in *. clearbody u.
  destruct (Rltb u 0) eqn:L.
  - apply Rltb_iff in L. split; [nra|]. replace (2 * PI * (u + 1)) with (phase + 2 * INR 1 * PI) by (rewrite E; cbn; ring). now rewrite cos_period, sin_period.
  - apply Rltb_false in L. split; [nra|]. now rewrite <- E.
Qed.
Theorem thickness_grows (m m' : R) : 3 / 10 <= thickness NR 3 (1 / 10) m /\ (m <= m' -> thickness NR 3 (1 / 10) m <= thickness NR 3 (1 / 10) m') /\ (1 / 10 <= m -> thickness NR 3 (1 / 10) m = 3 * m).
Proof.
  unfold thickness. cbn [nmul nltb NumR]. destruct (Rltb m (1 / 10)) eqn:A, (Rltb m' (1 / 10)) eqn:B; try apply Rltb_iff in A; try apply Rltb_false in A; try apply Rltb_iff in B; try apply Rltb_false in B; repeat split; intros; lra.
Qed.
End FormatD.

(** 1/√2 ℯ(iπ/4), ℯ(-iπ/3) and -π/4 in binary64 *)
Example polar_case : let f n e := SpecFloat.binary_normalize 53 1024 n e false in let dv := SpecFloat.SFdiv 53 1024 in
  polarFormat NumF ofZF piF pi2F 3000 Fsq2 (dv piF (f 4%Z 0%Z)) = Some (PBoth [TNat 1; TSlash; TRoot2] (false, [TSlash; TNat 4])) /\
  polarFormat NumF ofZF piF pi2F 3000 F1 (SpecFloat.SFopp (dv piF (f 3%Z 0%Z))) = Some (PPhase (true, [TSlash; TNat 3])) /\
  polarFormat NumF ofZF piF pi2F 3000 (dv piF (f 4%Z 0%Z)) piF = Some (PMag true [TPi; TSlash; TNat 4]).
Proof. repeat split; vm_compute; reflexivity. Qed.
Example polar_value_case : let x := PBoth [TNat 1; TSlash; TRoot2] (false, [TSlash; TNat 4]) in polv x = (/ sqrt 2 * cos (PI / 4), / sqrt 2 * sin (PI / 4)).
Proof. cbn. unfold angle. cbn. replace (PI * (1 * (/ 4 * 1))) with (PI / 4) by field. f_equal; ring. Qed.
(** The hypotheses of [polar_value] and [polar_defined]: the number 2 ℯ(iπ 2/3) *)
Example polar_defined_case : exists x, polarFormat (NumR (/ 2 ^ 42)) IZR PI (PI / 2) (Z.to_nat (2 ^ 42)) 2 (PI * (2 / 3)) = Some x /\
  let b := (PI + 2 * (PI * PI)) * / 2 ^ 42 in Rabs (2 * cos (PI * (2 / 3)) - fst (polv x)) <= b /\ Rabs (2 * sin (PI * (2 / 3)) - snd (polv x)) <= b.
Proof.
  assert (P4: 1 < PI) by (pose proof PI2_1; lra). assert (Tp: 0 < / 2 ^ 42) by (apply Rinv_0_lt_compat, pow_lt; lra).
  assert (Fu: Z.of_nat (Z.to_nat (2 ^ 42)) = (2 ^ 42)%Z) by (apply Z2Nat.id; lia). remember (Z.to_nat (2 ^ 42)) as fuel eqn:Hfu. clear Hfu.
  destruct (polar_defined (/ 2 ^ 42) Tp fuel 2 (PI * (2 / 3))) as [x E]; [split; [lra|]; apply (Rle_trans _ (2 ^ 1)); [lra|apply Rle_pow; [lra|lia]]|lra|rewrite Fu; lia|].
  exists x. split; [exact E|]. eapply (polar_value (/ 2 ^ 42) Tp); [|lra|lra|exact E]. rewrite Fu. lia.
Qed.
Example phase_fraction_case : printPhase (NumR (/ 2 ^ 42)) IZR PI 2000 (- (PI * (3 / 8))) = Some (true, [TNat 3; TSlash; TNat 8]).
Proof.
  assert (Tp: 0 < / 2 ^ 42) by (apply Rinv_0_lt_compat, pow_lt; lra).
  apply (phase_fraction (/ 2 ^ 42) Tp 2000 3 8); [lia|lia|reflexivity| |lia]. apply Rinv_lt_contravar; [apply Rmult_lt_0_compat; apply pow_lt; lra|apply Rlt_pow; [lra|lia]].
Qed.
Example hue_case : hue (NumR 0) (2 * PI) (- (PI / 2)) = 3 / 4.
Proof.
  assert (P4: 1 < PI) by (pose proof PI2_1; lra). unfold hue. cbn [ndiv nltb nadd n0 n1 NumR]. replace (- (PI / 2) / (2 * PI)) with (- (1 / 4)) by (field; lra).
  rewrite (proj2 (Rltb_iff _ _)) by lra. lra.
Qed.
Example thickness_case : thickness (NumR 0) 3 (1 / 10) (1 / 20) = 3 / 10.
Proof. unfold thickness. cbn [nmul nltb NumR]. rewrite (proj2 (Rltb_iff _ _)) by lra. lra. Qed.

(** The texts need not be well formed: a magnitude of exactly the tolerance
    is not treated as zero by the first test (<) but by printFormatted (<=), which gives "-+0".  A phase a little
    over the tolerance gives "ℯ(iπ 0)" instead of "1". *)
Theorem polar_zero_refuted : exists mag phase phase1 : NumF, nleb mag ntol = true /\
  polarFormat NumF ofZF piF pi2F 3000 mag phase = Some (PMag true [TPlus; TNat 0]) /\
  polarFormat NumF ofZF piF pi2F 3000 F1 phase1 = Some (PPhase (false, [TNat 0])).
Proof. exists Ftol, piF, (SpecFloat.binary_normalize 53 1024 5 (-44) false). repeat split; vm_compute; reflexivity. Qed.
(** In doubles the hue of a phase a little below zero is rounded to one. *)
Theorem hue_below_one_refuted : exists phase : NumF, nltb phase n0 = true /\ nltb (nneg piF) phase = true /\ hue NumF twopiF phase = F1.
Proof. exists (SpecFloat.binary_normalize 53 1024 (-1) (-70) false). repeat split; vm_compute; reflexivity. Qed.

Print Assumptions phase_value.
Print Assumptions polar_value.
Print Assumptions polar_defined.
Print Assumptions polar_short.
Print Assumptions phase_fraction.
Print Assumptions hue_turns.
Print Assumptions thickness_grows.
Print Assumptions polar_zero_refuted.
Print Assumptions hue_below_one_refuted.
