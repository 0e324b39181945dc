(** C45: fractions in formatted output. *)
From Coq Require Import ZArith List Bool Lia Reals Lra Znumtheory.
From Verif Require Import Num Fraction.
Import ListNotations.
Local Open Scope Z_scope.

(** * Lowest terms *)
Section Any.
Context (N : num) (ofZ : Z -> N).

(** The bounds of the interval searched after [k] steps. *)
Definition fstate (mx k : Z) (lo up : Z * Z) : Prop :=
  0 <= fst lo /\ 1 <= snd lo /\ 1 <= fst up /\ 0 <= snd up /\
  fst up * snd lo - fst lo * snd up = 1 /\ fst lo <= k * snd lo /\ fst up <= k * snd up + 1 /\ 0 <= k /\
  snd lo <= 2 * mx /\ snd up <= 2 * mx /\ (snd up = 0 -> snd lo = 1) /\ (snd lo <= mx \/ snd up <= mx).
Lemma fstate0 mx : 1 <= mx -> fstate mx 0 (0, 1) (1, 0).
Proof. unfold fstate; cbn [fst snd]; lia. Qed.
Lemma u64_id z : 0 <= z < 2 ^ 64 -> u64 z = z.
Proof. intros. unfold u64. now apply Z.mod_small. Qed.
Lemma fstep mx k lo up : fstate mx k lo up -> snd lo <= mx -> snd up <= mx -> (k + 1) * (2 * mx) < 2 ^ 64 ->
  u64 (fst lo + fst up) = fst lo + fst up /\ u64 (snd lo + snd up) = snd lo + snd up /\
  fstate mx (k + 1) (fst lo + fst up, snd lo + snd up) up /\ fstate mx (k + 1) lo (fst lo + fst up, snd lo + snd up).
Proof.
  intros (A & B & C & D & E & F & G & K & L1 & L2 & U & O) H1 H2 W.
  assert (Q: fst lo + fst up <= (k + 1) * (snd lo + snd up)) by nia.
  assert (Q2: (k + 1) * (snd lo + snd up) <= (k + 1) * (2 * mx)) by nia.
  split; [apply u64_id; lia|]. split; [apply u64_id; split; [lia|]; assert (1 * (2 * mx) <= (k + 1) * (2 * mx)) by nia; lia|].
  unfold fstate. cbn [fst snd]. assert (k * snd lo <= (k + 1) * snd lo) by nia. assert (k * snd up <= (k + 1) * snd up) by nia.
  split; (repeat match goal with |- _ /\ _ => split end); try lia; try nia.
Qed.
Lemma lowest (a b c d : Z) : a * d - c * b = 1 -> Z.gcd a b = 1.
Proof. intros E. apply Zgcd_1_rel_prime. apply bezout_rel_prime. apply (Bezout_intro a b 1 d (- c)). lia. Qed.

Lemma glf_lowest : forall fuel x mx tol k lo up n d, 1 <= mx -> fstate mx k lo up -> (Z.of_nat fuel + k + 1) * (2 * mx) < 2 ^ 64 ->
  glf N ofZ fuel x mx tol lo up = Some (n, d) -> 0 <= n /\ 1 <= d <= mx /\ Z.gcd n d = 1.
Proof.
  induction fuel as [|f IH]; intros x mx tol k lo up n d M S W E; [discriminate|]. cbn [glf] in E.
  pose proof S as (A & B & C & D & Dt & F & G & K & L1 & L2 & U & O).
  assert (Glo: Z.gcd (fst lo) (snd lo) = 1). { apply (lowest _ _ (- fst up) (- snd up)). lia. }
  assert (Gup: Z.gcd (fst up) (snd up) = 1). { apply (lowest _ _ (fst lo) (snd lo)). lia. }
  destruct (Z.leb_spec (snd lo) mx) as [H1|H1]; [destruct (Z.leb_spec (snd up) mx) as [H2|H2]|]; cbn [andb] in E.
  - destruct (fstep mx k lo up S H1 H2) as (En & Ed & S1 & S2); [nia|]. rewrite En, Ed in E.
    destruct nleb.
    + destruct (Z.leb_spec (snd lo + snd up) mx) as [H3|H3].
      * injection E as <- <-. split; [lia|]. split; [lia|]. apply (lowest _ _ (fst lo) (snd lo)). lia.
      * destruct (Z.ltb_spec (snd lo) (snd up)); injection E as E1; [destruct up|destruct lo]; injection E1 as <- <-; cbn in *; lia.
    + assert (Ew: Z.of_nat f + (k + 1) + 1 = Z.of_nat (Datatypes.S f) + k + 1) by lia. destruct nltb; [apply (IH x mx tol (k + 1) (fst lo + fst up, snd lo + snd up) up n d)|apply (IH x mx tol (k + 1) lo (fst lo + fst up, snd lo + snd up) n d)]; auto; rewrite Ew; exact W.
  - destruct (Z.ltb_spec mx (snd lo)); [lia|]. injection E as E1. destruct lo. injection E1 as <- <-. cbn in *. lia.
  - destruct (Z.ltb_spec mx (snd lo)) as [_|]; [|lia]. injection E as E1. destruct up as [un ud]. injection E1 as <- <-. cbn in *.
    assert (ud <> 0) by (intros ->; specialize (U eq_refl); lia). lia.
Qed.

(** * C45 *)

(** In any arithmetic, doubles included: whenever the loop ends within [fuel] steps, the fraction is
    in lowest terms and its denominator is between 1 and the maximum.  The bound excludes
    wrap-around of the 64-bit integers. *)
Theorem fraction_lowest_terms fuel x mx tol n d :
  1 <= mx -> (Z.of_nat fuel + 1) * (2 * mx) < 2 ^ 64 ->
  getLowestFraction N ofZ fuel x mx tol = Some (n, d) ->
  0 <= n /\ 1 <= d <= mx /\ Z.gcd n d = 1.
Proof. intros M W E. apply (glf_lowest fuel x mx tol 0 (0, 1) (1, 0)); auto; [apply fstate0; auto|lia]. Qed.
End Any.

(** * Approximation *)
Section Reals.
Context (t : R).
Notation NR := (NumR t).
Notation glfR := (glf NR IZR).
Local Open Scope R_scope.

(** The argument lies between the bounds. *)
Definition between (x : R) (lo up : Z * Z) : Prop :=
  IZR (fst lo) <= x * IZR (snd lo) /\ x * IZR (snd up) <= IZR (fst up).
(** An upper bound for the number of steps left. *)
Definition left_ (c mx : Z) (lo up : Z * Z) : Z :=
  (if snd up =? 0 then (c - fst lo) + 2 * mx + 2 else Z.max 1 (2 * mx + 2 - snd lo - snd up))%Z.

Lemma det_diff (a b c d : Z) : (1 <= b)%Z -> (1 <= d)%Z -> (c * b - a * d = 1)%Z -> IZR c / IZR d - IZR a / IZR b = / (IZR b * IZR d).
Proof.
  intros B D E. apply (f_equal IZR) in E. rewrite minus_IZR, !mult_IZR in E. apply IZR_le in B, D.
  assert (IZR b <> 0) by lra. assert (IZR d <> 0) by lra. field_simplify_eq; auto. lra.
Qed.
Lemma inv_den (m a d : Z) : (1 <= d)%Z -> (1 <= m)%Z -> (m < a)%Z -> 0 < / (IZR a * IZR d) <= / (IZR d * (IZR m + 1)).
Proof.
  intros D M L. assert (m + 1 <= a)%Z by lia. apply IZR_le in D, M, H. rewrite plus_IZR in H.
  assert (0 < IZR a * IZR d) by nra. split; [apply Rinv_0_lt_compat; auto|]. apply Rinv_le_contravar; nra.
Qed.
Lemma btw_lo x lo up : (1 <= snd lo)%Z -> between x lo up -> IZR (fst lo) / IZR (snd lo) <= x.
Proof. intros B [H _]. apply IZR_le in B. apply (Rmult_le_reg_r (IZR (snd lo))); [lra|]. unfold Rdiv. rewrite Rmult_assoc, Rinv_l by lra. lra. Qed.
Lemma btw_up x lo up : (1 <= snd up)%Z -> between x lo up -> x <= IZR (fst up) / IZR (snd up).
Proof. intros B [_ H]. apply IZR_le in B. apply (Rmult_le_reg_r (IZR (snd up))); [lra|]. unfold Rdiv. rewrite Rmult_assoc, Rinv_l by lra. lra. Qed.
Lemma glfR_eq f x mx tol lo up : glfR (S f) x mx tol lo up =
    if (snd lo <=? mx)%Z && (snd up <=? mx)%Z then
      let num := u64 (fst lo + fst up) in
      let den := u64 (snd lo + snd up) in
      if Rleb (Rabs (x - IZR num / IZR den)) tol then
        if (den <=? mx)%Z then Some (num, den)
        else if (snd lo <? snd up)%Z then Some up
        else Some lo
      else if Rltb (IZR num / IZR den) x then glfR f x mx tol (num, den) up
      else glfR f x mx tol lo (num, den)
    else if (mx <? snd lo)%Z then Some up
    else Some lo.
Proof. reflexivity. Qed.


Lemma glf_close : forall fuel x mx (tol : R) c k lo up, (1 <= mx)%Z -> 0 <= tol -> 0 <= x <= IZR c -> fstate mx k lo up -> between x lo up ->
  (left_ c mx lo up <= Z.of_nat fuel)%Z -> ((Z.of_nat fuel + k + 1) * (2 * mx) < 2 ^ 64)%Z -> (snd up = 0 -> fst lo <= c)%Z ->
  exists n d, glfR fuel x mx tol lo up = Some (n, d) /\ Rabs (x - IZR n / IZR d) <= tol + / (IZR d * (IZR mx + 1)).
Proof.
  induction fuel as [|f IH]; intros x mx tol c k lo up M Ht Hx S Bt Lf W Uc.
  { exfalso. unfold left_ in Lf. destruct (Z.eqb_spec (snd up) 0) as [Z0|Z0]; [specialize (Uc Z0)|]; lia. }
  rewrite glfR_eq. pose proof S as (A & B & C & D & Dt & F & G & K & L1 & L2 & U & O).
  destruct (Z.leb_spec (snd lo) mx) as [H1|H1]; [destruct (Z.leb_spec (snd up) mx) as [H2|H2]|]; cbn [andb].
  - destruct (fstep mx k lo up S H1 H2) as (En & Ed & S1 & S2); [eapply Z.le_lt_trans; [|exact W]; apply Z.mul_le_mono_nonneg_r; lia|]. cbn zeta. rewrite En, Ed.
    set (n := (fst lo + fst up)%Z) in *. set (d := (snd lo + snd up)%Z) in *. assert (D1: (1 <= d)%Z) by lia. pose proof (IZR_le _ _ D1) as D1'. set (md := IZR n / IZR d).
    assert (Md: md * IZR d = IZR n) by (unfold md; field; lra).
    destruct (Rleb (Rabs (x - md)) tol) eqn:Cl; [apply Rleb_iff in Cl|apply Rleb_false in Cl].
    + destruct (Z.leb_spec d mx) as [H3|H3]; [exists n, d; split; [reflexivity|]; fold md|].
      { destruct (inv_den mx (mx + 1) d D1 M) as [I1 I2]; [lia|]. lra. }
      destruct (Z.ltb_spec (snd lo) (snd up)) as [Q|Q].
      * exists (fst up), (snd up). split; [now destruct up|].
        assert (E: IZR (fst up) / IZR (snd up) - md = / (IZR d * IZR (snd up))) by (apply det_diff; lia).
        pose proof (inv_den mx d (snd up)) as I. destruct I as [I1 I2]; try lia.
        replace (x - IZR (fst up) / IZR (snd up)) with ((x - md) + - (IZR (fst up) / IZR (snd up) - md)) by ring.
        eapply Rle_trans; [apply Rabs_triang|]. rewrite Rabs_Ropp, E, (Rabs_pos_eq (/ _)) by lra. lra.
      * exists (fst lo), (snd lo). split; [now destruct lo|].
        assert (E: md - IZR (fst lo) / IZR (snd lo) = / (IZR (snd lo) * IZR d)) by (apply det_diff; lia).
        pose proof (inv_den mx d (snd lo)) as I. destruct I as [I1 I2]; try lia. rewrite Rmult_comm in I1, I2.
        replace (x - IZR (fst lo) / IZR (snd lo)) with ((x - md) + (md - IZR (fst lo) / IZR (snd lo))) by ring.
        eapply Rle_trans; [apply Rabs_triang|]. rewrite E, (Rabs_pos_eq (/ _)) by lra. rewrite (Rmult_comm (IZR (snd lo)) (IZR mx + 1)) in *. lra.
    + assert (Ew: (Z.of_nat f + (k + 1) + 1 = Z.of_nat (Datatypes.S f) + k + 1)%Z) by lia. destruct (Rltb md x) eqn:Lt; [apply Rltb_iff in Lt|apply Rltb_false in Lt].
      * apply (IH x mx tol c (k + 1)%Z); auto; [split; [cbn; rewrite <- Md; nra|apply Bt]| |rewrite Ew; exact W|].
        { unfold left_ in *. cbn [fst snd]. destruct (Z.eqb_spec (snd up) 0) as [Z0|Z0]; [|lia].
          assert (fst lo + 1 <= n)%Z by lia. lia. }
        { intros Z0. cbn [fst]. apply le_IZR. rewrite <- Md. specialize (U Z0). assert (Ed1: d = 1%Z) by lia. rewrite Ed1 in *. lra. }
      * apply (IH x mx tol c (k + 1)%Z); auto; [split; [apply Bt|cbn; rewrite <- Md; nra]| |rewrite Ew; exact W|].
        { unfold left_ in *. cbn [fst snd]. destruct (Z.eqb_spec (snd up) 0) as [Z0|Z0]; destruct (Z.eqb_spec d 0); try lia. }
        { cbn [snd]. lia. }
  - destruct (Z.ltb_spec mx (snd lo)); [lia|]. exists (fst lo), (snd lo). split; [now destruct lo|].
    assert (E: IZR (fst up) / IZR (snd up) - IZR (fst lo) / IZR (snd lo) = / (IZR (snd lo) * IZR (snd up))) by (apply det_diff; lia).
    pose proof (btw_lo x lo up B Bt). pose proof (btw_up x lo up). assert (x <= IZR (fst up) / IZR (snd up)) by (apply (btw_up x lo up); auto; lia).
    destruct (inv_den mx (snd up) (snd lo)) as [I1 I2]; try lia. rewrite (Rmult_comm (IZR (snd up))) in *. rewrite Rabs_pos_eq by lra. lra.
  - destruct (Z.ltb_spec mx (snd lo)) as [_|]; [|lia]. exists (fst up), (snd up). split; [now destruct up|].
    assert (Pu: (1 <= snd up)%Z). { assert (snd up <> 0)%Z by (intros Z0; specialize (U Z0); lia). lia. }
    assert (E: IZR (fst up) / IZR (snd up) - IZR (fst lo) / IZR (snd lo) = / (IZR (snd lo) * IZR (snd up))) by (apply det_diff; lia).
    pose proof (btw_lo x lo up B Bt). assert (x <= IZR (fst up) / IZR (snd up)) by (apply (btw_up x lo up); auto; lia).
    destruct (inv_den mx (snd lo) (snd up)) as [I1 I2]; try lia. rewrite Rabs_minus_sym, Rabs_pos_eq by lra. lra.
Qed.

(** In exact arithmetic the loop ends after at most [c + 2 * mx + 2] steps for arguments up to [c], and
    the fraction found is close to the argument. *)
Theorem fraction_close fuel x mx tol c :
  (1 <= mx)%Z -> 0 <= tol -> 0 <= x <= IZR c -> (c + 2 * mx + 2 <= Z.of_nat fuel)%Z -> ((Z.of_nat fuel + 1) * (2 * mx) < 2 ^ 64)%Z ->
  exists n d, getLowestFraction NR IZR fuel x mx tol = Some (n, d) /\ Rabs (x - IZR n / IZR d) <= tol + / (IZR d * (IZR mx + 1)).
Proof.
  intros M Ht Hx Lf W. apply (glf_close fuel x mx tol c 0); auto; [now apply fstate0|split; cbn; lra|unfold left_; cbn [fst snd Z.eqb]; lia|lia|].
  intros _. cbn. apply le_IZR. lra.
Qed.

(** A fraction strictly between two neighbours is at least as large as their mediant. *)
Lemma mediant a b c d p q : (0 <= a)%Z -> (1 <= b)%Z -> (1 <= c)%Z -> (0 <= d)%Z -> (c * b - a * d = 1)%Z -> (a * q < p * b)%Z -> (p * d < c * q)%Z ->
  (a + c <= p)%Z /\ (b + d <= q)%Z.
Proof.
  intros A B C D Dt H1 H2.
  assert (Ep: (p = (c * q - p * d) * a + (p * b - a * q) * c)%Z) by (replace p with (p * (c * b - a * d))%Z at 1 by (rewrite Dt; ring); ring).
  assert (Eq: (q = (c * q - p * d) * b + (p * b - a * q) * d)%Z) by (replace q with (q * (c * b - a * d))%Z at 1 by (rewrite Dt; ring); ring).
  assert (U: (1 <= c * q - p * d)%Z) by lia. assert (V: (1 <= p * b - a * q)%Z) by lia. set (u := (c * q - p * d)%Z) in *. set (v := (p * b - a * q)%Z) in *. clearbody u v.
  assert (a <= u * a)%Z by nia. assert (c <= v * c)%Z by nia. assert (b <= u * b)%Z by nia. assert (d <= v * d)%Z by nia. lia.
Qed.
(** Fractions that are already in range are found exactly. *)
Lemma glf_exact : forall fuel mx (tol : R) p q lo up, (1 <= mx < 2 ^ 64)%Z -> 0 <= tol < / (IZR mx * IZR mx) ->
  (1 <= q <= mx)%Z -> (0 <= p < 2 ^ 64)%Z -> Z.gcd p q = 1%Z ->
  (0 <= fst lo /\ 1 <= snd lo /\ 1 <= fst up /\ 0 <= snd up /\ fst up * snd lo - fst lo * snd up = 1)%Z ->
  (fst lo * q < p * snd lo)%Z -> (p * snd up < fst up * q)%Z ->
  (p + q - (fst lo + fst up + snd lo + snd up) < Z.of_nat fuel)%Z ->
  glfR fuel (IZR p / IZR q) mx tol lo up = Some (p, q).
Proof.
  induction fuel as [|f IH]; intros mx tol p q lo up M Ht Hq Hp Gp (A & B & C & D & Dt) Hlo Hup Lf;
    destruct (mediant (fst lo) (snd lo) (fst up) (snd up) p q A B C D Dt Hlo Hup) as [Np Nq]; [lia|].
  rewrite glfR_eq. destruct (Z.leb_spec (snd lo) mx); [|lia]. destruct (Z.leb_spec (snd up) mx); [|lia]. cbn [andb]. cbn zeta.
  rewrite !u64_id by lia. set (n := (fst lo + fst up)%Z) in *. set (d := (snd lo + snd up)%Z) in *.
  assert (D1: (1 <= d)%Z) by lia. pose proof (IZR_le _ _ D1) as D1'. destruct Hq as [Hq1 Hq2]. pose proof (IZR_le _ _ Hq1) as Q1.
  assert (Df: IZR p / IZR q - IZR n / IZR d = IZR (p * d - n * q) / (IZR q * IZR d)) by (rewrite minus_IZR, !mult_IZR; field; lra).
  assert (Pqd: 0 < IZR q * IZR d) by nra. rewrite Df.
  destruct (Z.eq_dec (p * d) (n * q)) as [E|E].
  - assert (n = p /\ d = q) as [-> ->].
    { assert (Gn: Z.gcd n d = 1%Z) by (apply (lowest _ _ (fst lo) (snd lo)); lia).
      assert (Dv1: (q | d)%Z). { apply (Z.gauss q p d); [exists n; lia|rewrite Z.gcd_comm; auto]. }
      assert (Dv2: (d | q)%Z). { apply (Z.gauss d n q); [exists p; lia|rewrite Z.gcd_comm; auto]. }
      assert (d = q) by (apply Z.divide_antisym_nonneg; auto; lia). split; [|auto]. nia. }
    replace (p * q - p * q)%Z with 0%Z by ring. unfold Rdiv. rewrite Rmult_0_l, Rabs_R0. rewrite (proj2 (Rleb_iff 0 tol)) by apply Ht. destruct (Z.leb_spec q mx); [reflexivity|lia].
  - assert (Big: tol < Rabs (IZR (p * d - n * q) / (IZR q * IZR d))).
    { unfold Rdiv. rewrite Rabs_mult, (Rabs_pos_eq (/ _)) by (apply Rlt_le, Rinv_0_lt_compat; auto).
      assert (1 <= Rabs (IZR (p * d - n * q))). { rewrite <- abs_IZR. apply IZR_le. lia. }
      assert (/ (IZR mx * IZR mx) <= / (IZR q * IZR d)). { apply Rinv_le_contravar; auto. assert (IZR q <= IZR mx) by (apply IZR_le; lia). assert (IZR d <= IZR mx) by (apply IZR_le; lia). nra. }
      assert (0 < / (IZR q * IZR d)) by (apply Rinv_0_lt_compat; auto). nra. }
    rewrite (proj2 (Rleb_false _ _) Big).
    assert (I: Rltb (IZR n / IZR d) (IZR p / IZR q) = (n * q <? p * d)%Z).
    { destruct (Z.ltb_spec (n * q) (p * d)) as [L|L].
      - apply Rltb_iff. assert (0 < IZR (p * d - n * q)) by (apply IZR_lt; lia). assert (0 < IZR (p * d - n * q) / (IZR q * IZR d)) by (apply Rdiv_lt_0_compat; auto). lra.
      - apply Rltb_false. assert (IZR (p * d - n * q) < 0) by (apply IZR_lt; lia). assert (X: 0 < IZR (- (p * d - n * q)) / (IZR q * IZR d)) by (apply Rdiv_lt_0_compat; auto; rewrite opp_IZR; lra).
        rewrite opp_IZR in X. unfold Rdiv in *. rewrite Ropp_mult_distr_l_reverse in X. lra. }
    rewrite I. destruct (Z.ltb_spec (n * q) (p * d)) as [Lt|Lt].
    + apply IH; auto; cbn [fst snd]; try lia; repeat split; try lia.
    + apply IH; auto; cbn [fst snd]; try lia; repeat split; try lia.
Qed.
Lemma glf_zero : forall fuel mx (tol : R) k, (1 <= mx < 2 ^ 64 - 1)%Z -> 0 <= tol < / (2 * (IZR mx * IZR mx)) -> (0 <= k <= mx + 1)%Z ->
  (mx + 1 - k < Z.of_nat fuel)%Z -> glfR fuel 0 mx tol (0, 1)%Z (1, k)%Z = Some (0, 1)%Z.
Proof.
  induction fuel as [|f IH]; intros mx tol k M Ht Hk Lf; [lia|]. rewrite glfR_eq. cbn [fst snd].
  destruct (Z.leb_spec 1 mx); [|lia]. destruct (Z.leb_spec k mx); cbn [andb]; [|destruct (Z.ltb_spec mx 1); [lia|reflexivity]].
  cbn zeta. rewrite !u64_id by lia. change (0 + 1)%Z with 1%Z.
  assert (P: 0 < IZR (1 + k)) by (apply IZR_lt; lia).
  assert (Big: tol < Rabs (0 - 1 / IZR (1 + k))).
  { replace (0 - 1 / IZR (1 + k)) with (- / IZR (1 + k)) by (field; lra). rewrite Rabs_Ropp, Rabs_pos_eq by (apply Rlt_le, Rinv_0_lt_compat; auto).
    eapply Rlt_le_trans; [apply Ht|]. apply Rinv_le_contravar; auto. assert (1 <= IZR mx) by (apply IZR_le; lia). assert (IZR (1 + k) <= 1 + IZR mx) by (rewrite <- (plus_IZR 1 mx); apply IZR_le; lia). nra. }
  rewrite (proj2 (Rleb_false _ _) Big). rewrite (proj2 (Rltb_false _ _)) by (apply Rlt_le, Rdiv_lt_0_compat; lra).
  apply IH; auto; lia.
Qed.
Theorem fraction_exact fuel mx tol p q :
  (1 <= mx < 2 ^ 64 - 1)%Z -> 0 <= tol < / (2 * (IZR mx * IZR mx)) -> (1 <= q <= mx)%Z -> (0 <= p < 2 ^ 64)%Z -> Z.gcd p q = 1%Z ->
  (p + q + mx + 1 < Z.of_nat fuel)%Z ->
  getLowestFraction NR IZR fuel (IZR p / IZR q) mx tol = Some (p, q).
Proof.
  intros M Ht Hq Hp Gp Lf. unfold getLowestFraction.
  destruct (Z.eq_dec p 0) as [->|P0].
  - assert (q = 1)%Z as -> by (cbn in Gp; lia). unfold Rdiv. rewrite Rmult_0_l. apply glf_zero; auto; lia.
  - apply glf_exact; auto; cbn [fst snd]; try lia. split; [lra|]. eapply Rlt_trans; [apply Ht|]. assert (1 <= IZR mx) by (apply IZR_le; lia). assert (Mm: 1 <= IZR mx * IZR mx) by nra. apply Rinv_lt_contravar; [|lra]. apply Rmult_lt_0_compat; lra.
Qed.

(** For large arguments the loop does not end: the numerator wraps around. *)
Lemma glf_loops : forall fuel x mx (tol : R) k, (1 <= mx)%Z -> 2 ^ 64 + tol < x -> 0 <= tol -> (0 <= k < 2 ^ 64)%Z -> glfR fuel x mx tol (k, 1)%Z (1, 0)%Z = None.
Proof.
  induction fuel as [|f IH]; intros x mx tol k M Hx Ht Hk; [reflexivity|]. rewrite glfR_eq. cbn [fst snd].
  destruct (Z.leb_spec 1 mx); [|lia]. destruct (Z.leb_spec 0 mx); [|lia]. cbn [andb]. cbn zeta. change (1 + 0)%Z with 1%Z. rewrite (u64_id 1) by lia.
  pose proof (Z.mod_pos_bound (k + 1) (2 ^ 64) eq_refl) as Bd. unfold u64. set (n := ((k + 1) mod 2 ^ 64)%Z) in *.
  assert (L: IZR n < 2 ^ 64). { assert (P: 2 ^ 64 = IZR (2 ^ 64)) by apply (pow_IZR 2 64). rewrite P. apply IZR_lt. lia. }
  assert (0 <= IZR n) by (apply IZR_le; lia). replace (IZR n / 1) with (IZR n) by field.
  rewrite (proj2 (Rleb_false _ _)) by (rewrite Rabs_pos_eq; lra). rewrite (proj2 (Rltb_iff _ _)) by lra. apply IH; auto.
Qed.
End Reals.

(** A case of each: 3/8 is exact in binary64 and found; 3/8 and an approximation of 1/3 with small maximum. *)
Example fraction_case : getLowestFraction NumF ofZF 100 (SpecFloat.binary_normalize 53 1024 3 (-3) false) 1024 Ftol = Some (3, 8)
  /\ (Z.of_nat 100 + 1) * (2 * 1024) < 2 ^ 64.
Proof. split; [vm_compute; reflexivity|reflexivity]. Qed.
Example fraction_close_case : (1 <= 2)%Z /\ (0 <= 2/5 <= IZR 1)%R /\ (1 + 2 * 2 + 2 <= Z.of_nat 7)%Z /\ ((Z.of_nat 7 + 1) * (2 * 2) < 2 ^ 64)%Z /\ (Rabs (2/5 - 1/2) <= 1/100 + / (2 * (2 + 1)))%R /\ (Rabs (2/5 - 0/1) > 1/100 + / (1 * (2 + 1)))%R.
Proof. split; [lia|]. split; [lra|]. split; [lia|]. split; [reflexivity|]. split; [rewrite Rabs_left; lra|rewrite Rabs_right; lra]. Qed.
Example fraction_exact_case : (0 <= / 2 ^ 42 < / (2 * (IZR 1024 * IZR 1024)))%R /\ Z.gcd 355 113 = 1.
Proof. split; [|reflexivity]. split; [apply Rlt_le, Rinv_0_lt_compat, pow_lt; lra|]. apply Rinv_lt_contravar; [apply Rmult_lt_0_compat; [lra|apply pow_lt; lra]|]. replace (2 * (1024 * 1024))%R with (2 ^ 21)%R by ring. apply Rlt_pow; [lra|lia]. Qed.

(** With maximal denominator 0 the result has denominator 0 ... *)
Theorem fraction_zero_maximum_refuted : exists x : NumF, nleb n0 x = true /\ getLowestFraction NumF ofZF 10 x 0 Ftol = Some (1, 0).
Proof. exists Fhalf. split; vm_compute; reflexivity. Qed.
(** ... and for large arguments there is no result at all: the 64-bit numerator wraps around. *)
Theorem fraction_large_refuted : exists x : R, (0 <= x)%R /\ forall fuel, getLowestFraction (NumR (/ 2 ^ 42)) IZR fuel x defaultMax (/ 2 ^ 42)%R = None.
Proof.
  exists (2 ^ 65)%R. split; [apply pow_le; lra|]. intros fuel. unfold getLowestFraction.
  assert (0 < / 2 ^ 42)%R by (apply Rinv_0_lt_compat, pow_lt; lra).
  assert (/ 2 ^ 42 < 1)%R by (rewrite <- Rinv_1; apply Rinv_lt_contravar; [rewrite Rmult_1_l; apply pow_lt; lra|apply Rlt_pow_R1; [lra|lia]]).
  assert (1 < 2 ^ 64)%R by (apply Rlt_pow_R1; [lra|lia]).
  apply glf_loops; [unfold defaultMax; lia| |lra|lia]. change (2 ^ 65)%R with (2 * 2 ^ 64)%R. lra.
Qed.

(** * What the text says *)
Section Text.
Context (t : R) (Ht : (0 < t)%R).
Notation NR := (NumR t).
Local Open Scope R_scope.

(** The value of one token; a decimal stands for the number it was printed from. *)
Definition tv (a : tok R) : R :=
  match a with
  | TNat n => IZR n
  | TRoot2 => sqrt 2
  | TPi => PI
  | TDec x => x
  | _ => 1
  end.
(** Reading a term such as -3i/(4√2): factors are multiplied, "/" divides by the next factor or group. *)
Fixpoint rd (l : list (tok R)) : R :=
  match l with
  | [] => 1
  | TMinus :: l => - rd l
  | TSlash :: TOpen :: a :: b :: TClose :: l => / (tv a * tv b) * rd l
  | TSlash :: a :: l => / tv a * rd l
  | a :: l => tv a * rd l
  end.

Lemma pos_sqrt2 : 0 < sqrt 2.
Proof. apply sqrt_lt_R0; lra. Qed.
Lemma sgn_rd x im l : rd (sgn NR x im ++ l) = (if Rltb x 0 then -1 else 1) * rd l.
Proof. unfold sgn. cbn [nsign NumR]. destruct (Rltb x 0); cbn [app rd tv]; [ring|]. destruct im; cbn [app rd tv]; ring. Qed.
Lemma sg_abs x : x = (if Rltb x 0 then -1 else 1) * Rabs x.
Proof.
  destruct (Rltb x 0) eqn:E; [apply Rltb_iff in E; rewrite Rabs_left; lra|apply Rltb_false in E; rewrite Rabs_right; lra].
Qed.
Lemma textPlain_rd x im n d : rd (textPlain NR (sgn NR x im) im n d) = (if Rltb x 0 then -1 else 1) * (IZR n / IZR d).
Proof.
  unfold textPlain. destruct (Z.eqb_spec n 1) as [->|Hn]; destruct (Z.eqb_spec d 1) as [->|Hd]; cbn [andb]; rewrite sgn_rd;
    destruct im; cbn [i1 iu app rd tv]; unfold Rdiv; rewrite ?Rinv_1; ring.
Qed.
Lemma textRoot_rd x im n d : d <> 0%Z -> rd (textRoot NR (sgn NR x im) im n d) = (if Rltb x 0 then -1 else 1) * (IZR n / IZR d / sqrt 2).
Proof.
  intros D. apply IZR_neq in D. pose proof pos_sqrt2 as P.
  unfold textRoot. destruct (Z.eqb_spec n 1) as [->|Hn]; destruct (Z.eqb_spec d 1) as [->|Hd]; cbn [andb]; rewrite sgn_rd;
    destruct im; cbn [i1 iu app rd tv]; field; lra.
Qed.
Lemma textPi_rd x im n d : rd (textPi NR (sgn NR x im) im n d) = (if Rltb x 0 then -1 else 1) * (IZR n / IZR d * PI).
Proof.
  unfold textPi. destruct (Z.eqb_spec n 1) as [->|Hn]; destruct (Z.eqb_spec d 1) as [->|Hd]; cbn [andb]; rewrite sgn_rd;
    destruct im; cbn [i1 iu app rd tv]; unfold Rdiv; rewrite ?Rinv_1; ring.
Qed.

(** A search that ends has a good fraction if it says so. *)
Lemma suitable_sp fuel a b n d : suitable NR IZR fuel a = Some (b, n, d) -> (Z.of_nat fuel < 2 ^ 50)%Z ->
  d <> 0%Z /\ (b = true -> Rabs (a - IZR n / IZR d) <= t).
Proof.
  unfold suitable. destruct (getLowestFraction NR IZR fuel a defaultMax ntol) as [[n' d']|] eqn:E; [|discriminate]. intros H W. injection H as <- <- <-.
  apply fraction_lowest_terms in E; [|unfold defaultMax; lia|unfold defaultMax; change (2 * 2 ^ 10)%Z with 2048%Z; lia]. split; [lia|]. intros B. now apply Rleb_iff in B.
Qed.
Lemma sgm (s a b c : R) : s = -1 \/ s = 1 -> Rabs (a - b) <= c -> Rabs (s * a - s * b) <= c.
Proof. intros [->| ->] H; [replace (-1 * a - -1 * b) with (- (a - b)) by ring; rewrite Rabs_Ropp; auto|now rewrite !Rmult_1_l]. Qed.
Lemma sg_pm x : (if Rltb x 0 then -1 else 1) = -1 \/ (if Rltb x 0 then -1 else 1) = 1.
Proof. destruct (Rltb x 0); auto. Qed.

(** The text written for a number reads as that number up to PI times the tolerance, and mentions
    the imaginary unit exactly if asked to. *)
Theorem formatted_value fuel x im l : (Z.of_nat fuel < 2 ^ 50)%Z ->
  printFormatted NR IZR PI fuel x im = Some l -> Rabs (x - rd l) <= PI * t /\ (In TImag l <-> im = true).
Proof.
  intros W E. assert (P4: 1 < PI) by (pose proof PI2_1; lra). pose proof pos_sqrt2 as P2.
  assert (Nn: forall s, In (@TImag R) (sgn NR x im ++ s) <-> In TImag s) by (intros s; unfold sgn; cbn [nsign NumR]; destruct (Rltb x 0), im; cbn; intuition discriminate).
  unfold printFormatted in E. cbn [nleb nabs ntol nsign ndiv nsq2 NumR] in E.
  destruct (Rleb (Rabs x) t) eqn:Z.
  { apply Rleb_iff in Z. injection E as <-. split; [|destruct (Rltb x 0), im; cbn; intuition discriminate].
    replace (rd _) with 0 by (destruct (Rltb x 0), im; cbn; ring). rewrite Rminus_0_r. nra. }
  destruct (suitable NR IZR fuel (Rabs x)) as [[[b n] d]|] eqn:E1; [|discriminate]. apply suitable_sp in E1 as [D1 C1]; auto. destruct b.
  { injection E as <-. specialize (C1 eq_refl). split.
    - rewrite textPlain_rd. rewrite (sg_abs x) at 1. apply sgm; [apply sg_pm|]. nra.
    - unfold textPlain. destruct (n =? 1)%Z, (d =? 1)%Z; cbn [andb]; rewrite Nn; destruct im; cbn; intuition discriminate. }
  destruct (suitable NR IZR fuel (Rabs x / (sqrt 2 / 2))) as [[[b n2] d2]|] eqn:E2; [|discriminate]. apply suitable_sp in E2 as [D2 C2]; auto. destruct b.
  { injection E as <-. specialize (C2 eq_refl). split.
    - rewrite textRoot_rd by auto. rewrite (sg_abs x) at 1. apply sgm; [apply sg_pm|].
      assert (S2: sqrt 2 * sqrt 2 = 2) by (apply sqrt_sqrt; lra). assert (S3: sqrt 2 <= 2) by nra.
      replace (Rabs x - IZR n2 / IZR d2 / sqrt 2) with (sqrt 2 / 2 * (Rabs x / (sqrt 2 / 2) - IZR n2 / IZR d2)).
      + rewrite Rabs_mult, (Rabs_pos_eq (sqrt 2 / 2)) by lra. pose proof (Rabs_pos (Rabs x / (sqrt 2 / 2) - IZR n2 / IZR d2)). nra.
      + assert (Hi: / sqrt 2 = sqrt 2 / 2) by (apply (Rmult_eq_reg_l (sqrt 2)); [rewrite Rinv_r; lra|lra]).
        assert (Hj: IZR n2 / IZR d2 / sqrt 2 = IZR n2 / IZR d2 * (sqrt 2 / 2)) by (rewrite <- Hi; reflexivity). rewrite Hj. apply IZR_neq in D2. field. lra.
    - unfold textRoot. destruct (n2 =? 1)%Z, (d2 =? 1)%Z; cbn [andb]; rewrite Nn; destruct im; cbn; intuition discriminate. }
  destruct (suitable NR IZR fuel (Rabs x / PI)) as [[[b n3] d3]|] eqn:E3; [|discriminate]. apply suitable_sp in E3 as [D3 C3]; auto. destruct b.
  { injection E as <-. specialize (C3 eq_refl). split.
    - rewrite textPi_rd. rewrite (sg_abs x) at 1. apply sgm; [apply sg_pm|].
      replace (Rabs x - IZR n3 / IZR d3 * PI) with (PI * (Rabs x / PI - IZR n3 / IZR d3)) by (apply IZR_neq in D3; field; lra).
      rewrite Rabs_mult, (Rabs_pos_eq PI) by lra. apply Rmult_le_compat_l; lra.
    - unfold textPi. destruct (n3 =? 1)%Z, (d3 =? 1)%Z; cbn [andb]; rewrite Nn; destruct im; cbn; intuition discriminate. }
  injection E as <-. split; [|destruct im, (Rltb x 0); cbn; intuition discriminate].
  match goal with |- Rabs (x - rd ?l) <= _ => assert (Er: rd l = x) by (destruct im, (Rltb x 0); cbn [rd app tv]; rewrite ?Rmult_1_r, ?Rmult_1_l; reflexivity); rewrite Er end.
  rewrite Rminus_diag_eq, Rabs_R0 by reflexivity. nra.
Qed.

(** Numbers up to 2^40 are written after finitely many steps. *)
Theorem formatted_defined fuel x im : Rabs x <= 2 ^ 40 -> (2 ^ 41 + 2050 <= Z.of_nat fuel < 2 ^ 50)%Z ->
  exists l, printFormatted NR IZR PI fuel x im = Some l.
Proof.
  intros Hx Hf. assert (P4: 1 < PI) by (pose proof PI2_1; lra). pose proof pos_sqrt2 as P2.
  assert (S2: sqrt 2 * sqrt 2 = 2) by (apply sqrt_sqrt; lra). assert (S3: 1 <= sqrt 2) by nra. assert (S4: sqrt 2 <= 2) by nra. pose proof (Rabs_pos x) as Ax.
  assert (Su: forall a, 0 <= a <= 2 ^ 41 -> exists b n d, suitable NR IZR fuel a = Some (b, n, d)).
  { intros a Ha. assert (E: 2 ^ 41 = IZR (2 ^ 41)) by apply (pow_IZR 2 41). rewrite E in Ha. unfold suitable.
    destruct (fraction_close t fuel a defaultMax t (2 ^ 41)) as (n & d & F & _); [unfold defaultMax; lia|lra|exact Ha|unfold defaultMax; change (2 * 2 ^ 10)%Z with 2048%Z; lia|unfold defaultMax; change (2 * 2 ^ 10)%Z with 2048%Z; lia|].
    change (ntol (n:=NR)) with t. rewrite F. eauto. }
  assert (E41: 2 ^ 41 = 2 * 2 ^ 40) by reflexivity.
  unfold printFormatted. cbn [nleb nabs ntol nsign ndiv nsq2 NumR]. destruct (Rleb (Rabs x) t); [eauto|].
  destruct (Su (Rabs x)) as ([] & n & d & ->); [lra|eauto|].
  destruct (Su (Rabs x / (sqrt 2 / 2))) as ([] & n2 & d2 & ->); [|eauto|].
  { assert (Hi: / (sqrt 2 / 2) = sqrt 2) by (apply (Rmult_eq_reg_l (sqrt 2 / 2)); [rewrite Rinv_r; lra|lra]). unfold Rdiv at 1 3. rewrite Hi. nra. }
  destruct (Su (Rabs x / PI)) as ([] & n3 & d3 & ->); [|eauto|eauto].
  assert (0 < / PI <= 1). { split; [apply Rinv_0_lt_compat; lra|]. rewrite <- Rinv_1. apply Rinv_le_contravar; lra. } unfold Rdiv. nra.
Qed.

(** The value of the text of a complex number; a missing real part before "(1+i)" is the factor 1. *)
Definition textv (r : unit + option (list (tok R)) * imtext R) : R * R :=
  match r with
  | inl _ => (0, 0)
  | inr (re, im) =>
      let b := match re with None => 1 | Some l => rd l end in
      let a := match re with None => 0 | Some l => rd l end in
      match im with
      | ImNone => (a, 0)
      | ImText l => (a, rd l)
      | OnePlusI => (b, b)
      | OneMinusI => (b, - b)
      end
  end.
(** The text of a complex number, except where a negligible real part is dropped before "(1+i)" or "(1-i)". *)
Theorem text_value_partial fuel re im fm r : (Z.of_nat fuel < 2 ^ 50)%Z ->
  t < Rabs re \/ fm = false \/ (t < Rabs (re - im) /\ t < Rabs (re + im)) ->
  toString NR IZR PI fuel re im fm = Some r ->
  Rabs (re - fst (textv r)) <= PI * t /\ Rabs (im - snd (textv r)) <= (PI + 1) * t.
Proof.
  intros W H E. assert (P4: 1 < PI) by (pose proof PI2_1; lra). assert (PT: t < PI * t) by nra.
  assert (Z0: forall a, Rabs (a - a) <= PI * t) by (intros a; rewrite Rminus_diag_eq, Rabs_R0 by reflexivity; lra).
  unfold toString in E. cbn [nleb nabs ntol nadd nsub nltb n0 NumR] in E.
  destruct (Rleb (Rabs re) t) eqn:Zr.
  - apply Rleb_iff in Zr. destruct (Rleb (Rabs im) t) eqn:Zi; cbn [andb] in E.
    + apply Rleb_iff in Zi. injection E as <-. cbn. rewrite !Rminus_0_r. lra.
    + destruct fm.
      * destruct H as [H|[H|[H1 H2]]]; [lra|discriminate|]. rewrite (proj2 (Rleb_false _ _) H1), (proj2 (Rleb_false _ _) H2) in E.
        destruct (printFormatted NR IZR PI fuel im true) as [l|] eqn:F; [|discriminate]. apply formatted_value in F as [F _]; auto. injection E as <-. cbn. rewrite Rminus_0_r. split; lra.
      * injection E as <-. cbn. rewrite Rminus_0_r, !Rmult_1_r. split; [lra|]. specialize (Z0 im). lra.
  - apply Rleb_false in Zr. cbn [andb] in E. destruct fm.
    + destruct (printFormatted NR IZR PI fuel re false) as [l|] eqn:F; [|discriminate]. apply formatted_value in F as [F _]; auto.
      destruct (Rleb (Rabs im) t) eqn:Zi; [apply Rleb_iff in Zi; injection E as <-; cbn; rewrite Rminus_0_r; lra|].
      destruct (Rleb (Rabs (re - im)) t) eqn:Q1; [apply Rleb_iff in Q1; injection E as <-; cbn; split; [lra|]|].
      { replace (im - rd l) with (- (re - im) + (re - rd l)) by ring. eapply Rle_trans; [apply Rabs_triang|]. rewrite Rabs_Ropp. lra. }
      destruct (Rleb (Rabs (re + im)) t) eqn:Q2; [apply Rleb_iff in Q2; injection E as <-; cbn; split; [lra|]|].
      { replace (im - - rd l) with ((re + im) + - (re - rd l)) by ring. eapply Rle_trans; [apply Rabs_triang|]. rewrite Rabs_Ropp. lra. }
      destruct (printFormatted NR IZR PI fuel im true) as [l'|] eqn:F'; [|discriminate]. apply formatted_value in F' as [F' _]; auto. injection E as <-. cbn. split; lra.
    + pose proof (Z0 re) as Z1. pose proof (Z0 im) as Z2.
      destruct (Rleb (Rabs im) t) eqn:Zi; [apply Rleb_iff in Zi; injection E as <-; cbn; rewrite Rmult_1_r, Rminus_0_r; lra|].
      destruct (Rltb 0 im); injection E as <-; cbn; rewrite ?Rmult_1_l, !Rmult_1_r; split; lra.
Qed.
End Text.

(** 3/4 i and √2/2: what is written in binary64. *)
Definition F34 : NumF := SpecFloat.binary_normalize 53 1024 3 (-2) false.
Example formatted_case : printFormatted NumF ofZF piF 3000 F34 true = Some [TPlus; TNat 3; TImag; TSlash; TNat 4] /\
  printFormatted NumF ofZF piF 3000 (SpecFloat.SFopp Fsq2) false = Some [TMinus; TNat 1; TSlash; TRoot2] /\
  rd [TPlus; TNat 3; TImag; TSlash; TNat 4] = (3/4)%R.
Proof. split; [vm_compute; reflexivity|]. split; [vm_compute; reflexivity|]. cbn. lra. Qed.
Example text_case : toString NumF ofZF piF 3000 Fsq2 (SpecFloat.SFopp Fsq2) true = Some (inr (Some [TNat 1; TSlash; TRoot2], OneMinusI)).
Proof. vm_compute. reflexivity. Qed.
(** A number of magnitude below twice the tolerance is written as "(1+i)". *)
Theorem text_value_refuted : exists re im : NumF,
  nleb (nabs re) (nadd ntol ntol) = true /\ nleb (nabs im) (nadd ntol ntol) = true /\
  toString NumF ofZF piF 3000 re im true = Some (inr (None, OnePlusI)).
Proof.
  exists (SpecFloat.binary_normalize 53 1024 3 (-44) false), (SpecFloat.binary_normalize 53 1024 3 (-43) false).
  repeat split; vm_compute; reflexivity.
Qed.

Print Assumptions fraction_lowest_terms.
Print Assumptions fraction_close.
Print Assumptions fraction_exact.
Print Assumptions fraction_zero_maximum_refuted.
Print Assumptions fraction_large_refuted.
Print Assumptions formatted_value.
Print Assumptions formatted_defined.
Print Assumptions text_value_partial.
Print Assumptions text_value_refuted.
