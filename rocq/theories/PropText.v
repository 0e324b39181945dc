(** The text format of files (C66): every file written is read back with the same nodes and indices and with
    weights that agree in the digits written, and what does not hold. *)
From Coq Require Import String Ascii ZArith List Bool Lia Arith SpecFloat Reals Lra.
From Verif Require Import Num Base State Serial Text TextL PropHash.
Import ListNotations.
Local Open Scope Z_scope.

(** The number a decimal stands for *)
Definition dval (a : dec) : R := ((if d_neg a then -1 else 1) * IZR (d_man a) * powerRZ 10 (d_exp a))%R.
(** [y] is the number [x] rounded to [p] significant digits (or better); numbers within the tolerance become zero. *)
Definition near (p : Z) (x : spec_float) (y : dec) : Prop :=
  if SFleb (SFabs x) Ftol then dval y = 0%R
  else (Rabs (dval y - Fval x) <= / 2 * powerRZ 10 (1 - p) * Rabs (Fval x))%R.
Definition near2 (p : Z) (w : spec_float * spec_float) (d : dec * dec) : Prop := near p (fst w) (fst d) /\ near p (snd w) (snd d).
Definition near_child (c : option (Z * (spec_float * spec_float))) (d : option (Z * (dec * dec))) : Prop :=
  match c, d with
  | None, None => True
  | Some (i, w), Some (j, e) => i = j /\ near2 16 w e
  | _, _ => False
  end.
Definition near_line (r : frec (spec_float * spec_float)) (d : frec (dec * dec)) : Prop :=
  fr_ix d = fr_ix r /\ fr_v d = fr_v r /\ Forall2 near_child (fr_es r) (fr_es d).

(** ** Powers *)
Lemma pow10_IZR k : 0 <= k -> powerRZ 10 k = IZR (10 ^ k).
Proof. intros H. rewrite <- (Z2Nat.id k) at 1 2 by auto. rewrite <- pow_powerRZ, pow_IZR. reflexivity. Qed.
Lemma pow2_IZR k : 0 <= k -> powerRZ 2 k = IZR (2 ^ k).
Proof. intros H. rewrite <- (Z2Nat.id k) at 1 2 by auto. rewrite <- pow_powerRZ, pow_IZR. reflexivity. Qed.
Lemma pow10_pos k : (0 < powerRZ 10 k)%R.
Proof. apply powerRZ_lt. lra. Qed.
Lemma pow10_add a b : powerRZ 10 (a + b) = (powerRZ 10 a * powerRZ 10 b)%R.
Proof. apply powerRZ_add. lra. Qed.

(** ** The digits of a double *)
Definition numPos (s : bool) (p q x : Z) : numeral :=
  let ds := showN q in
  if (-4 <=? x) && (x <? p) then
    if 0 <=? x then Nm s (firstn (Z.to_nat (x + 1)) ds) (dropZ (skipn (Z.to_nat (x + 1)) ds)) None
    else Nm s ["0"%char] (dropZ (repeat "0"%char (Z.to_nat (- x - 1)) ++ ds)) None
  else Nm s (firstn 1 ds) (dropZ (skipn 1 ds)) (Some (x <? 0, show2 (Z.abs x))).
Lemma numPos_text s p q x : nText (numPos s p q x) = (if s then lit "-" else []) ++ showPos p q x.
Proof.
  unfold nText, absText, numPos, showPos. destruct (_ && _); [destruct (0 <=? x)|]; cbn [nm_neg nm_ip nm_fp nm_ex exText]; rewrite ?app_nil_r; reflexivity.
Qed.
Lemma dropZ_spec l : exists z, l = dropZ l ++ repeat "0"%char z.
Proof.
  induction l as [|a l (z & IH)]; [now exists O|]. cbn [dropZ]. destruct (dropZ l) as [|b u] eqn:E.
  - destruct (Ascii.eqb_spec a "0"%char) as [->|]; [exists (S z)|exists z]; cbn; now rewrite IH at 1.
  - exists z. cbn. f_equal. rewrite IH at 1. reflexivity.
Qed.
Lemma digits_dropZ l : digits l -> digits (dropZ l).
Proof. intros H. destruct (dropZ_spec l) as [z E]. rewrite E, digits_app in H. tauto. Qed.
Lemma show2_ok z : 0 <= z -> digits (show2 z) /\ show2 z <> [] /\ digitsVal (show2 z) = z.
Proof.
  intros H. destruct (showN_spec z H) as (D & Ne & V & _). unfold show2. destruct (z <? 10); auto. split; [now apply digits_cons|]. split; [discriminate|].
  change ("0"%char :: showN z) with (["0"%char] ++ showN z). rewrite val_app, V. change (digitsVal ["0"%char]) with 0. lia.
Qed.
Lemma numPos_ok s p q x : 0 <= q -> nok (numPos s p q x).
Proof.
  intros H. destruct (showN_spec q H) as (D & Ne & _). assert (F: forall n, firstn (S n) (showN q) <> []) by (intros n; destruct (showN q); [congruence|discriminate]).
  unfold numPos. destruct (_ && _); [destruct (Z.leb_spec 0 x)|]; (split; cbn [nm_neg nm_ip nm_fp nm_ex]).
  - now apply digits_firstn.
  - replace (Z.to_nat (x + 1)) with (S (Z.to_nat x)) by lia. apply F.
  - now apply digits_dropZ, digits_skipn.
  - exact Logic.I.
  - reflexivity.
  - discriminate.
  - apply digits_dropZ, digits_app. split; auto. apply digits_zeros.
  - exact Logic.I.
  - now apply digits_firstn.
  - apply (F 0%nat).
  - now apply digits_dropZ, digits_skipn.
  - destruct (show2_ok (Z.abs x)) as (A & B & _); [lia|auto].
Qed.
(** Dropping zeros keeps the value. *)
Lemma val_drop ip l ex : (IZR (digitsVal (ip ++ dropZ l)) * powerRZ 10 (ex - Z.of_nat (List.length (dropZ l))) = IZR (digitsVal (ip ++ l)) * powerRZ 10 (ex - Z.of_nat (List.length l)))%R.
Proof.
  destruct (dropZ_spec l) as [z E]. rewrite E at 3 4. rewrite app_assoc, (val_app (ip ++ dropZ l)), val_zeros, Z.add_0_r, repeat_length, app_length, repeat_length, mult_IZR.
  rewrite <- pow10_IZR by lia. replace (ex - Z.of_nat (List.length (dropZ l))) with (Z.of_nat z + (ex - Z.of_nat (List.length (dropZ l) + z))) by lia. rewrite pow10_add. ring.
Qed.
Lemma numPos_val s p q x : 1 <= p -> 10 ^ (p - 1) <= q < 10 ^ p -> dval (nDec (numPos s p q x)) = ((if s then -1 else 1) * (IZR q * powerRZ 10 (x + 1 - p)))%R.
Proof.
  intros Hp Hq. pose proof (showN_length q p Hp Hq) as L. assert (Q: 0 <= q) by (pose proof (Z.pow_nonneg 10 (p - 1)); lia). destruct (showN_spec q Q) as (D & Ne & V & _).
  unfold dval, nDec, numPos. destruct ((-4 <=? x) && (x <? p)) eqn:Fx; [apply andb_prop in Fx; destruct Fx as [F1 F2]; apply Z.ltb_lt in F2; destruct (Z.leb_spec 0 x) as [Hx|Hx]|];
    cbn [nm_neg nm_ip nm_fp nm_ex d_neg d_man d_exp exVal]; rewrite Rmult_assoc, val_drop; f_equal.
  - rewrite firstn_skipn, V, skipn_length. do 2 f_equal. lia.
  - change ("0"%char :: nil) with (repeat "0"%char 1). rewrite !val_app, !val_zeros, V, app_length, repeat_length. replace (0 * _ + _) with q by lia. do 2 f_equal. lia.
  - rewrite firstn_skipn, V, skipn_length. destruct (show2_ok (Z.abs x)) as (_ & _ & Vx); [lia|]. rewrite Vx. do 2 f_equal.
    assert (S1: (1 <= List.length (showN q))%nat) by lia. destruct (Z.ltb_spec x 0); lia.
Qed.

(** The rounding to [p] digits *)
Lemma scaleUp_spec fuel : forall j n d, 0 < n -> 0 < d -> d <= n * 10 ^ (j + Z.of_nat fuel - 1) -> 1 <= j -> (fuel <> O) -> n * 10 ^ (j - 1) < d ->
  let r := scaleUp fuel j n d in j <= r /\ d <= n * 10 ^ r /\ n * 10 ^ (r - 1) < d.
Proof.
  induction fuel as [|fuel IH]; intros j n d Hn Hd F Hj Nf L; [congruence|]. cbn [scaleUp]. destruct (Z.leb_spec d (n * 10 ^ j)) as [Q|Q]; [cbn; lia|].
  destruct fuel as [|fuel]; [exfalso; replace (j + Z.of_nat 1 - 1) with j in F by lia; lia|].
  assert (F': d <= n * 10 ^ (j + 1 + Z.of_nat (S fuel) - 1)) by (replace (j + 1 + Z.of_nat (S fuel) - 1) with (j + Z.of_nat (S (S fuel)) - 1) by lia; exact F).
  assert (Q': n * 10 ^ (j + 1 - 1) < d) by (replace (j + 1 - 1) with j by lia; exact Q).
  destruct (IH (j + 1) n d Hn Hd F' ltac:(lia) ltac:(discriminate) Q') as (A & B & C). cbv zeta. split; [lia|]. auto.
Qed.
Lemma expo10_spec n d : 0 < n -> 0 < d -> (powerRZ 10 (expo10 n d) * IZR d <= IZR n < powerRZ 10 (expo10 n d + 1) * IZR d)%R.
Proof.
  intros Hn Hd. unfold expo10. destruct (Z.leb_spec d n) as [L|L].
  - assert (Q: 1 <= n / d) by (apply Z.div_le_lower_bound; lia). destruct (showN_spec (n / d)) as (_ & Ne & _ & B1 & B2); [lia|]. specialize (B1 ltac:(lia)).
    set (k := Z.of_nat (List.length (showN (n / d)))) in *. assert (Hk: 1 <= k) by (unfold k; destruct (showN (n / d)); [congruence|cbn [List.length]; lia]).
    pose proof (Z.div_mod n d ltac:(lia)). pose proof (Z.mod_pos_bound n d Hd). replace (k - 1 + 1) with k by lia. rewrite !pow10_IZR, <- !mult_IZR by lia. split; [apply IZR_le|apply IZR_lt]; nia.
  - pose proof (Z.log2_nonneg d) as Lg. destruct (scaleUp_spec (S (Z.to_nat (Z.log2 d))) 1 n d Hn Hd) as (A & B & C); try lia.
    + replace (1 + Z.of_nat (S (Z.to_nat (Z.log2 d))) - 1) with (Z.succ (Z.log2 d)) by lia. pose proof (Z.log2_spec d Hd). pose proof (Z.pow_le_mono_l 2 10 (Z.succ (Z.log2 d))). nia.
    + set (r := scaleUp _ 1 n d) in *. apply IZR_le in B. apply IZR_lt in C. rewrite mult_IZR, <- pow10_IZR in B by lia. rewrite mult_IZR, <- pow10_IZR in C by lia.
      assert (P1: (powerRZ 10 (- r) * powerRZ 10 r = 1)%R) by (rewrite <- pow10_add; replace (- r + r) with 0 by lia; reflexivity).
      assert (P2: (powerRZ 10 (- r + 1) * powerRZ 10 (r - 1) = 1)%R) by (rewrite <- pow10_add; replace (- r + 1 + (r - 1)) with 0 by lia; reflexivity).
      pose proof (pow10_pos (- r)). pose proof (pow10_pos (- r + 1)). split.
      * apply Rmult_le_compat_l with (r := powerRZ 10 (- r)) in B; [|lra]. replace (powerRZ 10 (- r) * (IZR n * powerRZ 10 r))%R with (IZR n * (powerRZ 10 (- r) * powerRZ 10 r))%R in B by ring. rewrite P1 in B. lra.
      * apply Rmult_lt_compat_l with (r := powerRZ 10 (- r + 1)) in C; [|lra]. replace (powerRZ 10 (- r + 1) * (IZR n * powerRZ 10 (r - 1)))%R with (IZR n * (powerRZ 10 (- r + 1) * powerRZ 10 (r - 1)))%R in C by ring. rewrite P2 in C. lra.
Qed.
Lemma rneDiv_spec n d : 0 < d -> (Rabs (IZR (rneDiv n d) - IZR n / IZR d) <= / 2)%R.
Proof.
  intros Hd. assert (B: 2 * Z.abs (rneDiv n d * d - n) <= d).
  { unfold rneDiv. pose proof (Z.div_mod n d ltac:(lia)). pose proof (Z.mod_pos_bound n d Hd). destruct (Z.ltb_spec (2 * (n mod d)) d); [nia|]. destruct (Z.ltb_spec d (2 * (n mod d))); [nia|]. destruct (Z.even (n / d)); nia. }
  assert (Pd: (0 < IZR d)%R) by now apply IZR_lt. apply Rmult_le_reg_r with (IZR d); auto. rewrite <- (Rabs_pos_eq (IZR d)) at 2 by lra. rewrite <- Rabs_mult.
  replace ((IZR (rneDiv n d) - IZR n / IZR d) * IZR d)%R with (IZR (rneDiv n d * d - n)) by (rewrite minus_IZR, mult_IZR; field; lra).
  rewrite <- abs_IZR. apply IZR_le in B. rewrite mult_IZR in B. lra.
Qed.
Lemma roundDec_spec p n d : 1 <= p -> 0 < n -> 0 < d -> let (q, x) := roundDec p n d in
  10 ^ (p - 1) <= q < 10 ^ p /\ (Rabs (IZR q * powerRZ 10 (x + 1 - p) - IZR n / IZR d) <= / 2 * powerRZ 10 (1 - p) * (IZR n / IZR d))%R.
Proof.
  intros Hp Hn Hd. destruct (expo10_spec n d Hn Hd) as [E1 E2]. unfold roundDec. set (x := expo10 n d) in *. set (y := p - 1 - x).
  assert (Pd: (0 < IZR d)%R) by now apply IZR_lt. set (v := (IZR n / IZR d)%R).
  assert (Vn: IZR n = (v * IZR d)%R) by (unfold v; field; lra). rewrite Vn in E1, E2. apply Rmult_le_reg_r in E1; auto. apply Rmult_lt_reg_r in E2; auto.
  set (q := if 0 <=? y then rneDiv (n * 10 ^ y) d else rneDiv n (d * 10 ^ (- y))).
  assert (Rq: (Rabs (IZR q - v * powerRZ 10 y) <= / 2)%R).
  { unfold q. destruct (Z.leb_spec 0 y) as [Hy|Hy].
    - pose proof (rneDiv_spec (n * 10 ^ y) d Hd) as Q. rewrite mult_IZR, <- pow10_IZR in Q by auto. unfold v. replace (IZR n / IZR d * powerRZ 10 y)%R with (IZR n * powerRZ 10 y / IZR d)%R by (field; lra). exact Q.
    - assert (Pp: 0 < 10 ^ (- y)) by (apply Z.pow_pos_nonneg; lia). pose proof (rneDiv_spec n (d * 10 ^ (- y)) ltac:(nia)) as Q. rewrite mult_IZR, <- pow10_IZR in Q by lia.
      replace (v * powerRZ 10 y)%R with (IZR n / (IZR d * powerRZ 10 (- y)))%R; [exact Q|]. unfold v. pose proof (pow10_pos y). pose proof (pow10_pos (- y)).
      assert (P1: (powerRZ 10 y * powerRZ 10 (- y) = 1)%R) by (rewrite <- pow10_add; replace (y + - y) with 0 by lia; reflexivity).
      replace (powerRZ 10 y) with (/ powerRZ 10 (- y))%R by (apply Rmult_eq_reg_r with (powerRZ 10 (- y)); [|lra]; rewrite P1; field; lra). field. split; lra. }
  assert (Lo: (powerRZ 10 (p - 1) <= v * powerRZ 10 y)%R).
  { replace (p - 1) with (x + y) by (unfold y; lia). rewrite pow10_add. apply Rmult_le_compat_r; [pose proof (pow10_pos y)|]; lra. }
  assert (Hi: (v * powerRZ 10 y < powerRZ 10 p)%R).
  { replace (powerRZ 10 p) with (powerRZ 10 (x + 1) * powerRZ 10 y)%R by (rewrite <- pow10_add; f_equal; unfold y; lia). apply Rmult_lt_compat_r; [apply pow10_pos|lra]. }
  rewrite (pow10_IZR (p - 1)) in Lo by lia. rewrite (pow10_IZR p) in Hi by lia. 
  assert (Rq': (v * powerRZ 10 y - / 2 <= IZR q <= v * powerRZ 10 y + / 2)%R) by (revert Rq; unfold Rabs; destruct (Rcase_abs _); lra).
  assert (B: 10 ^ (p - 1) <= q <= 10 ^ p).
  { split.
    - destruct (Z_le_gt_dec (10 ^ (p - 1)) q) as [|Q]; auto. exfalso. assert (Q1: q <= 10 ^ (p - 1) - 1) by lia. apply IZR_le in Q1. rewrite minus_IZR in Q1. lra.
    - destruct (Z_le_gt_dec q (10 ^ p)) as [|Q]; auto. exfalso. assert (Q1: 10 ^ p + 1 <= q) by lia. apply IZR_le in Q1. rewrite plus_IZR in Q1. lra. }
  assert (Er: (Rabs (IZR q * powerRZ 10 (- y) - v) <= / 2 * powerRZ 10 (1 - p) * v)%R).
  { pose proof (pow10_pos (- y)) as Py. assert (P1: (powerRZ 10 y * powerRZ 10 (- y) = 1)%R) by (rewrite <- pow10_add; replace (y + - y) with 0 by lia; reflexivity).
    replace (IZR q * powerRZ 10 (- y) - v)%R with ((IZR q - v * powerRZ 10 y) * powerRZ 10 (- y))%R by (rewrite Rmult_minus_distr_r, Rmult_assoc, P1; ring).
    rewrite Rabs_mult, (Rabs_pos_eq (powerRZ 10 (- y))) by lra. apply Rle_trans with (/ 2 * powerRZ 10 (- y))%R; [apply Rmult_le_compat_r; lra|].
    rewrite Rmult_assoc. apply Rmult_le_compat_l; [lra|]. replace (- y) with (1 - p + x) by (unfold y; lia). rewrite pow10_add. apply Rmult_le_compat_l; [pose proof (pow10_pos (1 - p)); lra|exact E1]. }
  destruct (Z.eqb_spec q (10 ^ p)) as [Q|Q].
  - split; [split; [lia|apply Z.pow_lt_mono_r; lia]|]. replace (IZR (10 ^ (p - 1)) * powerRZ 10 (x + 1 + 1 - p))%R with (IZR q * powerRZ 10 (- y))%R; [exact Er|].
    rewrite Q, <- !pow10_IZR, <- !pow10_add by lia. f_equal. unfold y. lia.
  - split; [lia|]. replace (x + 1 - p) with (- y) by (unfold y; lia). exact Er.
Qed.

Lemma frac_spec s m e : let (n, d) := fracF m e in 0 < n /\ 0 < d /\ Fval (S754_finite s m e) = ((if s then -1 else 1) * (IZR n / IZR d))%R.
Proof.
  unfold fracF, Fval. destruct (Z.leb_spec 0 e) as [H|H].
  - split; [apply Z.mul_pos_pos; [lia|apply Z.pow_pos_nonneg; lia]|]. split; [lia|]. rewrite pow2_IZR, mult_IZR by auto. field.
  - assert (P: 0 < 2 ^ (- e)) by (apply Z.pow_pos_nonneg; lia). split; [lia|]. split; auto. apply IZR_lt in P. rewrite Rmult_assoc. f_equal. unfold Rdiv. f_equal.
    rewrite <- pow2_IZR by lia. apply Rmult_eq_reg_r with (powerRZ 2 (- e)); [|rewrite pow2_IZR by lia; lra]. rewrite Rinv_l by (rewrite pow2_IZR by lia; lra).
    rewrite <- powerRZ_add by lra. replace (e + - e) with 0 by lia. reflexivity.
Qed.
Definition numF (p : Z) (v : spec_float) : numeral :=
  match v with
  | S754_finite s m e => let (n, d) := fracF m e in let (q, x) := roundDec p n d in numPos s p q x
  | _ => Nm (Fsign v) ["0"%char] [] None
  end.
Lemma numF_spec p v : 1 <= p -> Ffinite v -> showF p v = nText (numF p v) /\ nok (numF p v) /\ nm_neg (numF p v) = Fsign v /\
  (Rabs (dval (nDec (numF p v)) - Fval v) <= / 2 * powerRZ 10 (1 - p) * Rabs (Fval v))%R.
Proof.
  intros Hp. destruct v as [s|s| |s m e]; intros F; try contradiction.
  - cbn [numF showF Fsign nm_neg]. split; [destruct s; reflexivity|]. split; [split; cbn; auto; try discriminate; reflexivity|]. split; auto. unfold dval, nDec, Fval. cbn -[powerRZ]. rewrite Rmult_0_r, Rmult_0_l, Rminus_0_r, !Rabs_R0. lra.
  - cbn [numF showF Fsign]. pose proof (frac_spec s m e) as Fr. destruct (fracF m e) as [n d]. destruct Fr as (Hn & Hd & Fr). pose proof (roundDec_spec p n d Hp Hn Hd) as Rd. destruct (roundDec p n d) as [q x]. destruct Rd as [B Rd].
    rewrite numPos_text. split; [reflexivity|]. split; [apply numPos_ok; pose proof (Z.pow_nonneg 10 (p - 1)); lia|]. split; [unfold numPos; destruct (_ && _); [destruct (0 <=? x)|]; reflexivity|].
    rewrite numPos_val, Fr by auto. rewrite <- Rmult_minus_distr_l, !Rabs_mult. assert (V: (0 < IZR n / IZR d)%R) by (apply Rdiv_lt_0_compat; now apply IZR_lt). rewrite (Rabs_pos_eq (IZR n / IZR d)) by lra.
    replace (Rabs (if s then -1 else 1)) with 1%R by (destruct s; [rewrite Rabs_left by lra; lra|rewrite Rabs_R1; auto]). lra.
Qed.

(** The parts of a weight as written; zero is written as a real number. *)
Definition part (p : Z) (x : spec_float) : option numeral := if SFleb (SFabs x) Ftol then None else Some (numF p x).
Definition zeroN : numeral := Nm false ["0"%char] [] None.
Definition reals (p : Z) (w : spec_float * spec_float) : option numeral :=
  match part p (fst w), part p (snd w) with None, None => Some zeroN | a, _ => a end.
Definition Ffinite2 (w : spec_float * spec_float) : Prop := Ffinite (fst w) /\ Ffinite (snd w).
Lemma part_near p x : 1 <= p -> Ffinite x -> near p x (oDec (part p x)).
Proof.
  intros Hp F. unfold near, part. destruct (SFleb (SFabs x) Ftol); cbn [oDec]; [unfold dval; cbn -[powerRZ]; lra|]. now apply numF_spec.
Qed.
Lemma part_ok p x : 1 <= p -> Ffinite x -> match part p x with Some n => nok n | None => True end.
Proof. intros Hp F. unfold part. destruct (SFleb _ _); [exact Logic.I|]. now apply numF_spec. Qed.
Lemma weight_ok p w : 1 <= p -> Ffinite2 w -> wok (reals p w) (part p (snd w)) /\ near2 p w (oDec (reals p w), oDec (part p (snd w))) /\
  weightText NumF showF p w = wText (reals p w) (part p (snd w)).
Proof.
  intros Hp [F1 F2]. pose proof (part_near p _ Hp F1) as N1. pose proof (part_near p _ Hp F2) as N2. pose proof (part_ok p _ Hp F1) as O1. pose proof (part_ok p _ Hp F2) as O2.
  assert (Zk: nok zeroN) by (split; cbn; auto; try discriminate; reflexivity). destruct (numF_spec p _ Hp F1) as (S1 & _). destruct (numF_spec p _ Hp F2) as (S2 & _ & G2 & _).
  destruct w as [x y]. cbn [fst snd] in *. unfold reals, near2, wok, weightText. cbn [fst snd]. change (@nleb NumF) with SFleb. change (@nabs NumF) with SFabs. change (@ntol NumF) with Ftol. change (@nltb NumF n0 y) with (SFltb F0 y).
  unfold part in *. destruct (SFleb (SFabs x) Ftol) eqn:Lx, (SFleb (SFabs y) Ftol) eqn:Ly; cbn [andb wText oDec app] in *.
  - split; [split; auto; split; auto; left; discriminate|]. split; [auto|reflexivity].
  - split; [split; auto; split; auto; right; discriminate|]. split; [auto|]. unfold iText. cbn [orb app]. now rewrite S2.
  - split; [split; auto; split; auto; left; discriminate|]. split; [auto|]. rewrite app_nil_r. exact S1.
  - split; [split; auto; split; auto; left; discriminate|]. split; [auto|]. rewrite S1, S2. f_equal. unfold iText. cbn [orb]. rewrite G2, <- app_assoc. f_equal.
    destruct y as [s|s| |s m e]; try contradiction; [discriminate|]. destruct s; reflexivity.
Qed.

(** A file whose indices are ints, whose levels fit a Qubit and whose weights are finite; [n] successors *)
Definition wf_child (c : option (Z * (spec_float * spec_float))) : Prop :=
  match c with None => True | Some (i, w) => -1 <= i < 2 ^ 31 /\ Ffinite2 w end.
Definition wf_line (n : nat) (r : frec (spec_float * spec_float)) : Prop :=
  0 <= fr_ix r < 2 ^ 31 /\ 0 <= fr_v r < 128 /\ List.length (fr_es r) = n /\ Forall wf_child (fr_es r).
Definition wf_file (n : nat) (f : file (spec_float * spec_float)) : Prop := Ffinite2 (fl_w f) /\ Forall (wf_line n) (fl_rs f).
Definition shape_child (c : option (Z * (spec_float * spec_float))) : child :=
  match c with None => None | Some (i, w) => Some (i, (reals 16 w, part 16 (snd w))) end.
Definition shape_line (r : frec (spec_float * spec_float)) : srec := (fr_ix r, fr_v r, map shape_child (fr_es r)).
Lemma shape_child_ok c : wf_child c -> cok (shape_child c) /\ near_child c (cDec (shape_child c)) /\ edgeText NumF showF c = cText (shape_child c).
Proof.
  destruct c as [[i w]|]; cbn [wf_child shape_child cok cDec near_child]; auto. intros [Hi F]. destruct (weight_ok 16 w ltac:(lia) F) as (A & B & D). split; auto. split; auto.
  unfold edgeText, cText. now rewrite D.
Qed.
Lemma shape_line_ok n r : wf_line n r -> sok n (shape_line r) /\ near_line r (sDec (shape_line r)) /\ lineText NumF showF r = sText (shape_line r) ++ [newline].
Proof.
  intros (Hi & Hv & Hn & H). unfold shape_line. split; [|split].
  - split; auto. split; auto. split; [now rewrite map_length|]. apply Forall_map. eapply Forall_impl; [|exact H]. intros c Hc. now apply shape_child_ok.
  - split; [reflexivity|]. split; [reflexivity|]. cbn [sDec fr_es]. induction H as [|c cs Hc _ IH] in n, Hn |- *; [constructor|]. cbn [map]. constructor; [now apply shape_child_ok|eapply IH; reflexivity].
  - cbn [sText]. unfold lineText. assert (E: concat (map (edgeText NumF showF) (fr_es r)) = concat (map cText (map shape_child (fr_es r)))).
    { f_equal. rewrite map_map. apply map_ext_in. intros c Hc. rewrite Forall_forall in H. now apply shape_child_ok, H. }
    rewrite <- E, <- !app_assoc. reflexivity.
Qed.

(** * C66: files in text format *)
(** Every file of a vector is read back with the same lines, indices and levels, and with weights that are
    the ones written up to half a unit of the last of 16 digits. *)
Theorem text_read_back_vector f : wf_file 2 f ->
  exists f', readText 2 (fileText NumF showF KV f) = TOk f' /\ near2 16 (fl_w f) (fl_w f') /\ Forall2 near_line (fl_rs f) (fl_rs f').
Proof.
  intros [Hw H]. destruct (weight_ok 16 _ ltac:(lia) Hw) as (A & B & D). exists (FL (oDec (reals 16 (fl_w f)), oDec (part 16 (snd (fl_w f)))) (map sDec (map shape_line (fl_rs f)))). split; [|split].
  - rewrite <- (readText_ok 2 _ _ _ (or_introl eq_refl) A) by (apply Forall_map; eapply Forall_impl; [|exact H]; intros r Hr; now apply shape_line_ok).
    assert (M: map (lineText NumF showF) (fl_rs f) = map (fun x => sText x ++ [newline]) (map shape_line (fl_rs f))).
    { rewrite map_map. apply map_ext_in. intros r Hr. rewrite Forall_forall in H. apply (shape_line_ok 2 r), H, Hr. }
    rewrite <- D, <- M. reflexivity.
  - exact B.
  - cbn [fl_rs]. induction H as [|r rs Hr _ IH]; [constructor|]. cbn [map]. constructor; auto. eapply shape_line_ok; eauto.
Qed.
(** The same for matrices; the weight of the root has 17 digits. *)
Theorem text_read_back_matrix f : wf_file 4 f ->
  exists f', readText 4 (fileText NumF showF KM f) = TOk f' /\ near2 17 (fl_w f) (fl_w f') /\ Forall2 near_line (fl_rs f) (fl_rs f').
Proof.
  intros [Hw H]. destruct (weight_ok 17 _ ltac:(lia) Hw) as (A & B & D). exists (FL (oDec (reals 17 (fl_w f)), oDec (part 17 (snd (fl_w f)))) (map sDec (map shape_line (fl_rs f)))). split; [|split].
  - rewrite <- (readText_ok 4 _ _ _ (or_intror eq_refl) A) by (apply Forall_map; eapply Forall_impl; [|exact H]; intros r Hr; now apply shape_line_ok).
    assert (M: map (lineText NumF showF) (fl_rs f) = map (fun x => sText x ++ [newline]) (map shape_line (fl_rs f))).
    { rewrite map_map. apply map_ext_in. intros r Hr. rewrite Forall_forall in H. apply (shape_line_ok 4 r), H, Hr. }
    rewrite <- D, <- M. reflexivity.
  - exact B.
  - cbn [fl_rs]. induction H as [|r rs Hr _ IH]; [constructor|]. cbn [map]. constructor; auto. eapply shape_line_ok; eauto.
Qed.

(** A Bell-like state with a relative phase, with the doubles 1, 0 and sqrt(1/2) *)
Definition exOne : spec_float := S754_finite false 4503599627370496 (-52).
Definition exHalf (s : bool) : spec_float := S754_finite s 6369051672525773 (-53).
Definition exZero : spec_float := S754_zero false.
Definition exVec : file (spec_float * spec_float) :=
  FL (exHalf false, exZero)
    [FR 1 0 [Some (-1, (exOne, exZero)); None]; FR 2 0 [None; Some (-1, (exOne, exZero))];
     FR 0 1 [Some (1, (exOne, exZero)); Some (2, (exHalf false, exHalf true))]].
Definition exMat : file (spec_float * spec_float) :=
  FL (exHalf false, exZero) [FR 0 0 [Some (-1, (exOne, exZero)); Some (-1, (exZero, exOne)); None; Some (-1, (exZero, exHalf true))]].
Definition ln (s : string) : text := lit s ++ [newline].
Ltac wf := repeat (first [apply Forall_cons | apply Forall_nil | split | lia | exact Logic.I | reflexivity | (intro; discriminate)]).
Example text_read_back_vector_example : wf_file 2 exVec /\
  fileText NumF showF KV exVec = ln "1" ++ ln "0.7071067811865476" ++ ln "1 0 (-1 1) ()" ++ ln "2 0 () (-1 1)" ++ ln "0 1 (1 1) (2 0.7071067811865476-0.7071067811865476i)" /\
  match readText 2 (fileText NumF showF KV exVec) with
  | TOk f => fl_w f = (Dec false 7071067811865476 (-16), Dec false 0 0) /\ List.length (fl_rs f) = 3%nat /\
             nth 1 (fr_es (nth 2 (fl_rs f) (FR 0 0 []))) None = Some (2, (Dec false 7071067811865476 (-16), Dec true 7071067811865476 (-16)))
  | TThr _ => False
  end.
Proof. split; [cbn; wf|]. vm_compute. repeat split. Qed.
Example text_read_back_matrix_example : wf_file 4 exMat /\
  fileText NumF showF KM exMat = ln "1" ++ ln "0.70710678118654757" ++ ln "0 0 (-1 1) (-1 1i) () (-1 -0.7071067811865476i)".
Proof. split; [cbn; wf|]. vm_compute. reflexivity. Qed.

(** With 17 digits, as for the root of matrices, the text does determine the double. *)
Definition Fnormal (x : spec_float) : Prop := match x with S754_finite _ m _ => 2 ^ 52 <= Z.pos m < 2 ^ 53 | _ => False end.
Lemma p2 k : (0 < powerRZ 2 k)%R.
Proof. apply powerRZ_lt. lra. Qed.
Lemma gap (m m' : positive) (e e' : Z) : 2 ^ 52 <= Z.pos m < 2 ^ 53 -> 2 ^ 52 <= Z.pos m' < 2 ^ 53 -> e' < e ->
  (IZR (Z.pos m) * powerRZ 2 e * (1 - / 9007199254740992) >= IZR (Z.pos m') * powerRZ 2 e')%R.
Proof.
  intros [A B] [A' B'] L. change (2 ^ 52) with 4503599627370496 in *. change (2 ^ 53) with 9007199254740992 in *.
  assert (E: (powerRZ 2 e >= 2 * powerRZ 2 e')%R).
  { replace e with (e' + 1 + (e - e' - 1)) by lia. rewrite !powerRZ_add by lra. assert (G: (1 <= powerRZ 2 (e - e' - 1))%R) by (rewrite pow2_IZR by lia; apply IZR_le; pose proof (Z.pow_pos_nonneg 2 (e - e' - 1)); lia).
    pose proof (p2 e'). rewrite powerRZ_1. nra. }
  assert (H1: (IZR (Z.pos m') <= 9007199254740991)%R) by (apply IZR_le; lia). apply IZR_le in A. pose proof (p2 e'). apply Rle_ge.
  apply Rle_trans with (9007199254740991 * powerRZ 2 e')%R; [apply Rmult_le_compat_r; lra|].
  apply Rle_trans with (4503599627370496 * (2 * powerRZ 2 e') * (1 - / 9007199254740992))%R; [right; field|]. apply Rmult_le_compat_r; [lra|]. apply Rmult_le_compat; lra.
Qed.
Lemma apart m m' e e' : 2 ^ 52 <= Z.pos m < 2 ^ 53 -> 2 ^ 52 <= Z.pos m' < 2 ^ 53 -> (m, e) <> (m', e') ->
  let x := (IZR (Z.pos m) * powerRZ 2 e)%R in let y := (IZR (Z.pos m') * powerRZ 2 e')%R in (Rabs (x - y) >= / 9007199254740992 * Rmax x y)%R.
Proof.
  intros B B' Ne. cbv zeta. pose proof (p2 e) as P. pose proof (p2 e') as P'. assert (M: (0 < IZR (Z.pos m))%R) by (apply IZR_lt; lia). assert (M': (0 < IZR (Z.pos m'))%R) by (apply IZR_lt; lia).
  set (x := (IZR (Z.pos m) * powerRZ 2 e)%R). set (y := (IZR (Z.pos m') * powerRZ 2 e')%R). assert (X: (0 < x)%R) by (apply Rmult_lt_0_compat; auto). assert (Y: (0 < y)%R) by (apply Rmult_lt_0_compat; auto).
  destruct (Z.lt_trichotomy e e') as [L|[L|L]].
  - pose proof (gap m' m e' e B' B L) as G. fold x y in G. rewrite Rmax_right by lra. rewrite Rabs_minus_sym, Rabs_pos_eq by lra. lra.
  - subst e'. assert (D: (1 <= Rabs (IZR (Z.pos m) - IZR (Z.pos m')))%R) by (rewrite <- minus_IZR, <- abs_IZR; apply IZR_le; assert (m <> m') by congruence; lia).
    unfold x, y. rewrite <- Rmult_minus_distr_r, Rabs_mult, (Rabs_pos_eq (powerRZ 2 e)) by lra.
    assert (Mx: (Rmax (IZR (Z.pos m) * powerRZ 2 e) (IZR (Z.pos m') * powerRZ 2 e) <= 9007199254740992 * powerRZ 2 e)%R).
    { change (2 ^ 53) with 9007199254740992 in *. apply Rmax_lub; apply Rmult_le_compat_r; try lra; apply IZR_le; lia. }
    nra.
  - pose proof (gap m m' e e' B B' L) as G. fold x y in G. rewrite Rmax_left by lra. rewrite Rabs_pos_eq by lra. lra.
Qed.
Theorem text_17_digits_identify x y : Fnormal x -> Fnormal y -> showF 17 x = showF 17 y -> x = y.
Proof.
  intros Fx Fy E. assert (Gx: Ffinite x) by (destruct x; try contradiction; exact Logic.I). assert (Gy: Ffinite y) by (destruct y; try contradiction; exact Logic.I).
  destruct (numF_spec 17 x ltac:(lia) Gx) as (Sx & Ox & _ & Vx). destruct (numF_spec 17 y ltac:(lia) Gy) as (Sy & Oy & _ & Vy).
  assert (D: nDec (numF 17 x) = nDec (numF 17 y)). { pose proof (stod_nText _ Ox) as Tx. pose proof (stod_nText _ Oy) as Ty. rewrite <- Sx in Tx. rewrite <- Sy in Ty. rewrite E in Tx. congruence. }
  rewrite D in Vx. set (d := dval (nDec (numF 17 y))) in *. clearbody d. assert (T: (Rabs (Fval x - Fval y) <= / 20000000000000000 * (Rabs (Fval x) + Rabs (Fval y)))%R).
  { replace (Fval x - Fval y)%R with ((Fval x - d) + (d - Fval y))%R by ring. eapply Rle_trans; [apply Rabs_triang|]. rewrite (Rabs_minus_sym (Fval x) d).
    assert (K: (/ 2 * powerRZ 10 (1 - 17) = / 20000000000000000)%R) by (pose proof (pow10_add (1 - 17) 16) as K; rewrite (pow10_IZR 16), (pow10_IZR (1 - 17 + 16)) in K by lia; change (10 ^ 16) with 10000000000000000 in K; change (10 ^ (1 - 17 + 16)) with 1 in K; lra).
    rewrite K in Vx, Vy. lra. }
  destruct x as [|?| |sx m e]; try contradiction. destruct y as [|?| |sy m' e']; try contradiction. cbn [Fval Fnormal] in *.
  assert (X: (0 < IZR (Z.pos m) * powerRZ 2 e)%R) by (apply Rmult_lt_0_compat; [apply IZR_lt; lia|apply p2]). assert (Y: (0 < IZR (Z.pos m') * powerRZ 2 e')%R) by (apply Rmult_lt_0_compat; [apply IZR_lt; lia|apply p2]).
  pose proof (apart m m' e e' Fx Fy) as G. cbv zeta in G. rewrite !Rmult_assoc in T. set (u := (IZR (Z.pos m) * powerRZ 2 e)%R) in *. set (v := (IZR (Z.pos m') * powerRZ 2 e')%R) in *.
  destruct (Bool.bool_dec sx sy) as [->|Ns].
  - assert (Q: (m, e) = (m', e') \/ (m, e) <> (m', e')) by (destruct (Pos.eq_dec m m'), (Z.eq_dec e e'); [left|right|right|right]; congruence). destruct Q as [Q|Q]; [congruence|]. specialize (G Q). exfalso.
    assert (T': (Rabs (u - v) <= / 20000000000000000 * (u + v))%R). { destruct sy; [replace (-1 * u - -1 * v)%R with (- (u - v))%R in T by ring; rewrite Rabs_Ropp in T; rewrite (Rabs_left (-1 * u)), (Rabs_left (-1 * v)) in T by lra|rewrite !Rmult_1_l in T; rewrite (Rabs_pos_eq u), (Rabs_pos_eq v) in T by lra]; lra. }
    pose proof (Rmax_l u v). pose proof (Rmax_r u v). lra.
  - exfalso. assert (T': (u + v <= / 20000000000000000 * (u + v))%R); [|lra].
    destruct sx, sy; try congruence; rewrite ?Rmult_1_l in T.
    + replace (-1 * u - v)%R with (- (u + v))%R in T by ring. rewrite Rabs_Ropp, (Rabs_left (-1 * u)), !Rabs_pos_eq in T by lra. lra.
    + replace (u - -1 * v)%R with (u + v)%R in T by ring. rewrite (Rabs_left (-1 * v)), !Rabs_pos_eq in T by lra. lra.
Qed.
Example text_17_digits_example : Fnormal (S754_finite false 5404319552844596 (-54)) /\ Fnormal (S754_finite false 5404319552844595 (-54)) /\
  showF 17 (S754_finite false 5404319552844596 (-54)) = lit "0.30000000000000004" /\ showF 17 (S754_finite false 5404319552844595 (-54)) = lit "0.29999999999999999".
Proof. split; [cbn; lia|]. split; [cbn; lia|]. split; vm_compute; reflexivity. Qed.

(** ** What is accepted *)
(** [r] matches the text [l] and sets groups; which of several ways is tried first is left open. *)
Fixpoint par (r : re) (l : text) (c c' : caps) : Prop :=
  match r with
  | REps => l = [] /\ c' = c
  | RSet p => (exists a, l = [a] /\ inCls p a = true) /\ c' = c
  | RSeq a b => exists l1 l2 d, l = l1 ++ l2 /\ par a l1 c d /\ par b l2 d c'
  | RAlt a b => par a l c c' \/ par b l c c'
  | ROpt a => par a l c c' \/ (l = [] /\ c' = c)
  | RStar p => forallb (inCls p) l = true /\ c' = c
  | RCap n a => exists d, par a l c d /\ c' = setcap d n l
  | RNot _ => l = [] /\ c' = c
  end.
Lemma mt_par r : forall s c k x, mt r s c k = Some x -> exists l t c', s = l ++ t /\ par r l c c' /\ k t c' = Some x.
Proof.
  induction r as [|p|a IHa b IHb|a IHa b IHb|a IHa|p|n a IHa|a IHa]; intros s c k x H; cbn [mt par] in *.
  - exists [], s, c. auto.
  - destruct s as [|y s]; [discriminate|]. destruct (inCls p y) eqn:E; [|discriminate]. exists [y], s, c. split; auto. split; auto. split; auto. exists y. auto.
  - apply IHa in H. destruct H as (l1 & u & c1 & -> & P1 & H). apply IHb in H. destruct H as (l2 & t & c2 & -> & P2 & H). exists (l1 ++ l2), t, c2. rewrite app_assoc. split; auto. split; auto. exists l1, l2, c1. auto.
  - destruct (mt a s c k) eqn:E; [|apply IHb in H; destruct H as (l & t & c2 & -> & P & H); exists l, t, c2; auto]. injection H as ->. apply IHa in E. destruct E as (l & t & c2 & -> & P & E). exists l, t, c2. auto.
  - destruct (mt a s c k) eqn:E; [|exists [], s, c; auto]. injection H as ->. apply IHa in E. destruct E as (l & t & c2 & -> & P & E). exists l, t, c2. auto.
  - apply star_sound in H. destruct H as (l & t & -> & Hl & Hk). exists l, t, c. auto.
  - apply IHa in H. destruct H as (l & t & c2 & -> & P & H). exists l, t, (setcap c2 n l). split; auto. split; [exists c2; auto|].
    rewrite app_length in H. replace (List.length l + List.length t - List.length t)%nat with (List.length l) in H by lia. rewrite firstn_app, Nat.sub_diag, firstn_all, firstn_O, app_nil_r in H. exact H.
  - destruct (mt a s c _) eqn:E; [discriminate|]. exists [], s, c. auto.
Qed.
Lemma regexMatch_par r s c : regexMatch r s = Some c -> par r s nocaps c.
Proof.
  unfold regexMatch. intros H. apply mt_par in H. destruct H as (l & t & c' & -> & P & H). destruct t; [|discriminate]. injection H as ->. now rewrite app_nil_r.
Qed.
(** Expressions without groups leave the groups alone. *)
Fixpoint plain (r : re) : bool :=
  match r with RCap _ _ => false | RSeq a b | RAlt a b => plain a && plain b | ROpt a => plain a | _ => true end.
Lemma par_plain r : forall l c c', plain r = true -> par r l c c' -> c' = c.
Proof.
  induction r as [|p|a IHa b IHb|a IHa b IHb|a IHa|p|n a IHa|a IHa]; intros l c c' N P; cbn [plain par] in *; try tauto; try discriminate.
  - apply andb_prop in N. destruct N as [Na Nb]. destruct P as (l1 & l2 & d & _ & P1 & P2). apply IHa in P1; auto. apply IHb in P2; auto. congruence.
  - apply andb_prop in N. destruct N as [Na Nb]. destruct P as [P|P]; [eapply IHa|eapply IHb]; eauto.
  - destruct P as [P|[_ P]]; auto. eapply IHa; eauto.
Qed.
Lemma par_weight g w c c' : par (weightRe g) w c c' -> c g = [] -> c (S g) = [] -> exists re im, w = re ++ im /\ c' g = re /\ c' (S g) = im /\ (forall m, m <> g -> m <> S g -> c' m = c m).
Proof.
  intros (re & im & d & -> & P1 & P2) Z1 Z2. exists re, im. split; auto. cbn [par] in P1, P2.
  assert (D: d g = re /\ d (S g) = [] /\ (forall m, m <> g -> d m = c m)).
  { destruct P1 as [(d1 & P1 & ->)|[-> ->]]; auto. apply par_plain in P1; auto. subst d1. unfold setcap. rewrite Nat.eqb_refl. destruct (Nat.eqb_spec (S g) g); [lia|]. split; auto. split; auto. intros m Hm. destruct (Nat.eqb_spec m g); congruence. }
  destruct D as (D1 & D2 & D3). destruct P2 as [(d2 & P2 & ->)|[-> ->]].
  - apply par_plain in P2; auto. subst d2. unfold setcap. rewrite Nat.eqb_refl. destruct (Nat.eqb_spec g (S g)); [lia|]. split; auto. split; auto. intros m M1 M2. destruct (Nat.eqb_spec m (S g)); [congruence|]. auto.
  - auto.
Qed.
Lemma par_dig l c c' : par digRe l c c' -> digits l /\ l <> [] /\ c' = c.
Proof.
  intros (l1 & l2 & d & -> & ((a & -> & Ha) & ->) & H & ->). split; [|split; [discriminate|reflexivity]]. unfold digits. cbn [app forallb]. cbn [inCls] in Ha. rewrite Ha. exact H.
Qed.
Lemma par_char a l c c' : par (RSet (COne a)) l c c' -> l = [a] /\ c' = c.
Proof. intros ((b & -> & H) & ->). split; auto. cbn [inCls] in H. apply Ascii.eqb_eq in H. congruence. Qed.

(** A decimal integer as it may be written *)
Definition isInt (neg : bool) (ds tgt : text) : Prop := tgt = (if neg then lit "-" else []) ++ ds /\ digits ds /\ ds <> [].
(** The text of a successor and what it stands for *)
Definition acc_child (c : text) (e : option (Z * (dec * dec))) : Prop :=
  match e with
  | None => c = lit " ()"
  | Some (i, w) => exists neg ds tgt re im, c = lit " (" ++ tgt ++ lit " " ++ re ++ im ++ lit ")" /\ isInt neg ds tgt /\ i = (if neg then -1 else 1) * digitsVal ds /\ fromString re im = TOk w
  end.
(** The text of a node and what it stands for; spaces and a comment may follow. *)
Definition acc_line (n : nat) (l : text) (r : frec (dec * dec)) : Prop :=
  exists ixs vs cs sp com, l = ixs ++ lit " " ++ vs ++ concat cs ++ sp ++ com /\ isInt false ixs ixs /\ isInt false vs vs /\
    fr_ix r = digitsVal ixs /\ fr_v r = toQubit (digitsVal vs) /\ List.length cs = n /\ Forall2 acc_child cs (fr_es r) /\
    Forall (fun a => a = " "%char) sp /\ (com = [] \/ exists rest, com = "#"%char :: rest).

Lemma digitsOf_all l : digits l -> digitsOf l = (l, []).
Proof. induction l as [|a l IH]; intros H; [reflexivity|]. apply digits_cons in H. destruct H as [Ha H]. cbn [digitsOf]. now rewrite Ha, IH. Qed.
Lemma stoi_int neg ds tgt z : isInt neg ds tgt -> stoi tgt = TOk z -> z = (if neg then -1 else 1) * digitsVal ds.
Proof.
  intros (-> & D & Ne). unfold stoi. assert (S: signOf (skipWs ((if neg then lit "-" else []) ++ ds)) = (neg, ds)).
  { destruct neg; [reflexivity|]. cbn [app]. destruct ds as [|a ds]; [congruence|]. apply digits_cons in D. destruct D as [Ha _]. dig Ha. }
  rewrite S, digitsOf_all by auto. destruct ds; [congruence|]. destruct (_ && _); intros H; [|discriminate]. injection H as <-. destruct neg; ring.
Qed.
Lemma acc_edge j l c c' : par (edgeRe (3 + 5 * j)) l c c' -> (forall m, (3 + 5 * j <= m)%nat -> c m = []) ->
  (forall m, (m < 3 + 5 * j \/ 8 + 5 * j <= m)%nat -> c' m = c m) /\
  (forall d, (forall m, (m < 8 + 5 * j)%nat -> d m = c' m) -> forall e, readEdge d j = TOk e -> acc_child l e).
Proof.
  intros (l1 & l2 & c1 & -> & P1 & (l3 & l4 & c2 & -> & P2 & (l5 & l6 & c3 & -> & P3 & P4))) Z0. set (g := (3 + 5 * j)%nat) in *.
  apply par_char in P1, P2, P4. destruct P1 as [-> ->], P2 as [-> ->], P4 as [-> ->]. cbn [par] in P3. destruct P3 as [P3|[-> ->]].
  - destruct P3 as (d1 & (tgt & t2 & d2 & -> & (d3 & Pi & ->) & (sp & w & d4 & -> & Ps & (d5 & Pw & ->))) & ->). apply par_char in Ps. destruct Ps as [-> ->].
    assert (Ti: exists neg ds, isInt neg ds tgt /\ d3 = c).
    { destruct Pi as (s1 & ds & d6 & -> & Po & Pd). apply par_dig in Pd. destruct Pd as (Dd & Nd & ->). destruct Po as [Po|[-> ->]].
      - apply par_char in Po. destruct Po as [-> ->]. exists true, ds. split; auto. split; auto. - exists false, ds. split; auto. split; auto. }
    destruct Ti as (neg & ds & Ti & ->). apply par_weight in Pw; [|unfold setcap; destruct (Nat.eqb_spec (g + 3) (g + 1)); [lia|apply Z0; lia]|unfold setcap; destruct (Nat.eqb_spec (S (g + 3)) (g + 1)); [lia|apply Z0; lia]].
    destruct Pw as (re & im & -> & W1 & W2 & W3). split.
    + intros m Hm. unfold setcap at 1 2. destruct (Nat.eqb_spec m g); [lia|]. destruct (Nat.eqb_spec m (g + 2)); [lia|]. rewrite W3 by lia. unfold setcap. destruct (Nat.eqb_spec m (g + 1)); [lia|auto].
    + intros d Hd e. unfold readEdge. fold g.
      assert (D0: d g = tgt ++ [" "%char] ++ re ++ im) by (rewrite Hd by lia; unfold setcap at 1; now rewrite Nat.eqb_refl).
      assert (D1: d (g + 1)%nat = tgt). { rewrite Hd by lia. unfold setcap at 1 2. destruct (Nat.eqb_spec (g + 1) g); [lia|]. destruct (Nat.eqb_spec (g + 1) (g + 2)); [lia|]. rewrite W3 by lia. unfold setcap. now rewrite Nat.eqb_refl. }
      assert (D3: d (g + 3)%nat = re). { rewrite Hd by lia. unfold setcap at 1 2. destruct (Nat.eqb_spec (g + 3) g); [lia|]. destruct (Nat.eqb_spec (g + 3) (g + 2)); [lia|]. exact W1. }
      assert (D4: d (g + 4)%nat = im). { rewrite Hd by lia. unfold setcap at 1 2. destruct (Nat.eqb_spec (g + 4) g); [lia|]. destruct (Nat.eqb_spec (g + 4) (g + 2)); [lia|]. replace (g + 4)%nat with (S (g + 3)) by lia. exact W2. }
      rewrite D0, D1, D3, D4. intros H. assert (H': tbind (stoi tgt) (fun i => tbind (fromString re im) (fun w => TOk (Some (i, w)))) = TOk e) by (destruct tgt; exact H). clear H.
      destruct (stoi tgt) as [i|] eqn:Si; [|discriminate]. cbn [tbind] in H'. destruct (fromString re im) as [w|] eqn:Fr; [|discriminate]. injection H' as <-. exists neg, ds, tgt, re, im. split; [rewrite <- !app_assoc; reflexivity|]. split; auto. split; auto. eapply stoi_int; eauto.
  - split; [auto|]. intros d Hd e. unfold readEdge. fold g. rewrite Hd, Z0 by lia. intros H. injection H as <-. reflexivity.
Qed.
Lemma acc_edges n : forall j l c c', par (edgesRe n j) l c c' -> (forall m, (3 + 5 * j <= m)%nat -> c m = []) ->
  (forall m, (m < 3 + 5 * j)%nat -> c' m = c m) /\
  exists cs sp com, l = concat cs ++ sp ++ com /\ List.length cs = n /\ Forall (fun a => a = " "%char) sp /\ (com = [] \/ exists rest, com = "#"%char :: rest) /\
    forall es, tmap (readEdge c') (seq j n) = TOk es -> Forall2 acc_child cs es.
Proof.
  induction n as [|n IH]; intros j l c c' P Z0; cbn [edgesRe] in P.
  - destruct P as (sp & com & d & -> & (Hs & ->) & Pc). assert (Ec: c' = c) by (eapply (par_plain (ROpt (RSeq (RSet (COne "#"%char)) (RStar CAny)))); [reflexivity|exact Pc]). split; [intros; now rewrite Ec|].
    exists [], sp, com. split; [reflexivity|]. split; [reflexivity|]. split; [|split].
    + apply Forall_forall. intros a Ha. rewrite forallb_forall in Hs. specialize (Hs a Ha). cbn [inCls] in Hs. apply Ascii.eqb_eq in Hs. congruence.
    + destruct Pc as [(h & r & d & -> & Ph & _)|[-> _]]; auto. apply par_char in Ph. destruct Ph as [-> _]. right. exists r. reflexivity.
    + intros es H. injection H as <-. constructor.
  - destruct P as (l1 & l2 & d & -> & P1 & P2). apply acc_edge in P1; auto. destruct P1 as [K1 R1]. apply IH in P2.
    2: { intros m Hm. rewrite K1 by lia. apply Z0. lia. }
    destruct P2 as (K2 & cs & sp & com & -> & Hn & Hs & Hc & R2). split; [intros m Hm; rewrite K2 by lia; apply K1; lia|].
    exists (l1 :: cs), sp, com. split; [cbn [concat]; now rewrite <- app_assoc|]. split; [cbn; now rewrite Hn|]. split; auto. split; auto. intros es H. cbn [seq tmap] in H.
    destruct (readEdge c' j) as [e|] eqn:E; [|discriminate]. cbn [tbind] in H. destruct (tmap (readEdge c') (seq (S j) n)) as [es'|] eqn:Es; [|discriminate]. injection H as <-. constructor; auto.
    eapply R1; [|exact E]. intros m Hm. apply K2. lia.
Qed.
Lemma acc_line_ok n l r : readLine n (lineRe n) l = TOk r -> acc_line n l r.
Proof.
  unfold readLine. destruct (regexMatch (lineRe n) l) as [c|] eqn:M; [|discriminate]. apply regexMatch_par in M.
  destruct M as (ixs & l2 & c1 & -> & (d1 & P1 & ->) & (sp1 & l3 & c2 & -> & P2 & (vs & l4 & c3 & -> & (d3 & P3 & ->) & P4))).
  apply par_dig in P1. destruct P1 as (I1 & I2 & ->). apply par_char in P2. destruct P2 as [-> ->]. apply par_dig in P3. destruct P3 as (V1 & V2 & ->).
  apply acc_edges in P4. 2: { intros m Hm. unfold setcap. destruct (Nat.eqb_spec m 2); [lia|]. destruct (Nat.eqb_spec m 1); [lia|]. reflexivity. }
  destruct P4 as (K & cs & sp & com & -> & Hn & Hs & Hc & R). rewrite (K 1%nat), (K 2%nat) by lia. cbn [setcap Nat.eqb].
  assert (Ii: isInt false ixs ixs) by (split; auto). assert (Iv: isInt false vs vs) by (split; auto).
  intros H. change (tbind (stoi ixs) (fun ix => tbind (stoi vs) (fun v => tbind (tmap (readEdge c) (seq 0 n)) (fun es => TOk (FR ix (toQubit v) es)))) = TOk r) in H.
  destruct (stoi ixs) as [ix|] eqn:Ei; [|discriminate]. cbn [tbind] in H. destruct (stoi vs) as [v|] eqn:Ev; [|discriminate]. cbn [tbind] in H. destruct (tmap (readEdge c) (seq 0 n)) as [es|] eqn:Es; [|discriminate]. injection H as <-.
  exists ixs, vs, cs, sp, com. split; [reflexivity|]. split; auto. split; auto. cbn [fr_ix fr_v fr_es]. pose proof (stoi_int false ixs ixs ix Ii Ei). pose proof (stoi_int false vs vs v Iv Ev). cbv iota in *. split; [lia|]. split; [f_equal; lia|]. auto.
Qed.
(** Whatever is read is what the lines say: the version is 1, the second line is a weight, and every line
    of two characters or more is a node with its successors. *)
Theorem text_accepted n t f : (n = 2 \/ n = 4)%nat -> readText n t = TOk f ->
  stoi (hd [] (linesOf [] t)) = TOk 1 /\
  match tl (linesOf [] t) with
  | [] => fl_w f = (Dec false 0 0, Dec false 0 0) /\ fl_rs f = []
  | w :: ls => (exists re im, w = re ++ im /\ fromString re im = TOk (fl_w f)) /\ Forall2 (acc_line n) (filter (fun l => Nat.leb 2 (List.length l)) ls) (fl_rs f)
  end.
Proof.
  intros Hn. assert (Cl: compile (lineConstruct n) = Some (lineRe n)) by (destruct Hn as [->| ->]; [apply compile_line2|apply compile_line4]).
  unfold readText. rewrite compile_weight, Cl. destruct (stoi (hd [] (linesOf [] t))) as [v|]; [|discriminate]. cbn [tbind]. destruct (Z.eqb_spec v 1) as [->|]; cbn [negb]; [|discriminate].
  destruct (tl (linesOf [] t)) as [|w ls]; [intros H; injection H as <-; auto|]. destruct (regexMatch (weightRe 1) w) as [c|] eqn:M; [|discriminate]. apply regexMatch_par, par_weight in M; try reflexivity.
  destruct M as (re & im & -> & -> & -> & _). destruct (fromString re im) as [wv|] eqn:Fr; [|discriminate]. cbn [tbind]. destruct (tmap _ _) as [rs|] eqn:T; [|discriminate]. intros H. injection H as <-. split; auto. split; [exists re, im; auto|]. cbn [fl_rs].
  rewrite (filter_ext _ (fun l => Nat.leb 2 (List.length l))) in T. 2: { intros l. destruct (List.length l) as [|[|k]]; reflexivity. }
  revert rs T. induction (filter (fun l => Nat.leb 2 (List.length l)) ls) as [|l fs IH]; intros rs T; cbn [tmap] in T; [injection T as <-; constructor|].
  destruct (readLine n (lineRe n) l) as [r|] eqn:Rl; [|discriminate]. cbn [tbind] in T. destruct (tmap (readLine n (lineRe n)) fs) as [rs'|]; [|discriminate]. injection T as <-. constructor; auto. now apply acc_line_ok.
Qed.
Example text_accepted_example : exists f, readText 2 (ln "1" ++ ln "-1.5e3 + .25i" ++ ln "" ++ ln "7 3 (-1 1) ()  # comment") = TOk f /\
  fl_w f = (Dec true 15 2, Dec false 25 (-2)) /\ map fr_ix (fl_rs f) = [7] /\ map fr_v (fl_rs f) = [3] /\
  acc_line 2 (lit "7 3 (-1 1) ()  # comment") (nth 0 (fl_rs f) (FR 0 0 [])).
Proof.
  eexists. split; [vm_compute; reflexivity|]. split; [reflexivity|]. split; [reflexivity|]. split; [reflexivity|]. apply acc_line_ok. vm_compute. reflexivity.
Qed.
(** A file of another version is refused. *)
Theorem text_other_version n v t : (n = 2 \/ n = 4)%nat -> - 2 ^ 31 <= v < 2 ^ 31 -> v <> 1 -> readText n (showZ v ++ newline :: t) = TThr TRuntime.
Proof.
  intros Hn Hv Ne. assert (Cl: compile (lineConstruct n) = Some (lineRe n)) by (destruct Hn as [->| ->]; [apply compile_line2|apply compile_line4]).
  unfold readText. rewrite compile_weight, Cl, linesOf_line by apply showZ_line. cbn [rev app hd]. rewrite stoi_showZ by auto. cbn [tbind]. destruct (Z.eqb_spec v 1); [congruence|reflexivity].
Qed.

(** ** What does not hold *)
(** The text does not determine the weights: 0.1 + 0.2 and 0.3 are both written as 0.3. *)
Theorem text_determines_weights_refuted : exists f f', wf_file 2 f /\ wf_file 2 f' /\ f <> f' /\ fileText NumF showF KV f = fileText NumF showF KV f'.
Proof.
  exists (FL (S754_finite false 5404319552844596 (-54), exZero) []), (FL (S754_finite false 5404319552844595 (-54), exZero) []).
  split; [cbn; wf|]. split; [cbn; wf|]. split; [discriminate|]. vm_compute. reflexivity.
Qed.
(** Not every number written can be read: with 16 digits the largest double is out of range for std::stod. *)
Theorem text_readable_refuted : exists f, wf_file 2 f /\
  match readText 2 (fileText NumF showF KV f) with TOk f' => ofDec (fst (fl_w f')) = None | TThr _ => False end.
Proof. exists (FL (S754_finite false 9007199254740991 971, exZero) []). split; [cbn; wf|]. vm_compute. reflexivity. Qed.
(** A weight that is only the imaginary unit is read as zero, with a plus sign it is the unit. *)
Theorem text_unit_refuted : exists f f', readText 2 (ln "1" ++ ln "i") = TOk f /\ readText 2 (ln "1" ++ ln "+i") = TOk f' /\
  dval (snd (fl_w f)) = 0%R /\ dval (snd (fl_w f')) = 1%R.
Proof.
  eexists. eexists. split; [vm_compute; reflexivity|]. split; [vm_compute; reflexivity|]. unfold dval. cbn -[powerRZ]. split; [ring|]. rewrite powerRZ_O. ring.
Qed.
(** The capital I is accepted by the expressions; std::stod is then given the sign and the letter. *)
Theorem text_capital_refuted : exists r t, compile complexWeightRegex = Some r /\ regexMatch r t <> None /\ readText 2 (ln "1" ++ t ++ [newline]) = TThr TInvalid.
Proof.
  exists (weightRe 1), (lit "+I"). split; [apply compile_weight|]. split; [vm_compute; discriminate|]. vm_compute. reflexivity.
Qed.
(** Indices from 2^31 on can be written, not read, although they are 64 bits wide everywhere else. *)
Theorem text_index_refuted : exists f, Ffinite2 (fl_w f) /\ Forall (fun r => 0 <= fr_ix r < 2 ^ 63 /\ 0 <= fr_v r < 128 /\ List.length (fr_es r) = 2%nat) (fl_rs f) /\
  readText 2 (fileText NumF showF KV f) = TThr TRange.
Proof.
  exists (FL (exOne, exZero) [FR (2 ^ 31) 0 [Some (-1, (exOne, exZero)); None]]). split; [split; exact Logic.I|]. split; [|vm_compute; reflexivity].
  constructor; [|constructor]. cbn. lia.
Qed.
(** A level over 127 is not refused; it is another one, a negative number here. *)
Theorem text_level_refuted : exists f, readText 2 (ln "1" ++ ln "1" ++ ln "0 200 (-1 1) ()") = TOk f /\ map fr_v (fl_rs f) = [-56].
Proof. eexists. split; [vm_compute; reflexivity|]. reflexivity. Qed.

Print Assumptions text_read_back_vector.
Print Assumptions text_read_back_matrix.
Print Assumptions text_17_digits_identify.
Print Assumptions text_accepted.
Print Assumptions text_other_version.
Print Assumptions text_determines_weights_refuted.
Print Assumptions text_readable_refuted.
Print Assumptions text_unit_refuted.
Print Assumptions text_capital_refuted.
Print Assumptions text_index_refuted.
Print Assumptions text_level_refuted.
