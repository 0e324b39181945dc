(** Bytes, bits and the order of doubles. *)
From Coq Require Import ZArith List Bool Lia Arith SpecFloat.
From Verif Require Import Num Base State Serial Text Binary.
Import ListNotations.
Local Open Scope Z_scope.

(** ** Bytes *)
Lemma leBytes_len n z : length (leBytes n z) = n.
Proof. revert z. induction n; intros z; cbn; auto. Qed.
Lemma leVal_bytes n z : leVal (leBytes n z) = z mod 2 ^ (8 * Z.of_nat n).
Proof.
  revert z. induction n as [|n IH]; intros z; [cbn; now rewrite Z.mod_1_r|]. cbn [leBytes leVal]. rewrite IH.
  replace (2 ^ (8 * Z.of_nat (S n))) with (256 * 2 ^ (8 * Z.of_nat n)) by (replace (8 * Z.of_nat (S n)) with (8 + 8 * Z.of_nat n) by lia; rewrite Z.pow_add_r by lia; reflexivity).
  rewrite Z.rem_mul_r; lia || (apply Z.pow_pos_nonneg; lia).
Qed.
Lemma leVal_range l : Forall (fun b => 0 <= b < 256) l -> 0 <= leVal l < 2 ^ (8 * Z.of_nat (length l)).
Proof.
  induction 1 as [|b l Hb Hl IH]; [cbn; lia|]. cbn [leVal length].
  replace (2 ^ (8 * Z.of_nat (S (length l)))) with (256 * 2 ^ (8 * Z.of_nat (length l))) by (replace (8 * Z.of_nat (S (length l))) with (8 + 8 * Z.of_nat (length l)) by lia; rewrite Z.pow_add_r by lia; reflexivity).
  lia.
Qed.
Lemma leBytes_val l : Forall (fun b => 0 <= b < 256) l -> leBytes (length l) (leVal l) = l.
Proof.
  induction 1 as [|b l Hb Hl IH]; [reflexivity|]. cbn [leVal length leBytes].
  replace ((b + 256 * leVal l) mod 256) with b by (rewrite (Z.mul_comm 256), Z.mod_add, Z.mod_small; lia).
  replace ((b + 256 * leVal l) / 256) with (leVal l) by (rewrite (Z.mul_comm 256), Z.div_add, Z.div_small; lia).
  now rewrite IH.
Qed.
Lemma leBytes_range n z : Forall (fun b => 0 <= b < 256) (leBytes n z).
Proof. revert z. induction n; intros z; cbn; constructor; auto. apply Z.mod_pos_bound. lia. Qed.
Lemma leBytes_mod n z k : leBytes n (z + k * 2 ^ (8 * Z.of_nat n)) = leBytes n z.
Proof.
  revert z k. induction n as [|n IH]; intros z k; [reflexivity|]. cbn [leBytes].
  replace (2 ^ (8 * Z.of_nat (S n))) with (2 ^ (8 * Z.of_nat n) * 256) by (replace (8 * Z.of_nat (S n)) with (8 * Z.of_nat n + 8) by lia; rewrite Z.pow_add_r by lia; reflexivity).
  rewrite Z.mul_assoc. rewrite Z.mod_add, Z.div_add by lia. now rewrite IH.
Qed.
Lemma leInt_bytes n z : (n <> 0)%nat -> - 2 ^ (8 * Z.of_nat n - 1) <= z < 2 ^ (8 * Z.of_nat n - 1) -> leInt (leBytes n z) = z.
Proof.
  intros Hn Hz. unfold leInt. rewrite leVal_bytes, leBytes_len.
  assert (E: 2 ^ (8 * Z.of_nat n) = 2 * 2 ^ (8 * Z.of_nat n - 1)) by (rewrite <- Z.pow_succ_r by lia; f_equal; lia).
  rewrite E. set (h := 2 ^ (8 * Z.of_nat n - 1)) in *. destruct (Z_lt_le_dec z 0) as [L|L].
  - replace (z mod (2 * h)) with (z + 2 * h). { destruct (Z.ltb_spec (z + 2 * h) h); lia. }
    apply Z.mod_unique_pos with (q := -1); lia.
  - rewrite Z.mod_small by lia. destruct (Z.ltb_spec z h); lia.
Qed.
Lemma leInt_back l : Forall (fun b => 0 <= b < 256) l -> leBytes (length l) (leInt l) = l.
Proof.
  intros H. unfold leInt. destruct (_ <? _); [now apply leBytes_val|].
  replace (leVal l - 2 ^ (8 * Z.of_nat (length l))) with (leVal l + -1 * 2 ^ (8 * Z.of_nat (length l))) by lia. rewrite leBytes_mod. now apply leBytes_val.
Qed.

(** ** Doubles *)
Lemma digits2_size m : digits2_pos m = Pos.size m.
Proof. induction m; cbn; congruence. Qed.
(** The mantissa and the exponent of a double *)
Lemma valid_iff s m e : valid_binary 53 1024 (S754_finite s m e) = true <->
  Z.pos m < 9007199254740992 /\ -1074 <= e <= 971 /\ (Z.pos m < 4503599627370496 -> e = -1074).
Proof.
  cbn [valid_binary]. unfold bounded, canonical_mantissa, fexp, emin. rewrite digits2_size, andb_true_iff, Z.leb_le.
  change (3 - 1024 - 53) with (-1074). change (1024 - 53) with 971.
  pose proof (Pos.size_gt m) as G. pose proof (Pos.size_le m) as L.
  assert (G': Z.pos m < 2 ^ Z.pos (Pos.size m)) by (rewrite <- Pos2Z.inj_pow; exact G).
  assert (L': 2 ^ Z.pos (Pos.size m) <= 2 * Z.pos m) by (rewrite <- Pos2Z.inj_pow; change (2 * Z.pos m) with (Z.pos m~0); exact L).
  set (d := Z.pos (Pos.size m)) in *. assert (Hd: 1 <= d) by (unfold d; lia).
  split; [intros [A B]; apply Zeq_bool_eq in A|intros (A & B & C); split; [apply Zeq_is_eq_bool|lia]].
  - assert (D: d <= 53) by lia.
    assert (P: 2 ^ d <= 2 ^ 53) by (apply Z.pow_le_mono_r; lia). change (2 ^ 53) with 9007199254740992 in P.
    split; [lia|]. split; [lia|]. intros Q. assert (D': d < 53 \/ d = 53) by lia. destruct D' as [D'|D']; [lia|].
    rewrite D' in L'. change (2 ^ 53) with 9007199254740992 in L'. lia.
  - assert (D: d <= 53).
    { destruct (Z_le_gt_dec d 53) as [?|D]; auto. exfalso. assert (P: 2 ^ 54 <= 2 ^ d) by (apply Z.pow_le_mono_r; lia).
      change (2 ^ 54) with 18014398509481984 in P. lia. }
    destruct (Z_lt_le_dec (Z.pos m) 4503599627370496) as [Q|Q]; [rewrite C by lia; lia|].
    assert (D': d = 53).
    { destruct (Z_le_gt_dec d 52) as [D'|D']; [|lia]. exfalso. assert (P: 2 ^ d <= 2 ^ 52) by (apply Z.pow_le_mono_r; lia).
      change (2 ^ 52) with 4503599627370496 in P. lia. }
    lia.
Qed.

Ltac consts := change (2 ^ 52) with 4503599627370496 in *; change (2 ^ 53) with 9007199254740992 in *; change (2 ^ 63) with 9223372036854775808 in *;
  change (2 ^ 64) with 18446744073709551616 in *; change (2 ^ 51) with 2251799813685248 in *; change (2 ^ 11) with 2048 in *.

Lemma bits_range x : valid_binary 53 1024 x = true -> 0 <= bitsOf x < 2 ^ 64.
Proof.
  intros V. destruct x as [[]|[]| |s m e]; unfold bitsOf; consts; try lia. apply valid_iff in V. destruct V as (A & B & C).
  destruct (Z.ltb_spec (Z.pos m) 4503599627370496) as [L|L]; destruct s; lia.
Qed.

Lemma split_bits (s : bool) E F : 0 <= E < 2048 -> 0 <= F < 4503599627370496 ->
  let z := (if s then 9223372036854775808 else 0) + E * 4503599627370496 + F in
  (9223372036854775808 <=? z) = s /\ (z / 4503599627370496) mod 2048 = E /\ z mod 4503599627370496 = F.
Proof.
  intros HE HF z. unfold z. split; [|split].
  - destruct s; [apply Z.leb_le|apply Z.leb_gt]; lia.
  - replace ((if s then 9223372036854775808 else 0) + E * 4503599627370496 + F) with (F + ((if s then 2048 else 0) + E) * 4503599627370496) by (destruct s; lia).
    rewrite Z.div_add, (Z.div_small F) by lia. destruct s.
    + replace (0 + (2048 + E)) with (E + 1 * 2048) by lia. rewrite Z.mod_add by lia. apply Z.mod_small. lia.
    + rewrite Z.mod_small; lia.
  - replace ((if s then 9223372036854775808 else 0) + E * 4503599627370496 + F) with (F + ((if s then 2048 else 0) + E) * 4503599627370496) by (destruct s; lia).
    rewrite Z.mod_add by lia. apply Z.mod_small. lia.
Qed.

Lemma bits_back x : valid_binary 53 1024 x = true -> ofBits (bitsOf x) = x.
Proof.
  intros V. destruct x as [s|s| |s m e]; try (destruct s; reflexivity); [reflexivity|]. apply valid_iff in V. destruct V as (A & B & C).
  unfold ofBits, bitsOf. consts. destruct (Z.ltb_spec (Z.pos m) 4503599627370496) as [L|L].
  - destruct (split_bits s 0 (Z.pos m)) as (E1 & E2 & E3); [lia|lia|]. rewrite Z.mul_0_l, Z.add_0_r in *. rewrite E1, E2, E3. cbn. now rewrite C.
  - destruct (split_bits s (e + 1075) (Z.pos m - 4503599627370496)) as (E1 & E2 & E3); [lia|lia|]. rewrite E1, E2, E3.
    destruct (Z.eqb_spec (e + 1075) 0); [lia|]. destruct (Z.eqb_spec (e + 1075) 2047); [lia|].
    replace (Z.pos m - 4503599627370496 + 4503599627370496) with (Z.pos m) by lia. f_equal. lia.
Qed.

Lemma ofBits_valid z : 0 <= z < 2 ^ 64 -> valid_binary 53 1024 (ofBits z) = true /\ (ofBits z <> S754_nan -> bitsOf (ofBits z) = z).
Proof.
  intros Hz. unfold ofBits. consts. set (E := (z / 4503599627370496) mod 2048). set (F := z mod 4503599627370496).
  assert (HE: 0 <= E < 2048) by (apply Z.mod_pos_bound; lia). assert (HF: 0 <= F < 4503599627370496) by (apply Z.mod_pos_bound; lia).
  assert (Dz: z = (if 9223372036854775808 <=? z then 9223372036854775808 else 0) + E * 4503599627370496 + F).
  { unfold E, F. pose proof (Z.div_mod z 4503599627370496 ltac:(lia)) as D.
    assert (Q: 0 <= z / 4503599627370496 < 4096) by (split; [apply Z.div_pos; lia|apply Z.div_lt_upper_bound; lia]).
    destruct (Z.leb_spec 9223372036854775808 z) as [L|L].
    - assert (2048 <= z / 4503599627370496) by (apply Z.div_le_lower_bound; lia).
      replace ((z / 4503599627370496) mod 2048) with (z / 4503599627370496 - 2048); [lia|]. apply Z.mod_unique_pos with (q := 1); lia.
    - assert (z / 4503599627370496 < 2048) by (apply Z.div_lt_upper_bound; lia). rewrite (Z.mod_small (z / _)) by lia. lia. }
  clearbody E F. set (s := 9223372036854775808 <=? z) in *. clearbody s.
  destruct (Z.eqb_spec E 0) as [E0|E0].
  - destruct F as [|m|]; [| |lia].
    + split; [reflexivity|]. intros _. unfold bitsOf. consts. lia.
    + split; [apply valid_iff; lia|]. intros _. unfold bitsOf. consts. destruct (Z.ltb_spec (Z.pos m) 4503599627370496); lia.
  - destruct (Z.eqb_spec E 2047) as [E1|E1].
    + destruct (Z.eqb_spec F 0) as [F1|F1]; [|split; [reflexivity|congruence]]. split; [reflexivity|]. intros _. unfold bitsOf. consts. lia.
    + destruct (F + 4503599627370496) as [|m|] eqn:M; [lia| |lia]. split; [apply valid_iff; lia|]. intros _. unfold bitsOf. consts.
      destruct (Z.ltb_spec (Z.pos m) 4503599627370496); lia.
Qed.

(** ** The order of the doubles *)

(** The position of a double among all doubles, zero having the position 0 *)
Definition ord (x : spec_float) : Z :=
  match x with
  | S754_zero _ | S754_nan => 0
  | S754_infinity s => if s then - (2047 * 4503599627370496) else 2047 * 4503599627370496
  | S754_finite s m e => let o := (e + 1074) * 4503599627370496 + Z.pos m in if s then - o else o
  end.
(** A double other than NaN *)
Definition number (x : spec_float) : Prop := valid_binary 53 1024 x = true /\ x <> S754_nan.

Lemma ord_range x : number x -> - (2047 * 4503599627370496) <= ord x <= 2047 * 4503599627370496.
Proof.
  intros [V _]. destruct x as [s|s| |s m e]; cbn [ord]; try (destruct s; lia); try lia. apply valid_iff in V. destruct s; lia.
Qed.

Lemma cmp_ord x y : number x -> number y -> SFcompare x y = Some (ord x ?= ord y).
Proof.
  intros [Vx Nx] [Vy Ny].
  assert (K: forall m1 e1 m2 e2, valid_binary 53 1024 (S754_finite false m1 e1) = true -> valid_binary 53 1024 (S754_finite false m2 e2) = true ->
    match e1 ?= e2 with Lt => Lt | Gt => Gt | Eq => Pos.compare_cont Eq m1 m2 end = ((e1 + 1074) * 4503599627370496 + Z.pos m1 ?= (e2 + 1074) * 4503599627370496 + Z.pos m2)).
  { intros m1 e1 m2 e2 V1 V2. apply valid_iff in V1, V2. symmetry. destruct (Z.compare_spec e1 e2) as [E|E|E].
    - subst e2. change (Pos.compare_cont Eq m1 m2) with (Pos.compare m1 m2). change (Pos.compare m1 m2) with (Z.pos m1 ?= Z.pos m2).
      destruct (Z.compare_spec (Z.pos m1) (Z.pos m2)); [apply Z.compare_eq_iff|apply Z.compare_lt_iff|apply Z.compare_gt_iff]; lia.
    - apply Z.compare_lt_iff. lia.
    - apply Z.compare_gt_iff. lia. }
  destruct x as [s1|s1| |s1 m1 e1], y as [s2|s2| |s2 m2 e2]; try congruence; cbn [SFcompare ord]; f_equal.
  4: destruct s1, s2; reflexivity.
  all: try (destruct s1; reflexivity); try (destruct s2; reflexivity).
  - apply valid_iff in Vy. destruct s2; symmetry; [apply Z.compare_gt_iff|apply Z.compare_lt_iff]; lia.
  - apply valid_iff in Vy. destruct s1, s2; symmetry; first [apply Z.compare_gt_iff; lia|apply Z.compare_lt_iff; lia].
  - apply valid_iff in Vx. destruct s1; symmetry; [apply Z.compare_lt_iff|apply Z.compare_gt_iff]; lia.
  - apply valid_iff in Vx. destruct s1, s2; symmetry; first [apply Z.compare_gt_iff; lia|apply Z.compare_lt_iff; lia].
  - destruct s1, s2.
    + pose proof (K m1 e1 m2 e2 Vx Vy) as Q. cbn zeta. rewrite Z.compare_opp, (Z.compare_antisym ((e1 + 1074) * 4503599627370496 + Z.pos m1)), <- Q.
      transitivity (CompOpp match e1 ?= e2 with Lt => Lt | Gt => Gt | Eq => Pos.compare_cont Eq m1 m2 end); [destruct (e1 ?= e2)|]; reflexivity.
    + symmetry. apply Z.compare_lt_iff. apply valid_iff in Vx, Vy. lia.
    + symmetry. apply Z.compare_gt_iff. apply valid_iff in Vx, Vy. lia.
    + now apply K.
Qed.
Lemma eqb_ord x y : number x -> number y -> SFeqb x y = (ord x =? ord y).
Proof. intros Hx Hy. unfold SFeqb. rewrite cmp_ord by auto. now rewrite Z.eqb_compare. Qed.
Lemma ltb_ord x y : number x -> number y -> SFltb x y = (ord x <? ord y).
Proof. intros Hx Hy. unfold SFltb. rewrite cmp_ord by auto. unfold Z.ltb. reflexivity. Qed.
Lemma leb_ord x y : number x -> number y -> SFleb x y = (ord x <=? ord y).
Proof. intros Hx Hy. unfold SFleb. rewrite cmp_ord by auto. unfold Z.leb. now destruct (ord x ?= ord y). Qed.

(** The magnitude moves by one. *)
Lemma away_ord s x : number x -> Fsign x = s -> ord x <> (if s then -1 else 1) * (2047 * 4503599627370496) ->
  number (awayF x) /\ ord (awayF x) = ord x + (if s then -1 else 1).
Proof.
  intros [V Nn] Hs Hx. destruct x as [t|t| |t m e]; cbn [Fsign] in Hs; subst; cbn [awayF]; try congruence.
  - destruct s; split; try split; try reflexivity; discriminate.
  - destruct s; cbn [ord] in Hx; lia.
  - apply valid_iff in V. consts. destruct (Z.ltb_spec (Z.pos m + 1) 9007199254740992) as [L|L].
    + split; [split; [apply valid_iff; lia|discriminate]|]. cbn [ord]. destruct s; lia.
    + destruct (Z.ltb_spec e 971) as [Le|Le].
      * split; [split; [apply valid_iff; change (Z.pos (2 ^ 52)) with 4503599627370496; lia|discriminate]|]. cbn [ord]. change (Z.pos (2 ^ 52)) with 4503599627370496. destruct s; lia.
      * split; [split; [reflexivity|discriminate]|]. cbn [ord]. destruct s; lia.
Qed.
Lemma back_ord s x : number x -> Fsign x = s -> ord x <> 0 -> number (backF x) /\ ord (backF x) = ord x - (if s then -1 else 1).
Proof.
  intros [V Nn] Hs Hx. destruct x as [t|t| |t m e]; cbn [Fsign] in Hs; subst; cbn [backF]; try congruence.
  - cbn in Hx. lia.
  - split; [split; [reflexivity|discriminate]|]. cbn [ord]. destruct s; reflexivity.
  - apply valid_iff in V. consts. destruct ((Z.pos m =? 4503599627370496) && (-1074 <? e)) eqn:B.
    + apply andb_true_iff in B. destruct B as [B1 B2]. apply Z.eqb_eq in B1. apply Z.ltb_lt in B2.
      split; [split; [apply valid_iff; change (Z.pos (2 ^ 53 - 1)) with 9007199254740991; lia|discriminate]|]. cbn [ord]. change (Z.pos (2 ^ 53 - 1)) with 9007199254740991. destruct s; lia.
    + assert (B': Z.pos m <> 4503599627370496 \/ e = -1074).
      { apply andb_false_iff in B. destruct B as [B|B]; [apply Z.eqb_neq in B|apply Z.ltb_ge in B]; lia. }
      destruct (Z.eqb_spec (Z.pos m) 1) as [M|M].
      * split; [split; [reflexivity|discriminate]|]. cbn [ord]. destruct s; lia.
      * assert (P: Z.pos (Pos.pred m) = Z.pos m - 1) by (rewrite Pos2Z.inj_pred; lia).
        split; [split; [apply valid_iff; lia|discriminate]|]. cbn [ord]. destruct s; lia.
Qed.

Lemma ord_sign x : number x -> ord x <> 0 -> Fsign x = (ord x <? 0).
Proof.
  intros [V Nn] H. destruct x as [t|t| |t m e]; cbn [ord Fsign] in *; try congruence; [destruct t; reflexivity|].
  apply valid_iff in V. destruct t; symmetry; [apply Z.ltb_lt|apply Z.ltb_ge]; lia.
Qed.
Lemma next_ord x y : number x -> number y -> ord x <> ord y ->
  number (nextafter x y) /\ ord (nextafter x y) = ord x + (if ord x <? ord y then 1 else -1).
Proof.
  intros Hx Hy Ne. pose proof (ord_range y Hy) as Ry. pose proof (ord_range x Hx) as Rx. unfold nextafter. rewrite cmp_ord by auto.
  destruct (Z.eq_dec (ord x) 0) as [Z0|Z0].
  - assert (Zx: exists t, x = S754_zero t).
    { destruct Hx as [V Nn]. destruct x as [t|t| |t m e]; [now exists t| | |]; cbn in Z0; try congruence; [destruct t; lia|]. apply valid_iff in V. destruct t; lia. }
    destruct Zx as [t ->]. cbn [ord] in *. destruct (Z.compare_spec 0 (ord y)) as [E|E|E]; [lia| |];
      (split; [split; [reflexivity|discriminate]|]); cbn; [replace (0 <? ord y) with true by (symmetry; now apply Z.ltb_lt)|replace (0 <? ord y) with false by (symmetry; apply Z.ltb_ge; lia)]; reflexivity.
  - pose proof (ord_sign x Hx Z0) as Sg.
    assert (G: forall up : bool, up = (ord x <? ord y) ->
      number (if Bool.eqb up (negb (Fsign x)) then awayF x else backF x) /\ ord (if Bool.eqb up (negb (Fsign x)) then awayF x else backF x) = ord x + (if up then 1 else -1)).
    { intros up Eu. destruct (ord x <? 0) eqn:L; rewrite Sg; destruct (Z.ltb_spec (ord x) (ord y)) as [Q|Q]; subst up; cbn [Bool.eqb negb];
        [apply Z.ltb_lt in L|apply Z.ltb_lt in L|apply Z.ltb_ge in L|apply Z.ltb_ge in L].
      - destruct (back_ord true x Hx Sg Z0) as [A B]. split; auto.
      - destruct (away_ord true x Hx Sg) as [A B]; [lia|]. split; auto.
      - destruct (away_ord false x Hx Sg) as [A B]; [lia|]. split; auto.
      - destruct (back_ord false x Hx Sg Z0) as [A B]. split; auto. }
    assert (Nz: match x with S754_zero _ => false | _ => true end = true) by (destruct x; auto; cbn in Z0; congruence).
    destruct (Z.compare_spec (ord x) (ord y)) as [E|E|E]; [congruence| |].
    + specialize (G true). destruct (Z.ltb_spec (ord x) (ord y)); [|lia]. destruct x; try discriminate Nz; apply G; reflexivity.
    + specialize (G false). destruct (Z.ltb_spec (ord x) (ord y)); [lia|]. destruct x; try discriminate Nz; apply G; reflexivity.
Qed.
