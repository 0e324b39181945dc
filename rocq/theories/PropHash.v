(** C65: the hash functions. *)
From Coq Require Import ZArith List Bool Lia Arith Reals Lra SpecFloat.
From Verif Require Import Num Base CTable CTableWf Cx State Pkg Inv InvL PrimL StateL Inst TraceL RefL Run Control Toffoli Hash PropBase PropStruct.
Import ListNotations.
Local Open Scope Z_scope.

(** A word of 64 bits. *)
Definition word (x : Z) : Prop := 0 <= x < 2 ^ 64.

Lemma w64_word x : word (w64 x).
Proof. apply Z.mod_pos_bound. reflexivity. Qed.
Lemma w64_id x : word x -> w64 x = x.
Proof. intros. now apply Z.mod_small. Qed.
Lemma word_bits x : word x <-> 0 <= x /\ forall i, 64 <= i -> Z.testbit x i = false.
Proof.
  split.
  - intros [H0 H1]. split; auto. intros i Hi. destruct (Z.eq_dec x 0) as [->|N]; [apply Z.testbit_0_l|].
    apply Z.bits_above_log2; auto. apply Z.lt_le_trans with 64; auto. apply Z.log2_lt_pow2; lia.
  - intros [H0 H1]. split; auto. destruct (Z.lt_ge_cases x (2 ^ 64)) as [L|L]; auto. exfalso.
    assert (P: 0 < x) by lia. specialize (H1 (Z.log2 x)). rewrite Z.bit_log2 in H1 by auto.
    apply Z.log2_le_mono in L. rewrite Z.log2_pow2 in L by lia. specialize (H1 L). discriminate.
Qed.
Lemma lxor_word x y : word x -> word y -> word (Z.lxor x y).
Proof.
  rewrite !word_bits. intros [A B] [C D]. split; [now apply Z.lxor_nonneg; split; auto|]. intros i Hi. rewrite Z.lxor_spec, B, D by auto. reflexivity.
Qed.
Lemma shiftr_word x n : word x -> 0 <= n -> word (Z.shiftr x n).
Proof.
  rewrite !word_bits. intros [A B] Hn. split; [now apply Z.shiftr_nonneg|]. intros i Hi. rewrite Z.shiftr_spec by lia. apply B. lia.
Qed.
Lemma mix33_word k : word k -> word (mix33 k).
Proof. intros. unfold mix33. apply lxor_word; auto. apply shiftr_word; auto. lia. Qed.
Lemma mix33_mix33 k : word k -> mix33 (mix33 k) = k.
Proof.
  intros H. unfold mix33. apply Z.bits_inj'. intros i Hi. rewrite !Z.lxor_spec, !Z.shiftr_spec by lia. rewrite Z.lxor_spec, Z.shiftr_spec by lia.
  apply word_bits in H. destruct H as [_ H]. rewrite (H (i + 33 + 33)) by lia. destruct (Z.testbit k i), (Z.testbit k (i + 33)); reflexivity.
Qed.
Lemma mul_inv a b k : w64 (a * b) = 1 -> word k -> w64 (w64 (k * a) * b) = k.
Proof.
  intros E H. unfold w64 in *. rewrite Z.mul_mod_idemp_l by lia. rewrite <- Z.mul_assoc. rewrite <- Z.mul_mod_idemp_r, E by lia. rewrite Z.mul_1_r. now apply w64_id.
Qed.

(** * C65 *)
(** The inverse of the mixing function: the steps backwards, with the inverses of the two factors. *)
Definition unmix (k : Z) : Z :=
  let k := mix33 k in
  let k := w64 (k * 0x9cb4b2f8129337db) in
  let k := mix33 k in
  let k := w64 (k * 0x4f74430c22a54005) in
  mix33 k.
Lemma murmur_word k : word k -> word (murmur64 k).
Proof. intros. unfold murmur64. apply mix33_word, w64_word. Qed.
Lemma unmix_word k : word k -> word (unmix k).
Proof. intros. unfold unmix. apply mix33_word, w64_word. Qed.
Lemma murmur_unmix k : word k -> murmur64 (unmix k) = k.
Proof.
  intros H. unfold murmur64, unmix. rewrite mix33_mix33 by apply w64_word. rewrite mul_inv; [|reflexivity|apply mix33_word, w64_word].
  rewrite mix33_mix33 by apply w64_word. rewrite mul_inv; [|reflexivity|now apply mix33_word]. now apply mix33_mix33.
Qed.
Lemma unmix_murmur k : word k -> unmix (murmur64 k) = k.
Proof.
  intros H. unfold murmur64, unmix. rewrite mix33_mix33 by apply w64_word. rewrite mul_inv; [|reflexivity|apply mix33_word, w64_word].
  rewrite mix33_mix33 by apply w64_word. rewrite mul_inv; [|reflexivity|now apply mix33_word]. now apply mix33_mix33.
Qed.
(** Mixing permutes the words: different addresses never get the same mixed value. *)
Theorem mixing_bijective y : word y -> exists! k, word k /\ murmur64 k = y.
Proof.
  intros H. exists (unmix y). split.
  - split; [now apply unmix_word|now apply murmur_unmix].
  - intros k [Wk <-]. now apply unmix_murmur.
Qed.
Example mixing_ex : word 94129 /\ murmur64 94129 = 0x3636cd8b647711fe.
Proof. split; [unfold word; lia|]. vm_compute. reflexivity. Qed.

Lemma lxor_inj a x y : Z.lxor a x = Z.lxor a y -> x = y.
Proof.
  intros H. assert (E: Z.lxor a (Z.lxor a x) = Z.lxor a (Z.lxor a y)) by now rewrite H. now rewrite <- !Z.lxor_assoc, Z.lxor_nilpotent, !Z.lxor_0_l in E.
Qed.
Lemma combine_word l r : word l -> word (combineHash l r).
Proof. intros. unfold combineHash. apply lxor_word; auto. apply w64_word. Qed.
(** Combining keeps different right operands apart. *)
Theorem combining_injective l r r' : word r -> word r' -> combineHash l r = combineHash l r' -> r = r'.
Proof.
  intros A B H. apply lxor_inj in H. unfold w64 in H.
  set (c := 0x9e3779b97f4a7c15 + w64 (Z.shiftl l 6) + Z.shiftr l 2) in *.
  assert (E: (r + c) mod 2 ^ 64 = (r' + c) mod 2 ^ 64) by (unfold c, w64; rewrite !Z.add_assoc; exact H).
  assert (F: (r + c - c) mod 2 ^ 64 = (r' + c - c) mod 2 ^ 64) by now rewrite <- (Zminus_mod_idemp_l (r + c)), E, Zminus_mod_idemp_l.
  rewrite !Z.add_simpl_r in F. now rewrite !Z.mod_small in F.
Qed.
(** But not different left operands: two left operands with the same result. *)
Theorem combining_left_refuted : exists l l' r, word l /\ word l' /\ word r /\ l <> l' /\ combineHash l r = combineHash l' r.
Proof. exists 0, (2 ^ 64 - 1), 0x41c8864680b5840b. unfold word. repeat split; try lia. Qed.

(** Addresses are words, those of entries even (the lowest bit holds the sign, ComplexTable.hpp:34-43),
    and the entries in use, [live], have distinct ones. *)
Record addresses (na : nptr -> Z) (ea : eaddr -> Z) (live : eaddr -> Prop) : Prop := Addr {
  ad_n : forall p, word (na p);
  ad_e : forall a, word (ea a);
  ad_even : forall a, Z.even (ea a) = true;
  ad_einj : forall a b, live a -> live b -> ea a = ea b -> a = b }.

Section Addr.
Context (na : nptr -> Z) (ea : eaddr -> Z) (live : eaddr -> Prop) (A : addresses na ea live).
Local Notation eptrW := (eptrW ea). Local Notation hashComplex := (hashComplex ea). Local Notation hashEdge := (hashEdge na ea).
Local Notation hashNodes := (hashNodes na ea).

Lemma eptrW_val p : eptrW p = ea (ep_at p) + (if ep_neg p then 1 else 0).
Proof.
  unfold Hash.eptrW. destruct (ep_neg p); [|now rewrite Z.lor_0_r, Z.add_0_r].
  pose proof (ad_even _ _ _ A (ep_at p)) as E. apply Z.even_spec in E. destruct E as [m ->]. assert (L: Z.land (2 * m) 1 = 0).
  { apply Z.bits_inj'. intros i Hi. rewrite Z.land_spec, Z.testbit_0_l. destruct (Z.eq_dec i 0) as [->|]; [now rewrite Z.testbit_even_0|].
    replace (Z.testbit 1 i) with false; [apply andb_false_r|]. symmetry. apply (Z.bits_above_log2 1 i); cbn; lia. }
  rewrite <- Z.lxor_lor by auto. now rewrite Z.add_nocarry_lxor.
Qed.
Lemma eptrW_word p : word (eptrW p).
Proof.
  rewrite eptrW_val. pose proof (ad_e _ _ _ A (ep_at p)) as H. pose proof (ad_even _ _ _ A (ep_at p)) as E. apply Z.even_spec in E. destruct E as [m E]. unfold word in *. change (2 ^ 64) with 18446744073709551616 in *. destruct (ep_neg p); lia.
Qed.
Lemma eptrW_inj p q : live (ep_at p) -> live (ep_at q) -> eptrW p = eptrW q -> p = q.
Proof.
  rewrite !eptrW_val. intros Lp Lq H. pose proof (ad_even _ _ _ A (ep_at p)) as E. pose proof (ad_even _ _ _ A (ep_at q)) as F. apply Z.even_spec in E, F. destruct E as [m E], F as [m' F].
  destruct p as [sp ap], q as [sq aq]. cbn [ep_neg ep_at] in *. assert (sp = sq) by (destruct sp, sq; auto; lia). subst. f_equal. apply (ad_einj _ _ _ A); auto; lia.
Qed.
Lemma murmur_inj a b : word a -> word b -> murmur64 a = murmur64 b -> a = b.
Proof. intros Wa Wb H. rewrite <- (unmix_murmur a Wa), H. now apply unmix_murmur. Qed.
Lemma hashComplex_word c : word (hashComplex c).
Proof. apply combine_word, murmur_word, eptrW_word. Qed.
Lemma hashEdge_word e : word (hashEdge e).
Proof. apply combine_word, murmur_word, A. Qed.
Lemma hashNodes_app es e : hashNodes (es ++ [e]) = combineHash (hashNodes es) (hashEdge e).
Proof. unfold Hash.hashNodes. now rewrite fold_left_app. Qed.
Lemma hashNodes_word es : word (hashNodes es).
Proof.
  induction es as [|e es _] using rev_ind; [unfold word; cbn; lia|]. rewrite hashNodes_app. unfold combineHash. apply lxor_word; [|apply w64_word].
  clear e. induction es as [|e es IH] using rev_ind; [unfold word; cbn; lia|]. rewrite hashNodes_app. now apply combine_word.
Qed.

(** The hash tells weights with the same real part apart, and edges to the same node that differ only
    in the imaginary part of their weights; so it does for nodes that differ only there in their last
    successor. *)
Theorem hash_separates es p r i i' : live (ep_at i) -> live (ep_at i') ->
  (hashComplex (CX r i) = hashComplex (CX r i') <-> i = i') /\
  (hashEdge (Ed p (CX r i)) = hashEdge (Ed p (CX r i')) <-> i = i') /\
  (hashNodes (es ++ [Ed p (CX r i)]) = hashNodes (es ++ [Ed p (CX r i')]) <-> i = i').
Proof.
  intros Li Li'. assert (H1: hashComplex (CX r i) = hashComplex (CX r i') -> i = i').
  { intros H. apply combining_injective in H; try apply murmur_word, eptrW_word. apply eptrW_inj; auto. apply murmur_inj; auto; apply eptrW_word. }
  assert (H2: hashEdge (Ed p (CX r i)) = hashEdge (Ed p (CX r i')) -> i = i').
  { intros H. apply combining_injective in H; try apply hashComplex_word. auto. }
  split; [split; [auto|now intros ->]|]. split; [split; [auto|now intros ->]|]. split; [|now intros ->].
  rewrite !hashNodes_app. intros H. apply combining_injective in H; try apply hashEdge_word. auto.
Qed.

Lemma land_mask h b : 0 <= b -> Z.land h (2 ^ b - 1) = h mod 2 ^ b.
Proof. intros. replace (2 ^ b - 1) with (Z.ones b) by (rewrite Z.ones_equiv; lia). now apply Z.land_ones. Qed.
(** With a power of two of buckets every hash is the number of a bucket, and every bucket is the hash
    of some value. *)
Theorem buckets b es x y : 0 <= b ->
  0 <= uniqueHash na ea (2 ^ b - 1) es < 2 ^ b /\ 0 <= computeHash na ea (2 ^ b - 1) x y < 2 ^ b /\ 0 <= unaryHash na ea (2 ^ b - 1) x < 2 ^ b /\
  (b <= 64 -> forall n l, 0 <= n < 2 ^ b -> word l -> exists r, word r /\ Z.land (combineHash l r) (2 ^ b - 1) = n).
Proof.
  intros Hb. assert (P: 0 < 2 ^ b) by (apply Z.pow_pos_nonneg; lia). unfold uniqueHash, computeHash, unaryHash. rewrite !land_mask by auto.
  split; [now apply Z.mod_pos_bound|]. split; [now apply Z.mod_pos_bound|]. split; [now apply Z.mod_pos_bound|].
  intros Hb' n l Hn Hl. assert (Wn: word n). { split; [lia|]. apply Z.lt_le_trans with (2 ^ b); [lia|]. apply Z.pow_le_mono_r; lia. }
  set (c := 0x9e3779b97f4a7c15 + w64 (Z.shiftl l 6) + Z.shiftr l 2). exists (w64 (Z.lxor l n - c)). split; [apply w64_word|].
  rewrite land_mask by auto. replace (combineHash l (w64 (Z.lxor l n - c))) with n; [now apply Z.mod_small|].
  unfold combineHash. rewrite <- !Z.add_assoc. rewrite (Z.add_assoc 0x9e3779b97f4a7c15). fold c. unfold w64 at 1 2. rewrite Z.add_mod_idemp_l by lia.
  rewrite Z.sub_add, Z.mod_small by now apply lxor_word. now rewrite <- Z.lxor_assoc, Z.lxor_nilpotent, Z.lxor_0_l.
Qed.
End Addr.

(** ** An instance: addresses as an allocator might give them *)
Definition naH (p : nptr) : Z := match p with PNull => 0 | PTerm => 4096 | PNode n => w64 (65536 + 96 * Z.of_nat n) end.
Definition eaH (a : eaddr) : Z :=
  match a with AZero => 512 | ASqrt2 => 544 | AOne => 576 | ATab n => w64 (1048576 + 64 * Z.of_nat n) | ACache n => w64 (1048608 + 64 * Z.of_nat n) end.
Definition liveH (a : eaddr) : Prop := match a with ATab n | ACache n => Z.of_nat n < 1000000 | _ => True end.
Lemma liveH_ok : addresses naH eaH liveH.
Proof.
  assert (E: forall x, Z.even (w64 (2 * x)) = true).
  { intros x. unfold w64. rewrite Z.even_spec. exists (x mod 2 ^ 63). change (2 ^ 64) with (2 * 2 ^ 63). rewrite Z.mul_mod_distr_l; lia. }
  split.
  - intros [| |n]; [unfold word; cbn; lia..|apply w64_word].
  - intros [| | |n|n]; try apply w64_word; unfold word; cbn; lia.
  - intros [| | |n|n]; try reflexivity; cbn [eaH]; [replace (1048576 + 64 * Z.of_nat n) with (2 * (524288 + 32 * Z.of_nat n)) by lia|replace (1048608 + 64 * Z.of_nat n) with (2 * (524304 + 32 * Z.of_nat n)) by lia]; apply E.
  - intros a b La Lb. destruct a as [| | |n|n], b as [| | |m|m]; cbn [eaH liveH] in *; try reflexivity; try discriminate;
      rewrite ?w64_id by (unfold word; change (2 ^ 64) with 18446744073709551616; lia); intros H; try (exfalso; lia); f_equal; lia.
Qed.
Example hash_separates_ex : liveH AOne /\ liveH (ATab 7) /\
  Z.land (hashEdge naH eaH (Ed (PNode 3) (CX (EP false AZero) (EP false AOne)))) 32767 = 20628 /\
  Z.land (hashEdge naH eaH (Ed (PNode 3) (CX (EP false AZero) (EP true AOne)))) 32767 = 30263.
Proof. split; [exact Logic.I|]. split; [cbn; lia|]. split; vm_compute; reflexivity. Qed.

(** The package with these hash functions; where the cast is undefined, some value. *)
Definition gH : cfg NumF :=
  Cfg NumF (CTcfg 65 2048 2 65536) 4 2 131072 (fun _ es => hashNodes naH eaH es)
      (fun _ a b => match addHash naH 16383 a b with Some h => h | None => 0 end)
      (fun o a b => computeHash naH eaH (match o with BMV | BMM => 16383 | BDD => 0 | _ => 4095 end) a b) (fun _ a => unaryHash naH eaH 4095 a).
Lemma gH_ok : gok gH.
Proof. split; [repeat split; cbn; try lia; reflexivity|]. cbn. split; [lia|]. split; [lia|]. exists 2. reflexivity. Qed.
Definition nbH (k : kind) : Z := match k with KD => 1 | _ => 32768 end.
Definition f_1 : NumF := nneg f1.
Definition progH : list (ins NumF) := [IVec [(f_1, f0); (f0, f0)]; IVec [(f0, f0); (f1, f0)]; IAdd KV 0 1].
Definition sH : option (st NumF) := match run NumF gH nbH progH [] (pkg_init NumF gH 1) with Ok _ s => Some s | _ => None end.
Definition keyH : option (vedge NumF * vedge NumF * vedge NumF) := match sH with Some s => tb_ent (s_add s KV) 0 | None => None end.
Definition undefH : bool := match keyH with Some (a, _, _) => match hashValue (vw a) with None => SFltb (fst (vw a)) F0 | Some _ => false end | None => false end.
Lemma undefH_true : undefH = true.
Proof. vm_compute. reflexivity. Qed.
(** -|0> + |1> is added: the sum is stored under a key with the negative weight -1, whose hash is
    undefined, as the cast of a negative number to std::size_t is. *)
Theorem cached_hash_refuted : exists s a b r, sH = Some s /\ tb_ent (s_add s KV) 0 = Some (a, b, r) /\
  SFltb (fst (vw a)) F0 = true /\ forall na, hashCached na a = None.
Proof.
  pose proof undefH_true as H. unfold undefH, keyH in H. destruct sH as [s|] eqn:E; [|discriminate]. destruct (tb_ent (s_add s KV) 0) as [[[a b] r]|] eqn:F; [|discriminate].
  exists s, a, b, r. split; [reflexivity|]. split; [exact F|]. destruct (hashValue (vw a)) eqn:V; [discriminate|]. split; [exact H|]. intros na. unfold hashCached. now rewrite V.
Qed.

(** The value of a finite double. *)
Definition Fval (x : spec_float) : R :=
  match x with S754_finite s m e => (if s then -1 else 1) * IZR (Z.pos m) * powerRZ 2 e | _ => 0 end%R.
Definition Ffinite (x : spec_float) : Prop := match x with S754_zero _ | S754_finite _ _ _ => True | _ => False end.
Lemma round_mag m e : let r := if 0 <=? e then Z.pos m * 2 ^ e else (Z.pos m + 2 ^ (- e - 1)) / 2 ^ (- e) in
  (IZR r - 1 / 2 <= IZR (Z.pos m) * powerRZ 2 e < IZR r + 1 / 2)%R /\ 0 <= r.
Proof.
  cbv zeta. destruct (Z.leb_spec 0 e) as [H|H].
  - replace (powerRZ 2 e) with (IZR (2 ^ e)).
    + rewrite <- mult_IZR. split; [lra|]. pose proof (Z.pow_nonneg 2 e). lia.
    + rewrite <- (Z2Nat.id e) at 1 2 by auto. rewrite <- pow_powerRZ, pow_IZR. reflexivity.
  - set (k := - e - 1). assert (Hk: 0 <= k) by lia. replace (- e) with (k + 1) by lia. rewrite Z.pow_add_r, Z.pow_1_r by lia.
    assert (P: 0 < 2 ^ k) by (apply Z.pow_pos_nonneg; lia). set (d := 2 ^ k) in *. set (r := (Z.pos m + d) / (d * 2)).
    assert (B: d * 2 * r <= Z.pos m + d < d * 2 * r + d * 2).
    { pose proof (Z.div_mod (Z.pos m + d) (d * 2)). pose proof (Z.mod_pos_bound (Z.pos m + d) (d * 2)). fold r in H0. lia. }
    replace (powerRZ 2 e) with (/ (IZR d * 2))%R.
    + assert (Pd: (0 < IZR d)%R) by now apply IZR_lt. destruct B as [B1 B2]. apply IZR_le in B1. apply IZR_lt in B2. rewrite plus_IZR, !mult_IZR in B1. rewrite !plus_IZR, !mult_IZR in B2.
      assert (Q: (IZR (Z.pos m) * / (IZR d * 2) * (IZR d * 2) = IZR (Z.pos m))%R) by (field; lra).
      split; [|apply Z.div_pos; lia]. split.
      * apply Rmult_le_reg_r with (IZR d * 2)%R; [lra|]. rewrite Q. lra.
      * apply Rmult_lt_reg_r with (IZR d * 2)%R; [lra|]. rewrite Q. lra.
    + replace e with (- (k + 1)) by lia. rewrite powerRZ_neg'. rewrite powerRZ_add by lra. rewrite powerRZ_1.
      f_equal. f_equal. unfold d. rewrite <- (Z2Nat.id k) by auto. rewrite <- pow_powerRZ, pow_IZR. reflexivity.
Qed.
(** The hash of a component is defined exactly if its quotient by the tolerance is finite and between
    -1/2 and 2^64 - 1/2, and then the word is the quotient rounded to the nearest integer. *)
Theorem cached_hash_defined v : (exists w, toWord v = Some w) <->
  Ffinite (SFdiv 53 1024 v Ftol) /\ (-1 / 2 < Fval (SFdiv 53 1024 v Ftol) < IZR (2 ^ 64) - 1 / 2)%R.
Proof.
  assert (P: (1 < IZR (2 ^ 64))%R) by now apply IZR_lt.
  unfold toWord. destruct (SFdiv 53 1024 v Ftol) as [s|s| |s m e]; cbn [roundF Ffinite Fval].
  - split; [intros _; split; [exact Logic.I|lra]|intros _; now exists 0].
  - split; [intros [w H]; discriminate|intros [[] _]].
  - split; [intros [w H]; discriminate|intros [[] _]].
  - destruct (round_mag m e) as [B P0]. set (r := if 0 <=? e then _ else _) in *. assert (Py: (0 < IZR (Z.pos m) * powerRZ 2 e)%R) by (apply Rmult_lt_0_compat; [now apply IZR_lt|apply powerRZ_lt; lra]). set (y := powerRZ 2 e) in *.
    destruct s; cbv iota.
    + destruct (Z.leb_spec 0 (- r)) as [H|H]; cbn [andb].
      * assert (H0: r = 0) by lia. destruct (Z.ltb_spec (- r) (2 ^ 64)); [|lia]. split; [intros _; split; [exact Logic.I|]|eauto]. rewrite H0 in B. lra.
      * split; [intros [w E]; discriminate|]. intros [_ [A _]]. assert (1 <= r) as Q by lia. apply IZR_le in Q. lra.
    + destruct (Z.leb_spec 0 r) as [H|H]; [|lia]. cbn [andb]. apply IZR_le in H. destruct (Z.ltb_spec r (2 ^ 64)) as [L|L].
      * split; [intros _; split; [exact Logic.I|]|eauto]. assert (r <= 2 ^ 64 - 1) as L' by lia. apply IZR_le in L'. rewrite minus_IZR in L'. lra.
      * split; [intros [w E]; discriminate|]. intros [_ [_ A]]. apply IZR_le in L. lra.
Qed.
Example cached_hash_ex : toWord F1 = Some (2 ^ 42) /\ toWord (SFopp F1) = None /\ toWord (SFopp (SFmul 53 1024 Ftol (SFmul 53 1024 Fhalf Fhalf))) = Some 0.
Proof. repeat split; vm_compute; reflexivity. Qed.
Lemma toWord_word v w : toWord v = Some w -> word w.
Proof. unfold toWord. destruct (roundF _) as [r|]; [|discriminate]. destruct (_ && _) eqn:E; [|discriminate]. intros [= <-]. apply andb_prop in E. destruct E as [E F]. unfold word. lia. Qed.
(** Cached edges to the same node with the same real part are kept apart by their imaginary parts, up to
    rounding to multiples of the tolerance. *)
Theorem cached_hash_separates na p (x y y' : NumF) h : hashCached na (VE p (x, y)) = Some h -> hashCached na (VE p (x, y')) = Some h ->
  exists w, toWord y = Some w /\ toWord y' = Some w.
Proof.
  unfold hashCached, hashValue. cbn [vw vp fst snd].
  destruct (toWord x) as [a|] eqn:Ex; [|discriminate]. destruct (toWord y) as [b|] eqn:Ey; [|discriminate]. destruct (toWord y') as [b'|] eqn:Ey'; [|discriminate].
  intros [= <-] [= H]. exists b. split; auto. apply toWord_word in Ex, Ey, Ey'.
  apply combining_injective in H; [|apply combine_word, murmur_word; auto|apply combine_word, murmur_word; auto].
  apply combining_injective in H; [|apply murmur_word; auto|apply murmur_word; auto].
  f_equal. rewrite <- (unmix_murmur b') by auto. rewrite H. now apply unmix_murmur.
Qed.
(** Two imaginary parts less than half a tolerance apart *)
Example cached_hash_separates_ex : match hashCached naH (@VE NumF PTerm (F1, F1)), hashCached naH (@VE NumF PTerm (F1, SFadd 53 1024 F1 (SFmul 53 1024 Ftol (SFmul 53 1024 Fhalf Fhalf)))), hashCached naH (@VE NumF PTerm (F1, Fhalf)) with
  | Some a, Some b, Some c => a = b /\ a <> c | _, _, _ => False end.
Proof. vm_compute. split; [reflexivity|discriminate]. Qed.
(** The value under the default number of buckets is the hash of the code. *)
Theorem node_buckets k es : k <> KD -> ukey NumF gH nbH k es = uniqueHash naH eaH 32767 es.
Proof. intros K. unfold ukey, uniqueHash. cbn [g_hut gH]. change 32767 with (2 ^ 15 - 1). rewrite land_mask by lia. now destruct k. Qed.

(** In the table of Toffoli gates all gates with target 0 or a control on qubit 0 share bucket 0: the
    hash is a product (ToffoliTable.hpp:63-73). *)
Theorem toffoli_buckets k : tk_t k = 0 \/ (exists c, In c (tk_c k) /\ cqb c = 0) -> tof_hash k = 0.
Proof.
  unfold tof_hash. set (F := fun key c => _).
  assert (Z0: forall cs, fold_left F cs 0 = 0). { induction cs as [|c cs IH]; cbn; auto. }
  intros [->|[c [I E]]]; [now rewrite Z0|].
  generalize (tk_t k mod 256). induction (tk_c k) as [|d cs IH]; [contradiction|]. intros x. cbn [fold_left].
  destruct I as [->|I]; [|now apply IH]. replace (F x c) with 0; [now rewrite Z0|]. unfold F. rewrite E. now rewrite Z.mod_0_l, Z.mul_0_r, Z.mod_0_l, Z.mul_0_r, Z.mod_0_l by lia.
Qed.
(** So one of them replaces the other: the gate stored first is no longer found. *)
Example toffoli_buckets_ex : let a := TK 3 [Ctl 0 true; Ctl 1 true] 2 in let b := TK 3 [Ctl 0 true; Ctl 2 true] 1 in
  let e := Ed (PNode 5) Cone in
  tof_hash a = 0 /\ tof_hash b = 0 /\ fst (tof_lookup (tof_insert (tof_insert tb_empty a e) b e) a) = None.
Proof. repeat split; vm_compute; reflexivity. Qed.

Print Assumptions mixing_bijective.
Print Assumptions combining_injective.
Print Assumptions combining_left_refuted.
Print Assumptions hash_separates.
Print Assumptions buckets.
Print Assumptions cached_hash_refuted.
Print Assumptions cached_hash_defined.
Print Assumptions cached_hash_separates.
Print Assumptions node_buckets.
Print Assumptions toffoli_buckets.
