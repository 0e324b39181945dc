(** Facts about the text format: what the regular expressions take, and the numbers read from digits. *)
From Coq Require Import String Ascii ZArith List Bool Lia Arith SpecFloat.
From Verif Require Import Num Base State Serial Text.
Import ListNotations.
Local Open Scope Z_scope.

(** ** Matching *)

(** [r] can take [a] before [rest] and turn the groups [c] into [c'], and this is tried before any other
    way that succeeds. *)
Definition takes (r : re) (a rest : text) (c c' : caps) : Prop :=
  forall k x, k rest c' = Some x -> mt r (a ++ rest) c k = Some x.
(** [r] cannot be matched at the beginning of [s]. *)
Definition fails (r : re) (s : text) : Prop := forall c k, mt r s c k = None.
(** The next character is not in [p]. *)
Definition next_not (p : cls) (s : text) : Prop := match s with [] => True | a :: _ => inCls p a = false end.

Lemma takes_set p a rest c : inCls p a = true -> takes (RSet p) [a] rest c c.
Proof. intros H k x Hk. cbn. now rewrite H. Qed.
Lemma takes_seq r1 r2 a b rest c c1 c2 : takes r1 a (b ++ rest) c c1 -> takes r2 b rest c1 c2 -> takes (RSeq r1 r2) (a ++ b) rest c c2.
Proof. intros H1 H2 k x Hk. cbn [mt]. rewrite <- app_assoc. apply H1. now apply H2. Qed.
Lemma takes_alt1 r1 r2 a rest c c' : takes r1 a rest c c' -> takes (RAlt r1 r2) a rest c c'.
Proof. intros H k x Hk. cbn [mt]. now rewrite (H k x Hk). Qed.
Lemma takes_opt1 r a rest c c' : takes r a rest c c' -> takes (ROpt r) a rest c c'.
Proof. intros H k x Hk. cbn [mt]. now rewrite (H k x Hk). Qed.
Lemma takes_opt0 r rest c : fails r rest -> takes (ROpt r) [] rest c c.
Proof. intros H k x Hk. cbn [mt app]. now rewrite H. Qed.
Lemma takes_star p a rest c : forallb (inCls p) a = true -> next_not p rest -> takes (RStar p) a rest c c.
Proof.
  intros H F k x Hk. cbn [mt]. induction a as [|y a IH]; cbn [app].
  - destruct rest as [|y rest]; cbn [star]; auto. cbn in F. now rewrite F.
  - cbn in H. apply andb_prop in H. destruct H as [Hy H]. cbn [star]. now rewrite Hy, (IH H).
Qed.
Lemma cap_text (a rest : text) : firstn (List.length (a ++ rest) - List.length rest) (a ++ rest) = a.
Proof. rewrite app_length. replace (_ - _)%nat with (List.length a) by lia. rewrite firstn_app, firstn_all, Nat.sub_diag. cbn. apply app_nil_r. Qed.
Lemma takes_cap n r a rest c c' : takes r a rest c c' -> takes (RCap n r) a rest c (setcap c' n a).
Proof. intros H k x Hk. cbn [mt]. apply H. now rewrite cap_text. Qed.
Lemma takes_not r rest c : fails r rest -> takes (RNot r) [] rest c c.
Proof. intros H k x Hk. cbn [mt app]. now rewrite H. Qed.

Lemma fails_set p s : next_not p s -> fails (RSet p) s.
Proof. intros H c k. destruct s as [|a s]; auto. cbn in *. now rewrite H. Qed.
Lemma fails_seq r1 r2 s : fails r1 s -> fails (RSeq r1 r2) s.
Proof. intros H c k. cbn. apply H. Qed.
Lemma fails_cap n r s : fails r s -> fails (RCap n r) s.
Proof. intros H c k. cbn. apply H. Qed.

(** What a match of [r] can leave over, whatever is tried first; conditions on what follows are ignored. *)
Fixpoint eats (r : re) (s t : text) : Prop :=
  match r with
  | REps => t = s
  | RSet p => exists a, s = a :: t /\ inCls p a = true
  | RSeq a b => exists u, eats a s u /\ eats b u t
  | RAlt a b => eats a s t \/ eats b s t
  | ROpt a => eats a s t \/ t = s
  | RStar p => exists l, s = l ++ t /\ forallb (inCls p) l = true
  | RCap _ a => eats a s t
  | RNot _ => t = s
  end.
Lemma star_sound p s k x : star p s k = Some x -> exists l t, s = l ++ t /\ forallb (inCls p) l = true /\ k t = Some x.
Proof.
  induction s as [|a s IH]; cbn; intros H; [exists [], []; auto|]. destruct (inCls p a) eqn:E; [|exists [], (a :: s); auto].
  destruct (star p s k) eqn:F; [|exists [], (a :: s); auto]. injection H as ->. destruct (IH eq_refl) as (l & t & -> & Hl & Hk).
  exists (a :: l), t. cbn. now rewrite E.
Qed.
Lemma mt_sound r : forall s c k x, mt r s c k = Some x -> exists t c', eats r s t /\ k t c' = Some x.
Proof.
  induction r as [|p|a IHa b IHb|a IHa b IHb|a IHa|p|n a IHa|a IHa]; intros s c k x H; cbn [mt eats] in *.
  - eauto.
  - destruct s as [|y s]; [discriminate|]. destruct (inCls p y) eqn:E; [|discriminate]. exists s, c. eauto.
  - apply IHa in H. destruct H as (u & c1 & Hu & H). apply IHb in H. destruct H as (t & c2 & Ht & H). eauto 6.
  - destruct (mt a s c k) eqn:E; [|apply IHb in H; destruct H as (t & c2 & Ht & H); eauto]. injection H as ->. apply IHa in E. destruct E as (t & c2 & Ht & E). eauto.
  - destruct (mt a s c k) eqn:E; [|eauto]. injection H as ->. apply IHa in E. destruct E as (t & c2 & Ht & E). eauto.
  - apply star_sound in H. destruct H as (l & t & -> & Hl & Hk). exists t, c. eauto.
  - apply IHa in H. destruct H as (t & c2 & Ht & H). eauto.
  - destruct (mt a s c _) eqn:E; [discriminate|]. eauto.
Qed.

(** ** Digits *)
Definition ten : text := ["0"; "1"; "2"; "3"; "4"; "5"; "6"; "7"; "8"; "9"]%char.
Lemma digit_ten a : isDigit a = true -> In a ten.
Proof. destruct a as [[] [] [] [] [] [] [] []]; vm_compute; intros H; try discriminate; tauto. Qed.
Ltac dig H := apply digit_ten in H; cbn [In ten] in H; repeat (destruct H as [<-|H]; [reflexivity|]); destruct H.
Definition isDot (a : ascii) : bool := inCls (COf [COne " "; CDigit; COne "."])%char a.
Lemma digit_dot a : isDigit a = true -> isDot a = true.
Proof. intros H. dig H. Qed.
Lemma digitChar_digit d : 0 <= d < 10 -> isDigit (digitChar d) = true /\ digitVal (digitChar d) = d.
Proof.
  intros H. assert (C: d = 0 \/ d = 1 \/ d = 2 \/ d = 3 \/ d = 4 \/ d = 5 \/ d = 6 \/ d = 7 \/ d = 8 \/ d = 9) by lia.
  repeat (destruct C as [->|C]; [split; reflexivity|]). subst. split; reflexivity.
Qed.
Lemma digitVal_bound a : isDigit a = true -> 0 <= digitVal a < 10.
Proof. intros H. apply digit_ten in H. cbn [In ten] in H. repeat (destruct H as [<-|H]; [vm_compute; split; congruence|]). destruct H. Qed.

Definition digits (l : text) : Prop := forallb isDigit l = true.
Lemma digits_app l m : digits (l ++ m) <-> digits l /\ digits m.
Proof. unfold digits. rewrite forallb_app, andb_true_iff. tauto. Qed.
Lemma digits_cons a l : digits (a :: l) <-> isDigit a = true /\ digits l.
Proof. unfold digits. cbn. rewrite andb_true_iff. tauto. Qed.
Lemma digits_firstn n l : digits l -> digits (firstn n l).
Proof. intros H. rewrite <- (firstn_skipn n l), digits_app in H. tauto. Qed.
Lemma digits_skipn n l : digits l -> digits (skipn n l).
Proof. intros H. rewrite <- (firstn_skipn n l), digits_app in H. tauto. Qed.

Lemma val_app l m : digitsVal (l ++ m) = digitsVal l * 10 ^ Z.of_nat (List.length m) + digitsVal m.
Proof.
  unfold digitsVal. rewrite fold_left_app. generalize (fold_left (fun z a => 10 * z + digitVal a) l 0). intros z. revert z.
  assert (G: forall m z, fold_left (fun z a => 10 * z + digitVal a) m z = z * 10 ^ Z.of_nat (List.length m) + fold_left (fun z a => 10 * z + digitVal a) m 0).
  { clear. induction m as [|a m IH]; intros z; [cbn; lia|]. cbn [fold_left List.length]. rewrite (IH (10 * z + _)), (IH (10 * 0 + _)). rewrite Nat2Z.inj_succ, Z.pow_succ_r by lia. lia. }
  intros z. apply G.
Qed.
Lemma val_one a : digitsVal [a] = digitVal a.
Proof. reflexivity. Qed.
Lemma val_zeros n : digitsVal (repeat "0"%char n) = 0.
Proof. induction n as [|n IH]; auto. Qed.
Lemma digits_zeros n : digits (repeat "0"%char n).
Proof. induction n as [|n IH]; [reflexivity|]. cbn [repeat]. apply digits_cons. auto. Qed.

Lemma digitsF_spec fuel : forall z acc, 0 <= z -> z < 10 ^ Z.of_nat fuel -> digits acc ->
  exists l, digitsF fuel z acc = l ++ acc /\ digits l /\ digitsVal l = z /\ (fuel <> O -> l <> []) /\ (z <> 0 -> 10 ^ (Z.of_nat (List.length l) - 1) <= z) /\ z < 10 ^ Z.of_nat (List.length l).
Proof.
  induction fuel as [|fuel IH]; intros z acc Hz Hf Ha.
  - cbn in Hf. exists []. cbn. assert (z = 0) by lia. subst. repeat split; auto; try lia.
  - cbn [digitsF]. destruct (Z.ltb_spec z 10) as [L|L].
    + destruct (digitChar_digit z) as [D V]; [lia|]. exists [digitChar z]. split; [reflexivity|]. split; [now apply digits_cons|]. rewrite val_one. split; auto. split; [congruence|]. cbn. lia.
    + pose proof (Z.div_mod z 10). pose proof (Z.mod_pos_bound z 10). destruct (digitChar_digit (z mod 10)) as [D V]; [lia|].
      rewrite Nat2Z.inj_succ, Z.pow_succ_r in Hf by lia.
      destruct (IH (z / 10) (digitChar (z mod 10) :: acc)) as (l & E & Dl & Vl & Ne & B1 & B2); [lia|lia|now apply digits_cons|].
      exists (l ++ [digitChar (z mod 10)]). rewrite E, <- app_assoc. split; [reflexivity|]. split; [apply digits_app; split; auto; now apply digits_cons|].
      rewrite val_app, val_one, Vl, V. cbn [List.length]. split; [cbn; lia|]. split; [intros _ Q; now apply app_eq_nil in Q|].
      rewrite app_length. cbn [List.length]. rewrite Nat2Z.inj_add. change (Z.of_nat 1) with 1. split.
      * intros _. assert (B3: 10 ^ (Z.of_nat (List.length l) - 1) <= z / 10) by (apply B1; lia). assert (Ln: (List.length l <> 0)%nat).
        { intros Q. rewrite Q in B2. cbn in B2. lia. }
        replace (Z.of_nat (List.length l) + 1 - 1) with (Z.succ (Z.of_nat (List.length l) - 1)) by lia. rewrite Z.pow_succ_r by lia. lia.
      * rewrite Z.pow_add_r by lia. change (10 ^ 1) with 10. lia.
Qed.
Lemma showN_spec z : 0 <= z -> digits (showN z) /\ showN z <> [] /\ digitsVal (showN z) = z /\
  (z <> 0 -> 10 ^ (Z.of_nat (List.length (showN z)) - 1) <= z) /\ z < 10 ^ Z.of_nat (List.length (showN z)).
Proof.
  intros Hz. destruct (digitsF_spec (S (Z.to_nat (Z.log2 z))) z []) as (l & E & D & V & Ne & B1 & B2); auto; [|reflexivity|].
  - rewrite Nat2Z.inj_succ, Z2Nat.id by apply Z.log2_nonneg. destruct (Z.eq_dec z 0) as [->|]; [reflexivity|].
    pose proof (Z.log2_spec z). apply Z.lt_le_trans with (2 ^ Z.succ (Z.log2 z)); [lia|]. apply Z.pow_le_mono_l. lia.
  - unfold showN. rewrite E, app_nil_r. repeat split; auto.
Qed.
(** The number of digits *)
Lemma showN_length z k : 1 <= k -> 10 ^ (k - 1) <= z < 10 ^ k -> Z.of_nat (List.length (showN z)) = k.
Proof.
  intros Hk [A B]. assert (P: 0 < 10 ^ (k - 1)) by (apply Z.pow_pos_nonneg; lia). destruct (showN_spec z) as (_ & Ne & _ & B1 & B2); [lia|]. specialize (B1 ltac:(lia)).
  set (L := Z.of_nat (List.length (showN z))) in *. assert (HL: 0 <= L) by lia.
  assert (k - 1 < L). { apply Z.pow_lt_mono_r_iff with 10; lia. }
  assert (L - 1 < k). { destruct (Z_lt_le_dec (L - 1) k) as [|Q]; auto. apply (Z.pow_le_mono_r 10) in Q; lia. } lia.
Qed.

Lemma digitsOf_app d rest : digits d -> next_not CDigit rest -> digitsOf (d ++ rest) = (d, rest).
Proof.
  intros H F. induction d as [|a d IH]; cbn [app digitsOf].
  - destruct rest as [|a r]; auto. cbn in *. now rewrite F.
  - apply digits_cons in H. destruct H as [Ha H]. now rewrite Ha, (IH H).
Qed.

(** ** Integers *)
Lemma skipWs_id a s : isDigit a = true \/ a = "+"%char \/ a = "-"%char -> skipWs (a :: s) = a :: s.
Proof. intros [H|[->| ->]]; try reflexivity. dig H. Qed.
Lemma signOf_digit a s : isDigit a = true -> signOf (a :: s) = (false, a :: s).
Proof. intros H. dig H. Qed.
Lemma stoi_showZ z : - 2 ^ 31 <= z < 2 ^ 31 -> stoi (showZ z) = TOk z.
Proof.
  intros H. assert (R: (- 2 ^ 31 <=? z) && (z <? 2 ^ 31) = true) by (apply andb_true_intro; split; [apply Z.leb_le|apply Z.ltb_lt]; lia).
  unfold showZ, stoi. destruct (Z.ltb_spec z 0) as [L|L].
  - destruct (showN_spec (- z)) as (D & Ne & V & _); [lia|]. rewrite skipWs_id by auto. cbn [signOf]. destruct (showN (- z)) as [|a l] eqn:E; [congruence|].
    rewrite <- (app_nil_r (a :: l)) at 1. rewrite digitsOf_app by (auto; exact Logic.I). cbn [app]. rewrite V, Z.opp_involutive, R. reflexivity.
  - destruct (showN_spec z) as (D & Ne & V & _); auto. destruct (showN z) as [|a l] eqn:E; [congruence|]. assert (Da: isDigit a = true) by (now apply digits_cons in D).
    rewrite skipWs_id, signOf_digit by auto. rewrite <- (app_nil_r (a :: l)) at 1. rewrite digitsOf_app by (auto; exact Logic.I). rewrite V, R. reflexivity.
Qed.

(** ** Numerals *)

(** A decimal number as written: digits, digits of the fraction and an exponent *)
Record numeral := Nm { nm_neg : bool; nm_ip : text; nm_fp : text; nm_ex : option (bool * text) }.
Definition exText (e : option (bool * text)) : text :=
  match e with None => [] | Some (b, d) => "e" :: (if b then "-" else "+") :: d end%char.
(** The text without the sign *)
Definition absText (n : numeral) : text := nm_ip n ++ pointed (nm_fp n) ++ exText (nm_ex n).
Definition nText (n : numeral) : text := (if nm_neg n then lit "-" else []) ++ absText n.
Record nok (n : numeral) : Prop := Nok {
  no_ip : digits (nm_ip n); no_ne : nm_ip n <> []; no_fp : digits (nm_fp n);
  no_ex : match nm_ex n with None => True | Some (_, d) => digits d /\ d <> [] end }.
(** Its value *)
Definition exVal (e : option (bool * text)) : Z := match e with None => 0 | Some (b, d) => if b then - digitsVal d else digitsVal d end.
Definition nDec (n : numeral) : dec := Dec (nm_neg n) (digitsVal (nm_ip n ++ nm_fp n)) (exVal (nm_ex n) - Z.of_nat (List.length (nm_fp n))).

(** Nothing after the number belongs to it. *)
Definition ends (s : text) : Prop := match s with [] => True | a :: _ => isDigit a = false /\ a <> "."%char /\ a <> "e"%char /\ a <> "E"%char end.
Lemma ends_digit s : ends s -> next_not CDigit s.
Proof. destruct s; cbn; tauto. Qed.
Lemma absText_cons n : nok n -> exists a t, absText n = a :: t /\ isDigit a = true.
Proof. intros [H1 H2 _ _]. unfold absText. destruct (nm_ip n) as [|a l]; [congruence|]. exists a, (l ++ pointed (nm_fp n) ++ exText (nm_ex n)). split; auto. now apply digits_cons in H1. Qed.
Lemma ex_nodigit e : next_not CDigit (exText e).
Proof. destruct e as [[b d]|]; cbn; auto. Qed.
Lemma stod_abs n : nok n -> forall neg, (let (ip, u) := digitsOf (absText n) in
  let (fp, u) := match u with "." :: u' => digitsOf u' | _ => ([], u) end%char in
  match ip ++ fp with
  | [] => TThr TInvalid
  | ds => TOk (Dec neg (digitsVal ds) ((match u with
                | a :: u' => if (Ascii.eqb a "e" || Ascii.eqb a "E")%char then
                               let (en, w) := signOf u' in
                               match digitsOf w with ([], _) => 0 | (d, _) => if en then - digitsVal d else digitsVal d end
                             else 0
                | [] => 0
                end) - Z.of_nat (List.length fp)))
  end) = TOk (Dec neg (digitsVal (nm_ip n ++ nm_fp n)) (exVal (nm_ex n) - Z.of_nat (List.length (nm_fp n)))).
Proof.
  intros [H1 H2 H3 H4] neg. unfold absText. destruct n as [sg ip fp ex]. cbn [nm_neg nm_ip nm_fp nm_ex] in *.
  assert (Ex: forall f : Z -> tres dec, f (match exText ex with
                | a :: u' => if (Ascii.eqb a "e" || Ascii.eqb a "E")%char then
                               let (en, w) := signOf u' in
                               match digitsOf w with ([], _) => 0 | (d, _) => if en then - digitsVal d else digitsVal d end
                             else 0
                | [] => 0
                end) = f (exVal ex)).
  { intros f. f_equal. destruct ex as [[b d]|]; auto. destruct H4 as [H4 H5]. cbn [exText]. change (Ascii.eqb "e" "e" || Ascii.eqb "e" "E")%char with true. cbn iota.
    replace (signOf ((if b then "-" else "+")%char :: d)) with (b, d) by (destruct b; reflexivity). rewrite <- (app_nil_r d) at 1. rewrite digitsOf_app by (auto; exact Logic.I). destruct d; [congruence|]. reflexivity. }
  destruct fp as [|f0 fp].
  - cbn [pointed app]. rewrite digitsOf_app by (auto; apply ex_nodigit).
    assert (Q: match exText ex with "." :: u' => digitsOf u' | _ => ([], exText ex) end%char = ([], exText ex)) by (destruct ex as [[b d]|]; reflexivity).
    rewrite Q. destruct (ip ++ []) as [|a l] eqn:E; [apply app_eq_nil in E; tauto|]. apply (Ex (fun z => TOk (Dec neg (digitsVal (a :: l)) (z - Z.of_nat (List.length (@nil ascii)))))).
  - rewrite digitsOf_app by (auto; reflexivity). cbn [pointed app]. change (f0 :: fp ++ exText ex) with ((f0 :: fp) ++ exText ex). rewrite digitsOf_app by (auto; apply ex_nodigit).
    destruct (ip ++ f0 :: fp) as [|a l] eqn:E; [apply app_eq_nil in E; destruct E; discriminate|]. apply (Ex (fun z => TOk (Dec neg (digitsVal (a :: l)) (z - Z.of_nat (List.length (f0 :: fp)))))).
Qed.
Lemma stod_nText n : nok n -> stod (nText n) = TOk (nDec n).
Proof.
  intros H. unfold stod, nText, nDec. destruct (absText_cons n H) as (a & t & E & Da). pose proof (stod_abs n H (nm_neg n)) as S. destruct (nm_neg n).
  - cbn [lit list_ascii_of_string app]. rewrite skipWs_id by auto. cbn [signOf]. exact S.
  - cbn [app]. rewrite E in *. rewrite skipWs_id, signOf_digit by auto. exact S.
Qed.
Lemma stod_plus n : nok n -> nm_neg n = false -> stod ("+"%char :: nText n) = TOk (nDec n).
Proof.
  intros H P. unfold stod, nText, nDec. rewrite P. cbn [app]. rewrite skipWs_id by auto. cbn [signOf]. apply (stod_abs n H false).
Qed.

(** ** What the expressions for weights take *)
Definition sgnC : cls := COf [COne "+"; COne "-"]%char.
Definition expC : cls := COf [COne "e"; COne "E"]%char.
Definition dotC : cls := COf [COne " "; CDigit; COne "."]%char.
Definition iC : cls := COf [COne "i"; COne "I"]%char.
Definition digRe : re := RSeq (RSet CDigit) (RStar CDigit).
Definition bodyRe : re := RAlt (RSeq digRe (ROpt (RSeq (RSet (COne "."%char)) (RStar CDigit)))) (RSeq (RSet (COne "."%char)) digRe).
Definition exRe : re := RSeq (RSet expC) (RSeq (ROpt (RSet sgnC)) digRe).
Definition lookRe : re := RSeq (RStar dotC) (RSeq (ROpt (RSeq (RSet expC) (RSet sgnC))) (RSeq (RStar CDigit) (RSet iC))).
Definition realIn : re := RSeq (ROpt (RSet sgnC)) (RSeq bodyRe (RSeq (ROpt exRe) (RNot lookRe))).
Definition imagIn : re := RSeq (ROpt (RSet (COne " "%char))) (RSeq (ROpt (RSet sgnC)) (RSeq (ROpt (RSet (COne " "%char))) (RSeq (ROpt (RSeq bodyRe (ROpt exRe))) (RSet iC)))).
Definition weightRe (n : nat) : re := RSeq (ROpt (RCap n realIn)) (ROpt (RCap (S n) imagIn)).
Lemma compile_weight : compile complexWeightRegex = Some (weightRe 1).
Proof. vm_compute. reflexivity. Qed.

Lemma takes_dig d rest c : digits d -> d <> [] -> next_not CDigit rest -> takes digRe d rest c c.
Proof.
  intros H Hn F. destruct d as [|a d]; [congruence|]. apply digits_cons in H. destruct H as [Ha H]. change (a :: d) with ([a] ++ d).
  eapply takes_seq; [apply takes_set; exact Ha|apply takes_star; auto].
Qed.
Lemma takes_body n rest c : nok n -> next_not CDigit rest -> next_not (COne "."%char) rest -> takes bodyRe (nm_ip n ++ pointed (nm_fp n)) rest c c.
Proof.
  intros [H1 H2 H3 _] F1 F2. apply takes_alt1. destruct (nm_fp n) as [|f0 fp] eqn:E; cbn [pointed].
  - eapply takes_seq; [apply takes_dig; auto; cbn [app]; exact F1|]. apply takes_opt0, fails_seq, fails_set. exact F2.
  - eapply takes_seq; [apply takes_dig; auto; reflexivity|]. apply takes_opt1. change ("."%char :: f0 :: fp) with (["."%char] ++ (f0 :: fp)). eapply takes_seq; [apply takes_set; reflexivity|apply takes_star; auto].
Qed.
Lemma takes_ex n rest c : nok n -> next_not CDigit rest -> next_not expC rest -> takes (ROpt exRe) (exText (nm_ex n)) rest c c.
Proof.
  intros [_ _ _ H] F1 F2. destruct (nm_ex n) as [[b d]|]; cbn [exText].
  - apply takes_opt1. change ("e"%char :: (if b then "-"%char else "+"%char) :: d) with (["e"%char] ++ [if b then "-"%char else "+"%char] ++ d).
    eapply takes_seq; [apply takes_set; reflexivity|]. eapply takes_seq; [apply takes_opt1, takes_set; destruct b; reflexivity|apply takes_dig; tauto].
  - apply takes_opt0, fails_seq, fails_set. exact F2.
Qed.
Lemma ends_dot s : ends s -> next_not (COne "."%char) s.
Proof. destruct s as [|a s]; cbn; auto. intros (_ & H & _). now apply Ascii.eqb_neq. Qed.
Lemma ends_exp s : ends s -> next_not expC s.
Proof. destruct s as [|a s]; cbn; auto. intros (_ & _ & H1 & H2). apply Ascii.eqb_neq in H1, H2. now rewrite H1, H2. Qed.
Lemma exText_body e s : ends s -> next_not CDigit (exText e ++ s) /\ next_not (COne "."%char) (exText e ++ s).
Proof. intros H. destruct e as [[b d]|]; [split; reflexivity|]. split; [now apply ends_digit|now apply ends_dot]. Qed.
Lemma takes_abs n rest c : nok n -> ends rest -> takes (RSeq bodyRe (ROpt exRe)) (absText n) rest c c.
Proof.
  intros H E. unfold absText. rewrite app_assoc. eapply takes_seq; [apply takes_body; auto; now apply exText_body|]. apply takes_ex; auto; [now apply ends_digit|now apply ends_exp].
Qed.
(** What may follow a weight or its real part *)
Definition stops (s : text) : Prop := match s with [] => True | a :: _ => In a ["+"; "-"; ")"]%char end.
Lemma stops_ends s : stops s -> ends s.
Proof. destruct s as [|a s]; cbn; auto. intros [<-|[<-|[<-|[]]]]; repeat split; discriminate. Qed.
Lemma stops_look s : stops s -> fails lookRe s.
Proof.
  intros H c k. destruct s as [|a s]; [reflexivity|]. cbn in H. destruct H as [<-|[<-|[<-|[]]]]; reflexivity.
Qed.
Lemma takes_sign (b : bool) a rest c : isDigit a = true -> takes (ROpt (RSet sgnC)) (if b then lit "-" else []) (a :: rest) c c.
Proof.
  intros H. destruct b; [apply takes_opt1, takes_set; reflexivity|]. apply takes_opt0, fails_set. cbn. dig H.
Qed.
Lemma takes_real n rest c : nok n -> stops rest -> takes realIn (nText n) rest c c.
Proof.
  intros H E. unfold nText. destruct (absText_cons n H) as (a & t & Ea & Da). eapply takes_seq.
  - rewrite Ea. cbn [app]. now apply takes_sign.
  - unfold absText. rewrite app_assoc. eapply takes_seq; [apply takes_body; auto; apply exText_body; now apply stops_ends|].
    rewrite <- (app_nil_r (exText (nm_ex n))). eapply takes_seq; [apply takes_ex; auto; cbn [app]; [now apply ends_digit, stops_ends|now apply ends_exp, stops_ends]|]. now apply takes_not, stops_look.
Qed.
Lemma takes_imag (sg : text) n rest c : nok n -> (nm_neg n = true /\ sg = lit "-" \/ nm_neg n = false /\ (sg = [] \/ sg = lit "+")) ->
  takes imagIn (sg ++ absText n ++ lit "i") rest c c.
Proof.
  intros H Sg. destruct (absText_cons n H) as (a & t & Ea & Da). change (sg ++ absText n ++ lit "i") with ([] ++ sg ++ [] ++ absText n ++ lit "i").
  assert (Sp: forall u, takes (ROpt (RSet (COne " "%char))) [] (a :: u) c c) by (intros u; apply takes_opt0, fails_set; cbn; dig Da).
  eapply takes_seq.
  - destruct Sg as [[_ ->]|[_ [->| ->]]]; [apply takes_opt0, fails_set; reflexivity| |apply takes_opt0, fails_set; reflexivity]. rewrite Ea. cbn [app]. apply Sp.
  - eapply takes_seq.
    + rewrite Ea. cbn [app]. destruct Sg as [[_ ->]|[_ [->| ->]]]; [now apply (takes_sign true)|now apply (takes_sign false)|apply takes_opt1, takes_set; reflexivity].
    + eapply takes_seq; [rewrite Ea; cbn [app]; apply Sp|]. eapply takes_seq; [apply takes_opt1, takes_abs; auto; cbn; repeat split; discriminate|apply takes_set; reflexivity].
Qed.

(** *** A number before "i" is not taken for a real part. *)
Section NotReal.
Context (rest : text).
Definition before_i (u : text) : Prop := exists a b d, u = a ++ b ++ d ++ "i"%char :: rest /\ forallb (inCls dotC) a = true /\ (b = [] \/ b = lit "e+" \/ b = lit "e-") /\ digits d.
Lemma before_digit u t : before_i u -> eats (RSet CDigit) u t -> before_i t.
Proof.
  intros (a & b & d & -> & Ha & Hb & Hd) (x & E & Hx). destruct a as [|y a]; cbn [app] in E.
  - destruct Hb as [->|[->| ->]]; cbn [app lit list_ascii_of_string] in E; [|injection E as <- <-; discriminate|injection E as <- <-; discriminate].
    destruct d as [|y d]; cbn [app] in E; injection E as <- <-; [discriminate|]. apply digits_cons in Hd. exists [], [], d. cbn. tauto.
  - injection E as <- <-. cbn in Ha. apply andb_prop in Ha. exists a, b, d. tauto.
Qed.
Lemma before_dot u t : before_i u -> eats (RSet (COne "."%char)) u t -> before_i t.
Proof.
  intros (a & b & d & -> & Ha & Hb & Hd) (x & E & Hx). cbn in Hx. apply Ascii.eqb_eq in Hx. subst x. destruct a as [|y a]; cbn [app] in E.
  - destruct Hb as [->|[->| ->]]; cbn [app lit list_ascii_of_string] in E; try discriminate. destruct d as [|y d]; cbn [app] in E; [discriminate|]. injection E as -> _. apply digits_cons in Hd. destruct Hd; discriminate.
  - injection E as -> <-. cbn [forallb] in Ha. apply andb_prop in Ha. exists a, b, d. tauto.
Qed.
Lemma before_star u t : before_i u -> eats (RStar CDigit) u t -> before_i t.
Proof.
  intros B (l & -> & Hl). induction l as [|y l IH]; auto. cbn [forallb] in Hl. apply andb_prop in Hl. destruct Hl as [Hy Hl].
  apply IH; auto. eapply before_digit; [exact B|]. exists y. auto.
Qed.
Lemma before_dig u t : before_i u -> eats digRe u t -> before_i t.
Proof. intros B (v & H1 & H2). eapply before_star; [|exact H2]. eapply before_digit; eauto. Qed.
Lemma before_body u t : before_i u -> eats bodyRe u t -> before_i t.
Proof.
  intros B [(v & H1 & H2)|(v & H1 & H2)].
  - apply (before_dig _ _ B) in H1. destruct H2 as [(w & H2 & H3)| ->]; auto. eapply before_star; [|exact H3]. eapply before_dot; eauto.
  - eapply before_dig; [|exact H2]. eapply before_dot; eauto.
Qed.
Lemma before_ex u t : before_i u -> eats (ROpt exRe) u t -> before_i t.
Proof.
  intros B [H| ->]; auto. destruct H as (v & (x & E & Hx) & w & H2 & H3). destruct B as (a & b & d & -> & Ha & Hb & Hd).
  assert (Nd: forall y, inCls dotC y = true -> inCls expC y = false).
  { intros y. cbn. rewrite !orb_false_r. destruct (Ascii.eqb_spec y " "%char) as [->|_]; [reflexivity|]. destruct (isDigit y) eqn:D; [intros _; dig D|]. destruct (Ascii.eqb_spec y "."%char) as [->|_]; [reflexivity|discriminate]. }
  destruct a as [|y a]; cbn [app] in E.
  2: { injection E as <- _. cbn [forallb] in Ha. apply andb_prop in Ha. rewrite Nd in Hx by tauto. discriminate. }
  assert (Go: forall sg, sg = "+"%char \/ sg = "-"%char -> v = sg :: d ++ "i"%char :: rest -> before_i t).
  { intros sg Hsg ->. eapply before_dig; [|exact H3]. destruct H2 as [(y & H2 & _)| ->].
    - injection H2 as <- <-. exists [], [], d. cbn. tauto.
    - exfalso. destruct H3 as (z & (y & H3 & Hy) & _). injection H3 as <- _. destruct Hsg as [->| ->]; discriminate. }
  destruct Hb as [->|[->| ->]]; cbn [app lit list_ascii_of_string] in E.
  - exfalso. destruct d as [|y d]; cbn [app] in E; injection E as <- _; [discriminate|]. apply digits_cons in Hd. destruct Hd as [Hd _]. rewrite Nd in Hx; [discriminate|]. cbn. rewrite Hd. now rewrite orb_true_r.
  - injection E as _ <-. now apply (Go "+"%char); auto.
  - injection E as _ <-. now apply (Go "-"%char); auto.
Qed.
Lemma before_look u : before_i u -> forall c, mt lookRe u c (fun _ c' => Some c') <> None.
Proof.
  intros (a & b & d & -> & Ha & Hb & Hd) c.
  assert (T: takes lookRe (a ++ b ++ d ++ lit "i") rest c c).
  { destruct Hb as [->|Hb].
    - change ([] ++ d ++ lit "i") with (d ++ lit "i"). rewrite app_assoc. change ((a ++ d) ++ lit "i") with ((a ++ d) ++ [] ++ [] ++ lit "i"). eapply takes_seq.
      + apply takes_star; [|reflexivity]. rewrite forallb_app, Ha. cbn [andb]. apply forallb_forall. intros y Hy. unfold digits in Hd. rewrite forallb_forall in Hd. apply digit_dot. auto.
      + eapply takes_seq; [apply takes_opt0, fails_seq, fails_set; reflexivity|]. eapply takes_seq; [apply takes_star; reflexivity|apply takes_set; reflexivity].
    - eapply takes_seq; [apply takes_star; auto; destruct Hb as [->| ->]; reflexivity|]. eapply takes_seq.
      + apply takes_opt1. destruct Hb as [->| ->]; [change (lit "e+") with (["e"%char] ++ ["+"%char])|change (lit "e-") with (["e"%char] ++ ["-"%char])]; (eapply takes_seq; apply takes_set; reflexivity).
      + eapply takes_seq; [apply takes_star; auto; reflexivity|apply takes_set; reflexivity]. }
  specialize (T (fun _ c' => Some c') c eq_refl). rewrite <- !app_assoc in T. change (lit "i" ++ rest) with ("i"%char :: rest) in T. rewrite T. discriminate.
Qed.
Lemma before_text n : nok n -> before_i (absText n ++ "i"%char :: rest).
Proof.
  intros [H1 H2 H3 H4]. unfold absText. assert (Dd: forall l, digits l -> forallb (inCls dotC) l = true).
  { intros l Hl. apply forallb_forall. intros y Hy. unfold digits in Hl. rewrite forallb_forall in Hl. apply digit_dot. auto. }
  assert (Ha: forallb (inCls dotC) (nm_ip n ++ pointed (nm_fp n)) = true).
  { rewrite forallb_app, Dd by auto. destruct (nm_fp n) as [|f0 fp]; [reflexivity|]. cbn [pointed andb]. change (forallb (inCls dotC) ("."%char :: f0 :: fp)) with (forallb (inCls dotC) (f0 :: fp)). now apply Dd. }
  destruct (nm_ex n) as [[b d]|]; cbn [exText].
  - exists (nm_ip n ++ pointed (nm_fp n)), (if b then lit "e-" else lit "e+"), d. split; [destruct b; cbn; now rewrite <- !app_assoc|]. split; auto. split; [destruct b; auto|tauto].
  - exists (nm_ip n ++ pointed (nm_fp n)), [], []. split; [rewrite <- !app_assoc; reflexivity|]. split; auto. split; auto. reflexivity.
Qed.
Lemma fails_real n : nok n -> fails realIn (nText n ++ "i"%char :: rest).
Proof.
  intros H c k. destruct (mt realIn _ c k) eqn:E; auto. exfalso. unfold realIn in E. cbn [mt] in E.
  change (mt (ROpt (RSet sgnC)) (nText n ++ "i"%char :: rest) c (fun t c' => mt bodyRe t c' (fun t c' => mt (ROpt exRe) t c' (fun t c' => mt (RNot lookRe) t c' k))) = Some c0) in E.
  apply mt_sound in E. destruct E as (t1 & c1 & S1 & E). apply mt_sound in E. destruct E as (t2 & c2 & S2 & E). apply mt_sound in E. destruct E as (t3 & c3 & S3 & E).
  cbn [mt] in E. pose proof (before_text n H) as B. destruct (absText_cons n H) as (a & t & Ea & Da).
  assert (B1: before_i t1).
  { unfold nText in S1. destruct (nm_neg n).
    - destruct S1 as [(y & S1 & _)| ->]; [injection S1 as _ <-; exact B|]. exfalso. cbn [lit list_ascii_of_string app] in S2.
      destruct S2 as [(v & (w & (y & S2 & Hy) & _) & _)|(v & (y & S2 & Hy) & _)]; injection S2 as <- _; discriminate.
    - cbn [app] in S1. destruct S1 as [(y & S1 & Hy)| ->]; [|exact B]. exfalso. rewrite Ea in S1. injection S1 as <- _. assert (Q: inCls sgnC a = false) by (clear - Da; dig Da). congruence. }
  apply (before_body _ _ B1) in S2. apply (before_ex _ _ S2) in S3. destruct (mt lookRe t3 c3 _) eqn:L; [discriminate|]. exact (before_look t3 S3 c3 L).
Qed.
End NotReal.

(** ** Weights *)

(** The text after a weight *)
Definition closes (s : text) : Prop := match s with [] => True | a :: _ => a = ")"%char end.
Lemma closes_stops s : closes s -> stops s.
Proof. destruct s as [|a s]; cbn; auto. Qed.
(** The imaginary part as written after a real part or alone *)
Definition iText (alone : bool) (n : numeral) : text := (if alone || nm_neg n then [] else lit "+") ++ nText n ++ lit "i".
Definition wText (r i : option numeral) : text :=
  match r, i with
  | Some r, None => nText r
  | None, Some i => iText true i
  | Some r, Some i => nText r ++ iText false i
  | None, None => []
  end.
Definition wok (r i : option numeral) : Prop :=
  match r with Some n => nok n | None => True end /\ match i with Some n => nok n | None => True end /\ (r <> None \/ i <> None).
Definition wCaps (n : nat) (r i : option numeral) (c : caps) : caps :=
  let c1 := match r with Some x => setcap c n (nText x) | None => c end in
  match i with Some x => setcap c1 (S n) (iText (match r with None => true | _ => false end) x) | None => c1 end.
Lemma iText_split alone n : exists sg, iText alone n = sg ++ absText n ++ lit "i" /\ (nm_neg n = true /\ sg = lit "-" \/ nm_neg n = false /\ (sg = [] \/ sg = lit "+")).
Proof.
  unfold iText, nText. destruct (nm_neg n); [exists (lit "-")|destruct alone; [exists []|exists (lit "+")]]; rewrite ?orb_true_r; cbn [orb app]; rewrite <- ?app_assoc; split; auto.
Qed.
Lemma takes_iText alone n rest c : nok n -> takes imagIn (iText alone n) rest c c.
Proof. intros H. destruct (iText_split alone n) as (sg & -> & Sg). now apply takes_imag. Qed.
Lemma takes_weight n r i rest c : wok r i -> closes rest -> takes (weightRe n) (wText r i) rest c (wCaps n r i c).
Proof.
  intros (Hr & Hi & Hn) Cl. unfold weightRe, wText, wCaps. destruct r as [r|], i as [i|].
  - eapply takes_seq; [apply takes_opt1, takes_cap, takes_real; auto|apply takes_opt1, takes_cap, takes_iText; auto].
    unfold iText. cbn [orb]. unfold nText. destruct (nm_neg i); cbn; auto.
  - rewrite <- (app_nil_r (nText r)) at 1. eapply takes_seq; [apply takes_opt1, takes_cap, takes_real; auto; now apply closes_stops|].
    apply takes_opt0. intros c' k. destruct rest as [|a s]; [reflexivity|]. cbn in Cl. subst a. reflexivity.
  - change (iText true i) with ([] ++ iText true i) at 1. eapply takes_seq; [|apply takes_opt1, takes_cap, takes_iText; auto].
    apply takes_opt0, fails_cap. unfold iText. cbn [orb app]. rewrite <- app_assoc. change (lit "i" ++ rest) with ("i"%char :: rest). now apply fails_real.
  - destruct Hn; congruence.
Qed.

(** The characters of numbers *)
Definition numChar (a : ascii) : bool := isDigit a || existsb (Ascii.eqb a) ["+"; "-"; "."; "e"]%char.
Lemma nText_chars n : nok n -> forallb numChar (nText n) = true.
Proof.
  intros [H1 H2 H3 H4]. assert (Dd: forall l, digits l -> forallb numChar l = true).
  { intros l Hl. apply forallb_forall. intros y Hy. unfold digits in Hl. rewrite forallb_forall in Hl. unfold numChar. now rewrite (Hl y Hy). }
  unfold nText, absText. rewrite !forallb_app, (Dd (nm_ip n)) by auto. apply andb_true_intro. split; [destruct (nm_neg n); reflexivity|]. cbn [andb]. apply andb_true_intro. split.
  - destruct (nm_fp n) as [|f0 fp]; [reflexivity|]. cbn [pointed]. change (forallb numChar ("."%char :: f0 :: fp)) with (forallb numChar (f0 :: fp)). auto.
  - destruct (nm_ex n) as [[b d]|]; [|reflexivity]. cbn [exText]. replace (forallb numChar _) with (forallb numChar d) by (destruct b; reflexivity). apply Dd. tauto.
Qed.
Lemma filter_num b l : numChar b = false -> forallb numChar l = true -> filter (fun a => negb (Ascii.eqb a b)) l = l.
Proof.
  intros Hb. induction l as [|a l IH]; auto. cbn [forallb filter]. intros H. apply andb_prop in H. destruct H as [Ha H]. rewrite IH by auto.
  destruct (Ascii.eqb_spec a b) as [->|]; [congruence|reflexivity].
Qed.
Definition oDec (n : option numeral) : dec := match n with Some n => nDec n | None => Dec false 0 0 end.
Definition rText (r : option numeral) : text := match r with Some n => nText n | None => [] end.
Definition imText (alone : bool) (i : option numeral) : text := match i with Some n => iText alone n | None => [] end.
Lemma nText_ne n : nok n -> nText n <> [].
Proof. intros H. destruct (absText_cons n H) as (a & t & E & _). unfold nText. rewrite E. destruct (nm_neg n); discriminate. Qed.
Lemma fromString_ok r i alone : wok r i -> fromString (rText r) (imText alone i) = TOk (oDec r, oDec i).
Proof.
  intros (Hr & Hi & _). unfold fromString.
  assert (Rd: match rText r with [] => TOk (Dec false 0 0) | _ => stod (rText r) end = TOk (oDec r)).
  { destruct r as [r|]; [|reflexivity]. cbn [rText oDec]. pose proof (nText_ne r Hr) as Ne. pose proof (stod_nText r Hr) as S. destruct (nText r); [congruence|exact S]. }
  rewrite Rd. cbn [tbind]. destruct i as [i|]; [|reflexivity]. cbn [imText oDec].
  set (sg := if alone || nm_neg i then [] else lit "+").
  assert (F: filter (fun a => negb (Ascii.eqb a "i")) (filter (fun a => negb (Ascii.eqb a " ")) (iText alone i)) = sg ++ nText i).
  { unfold iText. fold sg. rewrite !filter_app. pose proof (nText_chars i Hi) as Ch. rewrite !(filter_num " "%char (nText i)), !(filter_num "i"%char (nText i)) by (auto; reflexivity).
    replace (filter _ (filter _ sg)) with sg by (unfold sg; destruct (alone || nm_neg i); reflexivity). cbn [filter lit list_ascii_of_string]. cbn. now rewrite app_nil_r. }
  rewrite F. clear F.
  assert (S: stod (sg ++ nText i) = TOk (nDec i)).
  { unfold sg. destruct alone; [now apply stod_nText|]. destruct (nm_neg i) eqn:E; [now apply stod_nText|]. now apply stod_plus. }
  assert (L: exists a b l, sg ++ nText i = a :: l /\ (l = [] -> a = b /\ isDigit b = true)).
  { destruct (absText_cons i Hi) as (a & t & E & Da). unfold sg, nText in *. rewrite E. destruct (nm_neg i), alone; cbn; eauto 8; repeat eexists; try discriminate; auto. }
  destruct L as (a & b & l & E & L). rewrite E in *. assert (Q: match a :: l with ["+"%char] | ["-"%char] => (a :: l) ++ ["1"%char] | _ => a :: l end = a :: l).
  { destruct l as [|x l]; [destruct (L eq_refl) as [-> D]; clear - D; dig D|]. destruct a as [[] [] [] [] [] [] [] []]; reflexivity. }
  rewrite Q, S. reflexivity.
Qed.

(** ** Lines *)
Definition edgeRe (g : nat) : re :=
  RSeq (RSet (COne " "%char)) (RSeq (RSet (COne "("%char))
    (RSeq (ROpt (RCap g (RSeq (RCap (g + 1) (RSeq (ROpt (RSet (COne "-"%char))) digRe)) (RSeq (RSet (COne " "%char)) (RCap (g + 2) (weightRe (g + 3)))))))
       (RSet (COne ")"%char)))).
Fixpoint edgesRe (n j : nat) : re :=
  match n with
  | O => RSeq (RStar (COne " "%char)) (ROpt (RSeq (RSet (COne "#"%char)) (RStar CAny)))
  | S n => RSeq (edgeRe (3 + 5 * j)) (edgesRe n (S j))
  end.
Definition lineRe (n : nat) : re := RSeq (RCap 1 digRe) (RSeq (RSet (COne " "%char)) (RSeq (RCap 2 digRe) (edgesRe n 0))).
Lemma compile_line2 : compile (lineConstruct 2) = Some (lineRe 2).
Proof. vm_compute. reflexivity. Qed.
Lemma compile_line4 : compile (lineConstruct 4) = Some (lineRe 4).
Proof. vm_compute. reflexivity. Qed.

(** A successor as written: index and the parts of the weight *)
Definition child : Type := option (Z * (option numeral * option numeral)).
Definition cText (c : child) : text := lit " (" ++ match c with None => [] | Some (i, (r, m)) => showZ i ++ lit " " ++ wText r m end ++ lit ")".
Definition cok (c : child) : Prop := match c with None => True | Some (i, (r, m)) => -1 <= i < 2 ^ 31 /\ wok r m end.
Definition cCaps (g : nat) (ch : child) (c : caps) : caps :=
  match ch with
  | None => c
  | Some (i, (r, m)) => setcap (setcap (wCaps (g + 3) r m (setcap c (g + 1) (showZ i))) (g + 2) (wText r m)) g (showZ i ++ lit " " ++ wText r m)
  end.
Lemma takes_int i rest c : next_not CDigit rest -> takes (RSeq (ROpt (RSet (COne "-"%char))) digRe) (showZ i) rest c c.
Proof.
  intros F. unfold showZ. destruct (Z.ltb_spec i 0) as [L|L].
  - destruct (showN_spec (- i)) as (D & Ne & _); [lia|]. change ("-"%char :: showN (- i)) with (["-"%char] ++ showN (- i)). eapply takes_seq; [apply takes_opt1, takes_set; reflexivity|now apply takes_dig].
  - destruct (showN_spec i) as (D & Ne & _); [lia|]. change (showN i) with ([] ++ showN i). eapply takes_seq; [|now apply takes_dig].
    apply takes_opt0, fails_set. destruct (showN i) as [|a l]; [congruence|]. apply digits_cons in D. destruct D as [D _]. cbn. dig D.
Qed.
Lemma takes_edge g ch rest c : cok ch -> takes (edgeRe g) (cText ch) rest c (cCaps g ch c).
Proof.
  intros H. unfold edgeRe, cText. change (lit " (") with ([" "%char] ++ ["("%char]). rewrite <- app_assoc.
  eapply takes_seq; [apply takes_set; reflexivity|]. eapply takes_seq; [apply takes_set; reflexivity|].
  destruct ch as [[i [r m]]|]; cbn [cCaps].
  - destruct H as [Hi Hw]. eapply takes_seq; [|apply takes_set; reflexivity]. apply takes_opt1, takes_cap. eapply takes_seq; [apply takes_cap, takes_int; reflexivity|].
    eapply takes_seq; [apply takes_set; reflexivity|]. apply takes_cap, takes_weight; auto. reflexivity.
  - eapply takes_seq; [|apply takes_set; reflexivity]. apply takes_opt0. intros c' k. reflexivity.
Qed.
Fixpoint csCaps (j : nat) (cs : list child) (c : caps) : caps :=
  match cs with [] => c | ch :: cs => csCaps (S j) cs (cCaps (3 + 5 * j) ch c) end.
Lemma takes_edges cs : forall j c, Forall cok cs -> takes (edgesRe (List.length cs) j) (concat (map cText cs)) [] c (csCaps j cs c).
Proof.
  induction cs as [|ch cs IH]; intros j c H; cbn [List.length edgesRe map concat csCaps].
  - change (@nil ascii) with (@nil ascii ++ []) at 1. eapply takes_seq; [apply takes_star; [reflexivity|exact Logic.I]|]. apply takes_opt0, fails_seq, fails_set. exact Logic.I.
  - inversion H; subst. eapply takes_seq; [now apply takes_edge|now apply IH].
Qed.
Lemma cText_next cs : next_not CDigit (concat (map cText cs) ++ []).
Proof. destruct cs as [|ch cs]; [exact Logic.I|]. reflexivity. Qed.
Lemma takes_line ix v cs c : 0 <= ix -> 0 <= v -> Forall cok cs ->
  takes (lineRe (List.length cs)) (showN ix ++ lit " " ++ showN v ++ concat (map cText cs)) [] c (csCaps 0 cs (setcap (setcap c 1 (showN ix)) 2 (showN v))).
Proof.
  intros Hi Hv H. destruct (showN_spec ix Hi) as (D1 & N1 & _), (showN_spec v Hv) as (D2 & N2 & _). unfold lineRe.
  eapply takes_seq; [apply takes_cap, takes_dig; auto; reflexivity|]. eapply takes_seq; [apply takes_set; reflexivity|].
  eapply takes_seq; [apply takes_cap, takes_dig; auto; apply cText_next|]. now apply takes_edges.
Qed.

(** The groups after all successors *)
Lemma wCaps_other n r i c m : (m < n)%nat -> wCaps n r i c m = c m.
Proof.
  intros H. assert (E1: Nat.eqb m (S n) = false) by (apply Nat.eqb_neq; lia). assert (E2: Nat.eqb m n = false) by (apply Nat.eqb_neq; lia).
  unfold wCaps. destruct r, i; unfold setcap; rewrite ?E1, ?E2; reflexivity.
Qed.
Lemma wCaps_above n r i c m : (S n < m)%nat -> wCaps n r i c m = c m.
Proof.
  intros H. assert (E1: Nat.eqb m (S n) = false) by (apply Nat.eqb_neq; lia). assert (E2: Nat.eqb m n = false) by (apply Nat.eqb_neq; lia).
  unfold wCaps. destruct r, i; unfold setcap; rewrite ?E1, ?E2; reflexivity.
Qed.
Lemma cCaps_other g ch c m : (m < g \/ g + 4 < m)%nat -> cCaps g ch c m = c m.
Proof.
  intros H. destruct ch as [[i [r w]]|]; auto. cbn [cCaps]. unfold setcap at 1 2. destruct (Nat.eqb_spec m g); [lia|]. destruct (Nat.eqb_spec m (g + 2)); [lia|].
  destruct H as [H|H]; [rewrite wCaps_other by lia|rewrite wCaps_above by lia]; unfold setcap; destruct (Nat.eqb_spec m (g + 1)); auto; lia.
Qed.
Lemma csCaps_other cs : forall j c m, (m < 3 + 5 * j)%nat -> csCaps j cs c m = c m.
Proof.
  induction cs as [|ch cs IH]; intros j c m H; auto. cbn [csCaps]. rewrite IH by lia. apply cCaps_other. lia.
Qed.
Definition cDec (ch : child) : option (Z * (dec * dec)) := match ch with None => None | Some (i, (r, m)) => Some (i, (oDec r, oDec m)) end.
Lemma readEdge_ok (c c0 : caps) j ch : cok ch -> (forall m, (m < 5)%nat -> c (3 + 5 * j + m)%nat = cCaps (3 + 5 * j) ch c0 (3 + 5 * j + m)%nat) ->
  (forall m, (3 + 5 * j <= m)%nat -> c0 m = []) -> readEdge c j = TOk (cDec ch).
Proof.
  intros H E Z0. unfold readEdge. set (g := (3 + 5 * j)%nat) in *.
  pose proof (E 0%nat ltac:(lia)) as E0. pose proof (E 1%nat ltac:(lia)) as E1. pose proof (E 3%nat ltac:(lia)) as E3. pose proof (E 4%nat ltac:(lia)) as E4. rewrite Nat.add_0_r in E0.
  destruct ch as [[i [r m]]|]; cbn [cCaps] in *.
  2: { rewrite E0, Z0 by lia. reflexivity. }
  destruct H as [Hi Hw].
  assert (C0: c g = showZ i ++ lit " " ++ wText r m). { rewrite E0. unfold setcap at 1. now rewrite Nat.eqb_refl. }
  assert (C1: c (g + 1)%nat = showZ i). { rewrite E1. unfold setcap at 1 2. destruct (Nat.eqb_spec (g + 1) g); [lia|]. destruct (Nat.eqb_spec (g + 1) (g + 2)); [lia|]. rewrite wCaps_other by lia. unfold setcap. now rewrite Nat.eqb_refl. }
  assert (C3: c (g + 3)%nat = rText r).
  { rewrite E3. unfold setcap at 1 2. destruct (Nat.eqb_spec (g + 3) g); [lia|]. destruct (Nat.eqb_spec (g + 3) (g + 2)); [lia|].
    assert (X1: Nat.eqb (g + 3) (S (g + 3)) = false) by (apply Nat.eqb_neq; lia). assert (X2: Nat.eqb (g + 3) (g + 1) = false) by (apply Nat.eqb_neq; lia).
    unfold wCaps. destruct r as [r|], m as [m|]; unfold setcap; cbn [rText]; rewrite ?X1, ?X2, ?Nat.eqb_refl; auto; apply Z0; lia. }
  assert (C4: c (g + 4)%nat = imText (match r with None => true | _ => false end) m).
  { rewrite E4. unfold setcap at 1 2. destruct (Nat.eqb_spec (g + 4) g); [lia|]. destruct (Nat.eqb_spec (g + 4) (g + 2)); [lia|].
    assert (X1: Nat.eqb (g + 4) (g + 3) = false) by (apply Nat.eqb_neq; lia). assert (X2: Nat.eqb (g + 4) (g + 1) = false) by (apply Nat.eqb_neq; lia). assert (X3: S (g + 3) = (g + 4)%nat) by lia.
    unfold wCaps. destruct r as [r|], m as [m|]; unfold setcap; cbn [imText]; rewrite ?X3, ?X1, ?X2, ?Nat.eqb_refl; auto; apply Z0; lia. }
  rewrite C0, C1, C3, C4, stoi_showZ by lia. rewrite fromString_ok by auto. cbn [tbind cDec].
  unfold showZ. destruct (i <? 0) eqn:Li; [reflexivity|]. apply Z.ltb_ge in Li. destruct (showN_spec i Li) as (_ & Ne & _). destruct (showN i); [congruence|reflexivity].
Qed.
Lemma readEdges_ok cs : forall j c0 (c : caps), Forall cok cs -> (forall m, c m = csCaps j cs c0 m) -> (forall m, (3 + 5 * j <= m)%nat -> c0 m = []) ->
  tmap (readEdge c) (seq j (List.length cs)) = TOk (map cDec cs).
Proof.
  induction cs as [|ch cs IH]; intros j c0 c H E Z0; [reflexivity|]. inversion H; subst. cbn [List.length seq tmap map]. cbn [csCaps] in E.
  rewrite (readEdge_ok c c0 j ch); auto; [|intros m Hm; rewrite E; apply csCaps_other; lia].
  cbn [tbind]. rewrite (IH (S j) (cCaps (3 + 5 * j) ch c0) c); auto. intros m Hm. rewrite cCaps_other by lia. apply Z0. lia.
Qed.
(** A line is read as it was written. *)
Lemma readLine_ok ix v cs : 0 <= ix < 2 ^ 31 -> 0 <= v < 128 -> Forall cok cs ->
  readLine (List.length cs) (lineRe (List.length cs)) (showN ix ++ lit " " ++ showN v ++ concat (map cText cs)) = TOk (FR ix v (map cDec cs)).
Proof.
  intros Hi Hv H. unfold readLine, regexMatch. set (c := csCaps 0 cs (setcap (setcap nocaps 1 (showN ix)) 2 (showN v))).
  pose proof (takes_line ix v cs nocaps ltac:(lia) ltac:(lia) H (fun t c => match t with [] => Some c | _ => None end) c eq_refl) as T. rewrite app_nil_r in T. rewrite T. clear T.
  assert (C1: c 1%nat = showN ix) by (unfold c; rewrite csCaps_other by lia; reflexivity). assert (C2: c 2%nat = showN v) by (unfold c; rewrite csCaps_other by lia; reflexivity).
  assert (Sh: forall z, 0 <= z -> showN z = showZ z) by (intros z Hz; unfold showZ; destruct (Z.ltb_spec z 0); auto; lia).
  rewrite C1, C2, !Sh, !stoi_showZ by lia. cbn [tbind]. rewrite (readEdges_ok cs 0 (setcap (setcap nocaps 1 (showN ix)) 2 (showN v))); auto.
  - cbn [tbind]. unfold toQubit. rewrite Z.mod_small by lia. now replace (v + 128 - 128) with v by lia.
  - intros m Hm. unfold setcap. destruct (Nat.eqb_spec m 2); [lia|]. destruct (Nat.eqb_spec m 1); [lia|reflexivity].
Qed.

(** ** Files *)
Definition lineChar (a : ascii) : bool := numChar a || existsb (Ascii.eqb a) [" "; "("; ")"; "i"]%char.
Lemma num_line l : forallb numChar l = true -> forallb lineChar l = true.
Proof. intros H. apply forallb_forall. intros a Ha. rewrite forallb_forall in H. unfold lineChar. now rewrite (H a Ha). Qed.
Lemma digits_line l : digits l -> forallb lineChar l = true.
Proof. intros H. apply forallb_forall. intros a Ha. unfold digits in H. rewrite forallb_forall in H. unfold lineChar, numChar. now rewrite (H a Ha). Qed.
Lemma wText_line r i : wok r i -> forallb lineChar (wText r i) = true.
Proof.
  intros (Hr & Hi & _). unfold wText. assert (I: forall al n, nok n -> forallb lineChar (iText al n) = true).
  { intros al n Hn. unfold iText. rewrite !forallb_app, (num_line (nText n)) by now apply nText_chars. destruct (al || nm_neg n); reflexivity. }
  destruct r as [r|], i as [i|]; rewrite ?forallb_app, ?I, ?num_line by (auto; now apply nText_chars); reflexivity.
Qed.
Lemma showZ_line z : forallb lineChar (showZ z) = true.
Proof. unfold showZ. destruct (Z.ltb_spec z 0); [cbn [forallb]; change (lineChar "-") with true; cbn [andb]|]; apply digits_line, showN_spec; lia. Qed.
Lemma cText_line ch : cok ch -> forallb lineChar (cText ch) = true.
Proof.
  intros H. unfold cText. rewrite !forallb_app. destruct ch as [[i [r m]]|]; [|reflexivity]. destruct H as [_ H]. rewrite !forallb_app, showZ_line, wText_line by auto. reflexivity.
Qed.
Lemma linesOf_line l : forall cur t, forallb lineChar l = true -> linesOf cur (l ++ newline :: t) = (rev cur ++ l) :: linesOf [] t.
Proof.
  induction l as [|a l IH]; intros cur t H; cbn [app linesOf].
  - change (Ascii.eqb newline newline) with true. cbn iota. now rewrite app_nil_r.
  - cbn [forallb] in H. apply andb_prop in H. destruct H as [Ha H]. destruct (Ascii.eqb_spec a newline) as [->|_]; [discriminate|]. rewrite IH by auto. cbn [rev]. now rewrite <- app_assoc.
Qed.
(** A node as written *)
Definition srec : Type := Z * Z * list child.
Definition sText (r : srec) : text := match r with (ix, v, cs) => showN ix ++ lit " " ++ showN v ++ concat (map cText cs) end.
Definition sok (n : nat) (r : srec) : Prop := match r with (ix, v, cs) => 0 <= ix < 2 ^ 31 /\ 0 <= v < 128 /\ List.length cs = n /\ Forall cok cs end.
Definition sDec (r : srec) : frec (dec * dec) := match r with (ix, v, cs) => FR ix v (map cDec cs) end.
Lemma sText_line n r : sok n r -> forallb lineChar (sText r) = true /\ Nat.leb (List.length (sText r)) 1 = false.
Proof.
  destruct r as [[ix v] cs]. intros (Hi & Hv & _ & H). cbn [sText]. destruct (showN_spec ix) as (D1 & N1 & _), (showN_spec v) as (D2 & N2 & _); try lia. split.
  - rewrite !forallb_app, (digits_line _ D1), (digits_line _ D2). cbn [andb]. change (forallb lineChar (lit " ")) with true. cbn [andb]. induction H as [|ch cs Hc _ IH]; [reflexivity|]. cbn [map concat]. now rewrite forallb_app, cText_line, IH.
  - rewrite !app_length. destruct (showN ix); [congruence|]. cbn [List.length lit list_ascii_of_string]. apply Nat.leb_gt. lia.
Qed.
Lemma readText_ok n r i recs : (n = 2 \/ n = 4)%nat -> wok r i -> Forall (sok n) recs ->
  readText n (showN 1 ++ [newline] ++ wText r i ++ [newline] ++ concat (map (fun x => sText x ++ [newline]) recs)) = TOk (FL (oDec r, oDec i) (map sDec recs)).
Proof.
  intros Hn Hw H. assert (Cl: compile (lineConstruct n) = Some (lineRe n)) by (destruct Hn as [->| ->]; [apply compile_line2|apply compile_line4]).
  unfold readText. rewrite compile_weight, Cl. clear Cl.
  assert (L: linesOf [] (showN 1 ++ [newline] ++ wText r i ++ [newline] ++ concat (map (fun x => sText x ++ [newline]) recs)) = showN 1 :: wText r i :: map sText recs).
  { cbn [app]. rewrite linesOf_line by reflexivity. cbn [rev app]. rewrite linesOf_line by now apply wText_line. cbn [rev app]. apply f_equal, f_equal.
    induction H as [|x recs Hx _ IH]; [reflexivity|]. cbn [map concat]. rewrite <- app_assoc. cbn [app]. rewrite linesOf_line by (eapply sText_line; eauto). cbn [rev app]. now rewrite IH. }
  rewrite L. clear L. cbn [hd tl]. assert (V: stoi (showN 1) = TOk 1) by reflexivity. rewrite V. cbn [tbind]. change (negb (1 =? 1)) with false. cbn iota.
  unfold regexMatch. pose proof (takes_weight 1 r i [] nocaps Hw Logic.I (fun t c => match t with [] => Some c | _ => None end) _ eq_refl) as T. rewrite app_nil_r in T. rewrite T. clear T.
  assert (C1: wCaps 1 r i nocaps 1%nat = rText r) by (destruct r, i; reflexivity). assert (C2: wCaps 1 r i nocaps 2%nat = imText (match r with None => true | _ => false end) i) by (destruct r, i; reflexivity).
  rewrite C1, C2, fromString_ok by auto. cbn [tbind].
  assert (Rs: tmap (readLine n (lineRe n)) (filter (fun l => negb (Nat.leb (List.length l) 1)) (map sText recs)) = TOk (map sDec recs)).
  { induction H as [|x recs Hx _ IH]; [reflexivity|]. cbn [map filter]. rewrite (proj2 (sText_line n x Hx)). cbn [negb tmap]. rewrite IH.
    destruct x as [[ix v] cs]. destruct Hx as (Hi & Hv & <- & Hc). cbn [sText sDec]. rewrite readLine_ok by auto. reflexivity. }
  rewrite Rs. reflexivity.
Qed.
