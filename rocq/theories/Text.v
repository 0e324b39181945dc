(** The text format of files with diagrams (Export.hpp:628-776, Package.hpp:3000-3059): how numbers and
    lines are written, and how they are read back with regular expressions, stoi and stod. *)
From Coq Require Import String Ascii ZArith List Bool Lia Arith SpecFloat.
From Verif Require Import Num Base State Serial.
Import ListNotations.
Local Open Scope Z_scope.

(** Texts are lists of characters (std::string, e.g. Package.hpp:3000). *)
Definition text : Type := list ascii.
(** A literal of the code as a text (e.g. Package.hpp:3006) *)
Definition lit (s : string) : text := list_ascii_of_string s.

(** ** Regular expressions *)

(** A class of characters as used in Package.hpp:3006-3018: a character, \d, "." and square brackets. *)
Inductive cls := COne (a : ascii) | CDigit | CAny | COf (l : list cls).
(** \d (Package.hpp:3006) *)
Definition isDigit (a : ascii) : bool := (Ascii.leb "0" a && Ascii.leb a "9")%char.
(** Membership; "." does not match the ends of lines in ECMAScript (Package.hpp:3015). *)
Fixpoint inCls (c : cls) (a : ascii) : bool :=
  match c with
  | COne b => Ascii.eqb a b
  | CDigit => isDigit a
  | CAny => negb (Ascii.eqb a "010") && negb (Ascii.eqb a "013")
  | COf l => existsb (fun c => inCls c a) l
  end%char.

(** The constructs of ECMAScript regular expressions used in Package.hpp:3006-3018.  Repetition occurs
    only on classes. *)
Inductive re :=
  | REps
  | RSet (c : cls)
  | RSeq (a b : re)
  | RAlt (a b : re)
  | ROpt (a : re)                (* a? *)
  | RStar (c : cls)              (* c* *)
  | RCap (n : nat) (a : re)      (* (a), the n-th group *)
  | RNot (a : re).               (* (?!a) *)

(** The groups of a match, std::smatch (Package.hpp:3017); a group that did not take part is empty. *)
Definition caps : Type := nat -> text.
(** No group has been matched (Package.hpp:3017) *)
Definition nocaps : caps := fun _ => [].
(** A group is set (Package.hpp:3017) *)
Definition setcap (c : caps) (n : nat) (t : text) : caps := fun m => if Nat.eqb m n then t else c m.

(** c*, as many characters as possible first (Package.hpp:3006) *)
Fixpoint star (c : cls) (s : text) (k : text -> option caps) : option caps :=
  match s with
  | [] => k []
  | a :: t => if inCls c a then match star c t k with Some r => Some r | None => k s end else k s
  end.
(** Matching by backtracking, the semantics of ECMAScript: alternatives from left to right, options and
    repetitions greedy; [k] is the rest of the expression (std::regex, Package.hpp:3009, 3016). *)
Fixpoint mt (r : re) (s : text) (c : caps) (k : text -> caps -> option caps) : option caps :=
  match r with
  | REps => k s c
  | RSet p => match s with a :: t => if inCls p a then k t c else None | [] => None end
  | RSeq a b => mt a s c (fun t c' => mt b t c' k)
  | RAlt a b => match mt a s c k with Some x => Some x | None => mt b s c k end
  | ROpt a => match mt a s c k with Some x => Some x | None => k s c end
  | RStar p => star p s (fun t => k t c)
  | RCap n a => mt a s c (fun t c' => k t (setcap c' n (firstn (List.length s - List.length t) s)))
  | RNot a => match mt a s c (fun _ c' => Some c') with Some _ => None | None => k s c end
  end.
(** std::regex_match: the whole text (Package.hpp:3022, 3033) *)
Definition regexMatch (r : re) (s : text) : option caps :=
  mt r s nocaps (fun t c => match t with [] => Some c | _ => None end).

(** *** From the text of an expression to the expression: the constructor of std::regex (Package.hpp:3009, 3016)
    for the constructs above; anything else is refused. *)

(** The members of square brackets (Package.hpp:3006-3007); "-" stands for itself only at the end. *)
Fixpoint parseOf (s : text) : option (list cls * text) :=
  match s with
  | [] => None
  | "]" :: t => Some ([], t)
  | "-" :: (("]" :: t) as u) => Some ([COne "-"], t)
  | "-" :: _ => None
  | "\" :: "d" :: t => match parseOf t with Some (l, u) => Some (CDigit :: l, u) | None => None end
  | "\" :: a :: t => match parseOf t with Some (l, u) => Some (COne a :: l, u) | None => None end
  | a :: t => match parseOf t with Some (l, u) => Some (COne a :: l, u) | None => None end
  end%char.
(** A quantifier after [a] (Package.hpp:3006-3015) *)
Definition parseQuant (a : re) (s : text) : option (re * text) :=
  match s with
  | "?" :: t => Some (ROpt a, t)
  | "*" :: t => match a with RSet c => Some (RStar c, t) | _ => None end
  | "+" :: t => match a with RSet c => Some (RSeq (RSet c) (RStar c), t) | _ => None end
  | _ => Some (a, s)
  end%char.
(** Alternatives, sequences and atoms (Package.hpp:3006-3015); [n] is the number of the next group. *)
Fixpoint parseAlt (fuel : nat) (n : nat) (s : text) {struct fuel} : option (re * nat * text) :=
  match fuel with
  | O => None
  | S f =>
    match parseSeq f n s with
    | Some (a, n1, "|" :: t) => match parseAlt f n1 t with Some (b, n2, u) => Some (RAlt a b, n2, u) | None => None end
    | x => x
    end
  end%char
with parseSeq (fuel : nat) (n : nat) (s : text) {struct fuel} : option (re * nat * text) :=
  match fuel with
  | O => None
  | S f =>
    match s with
    | [] | ")" :: _ | "|" :: _ => Some (REps, n, s)
    | _ =>
        match parseAtom f n s with
        | None => None
        | Some (a, n1, t) =>
            match parseQuant a t with
            | None => None
            | Some (a', t') =>
                match parseSeq f n1 t' with
                | None => None
                | Some (REps, n2, u) => Some (a', n2, u)
                | Some (b, n2, u) => Some (RSeq a' b, n2, u)
                end
            end
        end
    end
  end%char
with parseAtom (fuel : nat) (n : nat) (s : text) {struct fuel} : option (re * nat * text) :=
  match fuel with
  | O => None
  | S f =>
    match s with
    | "(" :: "?" :: ":" :: t => match parseAlt f n t with Some (a, n1, ")" :: u) => Some (a, n1, u) | _ => None end
    | "(" :: "?" :: "!" :: t => match parseAlt f n t with Some (a, n1, ")" :: u) => Some (RNot a, n1, u) | _ => None end
    | "(" :: "?" :: _ => None
    | "(" :: t => match parseAlt f (S n) t with Some (a, n1, ")" :: u) => Some (RCap n a, n1, u) | _ => None end
    | "[" :: t => match parseOf t with Some (l, u) => Some (RSet (COf l), n, u) | None => None end
    | "\" :: "d" :: t => Some (RSet CDigit, n, t)
    | "\" :: a :: t => Some (RSet (COne a), n, t)
    | "." :: t => Some (RSet CAny, n, t)
    | a :: t => if existsb (Ascii.eqb a) ["?"; "*"; "+"; ")"; "]"; "{"; "}"; "^"; "$"; "\"; "|"] then None else Some (RSet (COne a), n, t)
    | [] => None
    end
  end%char.
(** std::regex(s) (Package.hpp:3009, 3016); groups are counted from one. *)
Definition compile (s : text) : option re :=
  match parseAlt (3 * List.length s + 3) 1 s with Some (r, _, []) => Some r | _ => None end.

(** complexRealRegex (Package.hpp:3006) *)
Definition complexRealRegex : text := lit "([+-]?(?:\d+(?:\.\d*)?|\.\d+)(?:[eE][+-]?\d+)?(?![ \d\.]*(?:[eE][+-])?\d*[iI]))?".
(** complexImagRegex (Package.hpp:3007) *)
Definition complexImagRegex : text := lit "( ?[+-]? ?(?:(?:\d+(?:\.\d*)?|\.\d+)(?:[eE][+-]?\d+)?)?[iI])?".
(** edgeRegex (Package.hpp:3008) *)
Definition edgeRegex : text := lit " \(((-?\d+) (" ++ complexRealRegex ++ complexImagRegex ++ lit "))?\)".
(** complexWeightRegex (Package.hpp:3009) *)
Definition complexWeightRegex : text := complexRealRegex ++ complexImagRegex.
(** lineConstruct (Package.hpp:3011-3015) for nodes with [n] successors *)
Definition lineConstruct (n : nat) : text :=
  lit "(\d+) (\d+)" ++ concat (repeat (lit "(?:" ++ edgeRegex ++ lit ")") n) ++ lit " *(?:#.*)?".

(** ** Numbers *)

(** The character of a digit (operator<<, Export.hpp:702) *)
Definition digitChar (d : Z) : ascii := ascii_of_nat (48 + Z.to_nat d).
(** The value of a digit (std::stoi, Package.hpp:3045) *)
Definition digitVal (a : ascii) : Z := Z.of_nat (nat_of_ascii a) - 48.
(** Decimal digits, the last one first in the recursion (operator<<, Export.hpp:702) *)
Fixpoint digitsF (fuel : nat) (z : Z) (acc : text) : text :=
  match fuel with
  | O => acc
  | S f => if z <? 10 then digitChar z :: acc else digitsF f (z / 10) (digitChar (z mod 10) :: acc)
  end.
(** operator<< for unsigned integers (Export.hpp:633, 702) *)
Definition showN (z : Z) : text := digitsF (S (Z.to_nat (Z.log2 z))) z [].
(** operator<< for signed integers (Export.hpp:713) *)
Definition showZ (z : Z) : text := if z <? 0 then "-"%char :: showN (- z) else showN z.

(** A decimal number without rounding: sign, digits as an integer, and the power of ten
    (std::stod, ComplexValue.hpp:61). *)
Record dec := Dec { d_neg : bool; d_man : Z; d_exp : Z }.

(** The value of a sequence of digits (std::stoi, Package.hpp:3045) *)
Definition digitsVal (l : text) : Z := fold_left (fun z a => 10 * z + digitVal a) l 0.
(** The longest prefix of digits (std::stod, ComplexValue.hpp:61) *)
Fixpoint digitsOf (s : text) : text * text :=
  match s with
  | a :: t => if isDigit a then let (d, u) := digitsOf t in (a :: d, u) else ([], s)
  | [] => ([], [])
  end.
(** An optional sign (std::stod, ComplexValue.hpp:61) *)
Definition signOf (s : text) : bool * text :=
  match s with "-" :: t => (true, t) | "+" :: t => (false, t) | _ => (false, s) end%char.
(** White space is skipped first (std::stod and std::stoi, Package.hpp:3002). *)
Fixpoint skipWs (s : text) : text :=
  match s with
  | a :: t => if Ascii.eqb a " " || (Ascii.leb "009" a && Ascii.leb a "013") then skipWs t else s
  | [] => []
  end%char.

(** Exceptions of the reading functions: std::runtime_error (Package.hpp:3003, 3023, 3034),
    std::invalid_argument and std::out_of_range (std::stoi and std::stod). *)
Inductive terr := TRuntime | TInvalid | TRange.
(** Result of reading a text, or the exception thrown (Package.hpp:3000-3059) *)
Inductive tres (A : Type) := TOk (a : A) | TThr (e : terr).
Arguments TOk {A}. Arguments TThr {A}.
(** Sequencing (Package.hpp:3000-3059) *)
Definition tbind {A B} (x : tres A) (f : A -> tres B) : tres B := match x with TOk a => f a | TThr e => TThr e end.
(** One after the other (the loops of Package.hpp:3028-3058) *)
Fixpoint tmap {A B} (f : A -> tres B) (l : list A) : tres (list B) :=
  match l with
  | [] => TOk []
  | a :: r => tbind (f a) (fun b => tbind (tmap f r) (fun bs => TOk (b :: bs)))
  end.

(** std::stoi (Package.hpp:3002, 3045-3053): what follows the digits is ignored. *)
Definition stoi (s : text) : tres Z :=
  let (neg, t) := signOf (skipWs s) in
  match digitsOf t with
  | ([], _) => TThr TInvalid
  | (d, _) => let z := if neg then - digitsVal d else digitsVal d in
              if (- 2 ^ 31 <=? z) && (z <? 2 ^ 31) then TOk z else TThr TRange
  end.
(** std::stod (ComplexValue.hpp:61, 68) up to the rounding to a double: the decimal number read.
    Infinities, NaNs and hexadecimal numbers, which the regular expressions exclude, are left out. *)
Definition stod (s : text) : tres dec :=
  let (neg, t) := signOf (skipWs s) in
  let (ip, u) := digitsOf t in
  let (fp, u) := match u with "." :: u' => digitsOf u' | _ => ([], u) end%char in
  match ip ++ fp with
  | [] => TThr TInvalid
  | ds =>
      let ex := match u with
                | a :: u' => if (Ascii.eqb a "e" || Ascii.eqb a "E")%char then
                               let (en, w) := signOf u' in
                               match digitsOf w with ([], _) => 0 | (d, _) => if en then - digitsVal d else digitsVal d end
                             else 0
                | [] => 0
                end in
      TOk (Dec neg (digitsVal ds) (ex - Z.of_nat (List.length fp)))
  end.

(** fromString (ComplexValue.hpp:60-72); an empty text is zero. *)
Definition fromString (re im : text) : tres (dec * dec) :=
  let num s := match s with [] => TOk (Dec false 0 0) | _ => stod s end in
  tbind (num re) (fun r =>
  let s := filter (fun a => negb (Ascii.eqb a "i")) (filter (fun a => negb (Ascii.eqb a " ")) im) in
  let s := match s with ["+"] | ["-"] => s ++ ["1"] | _ => s end in
  tbind (num s) (fun i => TOk (r, i)))%char.

(** ** Doubles as text *)

(** Division rounded to the nearest integer, ties to even (operator<< for doubles, ComplexValue.hpp:195) *)
Definition rneDiv (n d : Z) : Z :=
  let q := n / d in let r := n mod d in
  if 2 * r <? d then q else if d <? 2 * r then q + 1 else if Z.even q then q else q + 1.
(** The least [j] from [j] on with [d <= n * 10 ^ j] (operator<<, ComplexValue.hpp:195) *)
Fixpoint scaleUp (fuel : nat) (j n d : Z) : Z :=
  match fuel with
  | O => j
  | S f => if d <=? n * 10 ^ j then j else scaleUp f (j + 1) n d
  end.
(** The exponent x with 10^x <= n / d < 10^(x+1) (operator<<, ComplexValue.hpp:195) *)
Definition expo10 (n d : Z) : Z :=
  if d <=? n then Z.of_nat (List.length (showN (n / d))) - 1
  else - scaleUp (S (Z.to_nat (Z.log2 d))) 1 n d.
(** The value of a positive double as a fraction (operator<<, ComplexValue.hpp:195) *)
Definition fracF (m : positive) (e : Z) : Z * Z := if 0 <=? e then (Z.pos m * 2 ^ e, 1) else (Z.pos m, 2 ^ (- e)).
(** The [p] significant digits as an integer, and the exponent of the first one (operator<<,
    ComplexValue.hpp:184-186, 195) *)
Definition roundDec (p n d : Z) : Z * Z :=
  let x := expo10 n d in
  let y := p - 1 - x in
  let q := if 0 <=? y then rneDiv (n * 10 ^ y) d else rneDiv n (d * 10 ^ (- y)) in
  if q =? 10 ^ p then (10 ^ (p - 1), x + 1) else (q, x).
(** Trailing zeros are dropped (operator<<, ComplexValue.hpp:195). *)
Fixpoint dropZ (l : text) : text :=
  match l with
  | [] => []
  | a :: t => match dropZ t with [] => if Ascii.eqb a "0"%char then [] else [a] | u => a :: u end
  end.
(** Fraction digits with their point (operator<<, ComplexValue.hpp:195) *)
Definition pointed (fp : text) : text := match fp with [] => [] | _ => "."%char :: fp end.
(** Two digits at least in exponents (operator<<, ComplexValue.hpp:195) *)
Definition show2 (z : Z) : text := if z <? 10 then "0"%char :: showN z else showN z.
(** The format %.*g of a positive number with the digits [q] and the exponent [x]: fixed notation for
    -4 <= x < p, else scientific (operator<<, ComplexValue.hpp:195). *)
Definition showPos (p q x : Z) : text :=
  let ds := showN q in
  if (-4 <=? x) && (x <? p) then
    if 0 <=? x then firstn (Z.to_nat (x + 1)) ds ++ pointed (dropZ (skipn (Z.to_nat (x + 1)) ds))
    else "0"%char :: pointed (dropZ (repeat "0"%char (Z.to_nat (- x - 1)) ++ ds))
  else firstn 1 ds ++ pointed (dropZ (skipn 1 ds)) ++ "e"%char :: (if x <? 0 then "-"%char else "+"%char) :: show2 (Z.abs x).
(** operator<< for doubles with setprecision(p) (ComplexValue.hpp:184-186, 195, 216-222) *)
Definition showF (p : Z) (v : spec_float) : text :=
  match v with
  | S754_zero s => (if s then lit "-" else []) ++ lit "0"
  | S754_infinity s => (if s then lit "-" else []) ++ lit "inf"
  | S754_nan => lit "nan"
  | S754_finite s m e => (if s then lit "-" else []) ++ (let (n, d) := fracF m e in let (q, x) := roundDec p n d in showPos p q x)
  end.
(** The double nearest to a decimal number (std::stod, ComplexValue.hpp:61, 68); [None]: out of range.
    The results too small for a normal double, which std::stod refuses as well, are not singled out. *)
Definition ofDec (a : dec) : option spec_float :=
  if d_man a =? 0 then Some (S754_zero (d_neg a))
  else
    let n := d_man a * 10 ^ Z.max 0 (d_exp a) in
    let d := 10 ^ Z.max 0 (- d_exp a) in
    let s := Z.max 0 (Z.log2 d - Z.log2 n + 57) in
    let q := n * 2 ^ s / d in
    let m := 2 * q + (if n * 2 ^ s mod d =? 0 then 0 else 1) in
    match binary_normalize 53 1024 (if d_neg a then - m else m) (- s - 1) false with
    | S754_infinity _ => None
    | v => Some v
    end.

(** ** Files *)
Section Write.
(** The numbers and operator<< with a precision for them (ComplexValue.hpp:184-186) *)
Context (N : num) (show : Z -> N -> text).

(** toString(false, p) (ComplexValue.hpp:179-228) *)
Definition weightText (p : Z) (w : N * N) : text :=
  let zr := nleb (nabs (fst w)) ntol in
  let zi := nleb (nabs (snd w)) ntol in
  if zr && zi then lit "0"
  else (if zr then [] else show p (fst w)) ++
       (if zi then []
        else (if zr then show p (snd w) else (if nltb n0 (snd w) then lit "+" else []) ++ show p (snd w)) ++ lit "i").
(** A successor (Export.hpp:706-716, 753-759) *)
Definition edgeText (c : option (Z * (N * N))) : text :=
  lit " (" ++ match c with None => [] | Some (i, w) => showZ i ++ lit " " ++ weightText 16 w end ++ lit ")".
(** The end of a line (Export.hpp:633) *)
Definition newline : ascii := "010"%char.
(** A node (Export.hpp:702-717, 750-760); the level is not negative. *)
Definition lineText (r : frec (N * N)) : text :=
  showN (fr_ix r) ++ lit " " ++ showN (fr_v r) ++ concat (map edgeText (fr_es r)) ++ [newline].
(** A whole file (Export.hpp:628-723, 765-777): the weight of the root is written with 16 digits for
    vectors and with 17 for matrices. *)
Definition fileText (k : kind) (f : file (N * N)) : text :=
  showN 1 ++ [newline] ++ weightText (match k with KV => 16 | _ => 17 end) (fl_w f) ++ [newline] ++ concat (map lineText (fl_rs f)).
End Write.

(** std::getline until the end of the stream (Package.hpp:3001, 3021, 3028); [cur] is the beginning of the
    line, the last character first. *)
Fixpoint linesOf (cur s : text) : list text :=
  match s with
  | [] => match cur with [] => [] | _ => [rev cur] end
  | a :: t => if Ascii.eqb a newline then rev cur :: linesOf [] t else linesOf (a :: cur) t
  end.
(** static_cast<Qubit> (Package.hpp:3046) *)
Definition toQubit (z : Z) : Z := (z + 128) mod 256 - 128.
(** One successor of a matched line; the groups of the [j]-th one start at 3 + 5 j (Package.hpp:3048-3055). *)
Definition readEdge (c : caps) (j : nat) : tres (option (Z * (dec * dec))) :=
  let g := (3 + 5 * j)%nat in
  match c g with
  | [] => TOk None
  | _ => tbind (stoi (c (g + 1)%nat)) (fun i => tbind (fromString (c (g + 3)%nat) (c (g + 4)%nat)) (fun w => TOk (Some (i, w))))
  end.
(** One line with a node with [n] successors (Package.hpp:3033-3055) *)
Definition readLine (n : nat) (r : re) (s : text) : tres (frec (dec * dec)) :=
  match regexMatch r s with
  | None => TThr TRuntime
  | Some c =>
      tbind (stoi (c 1%nat)) (fun ix => tbind (stoi (c 2%nat)) (fun v =>
      tbind (tmap (readEdge c) (seq 0 n)) (fun es => TOk (FR ix (toQubit v) es))))
  end.
(** Reading a file in text format for nodes with [n] successors (Package.hpp:3000-3059), up to the making
    of the nodes, which is [Serial.deserialize]: all lines are read first.  A missing second line leaves the
    weight zero (Package.hpp:2971). *)
Definition readText (n : nat) (s : text) : tres (file (dec * dec)) :=
  match compile complexWeightRegex, compile (lineConstruct n) with
  | Some wr, Some lr =>
      let ls := linesOf [] s in
      tbind (stoi (hd [] ls)) (fun version =>
      if negb (version =? 1) then TThr TRuntime
      else
        match tl ls with
        | [] => TOk (FL (Dec false 0 0, Dec false 0 0) [])
        | w :: rest =>
            match regexMatch wr w with
            | None => TThr TRuntime
            | Some c =>
                tbind (fromString (c 1%nat) (c 2%nat)) (fun v =>
                tbind (tmap (readLine n lr) (filter (fun l => negb (Nat.leb (List.length l) 1)) rest)) (fun rs =>
                TOk (FL v rs)))
            end
        end)
  | _, _ => TThr TRuntime
  end.
