(** Files in binary format (Export.hpp:629-631, 694-704, 739-748, 766-768; Package.hpp:2969-2998), byte by byte,
    and the distance of doubles in units of the last place (Definitions.hpp:89-106). *)
From Coq Require Import ZArith List Bool SpecFloat.
From Verif Require Import Num Base State Serial Text.
Import ListNotations.
Local Open Scope Z_scope.

(** ** Bytes of integers and doubles *)

(** The object representation of an integer in [n] bytes, two's complement, least significant byte first
    (the reinterpret_cast in Export.hpp:630, 695-696, 702; the code says that the format depends on the platform,
    Export.hpp:625: this is the one of x86-64 and of the usual ARM systems). *)
Fixpoint leBytes (n : nat) (z : Z) : list Z :=
  match n with O => [] | S m => z mod 256 :: leBytes m (z / 256) end.
(** The unsigned integer with these bytes (Package.hpp:2981-2983) *)
Fixpoint leVal (l : list Z) : Z :=
  match l with [] => 0 | b :: r => b + 256 * leVal r end.
(** The signed integer with these bytes (std::int64_t, Package.hpp:2974, 2977, 2991, 2994; Qubit, Package.hpp:2975, 2992) *)
Definition leInt (l : list Z) : Z :=
  let v := leVal l in
  if v <? 2 ^ (8 * Z.of_nat (length l) - 1) then v else v - 2 ^ (8 * Z.of_nat (length l)).

(** The 64 bits of a double (IEEE 754 binary64; the reinterpret_cast in ComplexTable.hpp:103-106): sign, eleven bits
    of exponent, 52 bits of fraction.  There is one NaN in the model, the quiet one of x86-64 without payload. *)
Definition bitsOf (x : spec_float) : Z :=
  let sgn (s : bool) := if s then 2 ^ 63 else 0 in
  match x with
  | S754_zero s => sgn s
  | S754_infinity s => sgn s + 2047 * 2 ^ 52
  | S754_nan => 2047 * 2 ^ 52 + 2 ^ 51
  | S754_finite s m e =>
      if Z.pos m <? 2 ^ 52 then sgn s + Z.pos m else sgn s + (e + 1075) * 2 ^ 52 + (Z.pos m - 2 ^ 52)
  end.
(** The double with the given 64 bits (the reinterpret_cast in ComplexValue.hpp:49-52) *)
Definition ofBits (z : Z) : spec_float :=
  let s := 2 ^ 63 <=? z in
  let ex := (z / 2 ^ 52) mod 2 ^ 11 in
  let fr := z mod 2 ^ 52 in
  if ex =? 0 then match fr with Z.pos m => S754_finite s m (-1074) | _ => S754_zero s end
  else if ex =? 2047 then (if fr =? 0 then S754_infinity s else S754_nan)
  else match fr + 2 ^ 52 with Z.pos m => S754_finite s m (ex - 1075) | _ => S754_nan end.

(** ** Writing *)

(** Complex::writeBinary (Complex.hpp:63-66, ComplexTable.hpp:103-106): real part, imaginary part *)
Definition weightBytes (w : spec_float * spec_float) : list Z := leBytes 8 (bitsOf (fst w)) ++ leBytes 8 (bitsOf (snd w)).
(** A successor (Export.hpp:699-704, 744-748).  The empty brackets occur in the text format only. *)
Definition edgeBytes (c : option (Z * (spec_float * spec_float))) : list Z :=
  match c with Some (i, w) => leBytes 8 i ++ weightBytes w | None => [] end.
(** A node (Export.hpp:694-705, 739-749): index, level in one byte, successors *)
Definition nodeBytes (r : frec (spec_float * spec_float)) : list Z :=
  leBytes 8 (fr_ix r) ++ leBytes 1 (fr_v r) ++ flat_map edgeBytes (fr_es r).
(** A file (Export.hpp:629-631, 766-768): SERIALIZATION_VERSION (Definitions.hpp:60), weight of the root, nodes *)
Definition fileBytes (f : file (spec_float * spec_float)) : list Z :=
  leBytes 8 1 ++ weightBytes (fl_w f) ++ flat_map nodeBytes (fl_rs f).

(** ** Reading *)

(** A stream: the bytes that are left, and whether no read has failed (std::istream, Package.hpp:2969). *)
Definition stream : Type := list Z * bool.
(** is.read into an object with the bytes [old] (Package.hpp:2982, 2991-2995): a stream that has failed gives nothing; if
    there are too few bytes they are stored in the first places and the stream fails (eofbit and failbit). *)
Definition readInto (old : list Z) (s : stream) : list Z * stream :=
  if snd s then
    let got := firstn (length old) (fst s) in
    (got ++ skipn (length got) old, (skipn (length old) (fst s), Nat.leb (length old) (length (fst s))))
  else (old, s).
(** The bytes of a ComplexValue (ComplexValue.hpp:24, 49-52) *)
Definition cbytes : Type := list Z * list Z.
(** ComplexValue::readBinary (ComplexValue.hpp:49-52) *)
Definition readWeight (old : cbytes) (s : stream) : cbytes * stream :=
  let (r, s1) := readInto (fst old) s in
  let (i, s2) := readInto (snd old) s1 in
  ((r, i), s2).
(** The value of a ComplexValue (ComplexValue.hpp:24) *)
Definition weightOf (w : cbytes) : spec_float * spec_float := (ofBits (leVal (fst w)), ofBits (leVal (snd w))).
(** The loop over the successors (Package.hpp:2993-2996); a variable is the bytes of edgeIndices[i] and edgeWeights[i]. *)
Fixpoint readEdges (old : list (list Z * cbytes)) (s : stream) : list (list Z * cbytes) * stream :=
  match old with
  | [] => ([], s)
  | (i, w) :: r =>
      let (i', s1) := readInto i s in
      let (w', s2) := readWeight w s1 in
      let (r', s3) := readEdges r s2 in
      ((i', w') :: r', s3)
  end.
(** The loop over the nodes (Package.hpp:2991-2998).  The variables nodeIndex, v, edgeIndices and edgeWeights keep
    their values from one round to the next, except that deserializeNode resets the indices to -2 unless the index of
    the node is -1 (Package.hpp:3082-3084, 3104).  The making of the nodes is [Serial.readNodes].  [fuel] bounds
    the number of rounds. *)
Fixpoint readRecs (fuel : nat) (ix v : list Z) (es : list (list Z * cbytes)) (s : stream) : list (frec (spec_float * spec_float)) :=
  match fuel with
  | O => []
  | S f =>
      let (ix1, s1) := readInto ix s in
      if snd s1 then
        let (v1, s2) := readInto v s1 in
        let (es1, s3) := readEdges es s2 in
        FR (leInt ix1) (leInt v1) (map (fun c => Some (leInt (fst c), weightOf (snd c))) es1) ::
        readRecs f ix1 v1 (if leInt ix1 =? -1 then es1 else map (fun c => (leBytes 8 (-2), snd c)) es1) s3
      else []
  end.
(** A ComplexValue with both parts zero (Package.hpp:2971, 2976) *)
Definition zeroC : cbytes := (leBytes 8 0, leBytes 8 0).
(** Reading a file in binary format for nodes with [n] successors (Package.hpp:2969-2998), up to the making of the
    nodes and the weight of the root, which is [Serial.deserialize].  eof() after the version number has been read means
    that there were fewer than eight bytes (Package.hpp:2987). *)
Definition readBinary (n : nat) (l : list Z) : tres (file (spec_float * spec_float)) :=
  let (version, s1) := readInto (leBytes 8 0) (l, true) in
  if negb (leVal version =? 1) then TThr TRuntime
  else
    let (w, s2) := if snd s1 then readWeight zeroC s1 else (zeroC, s1) in
    TOk (FL (weightOf w) (readRecs (S (length l)) (leBytes 8 0) (leBytes 1 0) (repeat (leBytes 8 (-2), zeroC) n) s2)).

(** ** Distance in units of the last place *)

(** The next double away from zero: std::nextafter (Definitions.hpp:97, 101) for an argument of larger magnitude and the
    same sign *)
Definition awayF (x : spec_float) : spec_float :=
  match x with
  | S754_finite s m e =>
      if Z.pos m + 1 <? 2 ^ 53 then S754_finite s (m + 1) e
      else if e <? 971 then S754_finite s (2 ^ 52) (e + 1) else S754_infinity s
  | S754_zero s => S754_finite s 1 (-1074)
  | _ => x
  end.
(** The next double towards zero: std::nextafter (Definitions.hpp:97, 101) for an argument of smaller magnitude or of the
    other sign *)
Definition backF (x : spec_float) : spec_float :=
  match x with
  | S754_finite s m e =>
      if (Z.pos m =? 2 ^ 52) && (-1074 <? e) then S754_finite s (2 ^ 53 - 1) (e - 1)
      else if Z.pos m =? 1 then S754_zero s else S754_finite s (Pos.pred m) e
  | S754_infinity s => S754_finite s (2 ^ 53 - 1) 971
  | _ => x
  end.
(** std::nextafter (Definitions.hpp:97, 101; C17 7.12.11.3 and F.10.8.3): NaN if an argument is, the second argument if
    they are equal; from zero to the smallest number with the sign of the direction *)
Definition nextafter (x y : spec_float) : spec_float :=
  match SFcompare x y with
  | None => S754_nan
  | Some Eq => y
  | Some c =>
      let up := match c with Lt => true | _ => false end in
      match x with
      | S754_zero _ => S754_finite (negb up) 1 (-1074)
      | _ => if Bool.eqb up (negb (Fsign x)) then awayF x else backF x
      end
  end.
(** The while loop of ulpDistance (Definitions.hpp:99-102); [None] if it has not ended after [fuel] rounds.  std::size_t wraps
    around. *)
Fixpoint ulpLoop (fuel : nat) (ulps : Z) (x b : spec_float) : option Z :=
  if SFeqb x b then Some ulps
  else match fuel with
       | O => None
       | S f => ulpLoop f ((ulps + 1) mod 2 ^ 64) (nextafter x b) b
       end.
(** ulpDistance (Definitions.hpp:90-104) *)
Definition ulpDistance (fuel : nat) (a b : spec_float) : option Z :=
  if SFeqb a b then Some 0 else ulpLoop fuel 1 (nextafter a b) b.
