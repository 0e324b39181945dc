(** Formatted output of complex numbers: ComplexValue.hpp:73-223.  Text is a list of tokens; the
    decimal representation of a floating-point number is the token [TDec]. *)
From Coq Require Import ZArith List Bool.
From Verif Require Import Num.
Import ListNotations.
Local Open Scope Z_scope.

(** Arithmetic of std::uint64_t (ComplexValue.hpp:76-81) *)
Definition u64 (z : Z) : Z := z mod 2 ^ 64.

(** The pieces of text written (ComplexValue.hpp:104-220): "-", "+", an integer, "i", "/", "(", ")",
    "√2", "π" and a floating-point number. *)
Inductive tok (A : Type) := TMinus | TPlus | TNat (n : Z) | TImag | TSlash | TOpen | TClose | TRoot2 | TPi | TDec (x : A).
Arguments TMinus {A}. Arguments TPlus {A}. Arguments TNat {A}. Arguments TImag {A}. Arguments TSlash {A}.
Arguments TOpen {A}. Arguments TClose {A}. Arguments TRoot2 {A}. Arguments TPi {A}. Arguments TDec {A}.

(** The part of the text after the real part (ComplexValue.hpp:198-220). *)
Inductive imtext (A : Type) := ImNone | ImText (l : list (tok A)) | OnePlusI | OneMinusI.
Arguments ImNone {A}. Arguments ImText {A}. Arguments OnePlusI {A}. Arguments OneMinusI {A}.

Section Fraction.
Context (N : num) (ofZ : Z -> N) (pi : N).
(** [ofZ] is static_cast<fp> of a std::uint64_t (ComplexValue.hpp:82), [pi] is PI (Definitions.hpp:50). *)

(** The loop of getLowestFraction (ComplexValue.hpp:79-101); [None] when [fuel] iterations do not suffice. *)
Fixpoint glf (fuel : nat) (x : N) (mx : Z) (tol : N) (lo up : Z * Z) : option (Z * Z) :=
  match fuel with
  | O => None
  | S f =>
    if (snd lo <=? mx) && (snd up <=? mx) then
      let num := u64 (fst lo + fst up) in
      let den := u64 (snd lo + snd up) in
      let median := ndiv (ofZ num) (ofZ den) in
      if nleb (nabs (nsub x median)) tol then
        if den <=? mx then Some (num, den)
        else if snd lo <? snd up then Some up
        else Some lo
      else if nltb median x then glf f x mx tol (num, den) up
      else glf f x mx tol lo (num, den)
    else if mx <? snd lo then Some up
    else Some lo
  end.
(** getLowestFraction (ComplexValue.hpp:73-77); the assertion x >= 0 is a hypothesis of the theorems. *)
Definition getLowestFraction (fuel : nat) (x : N) (mx : Z) (tol : N) : option (Z * Z) := glf fuel x mx tol (0, 1) (1, 0).

(** The default of maxDenominator (ComplexValue.hpp:73) *)
Definition defaultMax : Z := 2 ^ 10.

(** The imaginary unit, if asked for (ComplexValue.hpp:119-125) *)
Definition iu (im : bool) : list (tok N) := if im then [TImag] else [].
(** [imaginary ? "i" : "1"] (ComplexValue.hpp:119) *)
Definition i1 (im : bool) : list (tok N) := if im then [TImag] else [TNat 1].
(** The sign of a fraction (ComplexValue.hpp:116) *)
Definition sgn (x : N) (im : bool) : list (tok N) := if nsign x then [TMinus] else if im then [TPlus] else [].
(** a/b (ComplexValue.hpp:118-126) *)
Definition textPlain (s : list (tok N)) (im : bool) (n d : Z) : list (tok N) :=
  if (n =? 1) && (d =? 1) then s ++ i1 im
  else if d =? 1 then s ++ [TNat n] ++ iu im
  else if n =? 1 then s ++ i1 im ++ [TSlash; TNat d]
  else s ++ [TNat n] ++ iu im ++ [TSlash; TNat d].
(** a/(b√2) (ComplexValue.hpp:139-147) *)
Definition textRoot (s : list (tok N)) (im : bool) (n d : Z) : list (tok N) :=
  if (n =? 1) && (d =? 1) then s ++ i1 im ++ [TSlash; TRoot2]
  else if d =? 1 then s ++ [TNat n] ++ iu im ++ [TSlash; TRoot2]
  else if n =? 1 then s ++ i1 im ++ [TSlash; TOpen; TNat d; TRoot2; TClose]
  else s ++ [TNat n] ++ iu im ++ [TSlash; TOpen; TNat d; TRoot2; TClose].
(** a/b π (ComplexValue.hpp:160-168) *)
Definition textPi (s : list (tok N)) (im : bool) (n d : Z) : list (tok N) :=
  if (n =? 1) && (d =? 1) then s ++ [TPi] ++ iu im
  else if d =? 1 then s ++ [TNat n] ++ [TPi] ++ iu im
  else if n =? 1 then s ++ [TPi] ++ iu im ++ [TSlash; TNat d]
  else s ++ [TNat n] ++ [TPi] ++ iu im ++ [TSlash; TNat d].

(** The search for a suitable fraction and its error (ComplexValue.hpp:111-115, 132-136, 152-156) *)
Definition suitable (fuel : nat) (a : N) : option (bool * Z * Z) :=
  match getLowestFraction fuel a defaultMax ntol with
  | None => None
  | Some (n, d) => Some (nleb (nabs (nsub a (ndiv (ofZ n) (ofZ d)))) ntol, n, d)
  end.

(** printFormatted (ComplexValue.hpp:104-177) *)
Definition printFormatted (fuel : nat) (x : N) (im : bool) : option (list (tok N)) :=
  if nleb (nabs x) ntol then Some ([if nsign x then TMinus else TPlus; TNat 0] ++ iu im)
  else
    let a := nabs x in
    match suitable fuel a with
    | None => None
    | Some (true, n, d) => Some (textPlain (sgn x im) im n d)
    | Some (false, _, _) =>
      match suitable fuel (ndiv a nsq2) with
      | None => None
      | Some (true, n, d) => Some (textRoot (sgn x im) im n d)
      | Some (false, _, _) =>
        match suitable fuel (ndiv a pi) with
        | None => None
        | Some (true, n, d) => Some (textPi (sgn x im) im n d)
        | Some (false, _, _) => Some (if im then (if nsign x then [] else [TPlus]) ++ [TDec x; TImag] else [TDec x])
        end
      end
    end.

(** toString (ComplexValue.hpp:179-223): [None] inside means that nothing is written for the real
    part, and [inl tt] is the text "0".  The precision of decimals is not modelled. *)
Definition toString (fuel : nat) (re im : N) (formatted : bool) : option (unit + option (list (tok N)) * imtext N) :=
  let zr := nleb (nabs re) ntol in
  let zi := nleb (nabs im) ntol in
  if zr && zi then Some (inl tt)
  else
    match (if zr then Some None
           else if formatted then match printFormatted fuel re false with None => None | Some l => Some (Some l) end
           else Some (Some [TDec re])) with
    | None => None
    | Some r =>
      if zi then Some (inr (r, ImNone))
      else if formatted then
        if nleb (nabs (nsub re im)) ntol then Some (inr (r, OnePlusI))
        else if nleb (nabs (nadd re im)) ntol then Some (inr (r, OneMinusI))
        else match printFormatted fuel im true with None => None | Some l => Some (inr (r, ImText l)) end
      else if zr then Some (inr (r, ImText [TDec im; TImag]))
      else Some (inr (r, ImText ((if nltb n0 im then [TPlus] else []) ++ [TDec im; TImag])))
    end.
End Fraction.

(** static_cast<double>(std::uint64_t) (ComplexValue.hpp:82) *)
Definition ofZF (z : Z) : NumF := SpecFloat.binary_normalize 53 1024 z 0 false.
(** PI in binary64, 0x400921FB54442D18 (Definitions.hpp:50) *)
Definition piF : NumF := SpecFloat.binary_normalize 53 1024 7074237752028440 (-51) false.
