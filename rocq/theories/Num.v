(** Number systems the model is parameterised by.

    The code computes with [fp = double] (Definitions.hpp:32).  All model
    functions take a record [num] holding exactly the operations on [fp] that the
    modelled code uses.  [NumF] is IEEE-754 binary64, [NumR tol] is exact real
    arithmetic with an arbitrary tolerance. *)
From Coq Require Import ZArith Reals Bool List Lia Lra.
From Coq Require Import SpecFloat.
Import ListNotations.
Local Open Scope Z_scope.

(** Operations on [fp] used by the code.
    - [ntol] is [ComplexTable::TOLERANCE] (ComplexTable.hpp:105-107,118-129);
    - [nsq2] is [SQRT2_2] (ComplexValue.hpp / Definitions.hpp constant used at
      ComplexTable.hpp:110);
    - [nsign] is [std::signbit];
    - [nkey mask v] is [static_cast<std::int64_t>(std::nearbyint(v * MASK))]
      (ComplexTable.hpp:131-135), [None] when the cast is undefined. *)
Record num := mkNum {
  T :> Type;
  n0 : T; n1 : T; nhalf : T; nsq2 : T;
  nadd : T -> T -> T; nsub : T -> T -> T; nmul : T -> T -> T; ndiv : T -> T -> T;
  nneg : T -> T; nabs : T -> T; nsqrt : T -> T;
  nleb : T -> T -> bool; nltb : T -> T -> bool;
  nsign : T -> bool;
  ntol : T;
  nkey : Z -> T -> option Z
}.

Arguments n0 {n}. Arguments n1 {n}. Arguments nhalf {n}. Arguments nsq2 {n}.
Arguments nadd {n}. Arguments nsub {n}. Arguments nmul {n}. Arguments ndiv {n}.
Arguments nneg {n}. Arguments nabs {n}. Arguments nsqrt {n}.
Arguments nleb {n}. Arguments nltb {n}. Arguments nsign {n}. Arguments ntol {n}.
Arguments nkey {n}.

(** ** IEEE-754 binary64 *)

(** [x * 2^k] for an integer [k] of either sign, rounded to the nearest integer,
    ties to even: the integer value of [std::nearbyint] (default rounding mode; ComplexTable.hpp:133). *)
Definition rneZ (m : Z) (k : Z) : Z :=
  if 0 <=? k then m * 2 ^ k
  else
    let d := 2 ^ (- k) in
    let q := m / d in
    let r := m mod d in
    if 2 * r <? d then q
    else if d <? 2 * r then q + 1
    else if Z.even q then q else q + 1.

(** ComplexTable.hpp:131-135, on binary64: multiply by MASK (a float), round to
    nearest-even integer, cast to int64 ([None] if not representable), clip to MASK.
    The clipping is done by [ct_hash]. *)
Definition keyF (mask : Z) (v : spec_float) : option Z :=
  let mf := binary_normalize 53 1024 mask 0 false in
  match SFmul 53 1024 v mf with
  | S754_zero _ => Some 0
  | S754_finite s m e =>
      let r := rneZ (if s then Z.neg m else Z.pos m) e in
      if (- 2 ^ 63 <=? r) && (r <? 2 ^ 63) then Some r else None
  | _ => None
  end.

(** The constant 0 of type fp (ComplexTable.hpp:109). *)
Definition F0 : spec_float := S754_zero false.
(** The constant 1 of type fp (ComplexTable.hpp:111). *)
Definition F1 : spec_float := binary_normalize 53 1024 1 0 false.
(** The constant 0.5 of type fp (ComplexTable.hpp:116). *)
Definition Fhalf : spec_float := binary_normalize 53 1024 1 (-1) false.
(** SQRT2_2 = 0.707106781186547524400844362104849039 rounded to binary64,
    0x3FE6A09E667F3BCD (Definitions.hpp:41). *)
Definition Fsq2 : spec_float := binary_normalize 53 1024 6369051672525773 (-53) false.
(** TOLERANCE = numeric_limits<double>::epsilon() * 1024 = 2^-42 (ComplexTable.hpp:489). *)
Definition Ftol : spec_float := binary_normalize 53 1024 1 (-42) false.

(** std::signbit (ComplexNumbers.hpp:159,165). *)
Definition Fsign (x : spec_float) : bool :=
  match x with
  | S754_zero s => s | S754_infinity s => s
  | S754_nan => false | S754_finite s _ _ => s
  end.

(** The doubles (Definitions.hpp:32), with tolerance [t] (ComplexTable.hpp:124, 489). *)
Definition NumFt (t : spec_float) : num :=
  mkNum spec_float F0 F1 Fhalf Fsq2
        (SFadd 53 1024) (SFsub 53 1024) (SFmul 53 1024) (SFdiv 53 1024)
        SFopp SFabs (SFsqrt 53 1024) SFleb SFltb Fsign t keyF.

(** The number system of the code: double with the default tolerance (Definitions.hpp:32, ComplexTable.hpp:489). *)
Definition NumF : num := NumFt Ftol.

(** ** Real numbers *)

(** Comparison of reals, standing for <= on fp (e.g. Package.hpp:185). *)
Definition Rleb (x y : R) : bool := if Rle_dec x y then true else false.
(** Comparison of reals, standing for < on fp (e.g. ComplexTable.hpp:73-80). *)
Definition Rltb (x y : R) : bool := if Rlt_dec x y then true else false.

Lemma Rleb_iff x y : Rleb x y = true <-> (x <= y)%R.
Proof. unfold Rleb; destruct (Rle_dec x y); split; intros; auto; discriminate. Qed.
Lemma Rltb_iff x y : Rltb x y = true <-> (x < y)%R.
Proof. unfold Rltb; destruct (Rlt_dec x y); split; intros; auto; discriminate. Qed.
Lemma Rleb_false x y : Rleb x y = false <-> (y < x)%R.
Proof. unfold Rleb; destruct (Rle_dec x y); split; intros; auto; try discriminate; lra. Qed.
Lemma Rltb_false x y : Rltb x y = false <-> (y <= x)%R.
Proof. unfold Rltb; destruct (Rlt_dec x y); split; intros; auto; try discriminate; lra. Qed.

(** Round to nearest integer, ties to even, on the reals ([std::nearbyint], ComplexTable.hpp:133). *)
Definition rneR (x : R) : Z :=
  let k := up x - 1 in
  if Rlt_dec (x - IZR k) (1/2) then k
  else if Rlt_dec (1/2) (x - IZR k) then k + 1
  else if Z.even k then k else k + 1.

(** The reals with tolerance [t] in place of the doubles (Definitions.hpp:32); here the cast to int64
    (ComplexTable.hpp:133) never overflows. *)
Definition NumR (t : R) : num :=
  mkNum R 0%R 1%R (1/2)%R (sqrt 2 / 2)%R
        Rplus Rminus Rmult Rdiv Ropp Rabs sqrt Rleb Rltb
        (fun x => Rltb x 0) t
        (fun mask v => Some (rneR (v * IZR mask))).
