(** Labels, colours and widths of drawings: Export.hpp:33-157.  Text is as in Fraction.v. *)
From Coq Require Import ZArith List Bool.
From Verif Require Import Num Fraction.
Import ListNotations.
Local Open Scope Z_scope.

(** The text of a phase "ℯ(iπ f)" or "ℯ(-iπ f)": whether there is a minus sign, and the text f
    (Export.hpp:47-108). *)
Definition phtext (A : Type) : Type := bool * list (tok A).
(** The text of a complex number in polar form (Export.hpp:110-157): "0", "1", "i", "-i", "-1", a phase, a magnitude
    with a minus sign or not, a magnitude and a phase. *)
Inductive poltext (A : Type) := PZero | POne | PI_ | PMinusI | PMinusOne | PPhase (p : phtext A) | PMag (neg : bool) (l : list (tok A)) | PBoth (l : list (tok A)) (p : phtext A).
Arguments PZero {A}. Arguments POne {A}. Arguments PI_ {A}. Arguments PMinusI {A}. Arguments PMinusOne {A}. Arguments PPhase {A}. Arguments PMag {A}. Arguments PBoth {A}.

Section Format.
Context (N : num) (ofZ : Z -> N) (pi pi2 twopi three tenth : N).
(** [ofZ] and [pi] as in Fraction.v, [pi2] is PI_2 (Definitions.hpp:51), [twopi] is 2 * PI (Export.hpp:34), [three] and
    [tenth] are 3.0 and 0.10 (Export.hpp:44). *)

(** The hue in colorFromPhase (Export.hpp:34-37); the number is written with three digits after the point. *)
Definition hue (phase : N) : N := let p := ndiv phase twopi in if nltb p n0 then nadd p n1 else p.
(** thicknessFromMagnitude (Export.hpp:43-45) with std::max (a < b ? b : a) *)
Definition thickness (mag : N) : N := nmul three (if nltb mag tenth then tenth else mag).

(** A fraction and whether its error is below the tolerance (Export.hpp:55-59, 73-77, 91-95) *)
Definition suitableP (fuel : nat) (a : N) : option (bool * Z * Z) :=
  match getLowestFraction N ofZ fuel a defaultMax ntol with
  | None => None
  | Some (n, d) => Some (nltb (nabs (nsub a (ndiv (ofZ n) (ofZ d)))) ntol, n, d)
  end.
(** a/b (Export.hpp:60-68) *)
Definition phPlain (n d : Z) : list (tok N) :=
  if (n =? 1) && (d =? 1) then []
  else if d =? 1 then [TNat n]
  else if n =? 1 then [TSlash; TNat d]
  else [TNat n; TSlash; TNat d].
(** a/(b√2) (Export.hpp:78-86) *)
Definition phRoot (n d : Z) : list (tok N) :=
  if (n =? 1) && (d =? 1) then [TSlash; TRoot2]
  else if d =? 1 then [TNat n; TSlash; TRoot2]
  else if n =? 1 then [TSlash; TOpen; TNat d; TRoot2; TClose]
  else [TNat n; TSlash; TOpen; TNat d; TRoot2; TClose].
(** a/b π (Export.hpp:96-104) *)
Definition phPi (n d : Z) : list (tok N) :=
  if (n =? 1) && (d =? 1) then [TPi]
  else if d =? 1 then [TNat n; TPi]
  else if n =? 1 then [TPi; TSlash; TNat d]
  else [TNat n; TPi; TSlash; TNat d].
(** printPhaseFormatted (Export.hpp:47-108) *)
Definition printPhase (fuel : nat) (phase : N) : option (phtext N) :=
  let r := ndiv phase pi in
  let a := nabs r in
  match
    match suitableP fuel a with
    | None => None
    | Some (true, n, d) => Some (phPlain n d)
    | Some (false, _, _) =>
      match suitableP fuel (ndiv a nsq2) with
      | None => None
      | Some (true, n, d) => Some (phRoot n d)
      | Some (false, _, _) =>
        match suitableP fuel (ndiv a pi) with
        | None => None
        | Some (true, n, d) => Some (phPi n d)
        | Some (false, _, _) => Some [TDec a]
        end
      end
    end
  with None => None | Some l => Some (nsign r, l) end.

(** conditionalFormat with formatAsPolar (Export.hpp:115-156); without it the text is that of toString
    (Export.hpp:111-113, Fraction.v).  The magnitude and the phase are given (Export.hpp:115-116,
    ComplexNumbers.hpp:96-103). *)
Definition polarFormat (fuel : nat) (mag phase : N) : option (poltext N) :=
  let near x := nltb (nabs x) ntol in
  if near mag then Some PZero
  else if near (nsub mag n1) then
    if near phase then Some POne
    else if near (nsub phase pi2) then Some PI_
    else if near (nadd phase pi2) then Some PMinusI
    else if near (nsub (nabs phase) pi) then Some PMinusOne
    else match printPhase fuel phase with None => None | Some p => Some (PPhase p) end
  else if near (nsub (nabs phase) pi) then match printFormatted N ofZ pi fuel mag false with None => None | Some l => Some (PMag true l) end
  else if near phase then match printFormatted N ofZ pi fuel mag false with None => None | Some l => Some (PMag false l) end
  else match printFormatted N ofZ pi fuel mag false with
       | None => None
       | Some l => match printPhase fuel phase with None => None | Some p => Some (PBoth l p) end
       end.
End Format.
(** PI_2 in binary64, 0x3FF921FB54442D18 (Definitions.hpp:51) *)
Definition pi2F : NumF := SpecFloat.binary_normalize 53 1024 7074237752028440 (-52) false.
(** 2 * PI in binary64 (Export.hpp:34) *)
Definition twopiF : NumF := SpecFloat.binary_normalize 53 1024 7074237752028440 (-50) false.
