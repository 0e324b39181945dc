(** The temporaries with a difference or a quotient and the magnitude of a weight
    (ComplexNumbers.hpp:96-98, 122-126, 134-138).  The arithmetic itself is in State.v. *)
From Coq Require Import ZArith List Bool.
From Verif Require Import Num Base CTable State.
Import ListNotations.

Section Arith.
(** The numbers and the configuration *)
Context (N : num) (g : cfg N).

(** subCached (ComplexNumbers.hpp:122-126) *)
Definition subCached (a b : complex) : M N complex :=
  bind (getCached0 g) (fun c => bind (subInto c a b) (fun _ => ret c)).
(** divCached (ComplexNumbers.hpp:134-138) *)
Definition divCached (a b : complex) : M N complex :=
  bind (getCached0 g) (fun c => bind (divInto c a b) (fun _ => ret c)).
(** mag (ComplexNumbers.hpp:96-98) *)
Definition wmag (s : st N) (w : complex) : N := nsqrt (wmag2 s w).
End Arith.
