(** Printing of vectors and matrices on the standard output
    (Package.hpp:2669-2683, 2685-2699). *)
From Coq Require Import String Ascii.
From Coq Require Import ZArith List Bool.
From Verif Require Import Num Base CTable State Pkg Read Text.
Import ListNotations.
Local Open Scope Z_scope.

(** [std::setw(width)] before a string (Package.hpp:2680,2694): blanks in front, as no alignment
    was asked for; a longer text is not cut. *)
Definition setw (w : nat) (t : text) : text := repeat " "%char (w - length t) ++ t.
(** [1 + 2 + precision + 1 + 2 + precision + 1] with precision 3 (Package.hpp:2676-2679,2690-2693) *)
Definition width : nat := 13.
(** One bit, [(i >> j) & 1ULL] (Package.hpp:2674) *)
Definition bitText (i j : Z) : text := if Z.testbit i j then lit "1" else lit "0".
(** [for (Qubit j = e.p->v; j >= 0; j--)] (Package.hpp:2673-2675): [n] bits from the top one *)
Fixpoint bitsText (n : nat) (i : Z) : text :=
  match n with O => [] | S m => bitText i (Z.of_nat m) ++ bitsText m i end.

Section Print.
(** The numbers and the text of a number with three digits (Package.hpp:2676,2690;
    ComplexValue.hpp:179-228) *)
Context (N : num) (g : cfg N) (show : Z -> N -> text).
Local Notation M := (M N).

(** The body of the loop over the entries (Package.hpp:2671-2681) *)
Definition vectorLine (e : edge) (i : nat) : M text :=
  let* a := getValueV N g e (Z.of_nat i) in
  fun s => ret (bitsText (Z.to_nat (lvl s KV (ep e) + 1)) (Z.of_nat i) ++ lit ": " ++
                setw width (weightText N show 3 a) ++ [newline]) s.
(** printVector (Package.hpp:2669-2683) *)
Definition printVector (e : edge) : M text :=
  let* dim := dimOf N KV e in
  let* ls := mapM N (vectorLine e) (seq 0 (Z.to_nat dim)) in
  ret (concat ls).

(** The body of the inner loop (Package.hpp:2688-2695) *)
Definition matrixCell (e : edge) (i j : nat) : M text :=
  let* a := getValueM N g e (Z.of_nat i) (Z.of_nat j) in
  ret (setw width (weightText N show 3 a) ++ lit " ").
(** The body of the outer loop (Package.hpp:2687-2697) *)
Definition matrixLine (e : edge) (dim i : nat) : M text :=
  let* cs := mapM N (matrixCell e i) (seq 0 dim) in
  ret (concat cs ++ [newline]).
(** printMatrix (Package.hpp:2685-2699) *)
Definition printMatrix (e : edge) : M text :=
  let* dim := dimOf N KM e in
  let* ls := mapM N (matrixLine e (Z.to_nat dim)) (seq 0 (Z.to_nat dim)) in
  ret (concat ls).
End Print.
