(** Controls (Control.hpp). *)
From Coq Require Import ZArith List Bool Lia Arith Permutation Sorted.
Import ListNotations.
Local Open Scope Z_scope.

(** Control (Control.hpp:14-20): a qubit and whether the control is positive. *)
Record control := Ctl { cqb : Z; cpos : bool }.
(** operator< (Control.hpp:22-24); Type::neg = false < pos = true (15-16). *)
Definition ctl_ltb (a b : control) : bool :=
  (cqb a <? cqb b) || ((cqb a =? cqb b) && (negb (cpos a) && cpos b)).
(** operator== (Control.hpp:26-28) *)
Definition ctl_eqb (a b : control) : bool := (cqb a =? cqb b) && Bool.eqb (cpos a) (cpos b).
(** Controls = std::set<Control> (Control.hpp:50) as the list of its elements in iteration
    order; insert. *)
Fixpoint cs_insert (a : control) (l : list control) : list control :=
  match l with
  | [] => [a]
  | b :: r => if ctl_ltb a b then a :: l else if ctl_ltb b a then b :: cs_insert a r else l
  end.
(** The set built from the elements of [l] in turn (Control.hpp:50). *)
Definition cs_of (l : list control) : list control := fold_left (fun s a => cs_insert a s) l [].
(** operator!= of sets compares element by element (Control.hpp:30-32, 50). *)
Fixpoint cs_eqb (a b : list control) : bool :=
  match a, b with
  | [], [] => true
  | x :: a, y :: b => ctl_eqb x y && cs_eqb a b
  | _, _ => false
  end.

Lemma ctl_eqb_spec a b : ctl_eqb a b = true <-> a = b.
Proof.
  destruct a as [q p], b as [r t]. unfold ctl_eqb. cbn. rewrite andb_true_iff, Z.eqb_eq, Bool.eqb_true_iff. split; [intros [-> ->]; auto|intros [= -> ->]; auto].
Qed.
Lemma cs_eqb_spec : forall a b, cs_eqb a b = true <-> a = b.
Proof.
  induction a as [|x a IH]; intros [|y b]; cbn; try (split; congruence). rewrite andb_true_iff, ctl_eqb_spec, IH. split; [intros [-> ->]; auto|intros [= -> ->]; auto].
Qed.
