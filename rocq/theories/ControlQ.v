(** Sets of controls indexed by a qubit (Control.hpp:34-62).  Control.v has a set as the list of its elements;
    here it is the search tree of std::set, whose shape (the balancing) is arbitrary. *)
From Coq Require Import ZArith List Bool Lia Arith.
From Verif Require Import Control.
Import ListNotations.
Local Open Scope Z_scope.

(** CompareControl with a qubit on the left (Control.hpp:42-44) *)
Definition lt_qc (q : Z) (c : control) : bool := q <? cqb c.
(** CompareControl with a qubit on the right (Control.hpp:46-48) *)
Definition lt_cq (c : control) (q : Z) : bool := cqb c <? q.

(** The nodes of std::set<Control, CompareControl> (Control.hpp:50) *)
Inductive tree := TLeaf | TNode (l : tree) (c : control) (r : tree).
(** Its elements in iteration order (Control.hpp:50) *)
Fixpoint inorder (t : tree) : list control :=
  match t with TLeaf => [] | TNode l c r => inorder l ++ c :: inorder r end.

(** insert (Control.hpp:50): down to a free place, left if the new element is smaller; [pred] is the last node
    left to the right, the predecessor of that place, which is compared with the new element in the end. *)
Fixpoint insT (a : control) (pred : option control) (t : tree) : tree :=
  match t with
  | TLeaf => match pred with
             | Some b => if ctl_ltb b a then TNode TLeaf a TLeaf else TLeaf
             | None => TNode TLeaf a TLeaf
             end
  | TNode l c r => if ctl_ltb a c then TNode (insT a pred l) c r else TNode l c (insT a (Some c) r)
  end.

(** lower_bound of a qubit (Control.hpp:37, 46-48, 50).  An iterator is the list of the elements from there on;
    [rest] are the elements after this part of the tree. *)
Fixpoint lowerBound (t : tree) (q : Z) (rest : list control) : list control :=
  match t with
  | TLeaf => rest
  | TNode l c r => if lt_cq c q then lowerBound r q rest else lowerBound l q (c :: inorder r ++ rest)
  end.
(** Incrementing an iterator up to the first element above the qubit (Control.hpp:37, 42-44, 50) *)
Fixpoint upTo (q : Z) (l : list control) : list control :=
  match l with [] => [] | c :: r => if lt_qc q c then [] else c :: upTo q r end.
(** equal_range of a qubit (Control.hpp:37, 50): the elements in the range *)
Definition equalRange (t : tree) (q : Z) : list control := upTo q (lowerBound t q []).
(** find with a qubit (Control.hpp:37, 50); [None]: the end *)
Definition findQ (t : tree) (q : Z) : option control :=
  match lowerBound t q [] with [] => None | c :: _ => if lt_qc q c then None else Some c end.
(** count with a qubit (Control.hpp:37, 50) *)
Definition countQ (t : tree) (q : Z) : nat := length (equalRange t q).

(** static_cast<Qubit> of an unsigned long long; Qubit = std::int8_t (Definitions.hpp:20) *)
Definition qubitOf (q : Z) : Z := (q + 128) mod 256 - 128.
(** operator""_pc (Control.hpp:54-56) *)
Definition lit_pc (q : Z) : control := Ctl (qubitOf q) true.
(** operator""_nc (Control.hpp:58-60) *)
Definition lit_nc (q : Z) : control := Ctl (qubitOf q) false.
