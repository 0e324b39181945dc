(** Outcomes, finite updates of total maps and small list facts. *)
From Coq Require Import ZArith List Bool Lia Arith.
Import ListNotations.

(** Reasons for which running the C++ code would leave the language's defined
    behaviour or hit a failing [assert].
    - [BadNum]: a floating point value outside the domain of the number lookup or its
      hash (NaN, negative, or too large for the conversion to an integer);
    - [BadAssert]: an [assert] of the code fails;
    - [BadIndex]: container access out of range without bounds check;
    - [BadNull]: access through a null or terminal pointer / empty container;
    - [BadShift]: shift amount negative or too large;
    - [BadFree]: an object is put on a free list it is already on, or that it never
      came from (the real linked list would become cyclic or mix pools);
    - [BadFuel]: the model ran out of recursion fuel (never happens, by theorem).
    Asserts are e.g. in Package.hpp:332; a division by zero, a null pointer or an index out of range is
    flagged where the operation is modelled, with its own citation. *)
Inductive bad :=
  | BadNum | BadAssert | BadIndex | BadNull | BadShift | BadFree | BadFuel.

(** Exceptions the code throws: std::invalid_argument (e.g. Package.hpp:313), std::runtime_error (e.g.
    Package.hpp:236) and std::out_of_range (the at of the library, e.g. StochasticNoiseOperationTable.hpp:35). *)
Inductive exn := EInvalidArg | ERuntime | EOutOfRange.

(** ** Total maps *)

(** Assignment to one element of an array indexed by naturals (e.g. a chunk slot, UniqueTable.hpp:134-139). *)
Definition upd {A} (f : nat -> A) (k : nat) (v : A) : nat -> A :=
  fun x => if Nat.eqb x k then v else f x.
(** Assignment to one element of an array indexed by integers (e.g. a hash bucket, UniqueTable.hpp:107). *)
Definition updZ {A} (f : Z -> A) (k : Z) (v : A) : Z -> A :=
  fun x => if Z.eqb x k then v else f x.

Arguments upd : simpl never.
Arguments updZ : simpl never.

Lemma upd_eq {A} (f : nat -> A) k v : upd f k v k = v.
Proof. unfold upd; now rewrite Nat.eqb_refl. Qed.
Lemma upd_neq {A} (f : nat -> A) k v x : x <> k -> upd f k v x = f x.
Proof. intros; unfold upd; destruct (Nat.eqb_spec x k); congruence. Qed.
Lemma updZ_eq {A} (f : Z -> A) k v : updZ f k v k = v.
Proof. unfold updZ; now rewrite Z.eqb_refl. Qed.
Lemma updZ_neq {A} (f : Z -> A) k v x : x <> k -> updZ f k v x = f x.
Proof. intros; unfold updZ; destruct (Z.eqb_spec x k); congruence. Qed.

Lemma upd_cases {A} (f : nat -> A) k v x :
  (x = k /\ upd f k v x = v) \/ (x <> k /\ upd f k v x = f x).
Proof. destruct (Nat.eq_dec x k); [left|right]; subst; split; auto;
  [apply upd_eq | apply upd_neq; auto]. Qed.

(** ** Lists *)

(** Membership in a free list (used for the misuse flag of UniqueTable.hpp:142-145). *)
Definition memb (a : nat) (l : list nat) : bool := existsb (Nat.eqb a) l.

Lemma memb_In a l : memb a l = true <-> In a l.
Proof.
  unfold memb; rewrite existsb_exists; split.
  - intros (x & H & E); apply Nat.eqb_eq in E; subst; auto.
  - intros H; exists a; split; auto; apply Nat.eqb_refl.
Qed.
Lemma memb_false a l : memb a l = false <-> ~ In a l.
Proof. rewrite <- memb_In; destruct (memb a l); split; intros; try congruence; intuition. Qed.

(** Last element of a list: the tail of a chain (ComplexTable.hpp:476). *)
Fixpoint lastopt (l : list nat) : option nat :=
  match l with
  | [] => None
  | [a] => Some a
  | _ :: r => lastopt r
  end.

Lemma lastopt_app_cons l a r : lastopt (l ++ a :: r) = lastopt (a :: r).
Proof. induction l as [|x l IH]; auto. cbn [app]. rewrite <- IH.
  simpl. destruct (l ++ a :: r) eqn:E; auto. destruct l; discriminate. Qed.

Lemma lastopt_snoc l a : lastopt (l ++ [a]) = Some a.
Proof. now rewrite lastopt_app_cons. Qed.

Lemma lastopt_Some l a : lastopt l = Some a -> exists l', l = l' ++ [a].
Proof.
  induction l as [|x l IH]; [discriminate|].
  destruct l as [|y l].
  - intros [= <-]. now exists [].
  - intros H. destruct (IH H) as (l' & E). exists (x :: l'). simpl. now rewrite E.
Qed.

Lemma lastopt_None l : lastopt l = None -> l = [].
Proof. induction l as [|x l IH]; auto. destruct l; [discriminate|].
  intros H. specialize (IH H). discriminate. Qed.

Lemma hd_error_app {A} (l r : list A) : hd_error (l ++ r) = match l with [] => hd_error r | x :: _ => Some x end.
Proof. destruct l; auto. Qed.
