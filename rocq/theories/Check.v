(** The consistency checks of the package (Package.hpp:3143-3260). *)
From Coq Require Import ZArith List Bool Lia Arith.
From Verif Require Import Num Base CTable State Pkg.
Import ListNotations.
Local Open Scope Z_scope.

(** refCount of the entry of a number (ComplexTable.hpp:32, 109-111): the static entries have one reference. *)
Definition entryRefs {N : num} (s : st N) (a : eaddr) : Z :=
  match a with ATab n => ce_rc (ct_heap (s_ct s) n) | ACache _ => 0 | _ => 1 end.
(** The entries zero, one and sqrt2_2 (ComplexTable.hpp:109-111) *)
Definition isStatic (a : eaddr) : bool := match a with AZero | AOne | ASqrt2 => true | _ => false end.
(** Comparison of addresses, for the keys of a std::map (Package.hpp:3156) *)
Definition eaddr_dec (a b : eaddr) : {a = b} + {a <> b}.
Proof. decide equality; apply Nat.eq_dec. Defined.
(** Comparison of node pointers, for the keys of a std::map (Package.hpp:3157) *)
Definition nptr_dec (a b : nptr) : {a = b} + {a <> b}.
Proof. decide equality; apply Nat.eq_dec. Defined.
(** std::map (Package.hpp:3156-3157); [None]: no entry *)
Definition cmap (A : Type) := A -> option Z.
(** map[k], which creates an entry, and map[k]++ (Package.hpp:3207-3216) *)
Definition cget {A} (m : cmap A) (a : A) : Z := match m a with Some z => z | None => 0 end.
(** Assignment to map[k] (Package.hpp:3207-3216) *)
Definition cset {A} (dec : forall a b : A, {a = b} + {a <> b}) (m : cmap A) (a : A) (z : Z) : cmap A :=
  fun b => if dec a b then Some z else m b.
(** Weights and nodes counted so far (Package.hpp:3206) *)
Definition counters : Type := cmap eaddr * cmap nptr.
(** weightMap[...]++ for both parts of a weight (Package.hpp:3207-3208, 3219-3220) *)
Definition countWeight (m : cmap eaddr) (w : complex) : cmap eaddr :=
  let m1 := cset eaddr_dec m (ep_at (cr w)) (cget m (ep_at (cr w)) + 1) in
  cset eaddr_dec m1 (ep_at (ci w)) (cget m1 (ep_at (ci w)) + 1).
(** nodeMap[p]++ (Package.hpp:3213, 3218) *)
Definition countNode (m : cmap nptr) (p : nptr) : cmap nptr := cset nptr_dec m p (cget m p + 1).

Section Check.
Context (N : num).
Local Notation M := (M N).

(** isLocallyConsistent2 (Package.hpp:3166-3203); the messages on std::clog are left out. *)
Fixpoint localF (fuel : nat) (k : kind) (e : edge) : M bool :=
  match fuel with
  | O => fail BadFuel
  | S f =>
    let* s := get in
    if ((entryRefs s (ep_at (cr (ew e))) =? 0) || (entryRefs s (ep_at (ci (ew e))) =? 0)) && negb (ceqb (ew e) Cone) && negb (ceqb (ew e) Czero)
    then ret false
    else match ep e with
         | PTerm => ret true
         | PNull => fail BadNull
         | PNode n =>
             if nref (nod s k n) =? 0 then ret false
             else foldM N (fun (b : bool) c =>
                    if b then
                      match ep c with
                      | PNull => fail BadNull
                      | PTerm => localF f k c
                      | PNode m =>
                          if negb (nv (nod s k m) + 1 =? nv (nod s k n)) then ret false
                          else if nref (nod s k m) =? 0 then ret false
                          else localF f k c
                      end
                    else ret false) (ne (nod s k n)) true
         end
  end.
(** isLocallyConsistent (Package.hpp:3143-3152); the values asserted of the static entries are constants. *)
Definition isLocallyConsistent (k : kind) (e : edge) : M bool := fun s => localF (fuelof N s) k e s.

(** fillConsistencyCounter (Package.hpp:3205-3223) *)
Fixpoint fillF (fuel : nat) (k : kind) (e : edge) (c : counters) : M counters :=
  match fuel with
  | O => fail BadFuel
  | S f =>
    let wm := countWeight (fst c) (ew e) in
    match ep e with
    | PTerm => ret (wm, snd c)
    | PNull => fail BadNull
    | PNode n =>
        let* s := get in
        foldM N (fun c ch =>
            if cget (snd c) (ep ch) =? 0 then fillF f k ch (fst c, cset nptr_dec (snd c) (ep ch) 0)
            else ret (countWeight (fst c) (ew ch), countNode (snd c) (ep ch)))
          (ne (nod s k n)) (wm, countNode (snd c) (PNode n))
    end
  end.
(** One part of a weight: more occurrences than references (Package.hpp:3227-3239); map::at throws
    std::out_of_range. *)
Definition checkPart (s : st N) (wm : cmap eaddr) (a : eaddr) : M unit :=
  match wm a with
  | None => throw EOutOfRange
  | Some z => if (entryRefs s a <? z) && negb (isStatic a) then throw ERuntime else ret tt
  end.
(** checkConsistencyCounter (Package.hpp:3225-3260) *)
Fixpoint checkF (fuel : nat) (k : kind) (c : counters) (e : edge) : M unit :=
  match fuel with
  | O => fail BadFuel
  | S f =>
    let* s := get in
    checkPart s (fst c) (ep_at (cr (ew e))) ;;;
    checkPart s (fst c) (ep_at (ci (ew e))) ;;;
    match ep e with
    | PTerm => ret tt
    | PNull => fail BadNull
    | PNode n =>
        match snd c (PNode n) with
        | None => throw EOutOfRange
        | Some z =>
            if negb (z =? nref (nod s k n)) then throw ERuntime
            else iterM N (fun ch =>
                   match ep ch with
                   | PNull => fail BadNull
                   | PTerm => checkF f k c ch
                   | PNode m => if negb (nv (nod s k m) =? nv (nod s k n) - 1) then throw ERuntime else checkF f k c ch
                   end) (ne (nod s k n))
        end
    end
  end.
(** isGloballyConsistent (Package.hpp:3154-3161) *)
Definition isGloballyConsistent (k : kind) (e : edge) : M bool := fun s =>
  (let* c := fillF (fuelof N s) k e (fun _ => None, fun _ => None) in
   checkF (fuelof N s) k c e ;;; ret true) s.
End Check.
