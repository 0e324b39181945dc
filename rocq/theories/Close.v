(** isCloseToIdentity, fidelityOfMeasurementOutcomes, extend and createInitialMatrix (Package.hpp). *)
From Coq Require Import ZArith List Bool Lia Arith.
From Verif Require Import Num Base CTable State Pkg Reduce.
Import ListNotations.
Local Open Scope Z_scope.

Section Close.
Context (N : num) (g : cfg N) (nb : kind -> Z).
Local Notation M := (M N).
(** std::atan2(y, x) *)
Context (atan2 : N -> N -> N).

(** visited.find (Package.hpp:2108) *)
Definition vmem (p : nptr) (vis : list nptr) : bool := existsb (nptr_eqb p) vis.
(** arg (ComplexNumbers.hpp:99-103) *)
Definition warg (s : st N) (w : complex) : N := atan2 (snd (cval s w)) (fst (cval s w)).
(** The tests of one node (Package.hpp:2117-2148): whether the recursion goes on. *)
Definition closeNode (s : st N) (tol : N) (es : list edge) : bool :=
  let m i := wmag2 s (ew (nthe es i)) in
  let a i := warg s (ew (nthe es i)) in
  if nltb tol (m 1%nat) || nltb tol (m 2%nat) then false
  else if nltb tol (nabs (nsub (m 0%nat) n1)) then false
  else if nltb tol (nabs (a 0%nat)) then false
  else if nltb tol (m 3%nat)
       then if nltb tol (nabs (nsub (m 3%nat) n1)) then false else negb (nltb tol (nabs (a 3%nat)))
       else true.
(** isCloseToIdentityRecursive (Package.hpp:2106-2161): the result and the visited nodes. *)
Fixpoint closeF (fuel : nat) (tol : N) (p : nptr) (vis : list nptr) : M (bool * list nptr) :=
  match fuel with
  | O => fail BadFuel
  | S f =>
      if vmem p vis then ret (true, vis)
      else match p with
           | PNull => fail BadNull
           | PTerm => ret (true, vis)
           | PNode n =>
               let* s := get in
               if nid (nod s KM n) then ret (true, vis)
               else if negb (closeNode s tol (ne (nod s KM n))) then ret (false, p :: vis)
               else let* r0 := closeF f tol (ep (nthe (ne (nod s KM n)) 0)) vis in
                    if negb (fst r0) then ret (false, p :: snd r0)
                    else let* r3 := closeF f tol (ep (nthe (ne (nod s KM n)) 3)) (snd r0) in
                         ret (fst r3, p :: snd r3)
           end
  end.
(** isCloseToIdentity (Package.hpp:2032-2036) *)
Definition isCloseToIdentity (m : edge) (tol : N) : M bool := fun s =>
  (let* r := closeF (fuelof N s) tol (ep m) [] in ret (fst r)) s.

(** ProbabilityVector::find (Definitions.hpp:58, Package.hpp:1810). *)
Fixpoint prfind (probs : list (Z * N)) (i : Z) : option N :=
  match probs with
  | [] => None
  | (k, p) :: r => if k =? i then Some p else prfind r i
  end.
(** fidelityOfMeasurementOutcomesRecursive (Package.hpp:1807-1831) *)
Fixpoint fidF (fuel : nat) (probs : list (Z * N)) (e : edge) (i : Z) : M N :=
  match fuel with
  | O => fail BadFuel
  | S f =>
      let* s := get in
      let topw := nsqrt (wmag2 s (ew e)) in
      match ep e with
      | PNull => fail BadNull
      | PTerm => ret (match prfind probs i with Some p => nmul topw (nsqrt p) | None => n0 end)
      | PNode n =>
          let x := nod s KV n in
          let* l := (if negb (wapx0 s (ew (nthe (ne x) 0))) then fidF f probs (nthe (ne x) 0) i else ret n0) in
          if negb ((0 <=? nv x) && (nv x <? 64)) then fail BadShift else
          let* r := (if negb (wapx0 s (ew (nthe (ne x) 1))) then fidF f probs (nthe (ne x) 1) (Z.lor i (Z.shiftl 1 (nv x))) else ret n0) in
          ret (nmul topw (nadd l r))
      end
  end.
(** fidelityOfMeasurementOutcomes (Package.hpp:1800-1805) *)
Definition fidelityOfMeasurementOutcomes (e : edge) (probs : list (Z * N)) : M N := fun s =>
  (if wapx0 s (ew e) then ret n0 else fidF (fuelof N s) probs e 0) s.

(** extend (Package.hpp:1956-1960) *)
Definition extend (e : edge) (h l : Z) : M edge :=
  let* f := (if 0 <? l then let* i := makeIdent N g nb 0 (l - 1) in kronecker N g nb KM e i true else ret e) in
  if 0 <? h then let* i := makeIdent N g nb 0 (h - 1) in kronecker N g nb KM i f true else ret f.
(** createInitialMatrix (Package.hpp:2211-2215) *)
Definition createInitialMatrix (n : Z) (anc : list bool) : M edge :=
  let* e := makeIdent N g nb 0 (n - 1) in
  incRef N KM e ;;;
  reduceAncillae N g nb e anc true.
End Close.
