(** Reducing ancillary and garbage qubits (Package.hpp:2258-2503). *)
From Coq Require Import ZArith List Bool Lia Arith.
From Verif Require Import Num Base CTable State Pkg Control Gate Meas.
Import ListNotations.
Local Open Scope Z_scope.

(** static_cast<Qubit> of an index (Package.hpp:2266) *)
Definition int8 (i : nat) : Z := (Z.of_nat i + 128) mod 256 - 128.
(** The first position that is set (Package.hpp:2260-2269, 2282-2291, 2302-2311); [None] if there is none. *)
Fixpoint firstSet (l : list bool) : option nat :=
  match l with
  | [] => None
  | true :: _ => Some 0%nat
  | false :: r => match firstSet r with Some i => Some (S i) | None => None end
  end.

Section Reduce.
Context (N : num) (g : cfg N) (nb : kind -> Z).
Local Notation M := (M N).
Local Notation makeDDNode := (makeDDNode N g nb).

(** One round of the loop over the successors [cs] (Package.hpp:2331-2345, 2377-2391, 2429-2443): the
    new successors and which of them are handled.  The successors of the node are read once, before the
    loop: nodes in the unique table do not change. *)
Definition redStep (k : kind) (rec : edge -> M edge) (cs : list edge) (st : (nat -> edge) * (nat -> bool)) (i : nat)
  : M ((nat -> edge) * (nat -> bool)) :=
  if snd st i then ret st
  else
    let c := nthe cs i in
    match ep c with
    | PTerm => ret (upd (fst st) i c, upd (snd st) i true)
    | _ =>
        let* r := rec c in
        let same j := Nat.ltb i j && Nat.ltb j (arity k) && nptr_eqb (ep c) (ep (nthe cs j)) in
        ret (fun j => if Nat.eqb j i || same j then r else fst st j,
             fun j => Nat.eqb j i || same j || snd st j)
    end.

(** The common shape of the three recursions (Package.hpp:2322-2366, 2368-2420, 2421-2503); [post] is
    the reduction of one qubit, applied to the rebuilt node, and [cap] the correction of large weights
    (Package.hpp:2414-2417). *)
Fixpoint redF (fuel : nat) (k : kind) (post : edge -> M edge) (cap : bool) (lb : Z) (e : edge) : M edge :=
  match fuel with
  | O => fail BadFuel
  | S f =>
    match ep e with
    | PNull => fail BadNull
    | PTerm => if -1 <? lb then ret e else fail BadNull
    | PNode n =>
        let* s := get in
        let x := nod s k n in
        if nv x <? lb then ret e
        else
          let* st := foldM N (redStep k (redF f k post cap lb) (ne x)) (seq 0 (arity k)) (fun _ => Enull, fun _ => false) in
          let* f1 := makeDDNode k (nv x) (map (fst st) (seq 0 (arity k))) false in
          let* f2 := post f1 in
          let* c := mulCached g (ew f2) (ew e) in
          let* w := cn_lookupC g c in
          retCache c ;;;
          let* s := get in
          ret (Ed (ep f2) (if cap && nltb n1 (wmag2 s w) then Cone else w))
    end
  end.

(** [v[q]] for std::vector<bool> (Package.hpp:2349): out of range is flagged. *)
Definition bitAt (l : list bool) (v : Z) : M bool :=
  match nth_error l (Z.to_nat v) with Some b => ret b | None => fail BadIndex end.

(** Reduction of one ancillary qubit (Package.hpp:2348-2359) *)
Definition ancPost (anc : list bool) (regular : bool) (f : edge) : M edge :=
  match ep f with
  | PNode n =>
      let* s := get in
      let x := nod s KM n in
      let* b := bitAt anc (nv x) in
      if b then
        let c i := nthe (ne x) i in
        if regular then
          if negb (ceqb (ew (c 1%nat)) Czero) || negb (ceqb (ew (c 3%nat)) Czero)
          then makeDDNode KM (nv x) [c 0%nat; Ezero; c 2%nat; Ezero] false else ret f
        else
          if negb (ceqb (ew (c 2%nat)) Czero) || negb (ceqb (ew (c 3%nat)) Czero)
          then makeDDNode KM (nv x) [c 0%nat; c 1%nat; Ezero; Ezero] false else ret f
      else ret f
  | _ => ret f
  end.
(** reduceAncillaeRecursion (Package.hpp:2322-2366) *)
Definition reduceAncRec (fuel : nat) (anc : list bool) (lb : Z) (regular : bool) : edge -> M edge :=
  redF fuel KM (ancPost anc regular) false lb.

(** Adding up two successors (Package.hpp:2400-2407, 2453-2468) *)
Definition garAdd (k : kind) (a b : edge) : M edge :=
  if ceqb (ew a) Czero && negb (ceqb (ew b) Czero) then ret b
  else if negb (ceqb (ew b) Czero) then add N g nb k a b
  else ret a.
(** Reduction of one garbage qubit of a vector (Package.hpp:2396-2409) *)
Definition garPostV (gar : list bool) (f : edge) : M edge :=
  match ep f with
  | PNode n =>
      let* s := get in
      let x := nod s KV n in
      let* b := bitAt gar (nv x) in
      if b && negb (ceqb (ew (nthe (ne x) 1)) Czero) then
        let* h := garAdd KV (nthe (ne x) 0) (nthe (ne x) 1) in
        makeDDNode KV (nv x) [h; Ezero] false
      else ret f
  | _ => ret f
  end.
(** Reduction of one garbage qubit of a matrix (Package.hpp:2448-2489) *)
Definition garPostM (gar : list bool) (regular : bool) (f : edge) : M edge :=
  match ep f with
  | PNode n =>
      let* s := get in
      let x := nod s KM n in
      let* b := bitAt gar (nv x) in
      let c i := nthe (ne x) i in
      if b then
        if regular then
          if negb (ceqb (ew (c 2%nat)) Czero) || negb (ceqb (ew (c 3%nat)) Czero) then
            let* h := garAdd KM (c 0%nat) (c 2%nat) in
            let* h' := garAdd KM (c 1%nat) (c 3%nat) in
            makeDDNode KM (nv x) [h; h'; Ezero; Ezero] false
          else ret f
        else
          if negb (ceqb (ew (c 1%nat)) Czero) || negb (ceqb (ew (c 3%nat)) Czero) then
            let* h := garAdd KM (c 0%nat) (c 1%nat) in
            let* h' := garAdd KM (c 2%nat) (c 3%nat) in
            makeDDNode KM (nv x) [h; Ezero; h'; Ezero] false
          else ret f
      else ret f
  | _ => ret f
  end.

(** The entry points (Package.hpp:2258-2277, 2280-2298, 2300-2319): nothing to do without set
    positions or above the first one, otherwise the recursion and the exchange of references. *)
Definition redTop (k : kind) (post : edge -> M edge) (cap : bool) (l : list bool) (e : edge) : M edge :=
  match firstSet l, ep e with
  | None, _ => ret e
  | Some _, PNull => ret e
  | Some i, _ => fun s =>
      if lvl s k (ep e) <? int8 i then Ok e s
      else (let* f := redF (fuelof N s) k post cap (int8 i) e in
            decRef N k e ;;; incRef N k f ;;; ret f) s
  end.
(** reduceAncillae (Package.hpp:2258-2277) *)
Definition reduceAncillae (e : edge) (anc : list bool) (regular : bool) : M edge :=
  redTop KM (ancPost anc regular) false anc e.
(** reduceGarbage of a vector (Package.hpp:2280-2298) *)
Definition reduceGarbageV (e : edge) (gar : list bool) : M edge := redTop KV (garPostV gar) true gar e.
(** reduceGarbage of a matrix (Package.hpp:2300-2319) *)
Definition reduceGarbageM (e : edge) (gar : list bool) (regular : bool) : M edge :=
  redTop KM (garPostM gar regular) true gar e.
End Reduce.
