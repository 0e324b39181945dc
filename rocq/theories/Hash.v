(** The hash functions of the unique and compute tables, on 64-bit words. *)
From Coq Require Import ZArith List Bool Lia Arith SpecFloat.
From Verif Require Import Num Base CTable State.
Import ListNotations.
Local Open Scope Z_scope.

(** std::size_t arithmetic (Definitions.hpp:63-76): a word of 64 bits. *)
Definition w64 (x : Z) : Z := x mod 2 ^ 64.
(** k ^= k >> 33 (Definitions.hpp:64, 66, 68) *)
Definition mix33 (k : Z) : Z := Z.lxor k (Z.shiftr k 33).
(** murmur64 (Definitions.hpp:63-70) *)
Definition murmur64 (k : Z) : Z :=
  let k := mix33 k in
  let k := w64 (k * 0xff51afd7ed558ccd) in
  let k := mix33 k in
  let k := w64 (k * 0xc4ceb9fe1a85ec53) in
  mix33 k.
(** combineHash (Definitions.hpp:73-76) *)
Definition combineHash (lhs rhs : Z) : Z :=
  Z.lxor lhs (w64 (rhs + 0x9e3779b97f4a7c15 + w64 (Z.shiftl lhs 6) + Z.shiftr lhs 2)).

(** static_cast<std::size_t>(std::round(x)) (ComplexValue.hpp:248-249): halves are rounded away from
    zero; the cast of a value that is not a std::size_t afterwards is undefined ([None]). *)
Definition roundF (x : spec_float) : option Z :=
  match x with
  | S754_zero _ => Some 0
  | S754_finite s m e =>
      let r := if 0 <=? e then Z.pos m * 2 ^ e else (Z.pos m + 2 ^ (- e - 1)) / 2 ^ (- e) in
      Some (if s then - r else r)
  | _ => None
  end.
(** The conversion of one component (ComplexValue.hpp:248-249) *)
Definition toWord (v : spec_float) : option Z :=
  match roundF (SFdiv 53 1024 v Ftol) with
  | Some r => if (0 <=? r) && (r <? 2 ^ 64) then Some r else None
  | None => None
  end.
(** std::hash<ComplexValue> (ComplexValue.hpp:246-252) *)
Definition hashValue (c : spec_float * spec_float) : option Z :=
  match toWord (fst c), toWord (snd c) with
  | Some a, Some b => Some (combineHash (murmur64 a) (murmur64 b))
  | _, _ => None
  end.

Section Hash.
(** The addresses of nodes and of table entries (the casts in Complex.hpp:81-82 and Edge.hpp:98). *)
Context (na : nptr -> Z) (ea : eaddr -> Z).

(** A tagged entry pointer as a number (ComplexTable.hpp:36-43): the lowest bit is the sign. *)
Definition eptrW (p : eptr) : Z := Z.lor (ea (ep_at p)) (if ep_neg p then 1 else 0).
(** std::hash<Complex> (Complex.hpp:79-85) *)
Definition hashComplex (c : complex) : Z := combineHash (murmur64 (eptrW (cr c))) (murmur64 (eptrW (ci c))).
(** std::hash<Edge> (Edge.hpp:95-102) *)
Definition hashEdge (e : edge) : Z := combineHash (murmur64 (na (ep e))) (hashComplex (ew e)).
(** std::hash<CachedEdge> (Edge.hpp:104-111) on doubles *)
Definition hashCached (e : vedge NumF) : option Z :=
  match hashValue (vw e) with
  | Some h => Some (combineHash (murmur64 (na (vp e))) h)
  | None => None
  end.
(** std::hash<dEdge> (Node.hpp:218-229), with the marks [b] of the node. *)
Definition hashDens (p : Z) (w : complex) (b : nat) : Z :=
  combineHash (combineHash (murmur64 p) (hashComplex w)) (Z.of_nat b).
(** The loop of UniqueTable::hash (UniqueTable.hpp:53-61) *)
Definition hashNodes (es : list edge) : Z := fold_left (fun key e => combineHash key (hashEdge e)) es 0.
(** UniqueTable::hash (UniqueTable.hpp:52-63), [mask] = NBUCKET - 1 *)
Definition uniqueHash (mask : Z) (es : list edge) : Z := Z.land (hashNodes es) mask.
(** ComputeTable::hash (ComputeTable.hpp:37-42) on edges *)
Definition computeHash (mask : Z) (a b : edge) : Z := Z.land (combineHash (hashEdge a) (hashEdge b)) mask.
(** ComputeTable::hash (ComputeTable.hpp:37-42) on cached edges: the tables for additions *)
Definition addHash (mask : Z) (a b : vedge NumF) : option Z :=
  match hashCached a, hashCached b with
  | Some x, Some y => Some (Z.land (combineHash x y) mask)
  | _, _ => None
  end.
(** UnaryComputeTable::hash (UnaryComputeTable.hpp:37-39) *)
Definition unaryHash (mask : Z) (a : edge) : Z := Z.land (hashEdge a) mask.
End Hash.
