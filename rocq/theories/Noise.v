(** The two tables for noise operations (StochasticNoiseOperationTable.hpp, DensityNoiseTable.hpp) and
    their place in garbage collection. *)
From Coq Require Import ZArith List Bool Lia Arith.
From Verif Require Import Num Base CTable State Pkg Density DensMul.
Import ListNotations.
Local Open Scope Z_scope.

(** ** StochasticNoiseOperationTable *)

(** The table (StochasticNoiseOperationTable.hpp:69-76): one row of edges for each qubit. *)
Record snt := SNT { sn_rows : list (list edge); sn_hits : Z; sn_looks : Z; sn_count : Z }.
(** A value-initialised row of [ops] edges (StochasticNoiseOperationTable.hpp:71). *)
Definition sn_row (ops : nat) : list edge := repeat Enull ops.
(** std::vector::resize (StochasticNoiseOperationTable.hpp:30): rows are cut off or appended. *)
Definition rows_resize (ops nq : nat) (l : list (list edge)) : list (list edge) :=
  firstn nq l ++ repeat (sn_row ops) (nq - length l).
(** resize (StochasticNoiseOperationTable.hpp:28-31) *)
Definition sn_resize (ops nq : nat) (t : snt) : snt := SNT (rows_resize ops nq (sn_rows t)) (sn_hits t) (sn_looks t) (sn_count t).
(** Constructor (StochasticNoiseOperationTable.hpp:22-23) *)
Definition sn_new (ops nq : nat) : snt := sn_resize ops nq (SNT [] 0 0 0).
(** Assignment to element [i] of a list in range (vector::at, array::at; StochasticNoiseOperationTable.hpp:35). *)
Fixpoint setnth {A} (l : list A) (i : nat) (a : A) : list A :=
  match l, i with
  | [], _ => []
  | _ :: r, O => a :: r
  | b :: r, S i => b :: setnth r i a
  end.
(** Result of a call: a value, a thrown exception or a failed assertion, with the table left behind
    (StochasticNoiseOperationTable.hpp:33-50). *)
Inductive sres (A : Type) := SOk (a : A) (t : snt) | SThr (x : exn) (t : snt) | SBad (b : bad).
Arguments SOk {A}. Arguments SThr {A}. Arguments SBad {A}.
(** table.at(static_cast<std::size_t>(target)) (StochasticNoiseOperationTable.hpp:35, 43): a negative
    qubit becomes a large index. *)
Definition sn_at (t : snt) (target : Z) : option (list edge) :=
  if target <? 0 then None else nth_error (sn_rows t) (Z.to_nat target).
(** insert (StochasticNoiseOperationTable.hpp:33-37) *)
Definition sn_insert (ops : nat) (t : snt) (kd : nat) (target : Z) (r : edge) : sres unit :=
  if negb (Nat.ltb kd ops) then SBad BadAssert else
  match sn_at t target with
  | None => SThr EOutOfRange t
  | Some row => SOk tt (SNT (setnth (sn_rows t) (Z.to_nat target) (setnth row kd r)) (sn_hits t) (sn_looks t) (sn_count t + 1))
  end.
(** lookup (StochasticNoiseOperationTable.hpp:39-49); [None] is an edge with a null pointer. *)
Definition sn_lookup (ops : nat) (t : snt) (kd : nat) (target : Z) : sres (option edge) :=
  if negb (Nat.ltb kd ops) then SBad BadAssert else
  let t1 := SNT (sn_rows t) (sn_hits t) (sn_looks t + 1) (sn_count t) in
  match sn_at t target with
  | None => SThr EOutOfRange t1
  | Some row =>
      let e := nth kd row Enull in
      if isnull (ep e) then SOk None t1
      else SOk (Some e) (SNT (sn_rows t) (sn_hits t + 1) (sn_looks t + 1) (sn_count t))
  end.
(** clear (StochasticNoiseOperationTable.hpp:51-60): the weights stay, the statistics too. *)
Definition sn_clear (t : snt) : snt :=
  SNT (if 0 <? sn_count t then map (map (fun e => Ed PNull (ew e))) (sn_rows t) else sn_rows t) (sn_hits t) (sn_looks t) 0.

(** ** DensityNoiseTable *)

(** Operand and qubits of an entry (DensityNoiseTable.hpp:27-31). *)
Record nkey := NK { nk_op : hedge; nk_q : list Z }.
(** The table (DensityNoiseTable.hpp:90-94): an entry with a null result is [None]. *)
Definition dnt : Type := tbl nkey hedge.
(** The loop over the qubits in hash (DensityNoiseTable.hpp:39-42), in 64-bit arithmetic; the cast of a
    negative qubit extends the sign. *)
Definition qhash (qs : list Z) : Z :=
  fold_left (fun i q => (i * 8 + i * (q mod 2 ^ 64) + q mod 2 ^ 64) mod 2 ^ 64) qs 0.
(** e.result.p == nullptr (DensityNoiseTable.hpp:60) *)
Definition hisnull (e : hedge) : bool := hnull (hp e).

Section Noise.
Context (N : num) (g : cfg N) (nb : kind -> Z).
(** std::hash<dEdge> (Node.hpp:218-229) as a function of address, weight and marks of the node, and
    the number of buckets (DensityNoiseTable.hpp:22). *)
Context (hd : nptr -> complex -> Z) (nbk : Z).

(** Comparison of edges (Edge.hpp:26-28): same address with the same marks, weights close. *)
Definition hedge_eqb (s : st N) (a b : hedge) : bool :=
  edge_eqb s (Ed (hcode (hp a) (mkbits (hk a))) (hw a)) (Ed (hcode (hp b) (mkbits (hk b))) (hw b)).
(** Comparison of two vectors of qubits (DensityNoiseTable.hpp:66). *)
Fixpoint qs_eqb (a b : list Z) : bool :=
  match a, b with
  | [], [] => true
  | x :: a, y :: b => (x =? y) && qs_eqb a b
  | _, _ => false
  end.
(** hash (DensityNoiseTable.hpp:38-44): the pointer must be neither null nor marked (Node.hpp:222-223). *)
Definition dn_hash (k : mkst) (e : hedge) (qs : list Z) : option Z :=
  if hnull (hp e) || mk_dm (hk e) then None
  else Some ((hd (hcode (hp e) (mkbits (hmarks k (hp e)))) (hw e) + qhash qs) mod 2 ^ 64 mod nbk).
(** insert (DensityNoiseTable.hpp:46-53); [None] is a failed assertion. *)
Definition dn_insert (k : mkst) (t : dnt) (e r : hedge) (qs : list Z) : option dnt :=
  match dn_hash k e qs with
  | None => None
  | Some h => Some (tb_insert hisnull t h (NK e qs) r)
  end.
(** lookup (DensityNoiseTable.hpp:55-71); [None] is a failed assertion. *)
Definition dn_lookup (s : st N) (k : mkst) (t : dnt) (e : hedge) (qs : list Z) : option (option hedge * dnt) :=
  match dn_hash k e qs with
  | None => None
  | Some h => Some (tb_lookup (fun x => hedge_eqb s (nk_op x) e && qs_eqb (nk_q x) qs) t h)
  end.
(** clear (DensityNoiseTable.hpp:73-80) *)
Definition dn_clear (t : dnt) : dnt := tb_clear false t.

(** garbageCollect (Package.hpp:928-984) with the two tables, cleared at lines 964, 967, 978 and 981. *)
Definition gcNoise (force : bool) (s : st N) (t : snt) (u : dnt) : res N (bool * snt * dnt) :=
  match garbageCollect N g nb force s with
  | Ok b s' =>
      let '(t', u') :=
        if negb force && negb (ut_needsGC (s_ut s KV)) && negb (ut_needsGC (s_ut s KM))
           && negb (ut_needsGC (s_ut s KD)) && negb (ct_needsGC (s_ct s)) then (t, u)
        else match gcCounts N g nb force s with
             | Ok (cC, _, mC, dC) _ =>
                 let '(t1, u1) := if (0 <? mC) || (0 <? dC) then (sn_clear t, dn_clear u) else (t, u) in
                 if 0 <? cC then (sn_clear t1, dn_clear u1) else (t1, u1)
             | _ => (t, u)
             end in
      Ok (b, t', u') s'
  | Thr x s' => Thr x s'
  | Bad b => Bad b
  end.
End Noise.
