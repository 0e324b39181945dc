(** Gate matrices as diagrams (Package.hpp:474-810). *)
From Coq Require Import ZArith List Bool Lia Arith.
From Verif Require Import Num Base CTable State Pkg Control.
Import ListNotations.
Local Open Scope Z_scope.

(** static_cast<Qubit>; Qubit = std::int8_t (Definitions.hpp:20). *)
Definition qcast (z : Z) : Z := (z + 128) mod 256 - 128.

Section Gate.
Context (N : num) (g : cfg N) (nb : kind -> Z).
Local Notation M := (M N).
Local Notation makeDDNode := (makeDDNode N g nb).
Local Notation makeIdent := (makeIdent N g nb).

(** [x == 0] on fp (Package.hpp:492, 570). *)
Definition is0 (x : N) : bool := nleb x n0 && nleb n0 x.
(** The terminal edge for an entry of the matrix (Package.hpp:490-497, 561-576). *)
Definition entryDD (v : N * N) : M edge :=
  if is0 (fst v) && is0 (snd v) then ret Ezero
  else let* w := cn_lookup g (fst v) (snd v) in ret (Ed PTerm w).

(** The node for qubit [z] over [e]: where the next control is on [z] the branch it excludes is
    the identity below if [diag], else zero (Package.hpp:502-515 for a line below the target with
    [diag] = (i1 == i2), 526-536 for a line above it with [diag] = true). *)
Definition gateLine (start z : Z) (cs : list control) (diag : bool) (e : edge) : M edge :=
  let plain := makeDDNode KM z [e; Ezero; Ezero; e] false in
  match cs with
  | [] => plain
  | c :: _ =>
      if cqb c =? z then
        let* i := (if diag then makeIdent start (qcast (z - 1)) else ret Ezero) in
        if cpos c then makeDDNode KM z [i; Ezero; Ezero; e] false
        else makeDDNode KM z [e; Ezero; Ezero; i] false
      else plain
  end.
(** The iterator over the controls after qubit [z] (Package.hpp:516-518, 527, 533). *)
Definition advance (z : Z) (cs : list control) : list control :=
  match cs with
  | [] => []
  | c :: r => if cqb c =? z then r else cs
  end.
(** Whether i1 == i2 for i = 0..3 (Package.hpp:502-504, 507, 509). *)
Definition diags : list bool := [true; false; false; true].
(** The lines below the target (Package.hpp:499-519); [cnt] iterations are left. *)
Fixpoint gateBelow (start : Z) (cnt : nat) (z : Z) (cs : list control) (em : list edge) : M (list control * list edge) :=
  match cnt with
  | O => ret (cs, em)
  | S c =>
      let* em' := mapM N (fun p => gateLine start z cs (fst p) (snd p)) (combine diags em) in
      gateBelow start c (z + 1) (advance z cs) em'
  end.
(** The lines above the target (Package.hpp:524-537). *)
Fixpoint gateAbove (start : Z) (cnt : nat) (z : Z) (cs : list control) (e : edge) : M edge :=
  match cnt with
  | O => ret e
  | S c =>
      let q := z + 1 in
      let* e' := gateLine start q cs true e in
      gateAbove start c q (advance q cs) e'
  end.
(** makeGateDD (Package.hpp:480-539); [mat] holds the four entries row by row, [cs] the set of
    controls in iteration order.  The overloads at 474-479 pass an empty set or one control. *)
Definition makeGateDD (mat : list (N * N)) (n : Z) (cs : list control) (target start : Z) : M edge := fun s =>
  if s_nq s <? n + start then Thr ERuntime s
  else
    (let* em := mapM N entryDD mat in
     let z0 := qcast start in
     let* p := gateBelow z0 (Z.to_nat (target - z0)) z0 cs em in
     let z := Z.max z0 target in
     let* e := makeDDNode KM z (snd p) false in
     gateAbove z0 (Z.to_nat (qcast (n - 1 + start) - z)) z (fst p) e) s.

(** The node with [e] on the diagonal, for [cnt] qubits from [z] on (Package.hpp:621-624). *)
Fixpoint idLines (cnt : nat) (z : Z) (e : edge) : M edge :=
  match cnt with
  | O => ret e
  | S c => let* e' := makeDDNode KM z [e; Ezero; Ezero; e] false in idLines c (z + 1) e'
  end.
(** The same for a list of edges, qubit by qubit (Package.hpp:581-587, 611-616). *)
Fixpoint idLinesL (cnt : nat) (z : Z) (es : list edge) : M (list edge) :=
  match cnt with
  | O => ret es
  | S c => let* es' := mapM N (fun e => makeDDNode KM z [e; Ezero; Ezero; e] false) es in idLinesL c (z + 1) es'
  end.
(** [em.at(i).at(j)] of the 4x4 array stored row by row (Package.hpp:562, 597, 603). *)
Definition at44 (em : list edge) (i j : nat) : edge := nthe em (4 * i + j).
(** The four blocks [local] (Package.hpp:593-606). *)
Definition locals (gt : bool) (em : list edge) (row col : nat) : list edge :=
  map (fun ij => let '(i, j) := ij in
         if gt : bool then at44 em (row * 2 + i) (col * 2 + j) else at44 em (i * 2 + row) (j * 2 + col))
      [(0, 0); (0, 1); (1, 0); (1, 1)]%nat.
(** makeTwoQubitGateDD (Package.hpp:551-627); [mat] holds the rows. *)
Definition makeTwoQubitGateDD (mat : list (list (N * N))) (n target0 target1 start : Z) : M edge := fun s =>
  if s_nq s <? n + start then Thr ERuntime s
  else
    (let* em := mapM N entryDD (concat mat) in
     let z0 := qcast start in
     let small := Z.min target0 target1 in
     let* em := idLinesL (Z.to_nat (small - z0)) z0 em in
     let z1 := Z.max z0 small in
     let* em0 := mapM N (fun rc => makeDDNode KM z1 (locals (target1 <? target0) em (fst rc) (snd rc)) false)
                      [(0, 0); (0, 1); (1, 0); (1, 1)]%nat in
     let large := Z.max target0 target1 in
     let* em0 := idLinesL (Z.to_nat (large - (z1 + 1))) (z1 + 1) em0 in
     let z2 := Z.max (z1 + 1) large in
     let* e := makeDDNode KM z2 em0 false in
     idLines (Z.to_nat (qcast (n + start) - (z2 + 1))) (z2 + 1) e) s.
End Gate.
