(** The graph drawn for a diagram and the list of its weights (Export.hpp:161-608, 789-832).  Fonts, colours,
    tooltips and widths are left out. *)
From Coq Require Import ZArith List Bool Lia Arith.
From Verif Require Import Num Base CTable State Pkg.
Import ListNotations.
Local Open Scope Z_scope.

(** The side of a node an edge leaves from (Export.hpp:370-388, 412) *)
Inductive side := SW | SS | SE.
(** A statement of the drawing: the arrow from the root (Export.hpp:165-180), a node (Export.hpp:255-361)
    with its level and for each successor whether it shows a zero, an edge (Export.hpp:366-531) with the
    number of the successor, where it ends ([None]: the terminal "t"), its weight and whether it is dashed. *)
Inductive stmt (W : Type) :=
  | SRoot (to : option Z) (w : W) (dashed : bool)
  | SNode (label : Z) (v : Z) (zeros : list bool)
  | SEdge (from : Z) (port : nat) (at_ : side) (to : option Z) (w : W) (dashed : bool).
Arguments SRoot {W}. Arguments SNode {W}. Arguments SEdge {W}.

(** The number standing for a node: (p & 0x001fffff) >> 1 (Export.hpp:165, 256, 367-368) *)
Definition nodeLabel (a : Z) : Z := Z.shiftr (Z.land a 2097151) 1.
(** The side for the successor [i] (Export.hpp:370-388, 412, 497); memory drawings use one side only. *)
Definition sideOf (k : kind) (memory classic : bool) (i : nat) : side :=
  if memory then SS
  else match k with
       | KV => match i with O => SW | _ => SE end
       | _ => if classic then match i with O => SW | 1%nat | 2%nat => SS | _ => SE end
              else match i with O => SW | 1%nat => SE | _ => SS end
       end.

Section Draw.
Context (N : num).
Local Notation M := (M N).
(** The addresses of the nodes (Export.hpp:165) *)
Context (addr : nat -> Z).
(** std::priority_queue: top and pop (Export.hpp:556-563, 799-806).  The queue is a list in any order;
    which of several edges to nodes of the same level comes first is up to the library. *)
Context (pop : st N -> kind -> list edge -> option (edge * list edge)).

(** p->v, -1 for the terminal (Export.hpp:556, 794; Node.hpp:34, 77) *)
Definition plevel (s : st N) (k : kind) (p : nptr) : Z := match p with PNode n => nv (nod s k n) | _ => -1 end.
(** The successors with their numbers, the last one first (Export.hpp:585, 819) *)
Definition numbered (s : st N) (k : kind) (n : nat) : list (nat * edge) := rev (combine (seq 0 (length (ne (nod s k n)))) (ne (nod s k n))).

(** The loop of toDot (Export.hpp:560-604) and of exportEdgeWeights (Export.hpp:803-831): [skip] is the test
    for edges left out, [atNode] and [atEdge] are what is written for a node and for an edge. *)
Fixpoint walk {A} (fuel : nat) (k : kind) (skip : st N -> edge -> bool) (atNode : st N -> nat -> list A) (atEdge : st N -> nat -> nat -> edge -> A)
    (q : list edge) (seen : list nat) (out : list A) : M (list A) :=
  match fuel with
  | O => fail BadFuel
  | S f =>
    let* s := get in
    match pop s k q with
    | None => ret out
    | Some (e, q1) =>
        match ep e with
        | PTerm => walk f k skip atNode atEdge q1 seen out
        | PNull => fail BadNull
        | PNode n =>
            if memb n seen then walk f k skip atNode atEdge q1 seen out
            else
              let cs := filter (fun ic => negb (skip s (snd ic))) (numbered s k n) in
              walk f k skip atNode atEdge (map snd cs ++ q1) (n :: seen)
                (out ++ atNode s n ++ map (fun ic => atEdge s n (fst ic) (snd ic)) cs)
        end
    end
  end.

(** exportEdgeWeights (Export.hpp:789-832): the weights written, as numbers *)
Definition exportEdgeWeights (fuel : nat) (k : kind) (e : edge) : M (list (N * N)) :=
  let* s := get in
  walk fuel k (fun s c => wapx0 s (ew c)) (fun _ _ => []) (fun s _ _ c => cval s (ew c)) [e] [] [cval s (ew e)].

(** Where an edge ends: the label or "t" (Export.hpp:166-171, 391-395) *)
Definition target (p : nptr) : option Z := match p with PNode n => Some (nodeLabel (addr n)) | _ => None end.
(** Edges left out (Export.hpp:587) *)
Definition hidden (memory : bool) (s : st N) (c : edge) : bool := (negb memory && wapx0 s (ew c)) || ceqb (ew c) Czero.
(** The zero shown for a successor (Export.hpp:258-267, 276-277, 287; 353 with Edge.hpp:26-28) *)
Definition zeroMark (memory : bool) (s : st N) (c : edge) : bool := if memory then edge_eqb s c Ezero else wapx0 s (ew c).
(** Edges are dashed in black and white only (Export.hpp:173, 400). *)
Definition dashes (memory colored : bool) (s : st N) (w : complex) : bool := negb memory && negb colored && negb (wapx1 s w).
(** toDot (Export.hpp:539-608) for vectors and matrices *)
Definition toDot (fuel : nat) (k : kind) (e : edge) (colored classic memory : bool) : M (list (stmt (N * N))) :=
  let* s := get in
  walk fuel k (hidden memory)
    (fun s n => [SNode (nodeLabel (addr n)) (nv (nod s k n)) (map (zeroMark memory s) (ne (nod s k n)))])
    (fun s n i c => SEdge (nodeLabel (addr n)) i (sideOf k memory classic i) (target (ep c)) (cval s (ew c)) (dashes memory colored s (ew c)))
    [e] [] [SRoot (target (ep e)) (cval s (ew e)) (dashes memory colored s (ew e))].

(** The first of the edges to nodes of the highest level: one possible behaviour of the queue (Export.hpp:556) *)
Fixpoint popFirst (s : st N) (k : kind) (q : list edge) : option (edge * list edge) :=
  match q with
  | [] => None
  | e :: r =>
      match popFirst s k r with
      | None => Some (e, [])
      | Some (x, r') => if plevel s k (ep e) <? plevel s k (ep x) then Some (x, e :: r') else Some (e, r)
      end
  end.
End Draw.
