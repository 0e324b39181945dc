(** Cutting edges, counting nodes and measuring (Package.hpp:1030-1293, 2230-2252). *)
From Coq Require Import ZArith List Bool Lia Arith.
From Verif Require Import Num Base CTable State Pkg Control Gate.
Import ListNotations.
Local Open Scope Z_scope.

(** std::map, std::unordered_map keyed by node pointers (Package.hpp:1032, 1163, 1180); the newest entry first. *)
Fixpoint pm_find {A} (m : list (nptr * A)) (p : nptr) : option A :=
  match m with
  | [] => None
  | (q, a) :: r => if nptr_eqb q p then Some a else pm_find r p
  end.
(** std::set, std::unordered_set of node pointers (Package.hpp:1181, 2233). *)
Definition pmem (p : nptr) (l : list nptr) : bool := existsb (nptr_eqb p) l.

Section Meas.
Context (N : num) (g : cfg N) (nb : kind -> Z).
Local Notation M := (M N).
Local Notation makeDDNode := (makeDDNode N g nb).

(** ** deleteEdge *)

(** The weight of the result (Package.hpp:1062-1068). *)
Definition delWeight (ne : edge) (w : complex) : M edge :=
  let* s := get in
  if wapx1 s (ew ne) then ret (Ed (ep ne) w)
  else
    let* t := getTemp g in
    mulInto t (ew ne) w ;;;
    let* r := cn_lookupC g t in
    ret (Ed (ep ne) r).
(** deleteEdge with its memo (Package.hpp:1037-1071). *)
Fixpoint deleteF (fuel : nat) (k : kind) (v : Z) (idx : nat) (e : edge) (memo : list (nptr * edge))
  : M (edge * list (nptr * edge)) :=
  match fuel with
  | O => fail BadFuel
  | S f =>
    match ep e with
    | PNode n =>
        let* p :=
          (match pm_find memo (ep e) with
           | Some r => ret (r, memo)
           | None =>
               let* s := get in
               let x := nod s k n in
               let* q :=
                 (if nv x =? v then
                    ret (map (fun ic => if Nat.eqb (fst ic) idx then Ezero else snd ic)
                             (combine (seq 0 (arity k)) (ne x)), memo)
                  else
                    foldM N (fun (st : list edge * list (nptr * edge)) c =>
                             let* r := deleteF f k v idx c (snd st) in
                             ret (fst st ++ [fst r], snd r)) (ne x) ([], memo)) in
               let* r := makeDDNode k (nv x) (fst q) false in
               ret (r, (ep e, r) :: snd q)
           end) in
        let* r := delWeight (fst p) (ew e) in
        ret (r, snd p)
    | _ => ret (e, memo)
    end
  end.
(** deleteEdge (Package.hpp:1030-1034). *)
Definition deleteEdge (k : kind) (e : edge) (v : Z) (idx : nat) : M edge := fun s =>
  (let* r := deleteF (fuelof N s) k v idx e [] in ret (fst r)) s.

(** ** size *)

(** nodeCount (Package.hpp:2240-2252): the count and the visited set. *)
Fixpoint countF (fuel : nat) (k : kind) (e : edge) (v : list nptr) : M (Z * list nptr) :=
  match fuel with
  | O => fail BadFuel
  | S f =>
      let v1 := ep e :: v in
      match ep e with
      | PTerm => ret (1, v1)
      | PNull => fail BadNull
      | PNode n =>
          let* s := get in
          foldM N (fun (st : Z * list nptr) c =>
                   if isnull (ep c) || pmem (ep c) (snd st) then ret st
                   else let* r := countF f k c (snd st) in ret (fst st + fst r, snd r))
                (ne (nod s k n)) (1, v1)
      end
  end.
(** size (Package.hpp:2230-2237); unsigned int has 32 bits. *)
Definition size (k : kind) (e : edge) : M Z := fun s =>
  (let* r := countF (fuelof N s) k e [] in ret (fst r mod 2 ^ 32)) s.

(** ** Measurement *)

(** std::abs(x - 1.0) > epsilon (Package.hpp:1104, 1127, 1257). *)
Definition off1 (eps x : N) : bool := nltb eps (nabs (nsub x n1)).

(** The draws of measureAll (Package.hpp:1119-1140): the digits chosen, from the top qubit
    down; [ts] are the values dist(mt) returns. *)
Fixpoint drawF (eps : N) (fuel : nat) (cur : edge) (ts : list N) : M (list bool) :=
  match fuel with
  | O => ret []
  | S f =>
    match ep cur, ts with
    | PNode n, t :: r =>
        let* s := get in
        let e0 := nthe (ne (nod s KV n)) 0 in
        let e1 := nthe (ne (nod s KV n)) 1 in
        let p0 := wmag2 s (ew e0) in
        let p1 := wmag2 s (ew e1) in
        let tmp := nadd p0 p1 in
        if off1 eps tmp then throw ERuntime
        else
        let b := negb (nltb t (ndiv p0 tmp)) in
        let* rest := drawF eps f (if b then e1 else e0) r in
        ret (b :: rest)
    | _, _ => fail BadNull
    end
  end.
(** The basis state built by the collapse (Package.hpp:1146-1158); [bits] from qubit 0 up. *)
Fixpoint basisF (p : Z) (bits : list bool) (e : edge) : M edge :=
  match bits with
  | [] => ret e
  | b :: r => let* e' := makeDDNode KV p (if b : bool then [Ezero; e] else [e; Ezero]) false in basisF (p + 1) r e'
  end.
(** measureAll (Package.hpp:1103-1160): the outcome (highest qubit first) and the new root.
    The warning (1108-1109) has no effect on the state. *)
Definition measureAll (eps : N) (e : edge) (collapse : bool) (ts : list N) : M (list bool * edge) :=
  let* s := get in
  if off1 eps (wmag2 s (ew e)) && wapx0 s (ew e) then throw ERuntime
  else if isnull (ep e) then fail BadNull
  else
  let* bits := drawF eps (Z.to_nat (lvl s KV (ep e) + 1)) e ts in
  if collapse then
    decRef N KV e ;;;
    let* r := basisF 0 (rev bits) Eone in
    incRef N KV r ;;;
    garbageCollect N g nb false ;;;
    ret (bits, r)
  else ret (bits, e).

(** assignProbabilities (Package.hpp:1163-1176): the value and the map. *)
Fixpoint assignF (fuel : nat) (e : edge) (m : list (nptr * N)) : M (N * list (nptr * N)) :=
  match fuel with
  | O => fail BadFuel
  | S f =>
      let* s := get in
      match pm_find m (ep e) with
      | Some x => ret (nmul (wmag2 s (ew e)) x, m)
      | None =>
          let* p := (match ep e with
                     | PTerm => ret (n1, m)
                     | PNull => fail BadNull
                     | PNode n =>
                         let* a := assignF f (nthe (ne (nod s KV n)) 0) m in
                         let* b := assignF f (nthe (ne (nod s KV n)) 1) (snd a) in
                         ret (nadd (fst a) (fst b), snd b)
                     end) in
          ret (nmul (wmag2 s (ew e)) (fst p), (ep e, fst p) :: snd p)
      end
  end.

(** The state of the search: probsMone, visited and the queue (Package.hpp:1180-1182). *)
Record bfs := BF { bf_pr : list (nptr * N); bf_vis : list nptr; bf_q : list nptr }.
(** operator[] of a map to fp (Package.hpp:1191). *)
Definition pget (m : list (nptr * N)) (p : nptr) : N := match pm_find m p with Some x => x | None => n0 end.
(** One successor (Package.hpp:1193-1203, 1205-1215). *)
Definition bfsEdge (s : st N) (prob : N) (e : edge) (b : bfs) : bfs :=
  if wapx0 s (ew e) then b
  else
    let t := nmul prob (wmag2 s (ew e)) in
    if pmem (ep e) (bf_vis b) then BF ((ep e, nadd (pget (bf_pr b) (ep e)) t) :: bf_pr b) (bf_vis b) (bf_q b)
    else BF ((ep e, t) :: bf_pr b) (ep e :: bf_vis b) (bf_q b ++ [ep e]).
(** The successors of a node; the terminal's are zero edges (Node.hpp:18-32, Package.hpp:1193, 1205). *)
Definition succs (s : st N) (p : nptr) : edge * edge :=
  match p with
  | PNode n => (nthe (ne (nod s KV n)) 0, nthe (ne (nod s KV n)) 1)
  | _ => (Enull, Enull)
  end.
(** The search down to qubit [index] (Package.hpp:1188-1216). *)
Fixpoint bfsF (fuel : nat) (index : Z) (b : bfs) : M bfs :=
  match fuel with
  | O => fail BadFuel
  | S f =>
    match bf_q b with
    | [] => fail BadNull
    | p :: r =>
        let* s := get in
        if isnull p then fail BadNull
        else if lvl s KV p =? index then ret b
        else
        let prob := pget (bf_pr b) p in
        let b0 := bfsEdge s prob (fst (succs s p)) (BF (bf_pr b) (bf_vis b) r) in
        bfsF f index (bfsEdge s prob (snd (succs s p)) b0)
    end
  end.
(** The sums over the nodes of qubit [index] (Package.hpp:1221-1233, 1237-1250); [pr] gives the
    factor probs[...] (one if probability normalization is assumed). *)
Definition sumQ (s : st N) (b : bfs) (pr : option (list (nptr * N))) : N * N :=
  let term p (e : edge) :=
    match pr with
    | None => nmul (pget (bf_pr b) p) (wmag2 s (ew e))
    | Some m => nmul (nmul (pget (bf_pr b) p) (pget m (ep e))) (wmag2 s (ew e))
    end in
  fold_left (fun z p =>
      let e0 := fst (succs s p) in
      let e1 := snd (succs s p) in
      (if wapx0 s (ew e0) then fst z else nadd (fst z) (term p e0),
       if wapx0 s (ew e1) then snd z else nadd (snd z) (term p e1)))
    (bf_q b) (n0, n0).
(** determineMeasurementProbabilities (Package.hpp:1179-1252).  Every node is queued at most
    once, so the number of nodes bounds the search. *)
Definition measureProbs (e : edge) (index : Z) (norm : bool) : M (N * N) := fun s =>
  (let* b := bfsF (S (S (ut_next (s_ut s KV)))) index
               (BF [(ep e, wmag2 s (ew e))] [ep e] [ep e]) in
   if norm then ret (sumQ s b None)
   else let* a := assignF (fuelof N s) e [] in ret (sumQ s b (Some (snd a)))) s.

(** The projector (Package.hpp:1261-1277). *)
Definition projm (b : bool) : list (N * N) :=
  if b then [(n0, n0); (n0, n0); (n0, n0); (n1, n0)] else [(n1, n0); (n0, n0); (n0, n0); (n0, n0)].
(** The state after the measurement (Package.hpp:1280-1286): the projected vector times
    sqrt(1 / normalizationFactor). *)
Definition projectTo (b : bool) (nf : N) (e : edge) (index : Z) : M edge :=
  let* s := get in
  let* m := makeGateDD N g nb (projm b) (lvl s KV (ep e) + 1) [] index 0 in
  let* r := multiply N g nb KV m e 0 in
  let* c := getTempV g (nsqrt (ndiv n1 nf), n0) in
  mulInto c (ew r) c ;;;
  let* w := cn_lookupC g c in
  ret (Ed (ep r) w).
(** measureOneCollapsing (Package.hpp:1254-1293): the outcome and the new root; [t] is the
    value dist(mt) returns. *)
Definition measureOne (eps : N) (e : edge) (index : Z) (norm : bool) (t : N) : M (bool * edge) :=
  let* z := measureProbs e index norm in
  let sum := nadd (fst z) (snd z) in
  if off1 eps sum then throw ERuntime
  else
  let b := negb (nltb t (ndiv (fst z) sum)) in
  let* r := projectTo b (if b then snd z else fst z) e index in
  incRef N KV r ;;;
  decRef N KV e ;;;
  ret (b, r).
End Meas.
Arguments BF {N}. Arguments bf_pr {N}. Arguments bf_vis {N}. Arguments bf_q {N}.
