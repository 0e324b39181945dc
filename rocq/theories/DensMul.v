(** Operations on density matrices (Package.hpp:225-231, 1346-1429, 1520-1535, 1582-1759).

    A density diagram may be stored in reduced form: successor 2 of a node is then a copy of
    successor 1 and is read as its conjugate transpose.  While such a diagram is traversed, the
    code rewrites the nodes on the path in place and marks them (Density.v describes this on the
    nodes themselves).  Here the stored successors stay as they are and the marks of each node are
    kept beside the state; [view] computes the successors that the rewritten node has.  PropDensMul.v
    proves that this describes the same nodes (marks_describe_nodes_apply, _revert). *)
From Coq Require Import ZArith List Bool Lia Arith.
From Verif Require Import Num Base CTable State Pkg Read Density.
Import ListNotations.
Local Open Scope Z_scope.

(** A dEdge (Edge.hpp:19-21, Node.hpp:207): address, marks in the low bits of the pointer, weight. *)
Record hedge := HE { hp : hptr; hk : marks; hw : complex }.
(** densityFromMatrixEdge (Node.hpp:211-213) *)
Definition hmat (e : edge) : hedge := HE (HM (ep e)) mk0 (ew e).
(** An edge without marks (Edge.hpp:19-21). *)
Definition hden (e : edge) : hedge := HE (HD (ep e)) mk0 (ew e).
(** setDensityMatrixTrue (Edge.hpp:45, Node.hpp:111) *)
Definition hsetDm (e : hedge) : hedge := HE (hp e) (MK (mk_conj (hk e)) (mk_first (hk e)) true) (hw e).
(** alignDensityEdge (Edge.hpp:46, Node.hpp:112) *)
Definition halign (e : hedge) : hedge := HE (hp e) mk0 (hw e).
(** The marks of a node as the number that is hashed (Node.hpp:224). *)
Definition mkbits (m : marks) : nat :=
  ((if mk_conj m then 1 else 0) + (if mk_first m then 2 else 0) + (if mk_dm m then 4 else 0))%nat.

Section DensMul.
Context (N : num) (g : cfg N) (nb : kind -> Z).
Local Notation M := (M N).

(** The marks in the flags of the density nodes (Node.hpp:89-95). *)
Definition mkst := nat -> marks.
(** A function that also changes these marks (Node.hpp:188-203). *)
Definition D (A : Type) := mkst -> M (A * mkst).
(** Sequencing of statements (e.g. Package.hpp:1588-1593) *)
Definition dbind {A B} (m : D A) (f : A -> D B) : D B :=
  fun k => let* x := m k in f (fst x) (snd x).
(** A function that does not touch the marks (e.g. add, Package.hpp:1313-1328) *)
Definition dlift {A} (m : M A) : D A := fun k => let* a := m in ret (a, k).
(** [return a] (e.g. Package.hpp:1593) *)
Definition dret {A} (a : A) : D A := dlift (ret a).

(** [p == nullptr] (Package.hpp:1588-1593) *)
Definition hnull (p : hptr) : bool := match p with HM PNull | HD PNull => true | _ => false end.
(** isTerminal (Node.hpp:95): comparison with the terminal density node, which the terminal matrix
    node is not. *)
Definition hT (p : hptr) : bool := match p with HD PTerm => true | _ => false end.
(** [p->v] (Node.hpp:43, 88) *)
Definition hlvl (s : st N) (p : hptr) : Z := match p with HM p => lvl s KM p | HD p => lvl s KD p end.
(** The marks in [p->flags] (Node.hpp:89-95); a matrix node has none. *)
Definition hmarks (k : mkst) (p : hptr) : marks := match p with HD (PNode n) => k n | _ => mk0 end.

(** Successor [i] of a node in its present form (Node.hpp:127-160): as stored, or rewritten
    according to the marks of the node. *)
Definition view (s : st N) (k : mkst) (p : hptr) (i : nat) : hedge :=
  match p with
  | HM (PNode n) => hmat (nthe (ne (nod s KM n)) i)
  | HD (PNode n) =>
      let m := k n in
      let e := nthe (ne (nod s KD n)) i in
      let c e := HE (HD (ep e)) (MK true false true) (wconj (ew e)) in
      if negb (mk_dm m) || (mk_first m && negb (mk_conj m)) then hden e
      else if negb (mk_conj m) then
        match i with
        | 1%nat => HE (HD (ep e)) (MK false true true) (ew e)
        | 2%nat => c e
        | _ => HE (HD (ep e)) (MK false false true) (ew e)
        end
      else c (nthe (ne (nod s KD n)) (match i with 1%nat => 2%nat | 2%nat => 1%nat | _ => i end))
  | _ => HE (HD PNull) mk0 Czero
  end.

(** applyDmChangesToEdge (Edge.hpp:62-65, Node.hpp:127-160, 188-195).  Marks on a pointer to a matrix
    node do not arise and are flagged. *)
Definition happly (e : hedge) : D hedge := fun k =>
  if mk_dm (hk e) then
    match hp e with
    | HD (PNode n) => if mk_none (k n) then ret (halign e, upd k n (hk e)) else fail BadAssert
    | HD PTerm => ret (halign e, k)
    | _ => fail BadNull
    end
  else ret (e, k).
(** revertDmChangesToEdge (Edge.hpp:52-55, Node.hpp:197-203); the pointer has no marks when it is
    called. *)
Definition hrevert (p : hptr) : D unit := fun k =>
  match p with
  | HD (PNode n) => ret (tt, if mk_dm (k n) then upd k n mk0 else k)
  | HD PNull | HM PNull => fail BadNull
  | _ => ret (tt, k)
  end.

(** ** Creating nodes *)

(** searchTable with nodesAreEqual (UniqueTable.hpp:78-84, 391-420): a node that carries marks differs
    from the new node. *)
Fixpoint searchD (s : st N) (k : mkst) (es : list edge) (den : bool) (chain : list nat) : option nat * Z :=
  match chain with
  | [] => (None, 0)
  | p :: r =>
      if nodes_eqb N s KD es den (nod s KD p) && mk_none (k p) then (Some p, 0)
      else let '(x, c) := searchD s k es den r in (x, c + 1)
  end.
(** lookup (UniqueTable.hpp:88-115), as in Pkg.v but with [searchD]. *)
Definition lookupD (n : nat) (var : Z) (es : list edge) (den : bool) (k : mkst) : M nat :=
  let* s0 := get in
  let u0 := s_ut s0 KD in
  (fun s => Ok tt (set_ut s KD (ut_stat u0 (ut_lookups u0 + 1) (ut_hits u0) (ut_coll u0)))) ;;;
  checkChildren N KD var es ;;;
  fun s =>
  if (var <? 0) || (s_nq s <=? var) then Bad BadIndex else
  let u := s_ut s KD in
  let key := ukey N g nb KD es in
  let '(found, col) := searchD s k es den (ut_tab u var key) in
  match found with
  | Some p =>
      if negb (nv (nod s KD p) =? var) then Bad BadAssert else
      (returnNode N KD n ;;; ret p)
        (set_ut s KD (ut_stat u (ut_lookups u) (ut_hits u + 1) (ut_coll u + col)))
  | None =>
      Ok n (set_ut s KD
        (UT (upd (ut_heap u) n (ND es 0 var false false den))
            (updZ (ut_tab u) var (updZ (ut_tab u var) key (n :: ut_tab u var key)))
            (ut_avail u) (ut_next u)
            (ut_count u + 1) (Z.max (ut_peak u) (ut_count u + 1))
            (ut_active u) (ut_actcount u) (ut_maxact u)
            (ut_gccalls u) (ut_gcruns u) (ut_gclimit u)
            (ut_lookups u) (ut_hits u) (ut_coll u + col)))
  end.
(** makeDDNode for density nodes (Package.hpp:993-1028). *)
Definition makeD (var : Z) (es : list edge) (cached den : bool) : D edge := fun k =>
  (let* n := getNode N KD in
   checkChildren N KD var es ;;;
   let* r := normalize N g KD cached es in
   match r with
   | NRet => returnNode N KD n ;;; ret (Ezero, k)
   | NLost => ret (Ezero, k)
   | NOk es' w => let* l := lookupD n var es' den k in ret (Ed (PNode l) w, k)
   end).

(** Marks on no node: the state between public calls of a program that never sets
    generateDensityMatrix (Node.hpp:89-95). *)
Definition mz : mkst := fun _ => mk0.
(** makeZeroDensityOperator (Package.hpp:225-231) *)
Definition makeZeroDensity (n : Z) : M edge :=
  foldM N (fun f p => makeDDNode N g nb KD p [f; Ezero; Ezero; Ezero] false)
        (map Z.of_nat (seq 0 (Z.to_nat n))) Eone.

(** ** Addition *)

(** Operand of the recursive call of add2 (Package.hpp:1376-1401). *)
Definition addArgD (w : Z) (i : nat) (x y : edge) : D (hedge * bool) := fun k s =>
  if atlvl N s KD (ep x) w then
    match ep x with
    | PNode n =>
        let e1 := view s k (HD (PNode n)) i in
        if ceqb (hw e1) Czero then Ok ((e1, false), k) s
        else (let* c := mulCached g (hw e1) (ew x) in ret ((HE (hp e1) (hk e1) c, true), k)) s
    | _ => Bad BadNull
    end
  else
    match ep y with
    | PNode n => Ok ((hden (if hnull (hp (view s k (HD (PNode n)) i)) then Enull else x), false), k) s
    | _ => Bad BadNull
    end.
(** The node pointer of an edge in the table of density nodes (Node.hpp:207). *)
Definition hdp (p : hptr) : nptr := match p with HM p | HD p => p end.
(** The loop of add2 over the successors (Package.hpp:1373-1421); [rec] is the recursive call. *)
Definition addStep (rec : edge -> edge -> D edge) (w : Z) (x y : edge) (i : nat) : D edge :=
  dbind (addArgD w i x y) (fun a =>
  dbind (addArgD w i y x) (fun b =>
  dbind (happly (fst a)) (fun e1 =>
  dbind (happly (fst b)) (fun e2 =>
  dbind (rec (Ed (hdp (hp e1)) (hw e1)) (Ed (hdp (hp e2)) (hw e2))) (fun r =>
  dbind (hrevert (hp e1)) (fun _ =>
  dbind (hrevert (hp e2)) (fun _ =>
  dbind (dlift (if snd a then retCache (hw e1) else ret tt)) (fun _ =>
  dbind (dlift (if snd b then retCache (hw e2) else ret tt)) (fun _ =>
  dret r))))))))).
(** A loop that fills an array (Package.hpp:1374). *)
Fixpoint dmap {A B} (f : A -> D B) (l : list A) : D (list B) :=
  match l with
  | [] => dret []
  | a :: r => dbind (f a) (fun b => dbind (dmap f r) (fun bs => dret (b :: bs)))
  end.
(** add2 for density matrices (Package.hpp:1346-1429).  [x] and [y] have no marks; the nodes they lead
    to may. *)
Fixpoint add2D (fuel : nat) (x y : edge) : D edge :=
  match fuel with
  | O => dlift (fail BadFuel)
  | S f =>
    if isnull (ep x) then dret y
    else if isnull (ep y) then dret x
    else if wzero (ew x) then
      if wzero (ew y) then dret Ezero
      else dlift (let* s := get in let* c := getCached g (cval s (ew y)) in ret (Ed (ep y) c))
    else if wzero (ew y) then
      dlift (let* s := get in let* c := getCached g (cval s (ew x)) in ret (Ed (ep x) c))
    else if nptr_eqb (ep x) (ep y) then
      dlift (let* c := addCached g (ew x) (ew y) in
             let* s := get in
             if wapx0 s c then retCache c ;;; ret Ezero else ret (Ed (ep y) c))
    else
    dbind (dlift get) (fun s =>
    let vx := mkve s (ep x) (ew x) in
    let vy := mkve s (ep y) (ew y) in
    dbind (dlift (addLookup g KD vx vy)) (fun r =>
    match r with
    | Some r =>
        dlift (if vapx0 (vw r) then ret Ezero
               else let* c := getCached g (vw r) in ret (Ed (vp r) c))
    | None =>
        let w := if isT (ep x) || (negb (isT (ep y)) && (lvl s KD (ep x) <? lvl s KD (ep y)))
                 then lvl s KD (ep y) else lvl s KD (ep x) in
        dbind (dmap (addStep (add2D f) w x y) (seq 0 4)) (fun es =>
        dbind (makeD w es true false) (fun e =>
        dlift (let* s := get in
               addInsert g KD vx vy (mkve s (ep e) (ew e)) ;;; ret e)))
    end))
  end.

(** add for density matrices (Package.hpp:1313-1330).  A marked pointer would be used as it is, not
    aligned; it is flagged. *)
Definition addD (x y : hedge) : D edge := fun k =>
  if mk_none (hk x) && mk_none (hk y) then
    balanced N (dbind (dlift (gets (fuelof N))) (fun fu =>
      dbind (add2D fu (Ed (hdp (hp x)) (hw x)) (Ed (hdp (hp y)) (hw y))) (fun r => dlift (finish N g r))) k)
  else fail BadNull.

(** ** Multiplication *)

(** hash of densityDensityMultiplication with hash<dEdge> (ComputeTable.hpp:37-42, Node.hpp:218-229):
    the marks of the nodes are hashed, but see [ddLookup]. *)
Definition ddHash (k : mkst) (x y : hptr) : Z :=
  g_hbin g BDD (Ed (hcode x (mkbits (hmarks k x))) Cone) (Ed (hcode y (mkbits (hmarks k y))) Cone).
(** isDensityMatrixNode(result.p->flags) (Node.hpp:103) *)
Definition isden (s : st N) (p : nptr) : bool := match p with PNode n => nden (nod s KD n) | _ => false end.
(** lookup (ComputeTable.hpp:53-76): the stored operands are compared by address and weight, the marks
    are not compared. *)
Definition ddLookup (k : mkst) (x y : hptr) (gen : bool) : M (option (vedge N)) := fun s =>
  if hnull x || hnull y then Bad BadAssert else
  let kx := Ed (hcode x 0) Cone in
  let ky := Ed (hcode y 0) Cone in
  let t := s_bin s BDD in
  let miss := TB (tb_ent t) (tb_count t) (tb_look t + 1) (tb_hits t) in
  match tb_ent t (ddHash k x y) with
  | Some ((a, b), r) =>
      if edge_eqb s a kx && edge_eqb s b ky && Bool.eqb (isden s (vp r)) gen
      then Ok (Some r) (set_bin s BDD (TB (tb_ent t) (tb_count t) (tb_look t + 1) (tb_hits t + 1)))
      else Ok None (set_bin s BDD miss)
  | None => Ok None (set_bin s BDD miss)
  end.
(** insert (ComputeTable.hpp:47-51) *)
Definition ddInsert (k : mkst) (x y : hptr) (r : vedge N) : M unit := fun s =>
  Ok tt (set_bin s BDD (tb_insert (fun r => isnull (vp r)) (s_bin s BDD) (ddHash k x y)
                          (Ed (hcode x 0) Cone, Ed (hcode y 0) Cone) r)).

(** Operand of the recursive call of multiply2 (Package.hpp:1683-1695). *)
Definition mulArgD (var : Z) (i : nat) (x : hedge) : D hedge := fun k s =>
  if negb (hT (hp x)) && (hlvl s (hp x) =? var) then Ok (view s k (hp x) i, k) s
  else Ok (HE (hp x) (hk x) Cone, k) s.

(** One summand of one entry of the product (Package.hpp:1681-1722); [acc] is edge[idx], [rec] the
    recursive call. *)
Definition mulTerm (rec : hedge -> hedge -> D edge) (var : Z) (x y : hedge) (i j : nat) (acc : edge) (kk : nat) : D edge :=
  dbind (mulArgD var (2 * i + kk) x) (fun a =>
  dbind (mulArgD var (j + 2 * kk) y) (fun b =>
  dbind (happly a) (fun e1 =>
  dbind (happly b) (fun e2 =>
  dbind (rec e1 e2) (fun m =>
  dbind (if Nat.eqb kk 0 || wzero (ew acc) then dret m
         else if negb (wzero (ew m)) then
           dbind (dlift (gets (fuelof N))) (fun fu =>
           dbind (add2D fu acc m) (fun r =>
           dbind (hrevert (HD (ep r))) (fun _ =>
           dbind (hrevert (hp e2)) (fun _ =>
           dbind (dlift (retCache (ew acc))) (fun _ =>
           dbind (dlift (retCache (ew m))) (fun _ => dret r))))))
         else dret acc) (fun acc' =>
  dbind (hrevert (hp e1)) (fun _ =>
  dbind (hrevert (hp e2)) (fun _ => dret acc')))))))).
(** One entry of the product (Package.hpp:1675-1735). *)
Definition mulEntry (rec : hedge -> hedge -> D edge) (var : Z) (x y : hedge) (i j : nat) : D edge :=
  dbind (mulTerm rec var x y i j Ezero 0) (fun acc => mulTerm rec var x y i j acc 1).
(** The case idx == 2 with generateDensityMatrix (Package.hpp:1697-1706): the operands are prepared
    but, because of [continue], not restored; edge[2] becomes a copy of edge[1]. *)
Definition mulCopy (var : Z) (x y : hedge) (e1 : edge) : D edge :=
  let prep kk :=
    dbind (mulArgD var (2 + kk) x) (fun a =>
    dbind (mulArgD var (2 * kk) y) (fun b =>
    dbind (happly a) (fun _ => dbind (happly b) (fun _ => dret tt)))) in
  dbind (prep 0%nat) (fun _ =>
  dbind (dlift (let* s := get in
         if wapx0 s (ew e1) then ret Ezero
         else let* c := getCached g (aval s (ep_at (cr (ew e1))), aval s (ep_at (ci (ew e1)))) in
              ret (Ed (ep e1) c))) (fun r =>
  dbind (prep 1%nat) (fun _ => dret r))).

(** multiply2 for density matrices (Package.hpp:1582-1759).  [x] and [y] have no marks on their
    pointers. *)
Fixpoint mult2D (fuel : nat) (x y : hedge) (var start : Z) (gen : bool) : D edge :=
  match fuel with
  | O => dlift (fail BadFuel)
  | S f =>
    if hnull (hp x) then dret Enull
    else if hnull (hp y) then dret (Ed PNull (hw y))
    else if wzero (hw x) || wzero (hw y) then dret Ezero
    else if var =? start - 1 then
      dlift (let* c := mulCached g (hw x) (hw y) in ret (Ed PTerm c))
    else
    fun k =>
    dbind (dlift (ddLookup k (hp x) (hp y) gen)) (fun r =>
    match r with
    | Some r =>
        dlift (if vapx0 (vw r) then ret Ezero
        else
        let* c := getCached g (vw r) in
        mulInto c c (hw x) ;;;
        mulInto c c (hw y) ;;;
        let* s := get in
        if wapx0 s c then retCache c ;;; ret Ezero
        else ret (Ed (vp r) c))
    | None =>
        let rec b e1 e2 := mult2D f e1 e2 (var - 1) start b in
        dbind (mulEntry (rec gen) var x y 0 0) (fun e0 =>
        dbind (mulEntry (rec false) var x y 0 1) (fun e1 =>
        dbind (if gen then mulCopy var x y e1 else mulEntry (rec false) var x y 1 0) (fun e2 =>
        dbind (mulEntry (rec gen) var x y 1 1) (fun e3 =>
        dbind (makeD var [e0; e1; e2; e3] true gen) (fun e => fun k =>
        dlift (let* s := get in
        ddInsert k (hp x) (hp y) (mkve s (ep e) (ew e)) ;;;
        if negb (wzero (ew e)) && (wone (hw x) || negb (wzero (hw y))) then
          let* w :=
            if wone (ew e) then mulCached g (hw x) (hw y)
            else mulInto (ew e) (ew e) (hw x) ;;; mulInto (ew e) (ew e) (hw y) ;;; ret (ew e) in
          let* s := get in
          if wapx0 s w then retCache w ;;; ret Ezero
          else ret (Ed (ep e) w)
        else ret e) k)))))
    end) k
  end.

(** multiply for density matrices (Package.hpp:1537-1579). *)
Definition multiplyD (x y : hedge) (start : Z) (gen : bool) : D edge := fun k =>
  balanced N (
    (dbind (happly x) (fun x' =>
     dbind (happly y) (fun y' =>
     dbind (dlift get) (fun s =>
     let v0 := if hT (hp x') then -1 else hlvl s (hp x') in
     let var := if negb (hT (hp y)) && (v0 <? hlvl s (hp y')) then hlvl s (hp y') else v0 in
     dbind (mult2D (fuelof N s) x' y' var start gen) (fun e =>
     dbind (hrevert (hp x')) (fun _ =>
     dbind (hrevert (hp y')) (fun _ =>
     dlift (if negb (wzero (ew e)) && negb (wone (ew e)) then
       retCache (ew e) ;;; let* w := cn_lookupC g (ew e) in ret (Ed (ep e) w)
     else ret e)))))))) k).

(** applyOperationToDensity (Package.hpp:1520-1535): the new value of [e]. *)
Definition applyOpD (e : hedge) (op : edge) (gen : bool) : D hedge :=
  dbind (dlift (conjugateTranspose N g nb op)) (fun tmp0 =>
  dbind (multiplyD e (hmat tmp0) 0 false) (fun tmp1 =>
  dbind (multiplyD (hmat op) (hden tmp1) 0 gen) (fun tmp2 =>
  dbind (dlift (incRef N KD tmp2)) (fun _ =>
  dbind (dlift (decRef N KD (Ed (hdp (hp e)) (hw e)))) (fun _ =>
  dret (if gen then hsetDm (hden tmp2) else hden tmp2)))))).

End DensMul.
