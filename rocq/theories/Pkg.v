(** The functions of Package.hpp on decision diagrams, and the operations of
    UniqueTable.hpp they use. *)
From Coq Require Import ZArith List Bool Lia Arith.
From Verif Require Import Num Base CTable State.
Import ListNotations.
Local Open Scope Z_scope.

Section Pkg.
Context (N : num) (g : cfg N) (nb : kind -> Z).
(** [nb k] is NBUCKET of the unique table of kind [k] (Package.hpp:54-72). *)

Local Notation M := (M N).

(** A loop that fills an array, element by element from the front (e.g. Package.hpp:1374-1413). *)
Fixpoint mapM {A B} (f : A -> M B) (l : list A) : M (list B) :=
  match l with
  | [] => ret []
  | a :: r => let* b := f a in let* bs := mapM f r in ret (b :: bs)
  end.
(** A loop that updates a variable (e.g. Package.hpp:241-245). *)
Fixpoint foldM {A B} (f : B -> A -> M B) (l : list A) (b : B) : M B :=
  match l with
  | [] => ret b
  | a :: r => let* b' := f b a in foldM f r b'
  end.

(** ** Unique tables *)

(** A value-initialised node of a chunk (UniqueTable.hpp:350-360). *)
Definition emptynode : node := ND [] 0 0 false false false.

(** Writing to the nodes in the chunks (UniqueTable.hpp:350-360). *)
Definition ut_hs (u : utab) h := UT h (ut_tab u) (ut_avail u) (ut_next u) (ut_count u) (ut_peak u)
  (ut_active u) (ut_actcount u) (ut_maxact u) (ut_gccalls u) (ut_gcruns u) (ut_gclimit u)
  (ut_lookups u) (ut_hits u) (ut_coll u).
(** Writing to the free list and the chunk iterator (UniqueTable.hpp:117-145). *)
Definition ut_free (u : utab) l n := UT (ut_heap u) (ut_tab u) l n (ut_count u) (ut_peak u)
  (ut_active u) (ut_actcount u) (ut_maxact u) (ut_gccalls u) (ut_gcruns u) (ut_gclimit u)
  (ut_lookups u) (ut_hits u) (ut_coll u).
(** Writing to lookups, hits and collisions (UniqueTable.hpp:380-389). *)
Definition ut_stat (u : utab) lk h c := UT (ut_heap u) (ut_tab u) (ut_avail u) (ut_next u)
  (ut_count u) (ut_peak u)
  (ut_active u) (ut_actcount u) (ut_maxact u) (ut_gccalls u) (ut_gcruns u) (ut_gclimit u) lk h c.

(** Assignment to [p->ref] (Node.hpp:26,43). *)
Definition set_ref (x : node) r := ND (ne x) r (nv x) (nsym x) (nid x) (nden x).
(** setSymmetric and setIdentity (Node.hpp:59-79). *)
Definition set_flags (x : node) b c := ND (ne x) (nref x) (nv x) b c (nden x).

(** getNode (UniqueTable.hpp:117-140) followed by [assert(e.p->ref == 0)]
    (Package.hpp:1007).  Growing the chunks is not observable here. *)
Definition getNode (k : kind) : M nat := fun s =>
  let u := s_ut s k in
  match ut_avail u with
  | a :: rest => Ok a (set_ut s k (ut_free (ut_hs u (upd (ut_heap u) a (set_ref (ut_heap u a) 0))) rest (ut_next u)))
  | [] =>
      if nref (ut_heap u (ut_next u)) =? 0
      then Ok (ut_next u) (set_ut s k (ut_free u [] (S (ut_next u))))
      else Bad BadAssert
  end.

(** returnNode (UniqueTable.hpp:142-145) *)
Definition returnNode (k : kind) (n : nat) : M unit := fun s =>
  let u := s_ut s k in
  if memb n (ut_avail u) then Bad BadFree
  else Ok tt (set_ut s k (ut_free u (n :: ut_avail u) (ut_next u))).

(** [assert(edge.p->v == var - 1 || edge.isTerminal())] (Package.hpp:1008-1011,
    UniqueTable.hpp:99-101, 408-410) *)
Definition chkchild (s : st N) (k : kind) (var : Z) (e : edge) : option bad :=
  match ep e with
  | PNull => Some BadNull
  | PTerm => None
  | PNode n => if nv (nod s k n) =? var - 1 then None else Some BadAssert
  end.
(** The assertions on all successors (Package.hpp:1008-1011, UniqueTable.hpp:99-101). *)
Definition checkChildren (k : kind) (var : Z) (es : list edge) : M unit :=
  fun s => (fix go l := match l with
    | [] => Ok tt s
    | e :: r => match chkchild s k var e with Some b => Bad b | None => go r end
    end) es.

(** [==] on arrays of edges (UniqueTable.hpp:78-84, Edge.hpp:26-28). *)
Fixpoint edges_eqb (s : st N) (a b : list edge) : bool :=
  match a, b with
  | [], [] => true
  | x :: a', y :: b' => edge_eqb s x y && edges_eqb s a' b'
  | _, _ => false
  end.

(** nodesAreEqual (UniqueTable.hpp:78-84); only the density flag can differ between two
    nodes looked up in the table of density nodes. *)
Definition nodes_eqb (s : st N) (k : kind) (es : list edge) (den : bool) (q : node) : bool :=
  edges_eqb s es (ne q) && match k with KD => Bool.eqb den (nden q) | _ => true end.

(** searchTable (UniqueTable.hpp:391-420): result and number of collisions. *)
Fixpoint ut_search (s : st N) (k : kind) (es : list edge) (den : bool) (chain : list nat)
  : option nat * Z :=
  match chain with
  | [] => (None, 0)
  | p :: r =>
      if nodes_eqb s k es den (nod s k p) then (Some p, 0)
      else let '(x, c) := ut_search s k es den r in (x, c + 1)
  end.

(** hash (UniqueTable.hpp:52-63) *)
Definition ukey (k : kind) (es : list edge) : Z := g_hut g k es mod nb k.

(** lookup (UniqueTable.hpp:88-115) of a node [n] under construction with successors
    [es], which is written to the heap when it is linked.  Result: the node found or
    inserted, and whether it is [n] itself. *)
Definition ut_lookup (k : kind) (n : nat) (var : Z) (es : list edge) (den : bool) : M nat :=
  let* s0 := get in
  let u0 := s_ut s0 k in
  (fun s => Ok tt (set_ut s k (ut_stat u0 (ut_lookups u0 + 1) (ut_hits u0) (ut_coll u0)))) ;;;
  checkChildren k var es ;;;
  fun s =>
  if (var <? 0) || (s_nq s <=? var) then Bad BadIndex else
  let u := s_ut s k in
  let key := ukey k es in
  let '(found, col) := ut_search s k es den (ut_tab u var key) in
  match found with
  | Some p =>
      if negb (nv (nod s k p) =? var) then Bad BadAssert else
      (returnNode k n ;;; ret p)
        (set_ut s k (ut_stat u (ut_lookups u) (ut_hits u + 1) (ut_coll u + col)))
  | None =>
      Ok n (set_ut s k
        (UT (upd (ut_heap u) n (ND es 0 var false false den))
            (updZ (ut_tab u) var (updZ (ut_tab u var) key (n :: ut_tab u var key)))
            (ut_avail u) (ut_next u)
            (ut_count u + 1) (Z.max (ut_peak u) (ut_count u + 1))
            (ut_active u) (ut_actcount u) (ut_maxact u)
            (ut_gccalls u) (ut_gcruns u) (ut_gclimit u)
            (ut_lookups u) (ut_hits u) (ut_coll u + col)))
  end.

(** ** normalize *)

(** What normalize (Package.hpp:134-223, 380-471) does with the node under construction: put it back on the free
    list and return Edge::zero, return Edge::zero without doing so, or return the
    node with new successors and an edge weight. *)
Inductive nrm := NRet | NLost | NOk (es : list edge) (w : complex).

(** "make sure to release cached numbers approximately zero" (Package.hpp:137-145,
    391-399) *)
Definition relz (cached z : bool) (e : edge) : M edge :=
  if cached && z && negb (ceqb (ew e) Czero) then retCache (ew e) ;;; ret Ezero else ret e.

(** The case of exactly one non-zero successor (Package.hpp:157-179). *)
Definition topw (cached : bool) (w : complex) : M complex :=
  if cached && negb (wone w) then ret w else cn_lookupC g w.

(** An edge with weight zero is replaced by Edge::zero (Package.hpp:205-221). *)
Definition zeroed (e : edge) (w : complex) : edge := if ceqb w Czero then Ezero else Ed (ep e) w.

(** normalize for vectors (Package.hpp:134-223), called with e.w = Complex::one from
    makeDDNode, its only caller. *)
Definition normalizeV (cached : bool) (e0 e1 : edge) : M nrm :=
  let* s := get in
  let z0 := wapx0 s (ew e0) in
  let z1 := wapx0 s (ew e1) in
  let* e0 := relz cached z0 e0 in
  let* e1 := relz cached z1 e1 in
  if z0 then
    if z1 then ret (if cached then NLost else NRet)
    else let* w := topw cached (ew e1) in ret (NOk [e0; Ed (ep e1) Cone] w)
  else if z1 then
    let* w := topw cached (ew e0) in ret (NOk [Ed (ep e0) Cone; e1] w)
  else
  let mag0 := wmag2 s (ew e0) in
  let mag1 := wmag2 s (ew e1) in
  let norm2 := nadd mag0 mag1 in
  let ge := nleb mag1 (nadd mag0 ntol) in
  let mag2Max := if ge then mag0 else mag1 in
  let norm := nsqrt norm2 in
  let magMax := nsqrt mag2Max in
  let cf := ndiv norm magMax in
  let mx := if ge then e0 else e1 in
  let mn := if ge then e1 else e0 in
  let* rw :=
    if cached && negb (wone (ew mx)) then
      let* x := gets (fun s => nmul (aval s (ep_at (cr (ew mx)))) cf) in
      wr (cr (ew mx)) x ;;;
      let* y := gets (fun s => nmul (aval s (ep_at (ci (ew mx)))) cf) in
      wr (ci (ew mx)) y ;;;
      ret (Some (ew mx))
    else
      let* w := cn_lookup g (nmul (val s (cr (ew mx))) cf) (nmul (val s (ci (ew mx))) cf) in
      let* s' := get in
      ret (if wapx0 s' w then None else Some w) in
  match rw with
  | None => ret NLost
  | Some rw =>
    let* mxw := cn_lookup g (ndiv magMax norm) n0 in
    let mx' := zeroed mx mxw in
    let* mnw :=
      if cached then
        retCache (ew mn) ;;; divInto (ew mn) (ew mn) rw ;;; cn_lookupC g (ew mn)
      else
        let* t := getTemp g in divInto t (ew mn) rw ;;; cn_lookupC g t in
    let mn' := zeroed mn mnw in
    ret (NOk (if ge then [mx'; mn'] else [mn'; mx']) rw)
  end.

(** Search for the largest weight (Package.hpp:401-420); [None]: argmax = -1. *)
Fixpoint argmaxM (s : st N) (i : nat) (zs : list bool) (es : list edge) (acc : option (nat * N))
  : option (nat * N) :=
  match zs, es with
  | z :: zs', e :: es' =>
      argmaxM s (S i) zs' es'
        (if z then acc else
         let m := wmag2 s (ew e) in
         match acc with
         | None => Some (i, m)
         | Some (_, mx) => if nltb ntol (nsub m mx) then Some (i, m) else acc
         end)
  | _, _ => acc
  end.

(** Body of the division loop (Package.hpp:433-468). *)
Definition normEdge (cached : bool) (am : nat) (maxc : complex) (q : nat * (bool * edge)) : M edge :=
  let '(i, (z, e)) := q in
  if Nat.eqb i am then ret (Ed (ep e) Cone)
  else if z then
    (if cached && negb (ceqb (ew e) Czero) then retCache (ew e) else ret tt) ;;; ret Ezero
  else
    (if cached && negb (wone (ew e)) then retCache (ew e) else ret tt) ;;;
    let* s := get in
    let w := if wapx1 s (ew e) then Cone else ew e in
    let* t := getTemp g in
    divInto t w maxc ;;;
    let* w' := cn_lookupC g t in
    ret (Ed (ep e) w').

(** normalize for matrices and density matrices (Package.hpp:380-471), called with
    e.w = Complex::one from makeDDNode, so that r.w becomes maxc. *)
Definition normalizeM (cached : bool) (es : list edge) : M nrm :=
  let* s := get in
  let zs := map (fun e => wapx0 s (ew e)) es in
  let* es := mapM (fun q => relz cached (fst q) (snd q)) (combine zs es) in
  match argmaxM s 0 zs es None with
  | None => ret (if cached then NLost else NRet)
  | Some (am, _) =>
      let maxc := ew (nth am es Ezero) in
      let* es' := mapM (normEdge cached am maxc) (combine (seq 0 (length es)) (combine zs es)) in
      ret (NOk es' maxc)
  end.

(** The overload of normalize chosen by the node type (Package.hpp:134-223, 380-471). *)
Definition normalize (k : kind) (cached : bool) (es : list edge) : M nrm :=
  match k, es with
  | KV, [e0; e1] => normalizeV cached e0 e1
  | KV, _ => fail BadIndex
  | _, _ => normalizeM cached es
  end.

(** ** Creating nodes *)

(** setSymmetric and setIdentity on a stored matrix node (Package.hpp:814-836, Node.hpp:59-79). *)
Definition setFlags (n : nat) (sym idn : bool) : M unit := fun s =>
  let u := s_ut s KM in
  Ok tt (set_ut s KM (ut_hs u (upd (ut_heap u) n (set_flags (ut_heap u n) sym idn)))).

(** checkSpecialMatrices (Package.hpp:814-836) with transpose as parameter. *)
Definition checkSpecial (tr : edge -> M edge) (n : nat) : M unit :=
  setFlags n false false ;;;
  let* s := get in
  match ne (nod s KM n) with
  | [e0; e1; e2; e3] =>
      if negb (fsym s KM (ep e0)) || negb (fsym s KM (ep e3)) then ret tt
      else
      let* t := tr e1 in
      let* s := get in
      if negb (edge_eqb s t e2) then ret tt
      else
      setFlags n true false ;;;
      if negb (fid s KM (ep e0)) || negb (ceqb (ew e1) Czero) || negb (ceqb (ew e2) Czero)
         || negb (ceqb (ew e0) Cone) || negb (ceqb (ew e3) Cone) || negb (fid s KM (ep e3))
      then ret tt
      else setFlags n true true
  | _ => fail BadIndex
  end.

(** makeDDNode (Package.hpp:993-1028) with transpose as parameter.  The successors of
    the node under construction are kept in [es] until the node is linked. *)
Definition mk (tr : edge -> M edge) (k : kind) (var : Z) (es : list edge) (cached den : bool) : M edge :=
  let* n := getNode k in
  checkChildren k var es ;;;
  let* r := normalize k cached es in
  match r with
  | NRet => returnNode k n ;;; ret Ezero
  | NLost => ret Ezero
  | NOk es' w =>
      let* l := ut_lookup k n var es' den in
      (match k with
       | KM => if Nat.eqb l n then checkSpecial tr n else ret tt
       | _ => ret tt
       end) ;;;
      ret (Ed (PNode l) w)
  end.

(** [e[i]] (Node.hpp:22,40) *)
Definition nthe (es : list edge) (i : nat) : edge := nth i es Enull.

(** transpose (Package.hpp:1437-1465) *)
Fixpoint transposeF (fuel : nat) (a : edge) : M edge :=
  match fuel with
  | O => fail BadFuel
  | S f =>
    match ep a with
    | PNode n => fun s =>
        if nsym (nod s KM n) then Ok a s else
        (let* r := unLookup g UTr a in
         match r with
         | Some r => ret r
         | None =>
             let* s := get in
             let es := ne (nod s KM n) in
             let* e0 := transposeF f (nthe es 0) in
             let* e1 := transposeF f (nthe es 2) in
             let* e2 := transposeF f (nthe es 1) in
             let* e3 := transposeF f (nthe es 3) in
             let* r := mk (transposeF f) KM (nv (nod s KM n)) [e0; e1; e2; e3] false false in
             let* c := getTemp g in
             mulInto c (ew r) (ew a) ;;;
             let* w := cn_lookupC g c in
             let r := Ed (ep r) w in
             unInsert g UTr a r ;;; ret r
         end) s
    | _ => ret a
    end
  end.

(** Enough recursion depth for any diagram of the package: one call per qubit and one for the terminal
    (Package.hpp:104, 1437-1465). *)
Definition fuelof (s : st N) : nat := S (S (Z.to_nat (s_nq s))).

(** transpose (Package.hpp:1437-1465) *)
Definition transpose (a : edge) : M edge := fun s => transposeF (fuelof s) a s.
(** makeDDNode (Package.hpp:993-1028) *)
Definition makeDDNode (k : kind) (var : Z) (es : list edge) (cached : bool) : M edge :=
  fun s => mk (transposeF (fuelof s)) k var es cached false s.
(** makeDDNode<dNode> with generateDensityMatrix (Package.hpp:993-1028) *)
Definition makeDDNodeD (var : Z) (es : list edge) (cached den : bool) : M edge :=
  fun s => mk (transposeF (fuelof s)) KD var es cached den s.

(** conjugateTranspose (Package.hpp:1466-1500) *)
Fixpoint conjTransF (fuel : nat) (a : edge) : M edge :=
  match fuel with
  | O => fail BadFuel
  | S f =>
    match ep a with
    | PNull => ret a
    | PTerm => ret (Ed PTerm (wconj (ew a)))
    | PNode n =>
        let* r := unLookup g UCt a in
        match r with
        | Some r => ret r
        | None =>
            let* s := get in
            let es := ne (nod s KM n) in
            let* e0 := conjTransF f (nthe es 0) in
            let* e1 := conjTransF f (nthe es 2) in
            let* e2 := conjTransF f (nthe es 1) in
            let* e3 := conjTransF f (nthe es 3) in
            let* r := makeDDNode KM (nv (nod s KM n)) [e0; e1; e2; e3] false in
            let* c := getTemp g in
            mulInto c (ew r) (wconj (ew a)) ;;;
            let* w := cn_lookupC g c in
            let r := Ed (ep r) w in
            unInsert g UCt a r ;;; ret r
        end
    end
  end.
(** conjugateTranspose (Package.hpp:1466-1500) *)
Definition conjugateTranspose (a : edge) : M edge := fun s => conjTransF (fuelof s) a s.

(** ** Addition *)

(** [!x.isTerminal() && x.p->v == w] (e.g. Package.hpp:1377,1390) *)
Definition atlvl (s : st N) (k : kind) (p : nptr) (w : Z) : bool :=
  negb (isT p) && (lvl s k p =? w).

(** Operand of the recursive call of add2 (Package.hpp:1376-1401). *)
Definition addArg (k : kind) (w : Z) (i : nat) (x y : edge) : M (edge * bool) :=
  let* s := get in
  if atlvl s k (ep x) w then
    match ep x with
    | PNode n =>
        let e1 := nthe (ne (nod s k n)) i in
        if ceqb (ew e1) Czero then ret (e1, false)
        else let* c := mulCached g (ew e1) (ew x) in ret (Ed (ep e1) c, true)
    | _ => fail BadNull
    end
  else
    match ep y with
    | PNode n => ret (if isnull (ep (nthe (ne (nod s k n)) i)) then Enull else x, false)
    | _ => fail BadNull
    end.

(** add2 (Package.hpp:1346-1429), for vectors and matrices *)
Fixpoint add2F (fuel : nat) (k : kind) (x y : edge) : M edge :=
  match fuel with
  | O => fail BadFuel
  | S f =>
    if isnull (ep x) then ret y
    else if isnull (ep y) then ret x
    else if wzero (ew x) then
      if wzero (ew y) then ret Ezero
      else let* s := get in let* c := getCached g (cval s (ew y)) in ret (Ed (ep y) c)
    else if wzero (ew y) then
      let* s := get in let* c := getCached g (cval s (ew x)) in ret (Ed (ep x) c)
    else if nptr_eqb (ep x) (ep y) then
      let* c := addCached g (ew x) (ew y) in
      let* s := get in
      if wapx0 s c then retCache c ;;; ret Ezero
      else ret (Ed (ep y) c)
    else
    let* s := get in
    let vx := mkve s (ep x) (ew x) in
    let vy := mkve s (ep y) (ew y) in
    let* r := addLookup g k vx vy in
    match r with
    | Some r =>
        if vapx0 (vw r) then ret Ezero
        else let* c := getCached g (vw r) in ret (Ed (vp r) c)
    | None =>
        let w := if isT (ep x) || (negb (isT (ep y)) && (lvl s k (ep x) <? lvl s k (ep y)))
                 then lvl s k (ep y) else lvl s k (ep x) in
        let* es := mapM (fun i =>
            let* (e1, b1) := addArg k w i x y in
            let* (e2, b2) := addArg k w i y x in
            let* r := add2F f k e1 e2 in
            (if b1 then retCache (ew e1) else ret tt) ;;;
            (if b2 then retCache (ew e2) else ret tt) ;;;
            ret r) (seq 0 (arity k)) in
        let* e := makeDDNode k w es true in
        let* s := get in
        addInsert g k vx vy (mkve s (ep e) (ew e)) ;;;
        ret e
    end
  end.
(** add2 (Package.hpp:1346-1429) *)
Definition add2 (k : kind) (x y : edge) : M edge := fun s => add2F (fuelof s) k x y s.

(** Releasing the weight of a result and looking it up (e.g. Package.hpp:1331-1334). *)
Definition finish (r : edge) : M edge :=
  if ceqb (ew r) Czero then ret r
  else retCache (ew r) ;;; let* w := cn_lookupC g (ew r) in ret (Ed (ep r) w).

(** The assertion that the number of temporaries is the same before and after
    (e.g. Package.hpp:1327,1336-1337). *)
Definition balanced {A} (m : M A) : M A :=
  let* before := gets (fun s => cc_count (s_cc s)) in
  let* r := m in
  let* after := gets (fun s => cc_count (s_cc s)) in
  assertM (after =? before) ;;; ret r.

(** add (Package.hpp:1313-1328) *)
Definition add (k : kind) (x y : edge) : M edge :=
  balanced (let* r := add2 k x y in finish r).

(** ** Multiplication *)

(** getMultiplicationComputeTable (Package.hpp:1509-1521) *)
Definition bmul (k : kind) : bop := match k with KV => BMV | _ => BMM end.
(** An operand with its weight set to one (e.g. Package.hpp:1599-1602). *)
Definition one_w (e : edge) : edge := Ed (ep e) Cone.

(** Operand of the recursive call of multiply2 (Package.hpp:1683-1695). *)
Definition mulArg (k : kind) (var : Z) (i : nat) (x : edge) : M edge :=
  fun s => if atlvl s k (ep x) var then
      match ep x with
      | PNode n => Ok (nthe (ne (nod s k n)) i) s
      | _ => Bad BadNull
      end
    else Ok (one_w x) s.

(** multiply2 (Package.hpp:1582-1759), for an mNode on the left and a node of kind [k]
    (vectors or matrices) on the right.  The identity shortcut (1620-1664) is under
    [is_same_v<RightOperandNode, mCachedEdge>], which never holds. *)
Fixpoint mult2F (fuel : nat) (k : kind) (x y : edge) (var start : Z) : M edge :=
  match fuel with
  | O => fail BadFuel
  | S f =>
    if isnull (ep x) then ret Enull
    else if isnull (ep y) then ret y
    else if wzero (ew x) || wzero (ew y) then ret Ezero
    else if var =? start - 1 then
      let* c := mulCached g (ew x) (ew y) in ret (Ed PTerm c)
    else
    let xc := one_w x in
    let yc := one_w y in
    let* r := binLookup g (bmul k) xc yc in
    match r with
    | Some r =>
        if vapx0 (vw r) then ret Ezero
        else
        let* c := getCached g (vw r) in
        mulInto c c (ew x) ;;;
        mulInto c c (ew y) ;;;
        let* s := get in
        if wapx0 s c then retCache c ;;; ret Ezero
        else ret (Ed (vp r) c)
    | None =>
        let cols := match k with KV => 1%nat | _ => 2%nat end in
        let* es := mapM (fun ij =>
            let '(i, j) := ij in
            foldM (fun acc kk =>
              let* e1 := mulArg KM var (2 * i + kk) x in
              let* e2 := mulArg k var (j + cols * kk) y in
              let* m := mult2F f k e1 e2 (var - 1) start in
              if Nat.eqb kk 0 || wzero (ew acc) then ret m
              else if negb (wzero (ew m)) then
                let* r := add2 k acc m in
                retCache (ew acc) ;;; retCache (ew m) ;;; ret r
              else ret acc) [0%nat; 1%nat] Ezero)
            (list_prod (seq 0 2) (seq 0 cols)) in
        let* e := makeDDNode k var es true in
        let* s := get in
        binInsert g (bmul k) xc yc (mkve s (ep e) (ew e)) ;;;
        if negb (wzero (ew e)) && (wone (ew x) || negb (wzero (ew y))) then
          let* w :=
            if wone (ew e) then mulCached g (ew x) (ew y)
            else mulInto (ew e) (ew e) (ew x) ;;; mulInto (ew e) (ew e) (ew y) ;;; ret (ew e) in
          let* s := get in
          if wapx0 s w then retCache w ;;; ret Ezero
          else ret (Ed (ep e) w)
        else ret e
    end
  end.

(** multiply (Package.hpp:1537-1579) *)
Definition multiply (k : kind) (x y : edge) (start : Z) : M edge :=
  balanced (fun s =>
    let v0 := if isT (ep x) then -1 else lvl s KM (ep x) in
    let var := if negb (isT (ep y)) && (v0 <? lvl s k (ep y)) then lvl s k (ep y) else v0 in
    (let* e := mult2F (fuelof s) k x y var start in
     if negb (wzero (ew e)) && negb (wone (ew e)) then
       retCache (ew e) ;;; let* w := cn_lookupC g (ew e) in ret (Ed (ep e) w)
     else ret e) s).

(** ** Inner product *)

(** innerProduct (Package.hpp:1841-1895) *)
Fixpoint innerF (fuel : nat) (x y : edge) (var : Z) : M (N * N) :=
  match fuel with
  | O => fail BadFuel
  | S f => fun s =>
    if isnull (ep x) || isnull (ep y) || wapx0 s (ew x) || wapx0 s (ew y) then Ok (n0, n0) s
    else if var =? 0 then
      (let* c := getTemp g in
       mulInto c (ew x) (ew y) ;;; gets (fun s => (aval s (ep_at (cr c)), aval s (ep_at (ci c))))) s
    else
    let xc := one_w x in
    let yc := one_w y in
    let w := var - 1 in
    (let* r := binLookup g BIP xc yc in
     let* sum :=
       match r with
       | Some r => ret (vw r)
       | None =>
           let* sum := foldM (fun acc i =>
               let* e1 := (fun s => match ep x with
                            | PNode n => if lvl s KV (ep x) =? w
                                         then let e := nthe (ne (nod s KV n)) i in
                                              Ok (Ed (ep e) (wconj (ew e))) s
                                         else Ok xc s
                            | _ => Ok xc s
                            end) in
               let* e2 := (fun s => match ep y with
                            | PNode n => if lvl s KV (ep y) =? w
                                         then Ok (nthe (ne (nod s KV n)) i) s
                                         else Ok yc s
                            | _ => Ok yc s
                            end) in
               let* cv := innerF f e1 e2 w in
               ret (nadd (fst acc) (fst cv), nadd (snd acc) (snd cv)))
             [0%nat; 1%nat] (n0, n0) in
           binInsert g BIP xc yc (VE PTerm sum) ;;; ret sum
       end in
     let* c := getTempV g sum in
     mulInto c c (ew x) ;;;
     mulInto c c (ew y) ;;;
     gets (fun s => cval s c)) s
  end.

(** innerProduct (Package.hpp:1773-1793) *)
Definition innerProduct (x y : edge) : M (N * N) := fun s =>
  if isnull (ep x) || isnull (ep y) || wapx0 s (ew x) || wapx0 s (ew y) then Ok (n0, n0) s
  else
  balanced (fun s =>
    let w := Z.max (lvl s KV (ep x)) (lvl s KV (ep y)) in
    innerF (fuelof s) (Ed (ep x) (wconj (ew x))) y (w + 1) s) s.

(** fidelity (Package.hpp:1795-1798) *)
Definition fidelity (x y : edge) : M N :=
  let* v := innerProduct x y in ret (mag2 v).

(** ** Kronecker product *)

(** getKroneckerComputeTable (Package.hpp:1930-1937) *)
Definition bkron (k : kind) : bop := match k with KV => BKV | _ => BKM end.

(** makeDDNode(idx, {e, 0, 0, e}) repeated (Package.hpp:1988-1993) *)
Fixpoint idtower (incIdx : bool) (cnt : nat) (e : edge) : M edge :=
  match cnt with
  | O => ret e
  | S c =>
      let* s := get in
      let idx := if incIdx then lvl s KM (ep e) + 1 else lvl s KM (ep e) in
      let* e' := makeDDNode KM idx [e; Ezero; Ezero; e] false in
      idtower incIdx c e'
  end.

(** kronecker2 (Package.hpp:1963-2011) *)
Fixpoint kron2F (fuel : nat) (k : kind) (x y : edge) (incIdx : bool) : M edge :=
  match fuel with
  | O => fail BadFuel
  | S f => fun s =>
    if wapx0 s (ew x) || wapx0 s (ew y) then Ok Ezero s
    else match ep x with
    | PTerm => (let* c := mulCached g (ew x) (ew y) in ret (Ed (ep y) c)) s
    | PNull => Bad BadNull
    | PNode n =>
      (let* r := binLookup g (bkron k) x y in
       match r with
       | Some r =>
           if vapx0 (vw r) then ret Ezero
           else let* c := getCached g (vw r) in ret (Ed (vp r) c)
       | None =>
         let* s := get in
         if (match k with KV => false | _ => nid (nod s k n) end) then
           let* e := idtower incIdx (S (Z.to_nat (nv (nod s k n)))) y in
           let* s := get in
           let* c := getCached g (cval s (ew y)) in
           let* s := get in
           binInsert g (bkron k) x y (mkve s (ep e) c) ;;;
           ret (Ed (ep e) c)
         else
           let* es := mapM (fun i => kron2F f k (nthe (ne (nod s k n)) i) y incIdx) (seq 0 (arity k)) in
           let* s := get in
           let idx := if incIdx then lvl s k (ep y) + nv (nod s k n) + 1 else nv (nod s k n) in
           let* e := makeDDNode k idx es true in
           mulInto (ew e) (ew e) (ew x) ;;;
           let* s := get in
           binInsert g (bkron k) x y (mkve s (ep e) (ew e)) ;;;
           ret e
       end) s
    end
  end.

(** kronecker (Package.hpp:1939-1953) *)
Definition kronecker (k : kind) (x y : edge) (incIdx : bool) : M edge :=
  match k with
  | KD => throw EInvalidArg
  | _ => fun s =>
      (let* e := kron2F (fuelof s) k x y incIdx in
       if negb (ceqb (ew e) Czero) && negb (wone (ew e)) then
         retCache (ew e) ;;; let* w := cn_lookupC g (ew e) in ret (Ed (ep e) w)
       else ret e) s
  end.

(** ** Trace *)

(** trace (Package.hpp:2041-2104) *)
Fixpoint traceF (fuel : nat) (a : edge) (elim : list bool) (already : Z) : M edge :=
  match fuel with
  | O => fail BadFuel
  | S f => fun s =>
    if wapx0 s (ew a) then Ok Ezero s
    else if negb (existsb (fun b => b) elim) then Ok a s
    else match ep a with
    | PNull => Bad BadNull
    | PTerm => Ok a s
    | PNode n =>
      let v := nv (nod s KM n) in
      let es := ne (nod s KM n) in
      if (v <? 0) || (Z.of_nat (length elim) <=? v) then Bad BadIndex
      else if nth (Z.to_nat v) elim false then
        (let* t0 := traceF f (nthe es 0) elim (already + 1) in
         let* r1 := add2 KM Ezero t0 in
         let* t1 := traceF f (nthe es 3) elim (already + 1) in
         let* r2 := add2 KM r1 t1 in
         let* rw :=
           if wone (ew r2) then ret (ew a)
           else let* c := getTemp g in mulInto c (ew r2) (ew a) ;;; cn_lookupC g c in
         (if ceqb (ew r1) Czero then ret tt else retCache (ew r1)) ;;;
         (if ceqb (ew r2) Czero then ret tt else retCache (ew r2)) ;;;
         ret (Ed (ep r2) rw)) s
      else
        (let* es' := mapM (fun e => traceF f e elim already) es in
         let cnt := Z.of_nat (length (filter (fun b => b) elim)) in
         let* r := makeDDNode KM (v - (cnt - already)) es' false in
         let* rw :=
           if wone (ew r) then ret (ew a)
           else let* c := getTemp g in mulInto c (ew r) (ew a) ;;; cn_lookupC g c in
         ret (Ed (ep r) rw)) s
    end
  end.

(** partialTrace (Package.hpp:2017-2023) *)
Definition partialTrace (a : edge) (elim : list bool) : M edge :=
  balanced (fun s => traceF (fuelof s) a elim 0 s).
(** trace (Package.hpp:2024-2031) *)
Definition trace (a : edge) : M (N * N) :=
  balanced (let* s := get in
            let* r := partialTrace a (repeat true (Z.to_nat (s_nq s))) in
            gets (fun s => cval s (ew r))).

(** ** Identity matrices *)

(** The loop of makeIdent (Package.hpp:2192-2195). *)
Fixpoint identLoop (cnt : nat) (k : Z) (e : edge) : M edge :=
  match cnt with
  | O => ret e
  | S c =>
      let* e' := makeDDNode KM k [e; Ezero; Ezero; e] false in
      identLoop c (k + 1) e'
  end.

(** [IdTable[i]] (Package.hpp:2178-2188); an index out of range is flagged. *)
Definition idAt (i : Z) : M edge := fun s =>
  if (i <? 0) || (s_nq s <=? i) then Bad BadIndex else Ok (s_id s i) s.
(** [IdTable[i] = e] (Package.hpp:2187,2198) *)
Definition idSet (i : Z) (e : edge) : M unit := fun s =>
  if (i <? 0) || (s_nq s <=? i) then Bad BadIndex else Ok tt (set_id s (updZ (s_id s) i e)).

(** makeIdent (Package.hpp:2175-2200) *)
Definition makeIdent (lsq msq : Z) : M edge :=
  if msq <? lsq then ret Eone
  else
  let* hit := (if lsq =? 0 then let* e := idAt msq in ret (if isnull (ep e) then None else Some e)
               else ret None) in
  match hit with
  | Some e => ret e
  | None =>
    let* prev := (if 1 <=? msq then let* e := idAt (msq - 1) in ret (if isnull (ep e) then None else Some e)
                  else ret None) in
    match prev with
    | Some d =>
        let* e := makeDDNode KM msq [d; Ezero; Ezero; d] false in
        idSet msq e ;;; ret e
    | None =>
        let* e := makeDDNode KM lsq [Eone; Ezero; Ezero; Eone] false in
        let* e := identLoop (Z.to_nat (msq - lsq)) (lsq + 1) e in
        (if lsq =? 0 then idSet msq e else ret tt) ;;; ret e
    end
  end.

(** ** Reference counts *)

(** Assignment to [e.p->ref] (UniqueTable.hpp:158,188). *)
Definition setNodeRef (k : kind) (n : nat) (r : Z) : M unit := fun s =>
  let u := s_ut s k in
  Ok tt (set_ut s k (ut_hs u (upd (ut_heap u) n (set_ref (ut_heap u n) r)))).

(** ComplexNumbers::incRef / decRef (ComplexNumbers.hpp:190-203) *)
Definition cn_incRef (w : complex) : M unit := fun s =>
  if ceqb w Czero || ceqb w Cone then Ok tt s
  else Ok tt (set_ct s (ct_incRef (ct_incRef (s_ct s) (cr w)) (ci w))).
(** ComplexNumbers::decRef (ComplexNumbers.hpp:197-203) *)
Definition cn_decRef (w : complex) : M unit := fun s =>
  if ceqb w Czero || ceqb w Cone then Ok tt s
  else match ct_decRef (s_ct s) (cr w) with
       | None => Thr ERuntime s
       | Some c => match ct_decRef c (ci w) with
                   | None => Thr ERuntime (set_ct s c)
                   | Some c' => Ok tt (set_ct s c')
                   end
       end.

(** Changing the counters of active nodes (UniqueTable.hpp:169-172, 199-200). *)
Definition actUpd (k : kind) (v d : Z) : M unit := fun s =>
  let u := s_ut s k in
  if (v <? 0) || (s_nq s <=? v) then Bad BadIndex else
  Ok tt (set_ut s k (UT (ut_heap u) (ut_tab u) (ut_avail u) (ut_next u) (ut_count u) (ut_peak u)
    (updZ (ut_active u) v (ut_active u v + d)) (ut_actcount u + d)
    (if 0 <? d then Z.max (ut_maxact u) (ut_actcount u + d) else ut_maxact u)
    (ut_gccalls u) (ut_gcruns u) (ut_gclimit u) (ut_lookups u) (ut_hits u) (ut_coll u))).

(** A loop over the successors (UniqueTable.hpp:162-167, 192-197). *)
Fixpoint iterM {A} (f : A -> M unit) (l : list A) : M unit :=
  match l with [] => ret tt | a :: r => f a ;;; iterM f r end.

(** UniqueTable::incRef (UniqueTable.hpp:150-174) *)
Fixpoint incRefF (fuel : nat) (k : kind) (e : edge) : M unit :=
  match fuel with
  | O => fail BadFuel
  | S f =>
    cn_incRef (ew e) ;;;
    match ep e with
    | PNode n =>
        let* s := get in
        let r := nref (nod s k n) in
        if r =? RCMAX then ret tt
        else
        setNodeRef k n (r + 1) ;;;
        if r + 1 =? 1 then
          iterM (fun e => if isnull (ep e) then ret tt else incRefF f k e) (ne (nod s k n)) ;;;
          actUpd k (nv (nod s k n)) 1
        else ret tt
    | _ => ret tt
    end
  end.
(** incRef (Package.hpp:916-919, UniqueTable.hpp:150-174) *)
Definition incRef (k : kind) (e : edge) : M unit := fun s => incRefF (fuelof s) k e s.

(** UniqueTable::decRef (UniqueTable.hpp:179-203) *)
Fixpoint decRefF (fuel : nat) (k : kind) (e : edge) : M unit :=
  match fuel with
  | O => fail BadFuel
  | S f =>
    cn_decRef (ew e) ;;;
    match ep e with
    | PNode n =>
        let* s := get in
        let r := nref (nod s k n) in
        if r =? RCMAX then ret tt
        else if r =? 0 then throw ERuntime
        else
        setNodeRef k n (r - 1) ;;;
        if r - 1 =? 0 then
          iterM (fun e => if isnull (ep e) then ret tt else decRefF f k e) (ne (nod s k n)) ;;;
          actUpd k (nv (nod s k n)) (-1)
        else ret tt
    | _ => ret tt
    end
  end.
(** decRef (Package.hpp:920-922, UniqueTable.hpp:179-203) *)
Definition decRef (k : kind) (e : edge) : M unit := fun s => decRefF (fuelof s) k e s.

(** ** Garbage collection *)

(** possiblyNeedsCollection (UniqueTable.hpp:205) *)
Definition ut_needsGC (u : utab) : bool := ut_gclimit u <=? ut_count u.

(** The buckets of one variable (UniqueTable.hpp:216-218). *)
Definition ut_keys (k : kind) : list Z := map Z.of_nat (seq 0 (Z.to_nat (nb k))).
(** The variables of the table (UniqueTable.hpp:216). *)
Definition ut_vars (s : st N) : list Z := map Z.of_nat (seq 0 (Z.to_nat (s_nq s))).
(** The positions the collector visits (UniqueTable.hpp:216-218). *)
Definition inrange (s : st N) (k : kind) (v b : Z) : bool :=
  (0 <=? v) && (v <? s_nq s) && (0 <=? b) && (b <? nb k).
(** [p->ref == 0] (UniqueTable.hpp:222) *)
Definition dead (u : utab) (n : nat) : bool := nref (ut_heap u n) =? 0.

(** All nodes of the table in the order the collector visits them
    (UniqueTable.hpp:216-218). *)
Definition ut_all (s : st N) (k : kind) : list nat :=
  flat_map (fun v => flat_map (fun b => ut_tab (s_ut s k) v b) (ut_keys k)) (ut_vars s).

(** UniqueTable::garbageCollect (UniqueTable.hpp:207-253): removing from a chain while
    walking it is filtering; the free list receives the removed nodes one by one. *)
Definition ut_gc (k : kind) (force : bool) : M Z := fun s =>
  let u := s_ut s k in
  if (negb force && (ut_count u <? ut_gclimit u)) || (ut_count u =? 0) then
    Ok 0 (set_ut s k (UT (ut_heap u) (ut_tab u) (ut_avail u) (ut_next u) (ut_count u) (ut_peak u)
      (ut_active u) (ut_actcount u) (ut_maxact u) (ut_gccalls u + 1) (ut_gcruns u) (ut_gclimit u)
      (ut_lookups u) (ut_hits u) (ut_coll u)))
  else
    let all := ut_all s k in
    let gone := filter (dead u) all in
    let remaining := Z.of_nat (length (filter (fun n => negb (dead u n)) all)) in
    Ok (Z.of_nat (length gone))
       (set_ut s k (UT (ut_heap u)
          (fun v b => if inrange s k v b then filter (fun n => negb (dead u n)) (ut_tab u v b)
                      else ut_tab u v b)
          (rev gone ++ ut_avail u) (ut_next u) remaining (ut_peak u)
          (ut_active u) (ut_actcount u) (ut_maxact u) (ut_gccalls u + 1) (ut_gcruns u + 1)
          (if ut_gclimit u / 10 * 9 <? remaining then remaining + g_utgc g else ut_gclimit u)
          (ut_lookups u) (ut_hits u) (ut_coll u))).

(** Clearing an addition table (Package.hpp:953,959,981). *)
Definition clrAdd (k : kind) : M unit := fun s => Ok tt (set_add s k (tb_clear false (s_add s k))).
(** Clearing a binary compute table (Package.hpp:950-983). *)
Definition clrBin (b : bop) : M unit := fun s => Ok tt (set_bin s b (tb_clear false (s_bin s b))).
(** Clearing a unary compute table (Package.hpp:960-961). *)
Definition clrUn (u : uop) : M unit := fun s => Ok tt (set_un s u (tb_clear true (s_un s u))).
(** clearIdentityTable (Package.hpp:2205-2209) *)
Definition clrId : M unit := fun s => Ok tt (set_id s (fun i => Ed PNull (ew (s_id s i)))).

(** ComplexNumbers::garbageCollect (ComplexNumbers.hpp:204-206) *)
Definition cn_gc (force : bool) : M Z := fun s =>
  let '(n, c) := ct_gc (g_ct g) force (s_ct s) in Ok n (set_ct s c).

(** [if (b) m] (e.g. Package.hpp:949) *)
Definition whenM (b : bool) (m : M unit) : M unit := if b then m else ret tt.

(** garbageCollect (Package.hpp:938-945): the numbers of collected complex numbers, vector,
    matrix and density nodes. *)
Definition gcCounts (force : bool) : M (Z * Z * Z * Z) :=
  let* cC := cn_gc force in
  let force := force || (0 <? cC) in
  let* vC := ut_gc KV force in
  let* mC := ut_gc KM force in
  let* dC := ut_gc KD force in
  ret (cC, vC, mC, dC).
(** garbageCollect (Package.hpp:947-983): clearing operation caches. *)
Definition gcClear (r : Z * Z * Z * Z) : M bool :=
  let '(cC, vC, mC, dC) := r in
  whenM (0 <? vC) (clrAdd KV ;;; clrBin BIP ;;; clrBin BKV ;;; clrBin BMV) ;;;
  whenM ((0 <? mC) || (0 <? dC))
    (clrAdd KM ;;; clrUn UTr ;;; clrUn UCt ;;; clrBin BKM ;;; clrBin BMV ;;; clrBin BMM ;;;
     clrId ;;; clrAdd KD ;;; clrBin BDD) ;;;
  whenM (0 <? cC)
    (clrBin BMV ;;; clrBin BMM ;;; clrUn UTr ;;; clrUn UCt ;;; clrBin BIP ;;; clrBin BKV ;;;
     clrBin BKM ;;; clrAdd KD ;;; clrBin BDD) ;;;
  ret ((0 <? vC) || (0 <? mC) || (0 <? cC)).
(** garbageCollect (Package.hpp:928-984).  The noise tables are not part of this state (they are cleared as in
    Noise.v); the Toffoli table is added in Toffoli.v. *)
Definition garbageCollect (force : bool) : M bool :=
  let* s := get in
  if negb force && negb (ut_needsGC (s_ut s KV)) && negb (ut_needsGC (s_ut s KM))
     && negb (ut_needsGC (s_ut s KD)) && negb (ct_needsGC (s_ct s)) then ret false
  else let* r := gcCounts force in gcClear r.

(** expectationValue (Package.hpp:1908-1921) *)
Definition expectationValue (x y : edge) : M N := fun s =>
  if negb (lvl s KM (ep x) =? lvl s KV (ep y)) then Thr EInvalidArg s
  else (let* y' := multiply KV x y 0 in
        let* v := innerProduct y y' in
        assertM (approx_zero (snd v)) ;;;
        garbageCollect false ;;;
        ret (fst v)) s.

(** ** Construction and reset *)

(** UniqueTable field initialisers (UniqueTable.hpp:350-389) *)
Definition ut_init : utab :=
  UT (fun _ => emptynode) (fun _ _ => []) [] 0 0 0 (fun _ => 0) 0 0 0 0 (g_utgc g) 0 0 0.
(** ComplexCache constructor (ComplexCache.hpp:19-29) *)
Definition cc_init : ccache N :=
  CC (fun _ => n0) [] 0 (g_ccinit g) (g_ccinit g * g_ccgrow g) 0 0.
(** Package(nq) (Package.hpp:93-97, 103-115) *)
Definition pkg_init (nq : Z) : st N :=
  St nq (ct_init (g_ct g)) cc_init (fun _ => ut_init) (fun _ => tb_empty) (fun _ => tb_empty)
     (fun _ => tb_empty) (fun _ => Enull).

(** UniqueTable::clear (UniqueTable.hpp:255-294) *)
Definition ut_clear (u : utab) : utab :=
  UT (fun n => set_ref (ut_heap u n) 0) (fun _ _ => []) [] 0 0 0 (fun _ => 0) 0 0 0 0 (g_utgc g) 0 0 0.
(** ComplexCache::clear (ComplexCache.hpp:100-114) *)
Definition cc_clear (c : ccache N) : ccache N :=
  CC (cc_val c) [] 0 (g_ccinit g) (g_ccinit g * g_ccgrow g) 0 0.
(** reset (Package.hpp:118-122) with clearUniqueTables (986-990), clearComputeTables
    (1079-1098) and ComplexNumbers::clear (ComplexNumbers.hpp:22-25) *)
Definition pkg_reset : M unit := fun s =>
  Ok tt (St (s_nq s) (ct_clear (g_ct g) (s_ct s)) (cc_clear (s_cc s))
            (fun k => ut_clear (s_ut s k))
            (fun k => tb_clear false (s_add s k)) (fun b => tb_clear false (s_bin s b))
            (fun u => tb_clear true (s_un s u)) (fun i => Ed PNull (ew (s_id s i)))).

(** ** States *)

(** makeZeroState (Package.hpp:234-247) *)
Definition makeZeroState (n start : Z) : M edge := fun s =>
  if s_nq s <? n + start then Thr ERuntime s
  else foldM (fun f p => makeDDNode KV p [f; Ezero] false)
             (map (fun i => start + Z.of_nat i) (seq 0 (Z.to_nat n))) Eone s.

(** makeBasisState on bits (Package.hpp:249-266) *)
Definition makeBasisState (n : Z) (bits : list bool) (start : Z) : M edge := fun s =>
  if s_nq s <? n + start then Thr ERuntime s
  else foldM (fun f p =>
         match nth_error bits (Z.to_nat p) with
         | None => fail BadIndex
         | Some false => makeDDNode KV p [f; Ezero] false
         | Some true => makeDDNode KV p [Ezero; f] false
         end)
       (map (fun i => start + Z.of_nat i) (seq 0 (Z.to_nat n))) Eone s.

(** BasisStates (Definitions.hpp:40-47) *)
Inductive bstate := BSzero | BSone | BSplus | BSminus | BSright | BSleft.

(** makeBasisState on single-qubit states (Package.hpp:268-304) *)
Definition makeBasisStateB (n : Z) (sts : list bstate) (start : Z) : M edge := fun s =>
  if s_nq s <? n + start then Thr ERuntime s
  else if Z.of_nat (length sts) <? n then Thr ERuntime s
  else
  let two f p a b c d :=
    let* w0 := cn_lookup g a b in
    let* w1 := cn_lookup g c d in
    makeDDNode KV p [Ed (ep f) w0; Ed (ep f) w1] false in
  foldM (fun f p =>
         match nth_error sts (Z.to_nat p) with
         | None => fail BadIndex
         | Some BSzero => makeDDNode KV p [f; Ezero] false
         | Some BSone => makeDDNode KV p [Ezero; f] false
         | Some BSplus => two f p nsq2 n0 nsq2 n0
         | Some BSminus => two f p nsq2 n0 (nneg nsq2) n0
         | Some BSright => two f p nsq2 n0 n0 nsq2
         | Some BSleft => two f p nsq2 n0 n0 (nneg nsq2)
         end)
       (map (fun i => start + Z.of_nat i) (seq 0 (Z.to_nat n))) Eone s.

(** makeStateFromVector (Package.hpp:838-854); [lv] = level + 1 *)
Fixpoint fromVec (lv : nat) (v : list (N * N)) : M edge :=
  match lv with
  | O => fail BadFuel
  | S O =>
      match v with
      | [a; b] =>
          let* w0 := getCached g a in
          let* w1 := getCached g b in
          makeDDNode KV 0 [Ed PTerm w0; Ed PTerm w1] true
      | _ => fail BadAssert
      end
  | S l =>
      let half := Nat.div2 (length v) in
      let* e0 := fromVec l (firstn half v) in
      let* e1 := fromVec l (skipn half v) in
      makeDDNode KV (Z.of_nat l) [e0; e1] true
  end.

(** (length & (length - 1)) == 0 (Package.hpp:312, 348) *)
Definition ispow2 (n : nat) : bool := Nat.eqb (Nat.land n (n - 1)) 0.

(** makeStateFromVector (Package.hpp:307-334) *)
Definition makeStateFromVector (v : list (N * N)) : M edge :=
  match v with
  | [] => ret Eone
  | [a] => let* w := cn_lookup g (fst a) (snd a) in ret (Ed PTerm w)
  | _ =>
      if negb (ispow2 (length v)) then throw EInvalidArg
      else balanced (let* r := fromVec (Nat.log2 (length v)) v in finish r)
  end.

(** makeDDFromMatrix (Package.hpp:873-897); [lv] = level + 1, the row and column ranges
    are [r0, r0 + 2^lv) and [c0, c0 + 2^lv). *)
Fixpoint fromMat (m : list (list (N * N))) (lv : nat) (r0 c0 : nat) : M edge :=
  match lv with
  | O =>
      match nth_error m r0 with
      | None => fail BadIndex
      | Some row => match nth_error row c0 with
                    | None => fail BadIndex
                    | Some a => let* w := getCached g a in ret (Ed PTerm w)
                    end
      end
  | S l =>
      let h := (2 ^ l)%nat in
      let* e0 := fromMat m l r0 c0 in
      let* e1 := fromMat m l r0 (c0 + h)%nat in
      let* e2 := fromMat m l (r0 + h)%nat c0 in
      let* e3 := fromMat m l (r0 + h)%nat (c0 + h)%nat in
      makeDDNode KM (Z.of_nat l) [e0; e1; e2; e3] true
  end.

(** makeDDFromMatrix (Package.hpp:342-375) *)
Definition makeDDFromMatrix (m : list (list (N * N))) : M edge :=
  match m with
  | [] => ret Eone
  | row :: _ =>
      if negb (ispow2 (length m)) then throw EInvalidArg
      else if negb (Nat.eqb (length m) (length row)) then throw EInvalidArg
      else match m, row with
           | [_], a :: _ => let* w := cn_lookup g (fst a) (snd a) in ret (Ed PTerm w)
           | _, _ => balanced (let* r := fromMat m (Nat.log2 (length m)) 0 0 in finish r)
           end
  end.

End Pkg.
