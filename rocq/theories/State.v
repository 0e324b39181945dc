(** State of a Package object and the operations on complex numbers.

    Models ComplexNumbers.hpp, Complex.hpp, ComplexCache.hpp, Edge.hpp, Node.hpp, the
    data part of UniqueTable.hpp, ComputeTable.hpp, UnaryComputeTable.hpp and of
    Package.hpp. *)
From Coq Require Import ZArith List Bool Lia Arith.
From Verif Require Import Num Base CTable.
Import ListNotations.
Local Open Scope Z_scope.

(** vNode, mNode, dNode (Node.hpp:19-32, 37-80, 84-205). *)
Inductive kind := KV | KM | KD.
(** Which member table is meant (Package.hpp:54-72). *)
Definition kind_eqb (a b : kind) : bool :=
  match a, b with KV, KV | KM, KM | KD, KD => true | _, _ => false end.
(** Number of successors: RADIX for vectors, NEDGE for matrices (Node.hpp:20,38,85). *)
Definition arity (k : kind) : nat := match k with KV => 2 | _ => 4 end.

(** Node pointers: nullptr, the terminal node of a kind, or the n-th node ever taken from
    the chunks of that kind's unique table (Edge.hpp:20, UniqueTable.hpp:134-139). *)
Inductive nptr := PNull | PTerm | PNode (n : nat).
(** Comparison of node pointers (Edge.hpp:26-28). *)
Definition nptr_eqb (p q : nptr) : bool :=
  match p, q with
  | PNull, PNull | PTerm, PTerm => true
  | PNode a, PNode b => Nat.eqb a b
  | _, _ => false
  end.

(** Complex (Complex.hpp:17-19): two tagged entry pointers. *)
Record complex := CX { cr : eptr; ci : eptr }.
(** Complex::zero and Complex::one (Complex.hpp:76-77). *)
Definition Czero : complex := CX (EP false AZero) (EP false AZero).
(** Complex::one (Complex.hpp:77). *)
Definition Cone : complex := CX (EP false AOne) (EP false AZero).
(** operator== (Complex.hpp:50-52): pointer comparison. *)
Definition ceqb (a b : complex) : bool := eptr_eqb (cr a) (cr b) && eptr_eqb (ci a) (ci b).

(** Edge (Edge.hpp:19-21) *)
Record edge := Ed { ep : nptr; ew : complex }.
(** Edge::zero, Edge::one (Edge.hpp:36-37) *)
Definition Ezero : edge := Ed PTerm Czero.
(** Edge::one (Edge.hpp:37). *)
Definition Eone : edge := Ed PTerm Cone.
(** A value-initialised edge [Edge e{}] (e.g. Package.hpp:2884). *)
Definition Enull : edge := Ed PNull Czero.
(** isTerminal (Edge.hpp:33) *)
Definition isT (p : nptr) : bool := match p with PTerm => true | _ => false end.

(** vNode/mNode/dNode without [next] (Node.hpp).  [nsym]/[nid] are the flag bits 32 and
    16 of a matrix node; [nden] is bit 8 of a density node.  The temporary bits 1, 2, 4
    are not part of this state (see Density.v). *)
Record node := ND {
  ne : list edge; nref : Z; nv : Z; nsym : bool; nid : bool; nden : bool }.

(** UniqueTable (UniqueTable.hpp:362-389).  Chunks are flattened to a running index. *)
Record utab := UT {
  ut_heap : nat -> node;
  ut_tab : Z -> Z -> list nat;      (* variable -> bucket -> chain *)
  ut_avail : list nat;
  ut_next : nat;
  ut_count : Z; ut_peak : Z;
  ut_active : Z -> Z; ut_actcount : Z; ut_maxact : Z;
  ut_gccalls : Z; ut_gcruns : Z; ut_gclimit : Z;
  ut_lookups : Z; ut_hits : Z; ut_coll : Z }.

(** ComputeTable / UnaryComputeTable (ComputeTable.hpp:94-99, UnaryComputeTable.hpp:76-82).
    [None] stands for an entry whose result pointer is null. *)
Record tbl (K R : Type) := TB {
  tb_ent : Z -> option (K * R); tb_count : Z; tb_look : Z; tb_hits : Z }.
Arguments TB {K R}. Arguments tb_ent {K R}. Arguments tb_count {K R}.
Arguments tb_look {K R}. Arguments tb_hits {K R}.

(** The compute tables keyed by two edges: matrixVectorMultiplication,
    matrixMatrixMultiplication, vectorInnerProduct, vectorKronecker, matrixKronecker,
    densityDensityMultiplication (Package.hpp:1505-1507, 1765, 1927-1928). *)
Inductive bop := BMV | BMM | BIP | BKV | BKM | BDD.
(** The unary ones: matrixTranspose, conjugateMatrixTranspose (Package.hpp:1434-1435). *)
Inductive uop := UTr | UCt.
(** Which binary compute table is meant (Package.hpp:1505-1506, 1765, 1927-1928). *)
Definition bop_eqb (a b : bop) : bool :=
  match a, b with
  | BMV, BMV | BMM, BMM | BIP, BIP | BKV, BKV | BKM, BKM | BDD, BDD => true
  | _, _ => false
  end.
(** A dNode* (Node.hpp:84-125, 211-213): the address of a density node, or of a matrix node after
    the cast in densityFromMatrixEdge. *)
Inductive hptr := HM (p : nptr) | HD (p : nptr).
(** The address of a node together with the temporary marks [b] < 8 of that node, as hash<dEdge>
    combines them (Node.hpp:218-229).  Distinct pairs have distinct codes; both null pointers are
    the same address, and the terminal nodes never carry marks. *)
Definition hcode (p : hptr) (b : nat) : nptr :=
  match p with
  | HM PNull | HD PNull => PNull
  | HD PTerm => PTerm
  | HM PTerm => PNode 0
  | HM (PNode n) => PNode (S (16 * n + b))
  | HD (PNode n) => PNode (S (16 * n + 8 + b))
  end.
(** Which unary compute table is meant (Package.hpp:1434-1435). *)
Definition uop_eqb (a b : uop) : bool :=
  match a, b with UTr, UTr | UCt, UCt => true | _, _ => false end.

Section St.
Context (N : num).

(** CachedEdge (Edge.hpp:68-91): a pointer and a complex value. *)
Record vedge := VE { vp : nptr; vw : N * N }.

(** ComplexCache (ComplexCache.hpp:111-120).  [cc_peak] is never updated by the code. *)
Record ccache := CC {
  cc_val : nat -> N; cc_avail : list nat; cc_next : nat;
  cc_allocs : Z; cc_allocsz : Z; cc_count : Z; cc_peak : Z }.

(** Parameters that do not change: template parameters and hash functions.  The hash
    functions of the unique and compute tables (UniqueTable.hpp:52-65,
    ComputeTable.hpp:37-42, UnaryComputeTable.hpp:37-39) depend on addresses; they are
    arbitrary functions of the hashed value here (Hash.v models the functions themselves). *)
Record cfg := Cfg {
  g_ct : ctcfg;
  g_ccinit : Z; g_ccgrow : Z;
  g_utgc : Z;
  g_hut : kind -> list edge -> Z;
  g_hadd : kind -> vedge -> vedge -> Z;
  g_hbin : bop -> edge -> edge -> Z;
  g_hun : uop -> edge -> Z }.

(** Package (Package.hpp:77-130 and the member tables).  The Toffoli table (Toffoli.v) and
    the noise tables (Noise.v) are modelled separately. *)
Record st := St {
  s_nq : Z;
  s_ct : ctab N;
  s_cc : ccache;
  s_ut : kind -> utab;
  s_add : kind -> tbl (vedge * vedge) vedge;
  s_bin : bop -> tbl (edge * edge) vedge;
  s_un : uop -> tbl edge edge;
  s_id : Z -> edge }.

(** ** Outcomes *)
(** A call returns a value, throws an exception (e.g. Package.hpp:236), or its behaviour is undefined (Base.v). *)
Inductive res (A : Type) :=
  | Ok (a : A) (s : st)
  | Thr (x : exn) (s : st)
  | Bad (b : bad).
Arguments Ok {A}. Arguments Thr {A}. Arguments Bad {A}.

(** A member function of Package returning [A] (Package.hpp): a function of the state. *)
Definition M (A : Type) := st -> res A.
(** [return a] (e.g. Package.hpp:2960) *)
Definition ret {A} (a : A) : M A := fun s => Ok a s.
(** Sequencing of statements (e.g. Package.hpp:2952-2955); an exception or undefined behaviour ends the sequence. *)
Definition bind {A B} (m : M A) (f : A -> M B) : M B :=
  fun s => match m s with
           | Ok a s' => f a s'
           | Thr x s' => Thr x s'
           | Bad b => Bad b
           end.
(** [throw x] (e.g. Package.hpp:236) *)
Definition throw {A} (x : exn) : M A := fun s => Thr x s.
(** Undefined behaviour or a failing assert (e.g. Package.hpp:332; see Base.v). *)
Definition fail {A} (b : bad) : M A := fun _ => Bad b.
(** Reading members of the package (Package.hpp:77-130). *)
Definition get : M st := fun s => Ok s s.
(** Reading one value computed from the members (Package.hpp:77-130). *)
Definition gets {A} (f : st -> A) : M A := fun s => Ok (f s) s.
(** [assert(b)] (e.g. Package.hpp:332) *)
Definition assertM (b : bool) : M unit := fun s => if b then Ok tt s else Bad BadAssert.

(** ** State updates *)
(** Assignment to the table of numbers (ComplexNumbers.hpp:21). *)
Definition set_ct (s : st) c := St (s_nq s) c (s_cc s) (s_ut s) (s_add s) (s_bin s) (s_un s) (s_id s).
(** Assignment to the cache of temporaries (ComplexNumbers.hpp:22). *)
Definition set_cc (s : st) c := St (s_nq s) (s_ct s) c (s_ut s) (s_add s) (s_bin s) (s_un s) (s_id s).
(** Assignment to the unique table of kind [k] (Package.hpp:902-914). *)
Definition set_ut (s : st) k u :=
  St (s_nq s) (s_ct s) (s_cc s) (fun k' => if kind_eqb k' k then u else s_ut s k')
     (s_add s) (s_bin s) (s_un s) (s_id s).
(** Assignment to the addition table of kind [k] (Package.hpp:1309-1311). *)
Definition set_add (s : st) k t :=
  St (s_nq s) (s_ct s) (s_cc s) (s_ut s) (fun k' => if kind_eqb k' k then t else s_add s k')
     (s_bin s) (s_un s) (s_id s).
(** Assignment to a binary compute table (Package.hpp:1505-1506, 1765, 1927-1928). *)
Definition set_bin (s : st) b t :=
  St (s_nq s) (s_ct s) (s_cc s) (s_ut s) (s_add s)
     (fun b' => if bop_eqb b' b then t else s_bin s b') (s_un s) (s_id s).
(** Assignment to a unary compute table (Package.hpp:1434-1435). *)
Definition set_un (s : st) u t :=
  St (s_nq s) (s_ct s) (s_cc s) (s_ut s) (s_add s) (s_bin s)
     (fun u' => if uop_eqb u' u then t else s_un s u') (s_id s).
(** Assignment to IdTable (Package.hpp:2211-2213). *)
Definition set_id (s : st) i := St (s_nq s) (s_ct s) (s_cc s) (s_ut s) (s_add s) (s_bin s) (s_un s) i.

(** [*p] for a node pointer (Edge.hpp:20). *)
Definition nod (s : st) (k : kind) (n : nat) : node := ut_heap (s_ut s k) n.

(** [p->v]; the terminal node has index -1 (Node.hpp:35,82,210). *)
Definition lvl (s : st) (k : kind) (p : nptr) : Z :=
  match p with PNode n => nv (nod s k n) | _ => -1 end.
(** isSymmetric / isIdentity (Node.hpp:55-56); the terminal has flags 32+16 (Node.hpp:82). *)
Definition fsym (s : st) (k : kind) (p : nptr) : bool :=
  match p with PTerm => true | PNode n => nsym (nod s k n) | PNull => false end.
(** isIdentity (Node.hpp:55-56); the terminal has the flag (Node.hpp:82). *)
Definition fid (s : st) (k : kind) (p : nptr) : bool :=
  match p with PTerm => true | PNode n => nid (nod s k n) | PNull => false end.

(** ** Values of entries and complex numbers *)

(** value of an entry (ComplexTable.hpp:30,109-111) *)
Definition aval (s : st) (a : eaddr) : N :=
  match a with
  | AZero => n0 | AOne => n1 | ASqrt2 => nsq2
  | ATab n => ct_value (s_ct s) n
  | ACache n => cc_val (s_cc s) n
  end.
(** Entry::val (ComplexTable.hpp:67-72) *)
Definition val (s : st) (p : eptr) : N :=
  if ep_neg p then nneg (aval s (ep_at p)) else aval s (ep_at p).
(** The value of a complex number (Complex.hpp:54-56, ComplexValue.hpp). *)
Definition cval (s : st) (w : complex) : N * N := (val s (cr w), val s (ci w)).

(** Entry::approximatelyEquals on entries (ComplexTable.hpp:81-83) *)
Definition eapx (s : st) (p q : eptr) : bool := eptr_eqb p q || approx_eq (val s p) (val s q).
(** Entry::approximatelyZero (ComplexTable.hpp:89-91) *)
Definition eapx0 (s : st) (p : eptr) : bool := eptr_eqb p (EP false AZero) || approx_zero (val s p).
(** Entry::approximatelyOne (ComplexTable.hpp:96-98) *)
Definition eapx1 (s : st) (p : eptr) : bool := eptr_eqb p (EP false AOne) || approx_one (val s p).

(** Complex::approximatelyEquals (Complex.hpp:29-31) *)
Definition wapx (s : st) (a b : complex) : bool := eapx s (cr a) (cr b) && eapx s (ci a) (ci b).
(** Complex::exactlyZero (Complex.hpp:33-35) *)
Definition wzero (w : complex) : bool := ceqb w Czero.
(** Complex::exactlyOne (Complex.hpp:37-39) *)
Definition wone (w : complex) : bool := ceqb w Cone.
(** Complex::approximatelyZero (Complex.hpp:41-43) *)
Definition wapx0 (s : st) (w : complex) : bool := eapx0 s (cr w) && eapx0 s (ci w).
(** Complex::approximatelyOne (Complex.hpp:45-47) *)
Definition wapx1 (s : st) (w : complex) : bool := eapx1 s (cr w) && eapx0 s (ci w).

(** ComplexValue::approximatelyEquals / approximatelyZero (ComplexValue.hpp:25-35) *)
Definition vapx (a b : N * N) : bool := approx_eq (fst a) (fst b) && approx_eq (snd a) (snd b).
(** ComplexValue::approximatelyZero (ComplexValue.hpp:30-35) *)
Definition vapx0 (a : N * N) : bool := approx_zero (fst a) && approx_zero (snd a).

(** Edge::operator== (Edge.hpp:26-28) *)
Definition edge_eqb (s : st) (x y : edge) : bool := nptr_eqb (ep x) (ep y) && wapx s (ew x) (ew y).
(** CachedEdge::operator== (Edge.hpp:85-87) *)
Definition vedge_eqb (x y : vedge) : bool := nptr_eqb (vp x) (vp y) && vapx (vw x) (vw y).

(** CachedEdge(Node*, Complex) (Edge.hpp:76-80) *)
Definition mkve (s : st) (p : nptr) (w : complex) : vedge := VE p (cval s w).

(** mag2 (ComplexNumbers.hpp:90-95) *)
Definition mag2 (v : N * N) : N := nadd (nmul (fst v) (fst v)) (nmul (snd v) (snd v)).
(** mag2 of a Complex (ComplexNumbers.hpp:90-95) *)
Definition wmag2 (s : st) (w : complex) : N := mag2 (cval s w).
(** conj / neg (ComplexNumbers.hpp:104-114) *)
Definition wconj (w : complex) : complex := CX (cr w) (ep_flip (ci w)).
(** neg (ComplexNumbers.hpp:109-114) *)
Definition wneg (w : complex) : complex := CX (ep_flip (cr w)) (ep_flip (ci w)).

Context (g : cfg).

(** ** The table of complex numbers *)

(** One component of ComplexNumbers::lookup(fp, fp) (ComplexNumbers.hpp:159-170). *)
Definition cn_lookup1 (v : N) : M eptr := fun s =>
  if nsign v then
    if nltb (nabs v) ntol then Ok (EP false AZero) s
    else match ct_lookup (g_ct g) (s_ct s) (nabs v) with
         | inl (a, c) => Ok (ep_negative (EP false a)) (set_ct s c)
         | inr b => Bad b
         end
  else match ct_lookup (g_ct g) (s_ct s) v with
       | inl (a, c) => Ok (EP false a) (set_ct s c)
       | inr b => Bad b
       end.

(** ComplexNumbers::lookup(fp, fp) (ComplexNumbers.hpp:156-186) *)
Definition cn_lookup (r i : N) : M complex :=
  bind (cn_lookup1 r) (fun pr => bind (cn_lookup1 i) (fun pi => ret (CX pr pi))).

(** ComplexNumbers::lookup(Complex) (ComplexNumbers.hpp:141-152) *)
Definition cn_lookupC (w : complex) : M complex := fun s =>
  if ceqb w Czero then Ok Czero s
  else if ceqb w Cone then Ok Cone s
  else cn_lookup (val s (cr w)) (val s (ci w)) s.

(** ** The cache of temporaries *)

(** A new chunk when the last one is full (ComplexCache.hpp:50-57, 76-83). *)
Definition cc_grow (c : ccache) : ccache :=
  if Z.of_nat (cc_next c) =? cc_allocs c then
    CC (cc_val c) (cc_avail c) (cc_next c) (cc_allocs c + cc_allocsz c)
       (cc_allocsz c * g_ccgrow g) (cc_count c) (cc_peak c)
  else c.

(** A complex number stored in two cache entries (ComplexCache.hpp:39-66). *)
Definition cslot (a b : nat) : complex := CX (EP false (ACache a)) (EP false (ACache b)).

(** getCachedComplex (ComplexCache.hpp:39-66).  Dereferencing an iterator behind the last
    chunk is flagged. *)
Definition getCached0 : M complex := fun s =>
  let c := s_cc s in
  match cc_avail c with
  | a :: b :: rest =>
      Ok (cslot a b) (set_cc s (CC (cc_val c) rest (cc_next c) (cc_allocs c) (cc_allocsz c)
                                   (cc_count c + 2) (cc_peak c)))
  | [_] => Bad BadAssert
  | [] =>
      let c1 := cc_grow c in
      if cc_allocs c1 <? Z.of_nat (cc_next c1) + 2 then Bad BadIndex else
      Ok (cslot (cc_next c1) (S (cc_next c1)))
         (set_cc s (CC (cc_val c1) [] (S (S (cc_next c1))) (cc_allocs c1) (cc_allocsz c1)
                       (cc_count c1 + 2) (cc_peak c1)))
  end.

(** getTemporaryComplex (ComplexCache.hpp:68-86) *)
Definition getTemp : M complex := fun s =>
  let c := s_cc s in
  match cc_avail c with
  | a :: b :: _ => Ok (cslot a b) s
  | [_] => Bad BadAssert
  | [] =>
      let c1 := cc_grow c in
      if cc_allocs c1 <? Z.of_nat (cc_next c1) + 2 then Bad BadIndex else
      Ok (cslot (cc_next c1) (S (cc_next c1))) (set_cc s c1)
  end.

(** Storing through an entry pointer (e.g. ComplexNumbers.hpp:41-42): only cache entries are ever written. *)
Definition wr (p : eptr) (v : N) : M unit := fun s =>
  match p with
  | EP false (ACache a) =>
      let c := s_cc s in
      Ok tt (set_cc s (CC (upd (cc_val c) a v) (cc_avail c) (cc_next c) (cc_allocs c)
                          (cc_allocsz c) (cc_count c) (cc_peak c)))
  | _ => Bad BadAssert
  end.

(** returnToCache (ComplexCache.hpp:88-98); returning something that is not handed out
    at the moment is flagged. *)
Definition cc_isout (c : ccache) (a : nat) : bool :=
  Nat.ltb a (cc_next c) && negb (memb a (cc_avail c)).
(** returnToCache (ComplexCache.hpp:88-98); see [cc_isout] for the flagged misuse. *)
Definition retCache (w : complex) : M unit := fun s =>
  let c := s_cc s in
  match w with
  | CX (EP false (ACache a)) (EP false (ACache b)) =>
      if cc_count c <? 2 then Bad BadAssert
      else if cc_isout c a && cc_isout c b && negb (Nat.eqb a b) then
        Ok tt (set_cc s (CC (cc_val c) (a :: b :: cc_avail c) (cc_next c) (cc_allocs c)
                            (cc_allocsz c) (cc_count c - 2) (cc_peak c)))
      else Bad BadFree
  | _ => Bad BadFree
  end.

(** getCached(fp, fp) (ComplexNumbers.hpp:228-233) *)
Definition getCached (v : N * N) : M complex :=
  bind getCached0 (fun c => bind (wr (cr c) (fst v)) (fun _ =>
  bind (wr (ci c) (snd v)) (fun _ => ret c))).
(** getTemporary(fp, fp) (ComplexNumbers.hpp:213-218) *)
Definition getTempV (v : N * N) : M complex :=
  bind getTemp (fun c => bind (wr (cr c) (fst v)) (fun _ =>
  bind (wr (ci c) (snd v)) (fun _ => ret c))).

(** ** Arithmetic *)

(** setVal (Complex.hpp:24-27) *)
Definition setVal (r c : complex) : M unit :=
  bind (gets (fun s => val s (cr c))) (fun x => bind (wr (cr r) x) (fun _ =>
  bind (gets (fun s => val s (ci c))) (fun y => wr (ci r) y))).

(** add / sub (ComplexNumbers.hpp:38-49) *)
Definition addInto (r a b : complex) : M unit :=
  bind (assertM (negb (ceqb r Czero) && negb (ceqb r Cone))) (fun _ =>
  bind (gets (fun s => nadd (val s (cr a)) (val s (cr b)))) (fun x => bind (wr (cr r) x) (fun _ =>
  bind (gets (fun s => nadd (val s (ci a)) (val s (ci b)))) (fun y => wr (ci r) y)))).
(** sub (ComplexNumbers.hpp:44-49) *)
Definition subInto (r a b : complex) : M unit :=
  bind (assertM (negb (ceqb r Czero) && negb (ceqb r Cone))) (fun _ =>
  bind (gets (fun s => nsub (val s (cr a)) (val s (cr b)))) (fun x => bind (wr (cr r) x) (fun _ =>
  bind (gets (fun s => nsub (val s (ci a)) (val s (ci b)))) (fun y => wr (ci r) y)))).

(** mul (ComplexNumbers.hpp:50-69) *)
Definition mulInto (r a b : complex) : M unit :=
  bind (assertM (negb (ceqb r Czero) && negb (ceqb r Cone))) (fun _ => fun s =>
  if wapx1 s a then setVal r b s
  else if wapx1 s b then setVal r a s
  else if wapx0 s a || wapx0 s b then
    bind (wr (cr r) n0) (fun _ => wr (ci r) n0) s
  else
    let '(ar, ai) := cval s a in
    let '(br, bi) := cval s b in
    bind (wr (cr r) (nsub (nmul ar br) (nmul ai bi))) (fun _ =>
          wr (ci r) (nadd (nmul ar bi) (nmul ai br))) s).

(** div (ComplexNumbers.hpp:70-89) *)
Definition divInto (r a b : complex) : M unit :=
  bind (assertM (negb (ceqb r Czero) && negb (ceqb r Cone))) (fun _ => fun s =>
  if wapx s a b then bind (wr (cr r) n1) (fun _ => wr (ci r) n0) s
  else if wapx1 s b then setVal r a s
  else
    let '(ar, ai) := cval s a in
    let '(br, bi) := cval s b in
    let cmag := nadd (nmul br br) (nmul bi bi) in
    bind (wr (cr r) (ndiv (nadd (nmul ar br) (nmul ai bi)) cmag)) (fun _ =>
          wr (ci r) (ndiv (nsub (nmul ai br) (nmul ar bi)) cmag)) s).

(** addCached, mulCached (ComplexNumbers.hpp:116-132) *)
Definition addCached (a b : complex) : M complex :=
  bind getCached0 (fun c => bind (addInto c a b) (fun _ => ret c)).
(** mulCached (ComplexNumbers.hpp:126-132) *)
Definition mulCached (a b : complex) : M complex :=
  bind getCached0 (fun c => bind (mulInto c a b) (fun _ => ret c)).

(** ** Compute tables *)

(** lookup (ComputeTable.hpp:53-76, UnaryComputeTable.hpp:47-62) with the key comparison
    [eq]; [None] = the null result. *)
Definition tb_lookup {K R} (eq : K -> bool) (t : tbl K R) (h : Z) : option R * tbl K R :=
  match tb_ent t h with
  | Some (k, r) =>
      if eq k then (Some r, TB (tb_ent t) (tb_count t) (tb_look t + 1) (tb_hits t + 1))
      else (None, TB (tb_ent t) (tb_count t) (tb_look t + 1) (tb_hits t))
  | None => (None, TB (tb_ent t) (tb_count t) (tb_look t + 1) (tb_hits t))
  end.
(** insert (ComputeTable.hpp:47-51, UnaryComputeTable.hpp:41-45); [isn] tells whether the
    result pointer is null. *)
Definition tb_insert {K R} (isn : R -> bool) (t : tbl K R) (h : Z) (k : K) (r : R) : tbl K R :=
  TB (updZ (tb_ent t) h (if isn r then None else Some (k, r))) (tb_count t + 1) (tb_look t) (tb_hits t).
(** clear (ComputeTable.hpp:78-85, UnaryComputeTable.hpp:64-73).  [stats]: the unary table
    also resets its statistics. *)
Definition tb_clear {K R} (stats : bool) (t : tbl K R) : tbl K R :=
  TB (if 0 <? tb_count t then (fun _ => None) else tb_ent t) 0
     (if stats then 0 else tb_look t) (if stats then 0 else tb_hits t).
(** A new table: value-initialised entries (ComputeTable.hpp:94-99, UnaryComputeTable.hpp:76-82). *)
Definition tb_empty {K R} : tbl K R := TB (fun _ => None) 0 0 0.

(** [p == nullptr] (e.g. ComputeTable.hpp:58) *)
Definition isnull (p : nptr) : bool := match p with PNull => true | _ => false end.

(** lookup in the addition tables (Package.hpp:1309-1311; ComputeTable.hpp:53-76) *)
Definition addLookup (k : kind) (x y : vedge) : M (option vedge) := fun s =>
  let '(r, t) := tb_lookup (fun q => vedge_eqb (fst q) x && vedge_eqb (snd q) y) (s_add s k) (g_hadd g k x y) in
  Ok r (set_add s k t).
(** insert into the addition tables (Package.hpp:1309-1311; ComputeTable.hpp:47-51) *)
Definition addInsert (k : kind) (x y r : vedge) : M unit := fun s =>
  Ok tt (set_add s k (tb_insert (fun r => isnull (vp r)) (s_add s k) (g_hadd g k x y) (x, y) r)).
(** lookup in the tables keyed by two edges (ComputeTable.hpp:53-76) *)
Definition binLookup (b : bop) (x y : edge) : M (option vedge) := fun s =>
  let '(r, t) := tb_lookup (fun q => edge_eqb s (fst q) x && edge_eqb s (snd q) y) (s_bin s b) (g_hbin g b x y) in
  Ok r (set_bin s b t).
(** insert into the tables keyed by two edges (ComputeTable.hpp:47-51) *)
Definition binInsert (b : bop) (x y : edge) (r : vedge) : M unit := fun s =>
  Ok tt (set_bin s b (tb_insert (fun r => isnull (vp r)) (s_bin s b) (g_hbin g b x y) (x, y) r)).
(** lookup in the unary tables (UnaryComputeTable.hpp:47-62) *)
Definition unLookup (u : uop) (x : edge) : M (option edge) := fun s =>
  let '(r, t) := tb_lookup (fun q => edge_eqb s q x) (s_un s u) (g_hun g u x) in
  Ok r (set_un s u t).
(** insert into the unary tables (UnaryComputeTable.hpp:41-45) *)
Definition unInsert (u : uop) (x r : edge) : M unit := fun s =>
  Ok tt (set_un s u (tb_insert (fun r => isnull (ep r)) (s_un s u) (g_hun g u x) x r)).

End St.

Arguments Ok {N A}. Arguments Thr {N A}. Arguments Bad {N A}.
Arguments VE {N}. Arguments vp {N}. Arguments vw {N}.
Arguments CC {N}. Arguments cc_val {N}. Arguments cc_avail {N}. Arguments cc_next {N}.
Arguments cc_allocs {N}. Arguments cc_allocsz {N}. Arguments cc_count {N}. Arguments cc_peak {N}.
Arguments g_ct {N}. Arguments g_ccinit {N}. Arguments g_ccgrow {N}. Arguments g_utgc {N}.
Arguments g_hut {N}. Arguments g_hadd {N}. Arguments g_hbin {N}. Arguments g_hun {N}.
Arguments St {N}. Arguments s_nq {N}. Arguments s_ct {N}. Arguments s_cc {N}. Arguments s_ut {N}.
Arguments s_add {N}. Arguments s_bin {N}. Arguments s_un {N}. Arguments s_id {N}.
Arguments ret {N A}. Arguments bind {N A B}. Arguments throw {N A}. Arguments fail {N A}.
Arguments get {N}. Arguments gets {N A}. Arguments assertM {N}.
Arguments set_ct {N}. Arguments set_cc {N}. Arguments set_ut {N}. Arguments set_add {N}.
Arguments set_bin {N}. Arguments set_un {N}. Arguments set_id {N}.
Arguments nod {N}. Arguments lvl {N}. Arguments fsym {N}. Arguments fid {N}.
Arguments aval {N}. Arguments val {N}. Arguments cval {N}.
Arguments eapx {N}. Arguments eapx0 {N}. Arguments eapx1 {N}.
Arguments wapx {N}. Arguments wapx0 {N}. Arguments wapx1 {N}.
Arguments vapx {N}. Arguments vapx0 {N}.
Arguments edge_eqb {N}. Arguments vedge_eqb {N}. Arguments mkve {N}.
Arguments mag2 {N}. Arguments wmag2 {N}.
Arguments cn_lookup1 {N}. Arguments cn_lookup {N}. Arguments cn_lookupC {N}.
Arguments cc_grow {N}. Arguments getCached0 {N}. Arguments getTemp {N}. Arguments wr {N}.
Arguments cc_isout {N}. Arguments retCache {N}. Arguments getCached {N}. Arguments getTempV {N}.
Arguments setVal {N}. Arguments addInto {N}. Arguments subInto {N}. Arguments mulInto {N}.
Arguments divInto {N}. Arguments addCached {N}. Arguments mulCached {N}.
Arguments addLookup {N}. Arguments addInsert {N}. Arguments binLookup {N}. Arguments binInsert {N}.
Arguments unLookup {N}. Arguments unInsert {N}.

Notation "'let*' x := m 'in' k" := (bind m (fun x => k))
  (at level 61, x pattern, m at next level, k at level 61, right associativity).
Notation "m ;;; k" := (bind m (fun _ => k)) (at level 61, right associativity).
