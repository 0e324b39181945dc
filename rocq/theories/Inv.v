(** Invariants of the package state.

    Every statement has a structural part, valid for any arithmetic that satisfies a few
    sanity laws (the doubles among them), and a semantic part that is only claimed under
    [ex X]: the arithmetic is exact and the tolerance is zero. *)
From Coq Require Import ZArith List Bool Lia Arith Reals Lra.
From Verif Require Import Num Base CTable CTableWf Cx State Pkg.
Import ListNotations.
Local Open Scope Z_scope.

(** Laws of the arithmetic.  The fields [l_...] always hold; the others only in
    exact mode. *)
Record numx (N : num) (cf : ctcfg) : Type := NumX {
  ex : Prop;
  toR : N -> R;
  xct : ctab N -> Prop;
  l_az0 : approx_zero (N:=N) n0 = true;
  l_ao0 : approx_one (N:=N) n0 = false;
  l_sg0 : nsign (n:=N) n0 = false;
  l_le0 : nleb (n:=N) n0 n0 = true;
  l_sym : forall a b : N, approx_eq a b = approx_eq b a;
  x_0 : ex -> toR n0 = 0%R;
  x_1 : ex -> toR n1 = 1%R;
  x_half : ex -> toR nhalf = (1 / 2)%R;
  x_sq2 : ex -> toR nsq2 = (sqrt 2 / 2)%R;
  x_tol : ex -> toR ntol = 0%R;
  x_add : ex -> forall a b, toR (nadd a b) = (toR a + toR b)%R;
  x_sub : ex -> forall a b, toR (nsub a b) = (toR a - toR b)%R;
  x_mul : ex -> forall a b, toR (nmul a b) = (toR a * toR b)%R;
  x_div : ex -> forall a b, toR (ndiv a b) = (toR a / toR b)%R;
  x_neg : ex -> forall a, toR (nneg a) = (- toR a)%R;
  x_abs : ex -> forall a, toR (nabs a) = Rabs (toR a);
  x_sqrt : ex -> forall a, toR (nsqrt a) = sqrt (toR a);
  x_leb : ex -> forall a b, nleb a b = true <-> (toR a <= toR b)%R;
  x_ltb : ex -> forall a b, nltb a b = true <-> (toR a < toR b)%R;
  x_sign : ex -> forall a, nsign a = true <-> (toR a < 0)%R;
  (* the table of numbers *)
  xaddr : ctab N -> eaddr -> N :=
    fun c a => match a with AZero => n0 | AOne => n1 | ASqrt2 => nsq2
                          | ATab n => ct_value c n | ACache _ => n0 end;
  x_lookup : ex -> forall c v, ctwf cf c -> xct c -> (0 <= toR v)%R ->
     exists a c', ct_lookup cf c v = inl (a, c') /\ toR (xaddr c' a) = toR v;
  x_lookup_ct : ex -> forall c v a c', ctwf cf c -> xct c -> ct_lookup cf c v = inl (a, c') -> xct c';
  x_inj : ex -> forall c a b, ctwf cf c -> xct c -> alive c a -> alive c b ->
     toR (xaddr c a) = toR (xaddr c b) -> a = b;
  x_pos : ex -> forall c a, ctwf cf c -> xct c -> alive c a -> (0 <= toR (xaddr c a))%R;
  x_inc : ex -> forall c p, ctwf cf c -> xct c -> alive c (ep_at p) -> xct (ct_incRef c p);
  x_dec : ex -> forall c p c', ctwf cf c -> xct c -> alive c (ep_at p) -> ct_decRef c p = Some c' -> xct c';
  x_gc : ex -> forall c f n c', ctwf cf c -> xct c -> ct_gc cf f c = (n, c') -> xct c';
  x_clear : ex -> forall c, ctwf cf c -> xct c -> xct (ct_clear cf c);
  x_init : ex -> xct (ct_init cf) }.

Arguments ex {N cf}. Arguments toR {N cf}. Arguments xct {N cf}. Arguments xaddr {N cf}.
Arguments l_az0 {N cf}. Arguments l_ao0 {N cf}. Arguments l_sg0 {N cf}. Arguments l_le0 {N cf}. Arguments l_sym {N cf}.
Arguments x_0 {N cf}. Arguments x_1 {N cf}. Arguments x_half {N cf}. Arguments x_sq2 {N cf}. Arguments x_tol {N cf}.
Arguments x_add {N cf}. Arguments x_sub {N cf}. Arguments x_mul {N cf}. Arguments x_div {N cf}.
Arguments x_neg {N cf}. Arguments x_abs {N cf}. Arguments x_sqrt {N cf}.
Arguments x_leb {N cf}. Arguments x_ltb {N cf}. Arguments x_sign {N cf}.
Arguments x_lookup {N cf}. Arguments x_lookup_ct {N cf}. Arguments x_inj {N cf}. Arguments x_pos {N cf}.
Arguments x_inc {N cf}. Arguments x_dec {N cf}. Arguments x_gc {N cf}. Arguments x_clear {N cf}.
Arguments x_init {N cf}.

(** ** Digits of an index *)

(** Transposition of one digit of a matrix index. *)
Definition tr4 (i : nat) : nat := match i with 1 => 2 | 2 => 1 | _ => i end%nat.
(** Row and column digits to matrix digits. *)
Fixpoint mp (rs cs : list nat) : list nat :=
  match rs, cs with
  | r :: rs', c :: cs' => (2 * r + c)%nat :: mp rs' cs'
  | _, _ => []
  end.
(** All binary strings of length n. *)
Fixpoint bits (n : nat) : list (list nat) :=
  match n with
  | O => [[]]
  | S m => map (cons 0%nat) (bits m) ++ map (cons 1%nat) (bits m)
  end.
(** Entry of the identity matrix. *)
Definition idm (path : list nat) : C :=
  if forallb (fun i => Nat.eqb i 0 || Nat.eqb i 3) path then C1 else C0.

Definition vpath (k : kind) (l : Z) (path : list nat) : Prop :=
  Z.of_nat (length path) = l + 1 /\ Forall (fun i => (i < arity k)%nat) path.

Section Inv.
Context (N : num) (g : cfg N) (nb : kind -> Z) (X : numx N (g_ct g)).
Local Notation cf := (g_ct g).

(** The part of the state that diagrams live in. *)
Record core := Co { c_nq : Z; c_ct : ctab N; c_ut : kind -> utab }.
Definition co (s : st N) : core := Co (s_nq s) (s_ct s) (s_ut s).

Definition qn (q : core) (k : kind) (n : nat) : node := ut_heap (c_ut q k) n.
Definition linked (q : core) (k : kind) (n : nat) : Prop := exists v b, In n (ut_tab (c_ut q k) v b).

(** Value of a tagged pointer into the table. *)
Definition rv (q : core) (p : eptr) : R :=
  let r := toR X (xaddr X (c_ct q) (ep_at p)) in if ep_neg p then (- r)%R else r.
Definition Cw (q : core) (w : complex) : C := (rv q (cr w), rv q (ci w)).
(** Value of a pair of numbers. *)
Definition Cv2 (v : N * N) : C := (toR X (fst v), toR X (snd v)).
(** Value of any complex number, temporary or not. *)
Definition Cv (s : st N) (w : complex) : C := Cv2 (cval s w).

(** Denotation of a node (with weight one) and of an edge at an index. *)
Fixpoint dn (q : core) (k : kind) (p : nptr) (path : list nat) : C :=
  match path with
  | [] => C1
  | i :: r => match p with
              | PNode n => let e := nthe (ne (qn q k n)) i in (Cw q (ew e) * dn q k (ep e) r)%C
              | _ => C1
              end
  end.
Definition de (q : core) (k : kind) (e : edge) (path : list nat) : C :=
  (Cw q (ew e) * dn q k (ep e) path)%C.

(** ** Typing *)

Definition ptab (q : core) (p : eptr) : Prop :=
  alive (c_ct q) (ep_at p) /\ (ex X -> p <> EP true AZero).
Definition wtab (q : core) (w : complex) : Prop := ptab q (cr w) /\ ptab q (ci w).
Definition etn (q : core) (k : kind) (l : Z) (p : nptr) : Prop :=
  match p with
  | PNull => False
  | PTerm => True
  | PNode n => linked q k n /\ nv (qn q k n) = l
  end.
(** A stored edge to a diagram on qubits 0..l. *)
Record tedge (q : core) (k : kind) (l : Z) (e : edge) : Prop := {
  te_n : etn q k l (ep e);
  te_w : wtab q (ew e);
  te_t : ep e = PTerm -> l = -1 \/ ew e = Czero;
  te_z : ex X -> ew e = Czero -> ep e = PTerm }.

(** ** Nodes *)

Definition real_pos (c : C) : Prop := snd c = 0%R /\ (0 < fst c)%R.
Definition nnorm (q : core) (k : kind) (es : list edge) : Prop :=
  match k with
  | KV =>
      let w0 := ew (nthe es 0) in let w1 := ew (nthe es 1) in
      (w0 = Czero /\ w1 = Cone) \/ (w0 = Cone /\ w1 = Czero) \/
      (Cw q w0 <> C0 /\ Cw q w1 <> C0 /\ (Cmag2 (Cw q w0) + Cmag2 (Cw q w1) = 1)%R /\
       ((Cmag2 (Cw q w1) <= Cmag2 (Cw q w0))%R -> real_pos (Cw q w0)) /\
       ((Cmag2 (Cw q w0) < Cmag2 (Cw q w1))%R -> real_pos (Cw q w1)))
  | _ =>
      exists am, (am < 4)%nat /\ ew (nthe es am) = Cone /\
        (forall i, (i < 4)%nat -> (Cmag2 (Cw q (ew (nthe es i))) <= 1)%R) /\
        (forall i, (i < am)%nat -> (Cmag2 (Cw q (ew (nthe es i))) < 1)%R)
  end.

Record nodeok (q : core) (k : kind) (v b : Z) (n : nat) : Prop := {
  no_v : 0 <= v < c_nq q;
  no_nv : nv (qn q k n) = v;
  no_b : b = ukey N g nb k (ne (qn q k n));
  no_len : length (ne (qn q k n)) = arity k;
  no_ref : 0 <= nref (qn q k n) <= RCMAX;
  no_es : forall e, In e (ne (qn q k n)) -> tedge q k (v - 1) e;
  no_norm : ex X -> nnorm q k (ne (qn q k n));
  no_sym : ex X -> k = KM -> nsym (qn q k n) = true ->
           forall path, vpath KM v path -> dn q KM (PNode n) (map tr4 path) = dn q KM (PNode n) path;
  no_id : ex X -> k = KM -> nid (qn q k n) = true ->
           forall path, vpath KM v path -> dn q KM (PNode n) path = idm path }.

Definition ut_allq (q : core) (k : kind) : list nat :=
  flat_map (fun v => flat_map (fun b => ut_tab (c_ut q k) v b) (ut_keys nb k))
           (map Z.of_nat (seq 0 (Z.to_nat (c_nq q)))).

(** Comparison of stored edges, as Edge::operator== (Edge.hpp:26-28) does it. *)
Definition qval (q : core) (p : eptr) : N :=
  let v := xaddr X (c_ct q) (ep_at p) in if ep_neg p then nneg v else v.
Definition qapx (q : core) (a b : eptr) : bool := eptr_eqb a b || approx_eq (qval q a) (qval q b).
Definition qeq (q : core) (x y : edge) : bool :=
  nptr_eqb (ep x) (ep y) && (qapx q (cr (ew x)) (cr (ew y)) && qapx q (ci (ew x)) (ci (ew y))).
Fixpoint qes (q : core) (a b : list edge) : bool :=
  match a, b with
  | [], [] => true
  | x :: a', y :: b' => qeq q x y && qes q a' b'
  | _, _ => false
  end.

Record uinv (q : core) (k : kind) : Prop := {
  ui_nb : 0 < nb k;
  ui_node : forall v b n, In n (ut_tab (c_ut q k) v b) -> nodeok q k v b n;
  ui_nd : forall v b, NoDup (ut_tab (c_ut q k) v b);
  ui_lt : forall n, linked q k n -> (n < ut_next (c_ut q k))%nat;
  ui_av : NoDup (ut_avail (c_ut q k));
  ui_avlt : forall n, In n (ut_avail (c_ut q k)) -> (n < ut_next (c_ut q k))%nat /\ ~ linked q k n;
  ui_fresh : forall n, (ut_next (c_ut q k) <= n)%nat -> nref (qn q k n) = 0;
  ui_uniq : forall v b n m, In n (ut_tab (c_ut q k) v b) -> In m (ut_tab (c_ut q k) v b) ->
     qes q (ne (qn q k n)) (ne (qn q k m)) = true -> (k = KD -> nden (qn q k n) = nden (qn q k m)) -> n = m;
  ui_count : ut_count (c_ut q k) = Z.of_nat (length (ut_allq q k));
  ui_peak : ut_count (c_ut q k) <= ut_peak (c_ut q k) }.

Record cinv (q : core) : Prop := {
  ci_nq : 0 <= c_nq q;
  ci_ct : ctwf cf (c_ct q);
  ci_x : ex X -> xct X (c_ct q);
  ci_ut : forall k, uinv q k }.

(** ** Operation caches *)

(** A cached result of kind [k] for qubits 0..l. *)
Definition vres (q : core) (k : kind) (l : Z) (r : vedge N) : Prop :=
  etn q k l (vp r) /\ (vp r = PTerm -> l = -1 \/ vapx0 (vw r) = true) /\
  (ex X -> Cv2 (vw r) = C0 -> vp r = PTerm).
Definition dv (q : core) (k : kind) (r : vedge N) (path : list nat) : C :=
  (Cv2 (vw r) * dn q k (vp r) path)%C.

Definition isnode (q : core) (k : kind) (l : Z) (p : nptr) : Prop := etn q k l p /\ p <> PTerm.

Definition addok (q : core) (k : kind) (x y r : vedge N) : Prop :=
  exists l, 0 <= l /\ isnode q k l (vp x) /\ isnode q k l (vp y) /\ vres q k l r /\
  (ex X -> forall path, vpath k l path -> dv q k r path = (dv q k x path + dv q k y path)%C).

Definition mvsem (q : core) (l : Z) (x y : edge) (r : list nat -> C) : Prop :=
  forall rs, vpath KV l rs ->
    r rs = Csum (fun cs => de q KM x (mp rs cs) * de q KV y cs)%C (bits (length rs)).
Definition mmsem (q : core) (l : Z) (x y : edge) (r : list nat -> C) : Prop :=
  forall rs cs, vpath KV l rs -> vpath KV l cs ->
    r (mp rs cs) = Csum (fun ks => de q KM x (mp rs ks) * de q KM y (mp ks cs))%C (bits (length rs)).
Definition ipsem (q : core) (l : Z) (x y : edge) : C :=
  Csum (fun cs => Cconj (de q KV x cs) * de q KV y cs)%C (bits (Z.to_nat (l + 1))).

(** Every edge reachable from [e] that leads to an identity matrix has weight one. *)
Fixpoint kgood (q : core) (n : nat) (e : edge) : Prop :=
  match n with
  | O => True
  | S m => ((forall path, vpath KM (Z.of_nat m) path -> dn q KM (ep e) path = idm path) -> ew e = Cone) /\
           match ep e with
           | PNode a => forall i, (i < 4)%nat -> kgood q m (nthe (ne (qn q KM a)) i)
           | _ => True
           end
  end.

(** The operands of a multiplication of density matrices: matrix or density nodes. *)
Definition hn (q : core) (p : hptr) (path : list nat) : C :=
  match p with HM p => dn q KM p path | HD p => dn q KD p path end.
Definition hnode (q : core) (l : Z) (p : hptr) : Prop :=
  match p with HM p => isnode q KM l p | HD p => isnode q KD l p end.
Definition ddsem (q : core) (l : Z) (x y : hptr) (r : list nat -> C) : Prop :=
  forall rs cs, vpath KV l rs -> vpath KV l cs ->
    r (mp rs cs) = Csum (fun ks => hn q x (mp rs ks) * hn q y (mp ks cs))%C (bits (length rs)).

Definition binok (q : core) (b : bop) (x y : edge) (r : vedge N) : Prop :=
  match b with
  | BMV => ew x = Cone /\ ew y = Cone /\ exists l, 0 <= l /\
      isnode q KM l (ep x) /\ isnode q KV l (ep y) /\ vres q KV l r /\
      (ex X -> mvsem q l x y (dv q KV r))
  | BMM => ew x = Cone /\ ew y = Cone /\ exists l, 0 <= l /\
      isnode q KM l (ep x) /\ isnode q KM l (ep y) /\ vres q KM l r /\
      (ex X -> mmsem q l x y (dv q KM r))
  | BIP => ew x = Cone /\ ew y = Cone /\ exists l, 0 <= l /\
      isnode q KV l (ep x) /\ isnode q KV l (ep y) /\ vp r = PTerm /\
      (ex X -> Cv2 (vw r) = ipsem q l x y)
  | BKV | BKM =>
      let k := match b with BKV => KV | _ => KM end in
      exists lx ly, 0 <= lx /\ isnode q k lx (ep x) /\ wtab q (ew x) /\ tedge q k ly y /\ -1 <= ly /\
      (ep y = PTerm -> ly = -1) /\
      vres q k (lx + ly + 1) r /\ (ex X -> Cv2 (vw r) <> C0) /\
      (ex X -> (b = BKM -> kgood q (Z.to_nat (lx + 1)) x) -> forall p1 p2, vpath k lx p1 -> vpath k ly p2 ->
         dv q k r (p1 ++ p2) = (de q k x p1 * de q k y p2)%C)
  | BDD => ew x = Cone /\ ew y = Cone /\ exists l a b, 0 <= l /\
      ep x = hcode a 0 /\ ep y = hcode b 0 /\ hnode q l a /\ hnode q l b /\ vres q KD l r /\
      (ex X -> ddsem q l a b (dv q KD r))
  end.

Definition unok (q : core) (u : uop) (a r : edge) : Prop :=
  exists l, 0 <= l /\ isnode q KM l (ep a) /\ wtab q (ew a) /\ tedge q KM l r /\
  (ex X -> forall path, vpath KM l path ->
     de q KM r (map tr4 path) = match u with UTr => de q KM a path | UCt => Cconj (de q KM a path) end).

Definition idok (q : core) (i : Z) (e : edge) : Prop :=
  ep e <> PNull ->
  0 <= i < c_nq q /\ tedge q KM i e /\ (ew e = Cone \/ ew e = Czero) /\
  (ex X -> isnode q KM i (ep e) /\ ew e = Cone /\
           forall path, vpath KM i path -> dn q KM (ep e) path = idm path).

(** The clear function of an operation cache does nothing when its counter is zero. *)
Definition tok {K R} (t : tbl K R) : Prop :=
  0 <= tb_count t /\ (tb_count t = 0 -> forall h, tb_ent t h = None).
Definition tcnt (s : st N) : Prop :=
  (forall k, tok (s_add s k)) /\ (forall b, tok (s_bin s b)) /\ (forall u, tok (s_un s u)).

Record tinv (q : core) (s : st N) : Prop := {
  ti_add : forall k h x y r, tb_ent (s_add s k) h = Some ((x, y), r) -> addok q k x y r;
  ti_bin : forall b h x y r, tb_ent (s_bin s b) h = Some ((x, y), r) -> binok q b x y r;
  ti_un : forall u h a r, tb_ent (s_un s u) h = Some (a, r) -> unok q u a r;
  ti_id : forall i, idok q i (s_id s i);
  ti_c : tcnt s }.

Record inv (s : st N) : Prop := { iv_c : cinv (co s); iv_t : tinv (co s) s }.

(** ** Extension: what every operation except reference counting and garbage collection
    does to the diagrams that exist *)
Definition same_node (a b : node) : Prop :=
  ne a = ne b /\ nref a = nref b /\ nv a = nv b /\ nden a = nden b.

Record qext (q q' : core) : Prop := {
  qe_nq : c_nq q' = c_nq q;
  qe_ct : ctext (c_ct q) (c_ct q');
  qe_rc : forall n, ctlive (c_ct q') n -> ctlive (c_ct q) n \/ ce_rc (ct_heap (c_ct q') n) = 0;
  qe_tab : forall k v b n, In n (ut_tab (c_ut q k) v b) ->
     In n (ut_tab (c_ut q' k) v b) /\ same_node (qn q k n) (qn q' k n);
  qe_ref : forall k n, linked q' k n -> linked q k n \/ nref (qn q' k n) = 0;
  qe_act : forall k, ut_active (c_ut q' k) = ut_active (c_ut q k) /\
     ut_actcount (c_ut q' k) = ut_actcount (c_ut q k) /\ ut_maxact (c_ut q' k) = ut_maxact (c_ut q k) }.

(** ** The cache of temporaries *)

(** [O] lists the slots that are handed out at the moment. *)
Record owns (c : ccache N) (O : list nat) : Prop := {
  ow_nd : NoDup O;
  ow_av : NoDup (cc_avail c);
  ow_lt : forall a, In a (cc_avail c) -> (a < cc_next c)%nat;
  ow_in : forall a, In a O <-> (a < cc_next c)%nat /\ ~ In a (cc_avail c);
  ow_ev : Nat.Even (length (cc_avail c));
  ow_nx : Nat.Even (cc_next c);
  ow_al : Z.of_nat (cc_next c) <= cc_allocs c;
  ow_ae : Z.Even (cc_allocs c);
  ow_as : 2 <= cc_allocsz c /\ Z.Even (cc_allocsz c);
  ow_ct : cc_count c = Z.of_nat (length O) }.

Definition keep (O : list nat) (c c' : ccache N) : Prop := forall a, In a O -> cc_val c' a = cc_val c a.

Definition wslots (w : complex) : list nat :=
  match w with
  | CX (EP false (ACache a)) (EP false (ACache b)) => [a; b]
  | _ => []
  end.

(** A weight that may be used: stored, or a temporary among [O]. *)
Definition wok (q : core) (O : list nat) (w : complex) : Prop :=
  wtab q w \/ exists a b, w = cslot a b /\ In a O /\ In b O /\ a <> b.

(** An edge with a usable weight to a diagram on qubits 0..l. *)
Record gedge (s : st N) (O : list nat) (k : kind) (l : Z) (e : edge) : Prop := {
  ge_n : etn (co s) k l (ep e);
  ge_w : wok (co s) O (ew e);
  ge_t : ep e = PTerm -> l = -1 \/ ew e = Czero;
  ge_z : ex X -> Cv s (ew e) = C0 -> e = Ezero }.

Definition dg (s : st N) (k : kind) (e : edge) (path : list nat) : C :=
  (Cv s (ew e) * dn (co s) k (ep e) path)%C.

(** What an operation that does not collect garbage does. *)
Record step (O : list nat) (s s' : st N) : Prop := {
  sp_inv : inv s';
  sp_ext : qext (co s) (co s');
  sp_keep : keep O (s_cc s) (s_cc s') }.

(** ** Correctness triples *)
Definition al0 (b : bad) : Prop := b = BadNum /\ ~ ex X.
Definition al1 (b : bad) : Prop := (b = BadNum \/ b = BadAssert) /\ ~ ex X.

Definition wp {A} (al : bad -> Prop) (m : M N A) (s : st N) (Q : A -> st N -> Prop) : Prop :=
  match m s with
  | Ok a s' => Q a s'
  | Thr _ _ => False
  | Bad b => al b
  end.

Lemma wp_ret {A} al (a : A) s (Q : A -> st N -> Prop) : Q a s -> wp al (ret a) s Q.
Proof. auto. Qed.
Lemma wp_bind {A B} al (m : M N A) (f : A -> M N B) s Q :
  wp al m s (fun a s' => wp al (f a) s' Q) -> wp al (bind m f) s Q.
Proof. unfold wp, bind. destruct (m s); auto. Qed.
Lemma wp_mono {A} al (m : M N A) s (Q Q' : A -> st N -> Prop) :
  wp al m s Q -> (forall a s', Q a s' -> Q' a s') -> wp al m s Q'.
Proof. unfold wp. destruct (m s); auto. Qed.
Lemma wp_al {A} (al al' : bad -> Prop) (m : M N A) s Q :
  wp al m s Q -> (forall b, al b -> al' b) -> wp al' m s Q.
Proof. unfold wp. destruct (m s); auto. Qed.
Lemma wp_get al s (Q : st N -> st N -> Prop) : Q s s -> wp al get s Q.
Proof. auto. Qed.
Lemma wp_gets {A} al (f : st N -> A) s (Q : A -> st N -> Prop) : Q (f s) s -> wp al (gets f) s Q.
Proof. auto. Qed.

End Inv.
