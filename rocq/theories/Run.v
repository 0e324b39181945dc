(** Programs over the package interface, run by the package and by dense linear algebra. *)
From Coq Require Import ZArith List Bool Lia Arith Reals Lra Permutation.
From Verif Require Import Num Base CTable CTableWf Cx State Pkg DensMul Read Control Gate Named Meas Reduce Serial Inv InvL PrimL NormL MkL TrL AddL MulL InnerL KronL CanonL IdentL StateL DensL TraceL GcL RefL ReadL GateL GateAct NamedL DelL MeasL SampL ReduceL ReduceB SerialL.
Import ListNotations.
Local Open Scope Z_scope.

(** ** Programs *)

(** One call of the public interface.  Diagrams are kept in numbered variables; a call that
    returns a diagram defines the next variable.  Every constructor stands for the function
    of Package.hpp named in its comment. *)
Inductive ins (N : num) :=
  | IZero (n : Z)                            (* makeZeroState(n), 234-247 *)
  | IBasis (n : Z) (bs : list bool)          (* makeBasisState(n, vector<bool>), 249-267 *)
  | IProd (n : Z) (sts : list bstate)        (* makeBasisState(n, vector<BasisStates>), 268-304 *)
  | IVec (v : list (N * N))                  (* makeStateFromVector, 307-334 *)
  | IMat (m : list (list (N * N)))           (* makeDDFromMatrix, 342-375 *)
  | IIdent (msq : Z)                         (* makeIdent(0, msq), 2174-2200 *)
  | IAdd (k : kind) (i j : nat)              (* add, 1325-1344 *)
  | IMul (k : kind) (i j : nat)              (* multiply, 1537-1579 *)
  | IKron (k : kind) (i j : nat)             (* kronecker, 1939-1953 *)
  | ITr (i : nat)                            (* transpose, 1437-1465 *)
  | ICt (i : nat)                            (* conjugateTranspose, 1466-1500 *)
  | IPtr (i : nat) (elim : list bool)        (* partialTrace, 2017-2023 *)
  | IInner (i j : nat)                       (* innerProduct, 1773-1793 *)
  | IFid (i j : nat)                         (* fidelity, 1795-1799 *)
  | ITrace (i : nat)                         (* trace, 2024-2031 *)
  | IInc (k : kind) (i : nat)                (* incRef, 916-919 *)
  | IDec (k : kind) (i : nat)                (* decRef, 920-922 *)
  | IGc (force : bool)                       (* garbageCollect, 928-984 *)
  | IReset                                   (* reset, 118-122 *)
  | IMk (k : kind) (v : Z) (js : list nat)   (* makeDDNode, 993-1028 *)
  | IExp (i j : nat)                         (* expectationValue, 1908-1921 *)
  | IPath (k : kind) (i : nat) (els : list nat)   (* getValueByPath(e, elements), 2517-2539 *)
  | IValV (i : nat) (a : Z)                  (* getValueByPath(e, i) for vectors, 2540-2561 *)
  | IValM (i : nat) (a b : Z)                (* getValueByPath(e, i, j) for matrices, 2562-2588 *)
  | IGetVec (i : nat)                        (* getVector, 2639-2667 *)
  | IGetMat (i : nat)                        (* getMatrix, 2701-2736 *)
  | IExport (i : nat) (amps : list (N * N)) (nq : Z)  (* exportAmplitudes, 2819-2851 *)
  | IAddAmps (i : nat) (amps : list (N * N)) (nq : Z) (* addAmplitudes, 2853-2878 *)
  | IGate (mat : list (N * N)) (n : Z) (cs : list control) (t : Z)  (* makeGateDD, 474-539 *)
  | ITwo (mat : list (list (N * N))) (n t0 t1 : Z)  (* makeTwoQubitGateDD, 551-627 *)
  | INamed (T : trig N) (w : ngate N) (n : Z) (cs : list control) (t0 t1 : Z)  (* makeSWAPDD, ..., makeXXPlusYYDD with controls, 632-810 *)
  | IDel (k : kind) (i : nat) (v : Z) (idx : nat)   (* deleteEdge, 1030-1034 *)
  | ISize (k : kind) (i : nat)               (* size, 2230-2237 *)
  | IProbs (i : nat) (idx : Z) (norm : bool) (* determineMeasurementProbabilities, 1179-1252 *)
  | IMeasOne (i : nat) (idx : Z) (norm : bool) (eps t : N)  (* measureOneCollapsing, 1254-1293 *)
  | IMeasAll (i : nat) (collapse : bool) (eps : N) (ts : list N)   (* measureAll, 1103-1160 *)
  | IAnc (i : nat) (anc : list bool) (regular : bool)   (* reduceAncillae, 2258-2277 *)
  | IGarV (i : nat) (gar : list bool)                   (* reduceGarbage of a vector, 2280-2298 *)
  | IGarM (i : nat) (gar : list bool) (regular : bool)  (* reduceGarbage of a matrix, 2300-2319 *)
  | IRead (k : kind) (fl : file (N * N))                (* deserialize, 2968-3061 *)
  | ICopy (k : kind) (fl : file (complex * (N * N)))    (* transfer, 2881-2961, after the traversal of the other package *)
  | IDZero (n : Z)                           (* makeZeroDensityOperator, 225-231 *)
  | IDAdd (i j : nat)                        (* add of density matrices, 1313-1330 *)
  | IDMul (ka kb : kind) (i j : nat)         (* multiply of density matrices, 1537-1579; KM: densityFromMatrixEdge of a matrix, Node.hpp:211-213 *)
  | IDApply (i j : nat).                     (* applyOperationToDensity(e, operation), 1520-1535 *)
Arguments IZero {N}. Arguments IBasis {N}. Arguments IProd {N}. Arguments IVec {N}. Arguments IMat {N}.
Arguments IIdent {N}. Arguments IAdd {N}. Arguments IMul {N}. Arguments IKron {N}. Arguments ITr {N}.
Arguments ICt {N}. Arguments IPtr {N}. Arguments IInner {N}. Arguments IFid {N}. Arguments ITrace {N}.
Arguments IInc {N}. Arguments IDec {N}. Arguments IGc {N}. Arguments IReset {N}. Arguments IMk {N}.
Arguments IExp {N}. Arguments IPath {N}. Arguments IValV {N}. Arguments IValM {N}. Arguments IGetVec {N}. Arguments IGetMat {N}.
Arguments IExport {N}. Arguments IAddAmps {N}. Arguments IGate {N}. Arguments ITwo {N}. Arguments INamed {N}. Arguments IDel {N}. Arguments ISize {N}.
Arguments IProbs {N}. Arguments IMeasOne {N}. Arguments IMeasAll {N}.
Arguments IAnc {N}. Arguments IGarV {N}. Arguments IGarM {N}. Arguments IRead {N}. Arguments ICopy {N}.
Arguments IDZero {N}. Arguments IDAdd {N}. Arguments IDMul {N}. Arguments IDApply {N}.

(** What a call that returns numbers returns. *)
Inductive out (N : num) := OC (v : N * N) | OR (x : N) | OV (v : list (N * N)) | OM (m : list (list (N * N)))
  | OZ (z : Z) | OP (x y : N) | OB (bs : list bool).
Arguments OC {N}. Arguments OR {N}. Arguments OV {N}. Arguments OM {N}. Arguments OZ {N}. Arguments OP {N}. Arguments OB {N}.

Section Exec.
Context (N : num) (g : cfg N) (nb : kind -> Z).

(** A variable. *)
Definition var (V : list edge) (i : nat) : edge := nth i V Enull.
(** A call that returns a diagram. *)
Definition push (V : list edge) (m : M N edge) : M N (list edge * list (out N)) :=
  let* r := m in ret (V ++ [r], []).
(** A call that returns a number. *)
Definition emit {A} (V : list edge) (f : A -> out N) (m : M N A) : M N (list edge * list (out N)) :=
  let* r := m in ret (V, [f r]).
(** A call whose result is not used. *)
Definition quiet {A} (V : list edge) (m : M N A) : M N (list edge * list (out N)) :=
  m ;;; ret (V, []).

(** A call of a function on density matrices, with no node marked before the call (the marks
    of Node.hpp:96-101 are only in use during a call without generateDensityMatrix). *)
Definition dcall {A} (m : D N A) : M N A := let* r := m mz in ret (fst r).
(** An operand of the multiplication of density matrices (Node.hpp:211-213). *)
Definition dopd (k : kind) (e : edge) : hedge := match k with KD => hden e | _ => hmat e end.

(** One call (see the comments at [ins]). *)
Definition exec (c : ins N) (V : list edge) : M N (list edge * list (out N)) :=
  match c with
  | IZero n => push V (makeZeroState N g nb n 0)
  | IBasis n bs => push V (makeBasisState N g nb n bs 0)
  | IProd n sts => push V (makeBasisStateB N g nb n sts 0)
  | IVec v => push V (makeStateFromVector N g nb v)
  | IMat m => push V (makeDDFromMatrix N g nb m)
  | IIdent msq => push V (makeIdent N g nb 0 msq)
  | IAdd k i j => push V (add N g nb k (var V i) (var V j))
  | IMul k i j => push V (multiply N g nb k (var V i) (var V j) 0)
  | IKron k i j => push V (kronecker N g nb k (var V i) (var V j) true)
  | ITr i => push V (transpose N g nb (var V i))
  | ICt i => push V (conjugateTranspose N g nb (var V i))
  | IPtr i elim => push V (partialTrace N g nb (var V i) elim)
  | IInner i j => emit V OC (innerProduct N g (var V i) (var V j))
  | IFid i j => emit V OR (fidelity N g (var V i) (var V j))
  | ITrace i => emit V OC (trace N g nb (var V i))
  | IInc k i => quiet V (incRef N k (var V i))
  | IDec k i => quiet V (decRef N k (var V i))
  | IGc f => quiet V (garbageCollect N g nb f)
  | IReset => quiet V (pkg_reset N g)
  | IMk k v js => push V (makeDDNode N g nb k v (map (var V) js) false)
  | IExp i j => emit V OR (expectationValue N g nb (var V i) (var V j))
  | IPath k i els => emit V OC (getValueByPath N g k (var V i) els)
  | IValV i a => emit V OC (getValueV N g (var V i) a)
  | IValM i a b => emit V OC (getValueM N g (var V i) a b)
  | IGetVec i => emit V OV (getVector N g (var V i))
  | IGetMat i => emit V OM (getMatrix N g (var V i))
  | IExport i amps nq => emit V OV (exportAmplitudes N g (var V i) amps nq)
  | IAddAmps i amps nq => emit V OV (addAmplitudes N (var V i) amps nq)
  | IGate mat n cs t => push V (makeGateDD N g nb mat n cs t 0)
  | ITwo mat n t0 t1 => push V (makeTwoQubitGateDD N g nb mat n t0 t1 0)
  | INamed T w n cs t0 t1 => push V (makeNamed N g nb T w n cs t0 t1 0)
  | IDel k i v idx => push V (deleteEdge N g nb k (var V i) v idx)
  | ISize k i => emit V OZ (size N k (var V i))
  | IProbs i idx norm => emit V (fun z => OP (fst z) (snd z)) (measureProbs N (var V i) idx norm)
  | IMeasOne i idx norm eps t => let* r := measureOne N g nb eps (var V i) idx norm t in ret (V ++ [snd r], [OB [fst r]])
  | IMeasAll i collapse eps ts =>
      let* r := measureAll N g nb eps (var V i) collapse ts in ret (if collapse : bool then V ++ [snd r] else V, [OB (fst r)])
  | IAnc i anc regular => push V (reduceAncillae N g nb (var V i) anc regular)
  | IGarV i gar => push V (reduceGarbageV N g nb (var V i) gar)
  | IGarM i gar regular => push V (reduceGarbageM N g nb (var V i) gar regular)
  | IRead k fl => push V (deserialize N g nb k fl)
  | ICopy k fl => push V (rebuild N g nb k fl)
  | IDZero n => push V (makeZeroDensity N g nb n)
  | IDAdd i j => push V (dcall (addD N g nb (hden (var V i)) (hden (var V j))))
  | IDMul ka kb i j => push V (dcall (multiplyD N g nb (dopd ka (var V i)) (dopd kb (var V j)) 0 false))
  | IDApply i j => push V (let* r := dcall (applyOpD N g nb (hden (var V i)) (var V j) false) in ret (Ed (hdp (hp r)) (hw r)))
  end.

(** A sequence of calls. *)
Fixpoint run (prog : list (ins N)) (V : list edge) : M N (list edge * list (out N)) :=
  match prog with
  | [] => ret (V, [])
  | c :: r => let* p := exec c V in let* q := run r (fst p) in ret (fst q, snd p ++ snd q)
  end.
End Exec.

(** ** Dense linear algebra *)

(** A variable: kind, top qubit, number of references held, and the vector or matrix as a
    function of the index digits from the top qubit downwards (row bit for vectors,
    2 * row bit + column bit for matrices).  [None]: no claim about the value. *)
Record dvar := DV { dk : kind; dl : Z; dc : nat; df : option (list nat -> C) }.
(** [None]: a variable that must not be used any more. *)
Definition denv := list (option dvar).
(** A number dense linear algebra yields. *)
Inductive dout := DC (z : C) | DR (x : R) | DVec (n : nat) (f : list nat -> C) | DMat (n : nat) (f : list nat -> C)
  | DPr (x y : R) | DB (bs : list bool).

(** Variable [i] may be used. *)
Definition live (D : denv) (i : nat) (k : kind) (l : Z) (f : option (list nat -> C)) : Prop :=
  exists c, nth_error D i = Some (Some (DV k l c f)).
(** A new variable without references. *)
Definition dnew (k : kind) (l : Z) (f : option (list nat -> C)) : option dvar := Some (DV k l 0 f).
(** No claim in, no claim out. *)
Definition lift1 {A B} (f : A -> B) (x : option A) : option B :=
  match x with Some a => Some (f a) | None => None end.
(** No claim in, no claim out. *)
Definition lift2 {A B D} (f : A -> B -> D) (x : option A) (y : option B) : option D :=
  match x, y with Some a, Some b => Some (f a b) | _, _ => None end.

(** the vectors (matrices) [fs] one below the other (the four blocks of a matrix) *)
Definition dstack (fs : list (list nat -> C)) : list nat -> C := fun p =>
  match p with [] => C0 | i :: q => nth i fs (fun _ => C0) q end.
(** All claims, if there is one for every operand. *)
Fixpoint lifts {A} (fs : list (option A)) : option (list A) :=
  match fs with
  | [] => Some []
  | f :: r => match f, lifts r with Some a, Some l => Some (a :: l) | _, _ => None end
  end.
(** sum *)
Definition dadd (a b : list nat -> C) : list nat -> C := fun p => (a p + b p)%C.
(** matrix times vector, matrix times matrix *)
Definition dmv (a b : list nat -> C) : list nat -> C := fun rs =>
  Csum (fun cs => a (mp rs cs) * b cs)%C (bits (length rs)).
(** matrix times matrix *)
Definition dmm (a b : list nat -> C) : list nat -> C := fun p =>
  Csum (fun ks => a (mp (rowd p) ks) * b (mp ks (cold p)))%C (bits (length p)).
(** matrix product with a vector or matrix *)
Definition dmul (k : kind) := match k with KV => dmv | _ => dmm end.
(** tensor product, [a] on the upper qubits 0..lx *)
Definition dkron (lx : Z) (a b : list nat -> C) : list nat -> C := fun p =>
  (a (firstn (Z.to_nat (lx + 1)) p) * b (skipn (Z.to_nat (lx + 1)) p))%C.
(** transpose *)
Definition dtr (a : list nat -> C) : list nat -> C := fun p => a (map tr4 p).
(** adjoint *)
Definition dct (a : list nat -> C) : list nat -> C := fun p => Cconj (a (map tr4 p)).
(** partial trace over the qubits marked in [els] (from the top) *)
Definition dptr (els : list bool) (a : list nat -> C) : list nat -> C := fun p =>
  Csum (fun bs => a (fill els bs p)) (bits (ntrue els)).
(** inner product *)
Definition dinner (n : nat) (a b : list nat -> C) : C :=
  Csum (fun cs => Cconj (a cs) * b cs)%C (bits n).
(** a matrix, conjugated with an operation *)
Definition dconj (u a : list nat -> C) : list nat -> C := dmm u (dmm a (dct u)).
(** The variables that survive a garbage collection: those the user holds references to. *)
Definition kept (D : denv) : denv :=
  map (fun x => match x with Some v => if Nat.eqb (dc v) 0 then None else Some v | None => None end) D.
(** trace *)
Definition dtrace (n : nat) (a : list nat -> C) : C := Csum (fun bs => a (mp bs bs)) (bits n).

(** No aligned block of the matrix with at least one qubit is a multiple of the identity,
    unless it is the zero block (see C26). *)
Definition noident (l : Z) (a : list nat -> C) : Prop :=
  forall pre m z, Z.of_nat (length pre) + Z.of_nat m = l + 1 -> (0 < m)%nat -> Forall (fun i => (i < 4)%nat) pre -> z <> C0 ->
    ~ (forall p, vpath KM (Z.of_nat m - 1) p -> a (pre ++ p) = (z * idm p)%C).

(** Change the number of references to variable [i]. *)
Fixpoint upde (D : denv) (i : nat) (c : nat -> nat) : denv :=
  match D, i with
  | [], _ => []
  | Some v :: r, O => Some (DV (dk v) (dl v) (c (dc v)) (df v)) :: r
  | x :: r, S i' => x :: upde r i' c
  | x :: r, O => x :: r
  end.

Section RunL.
Context {N : num} {g : cfg N} {nb : kind -> Z} {X : numx N (g_ct g)} (G : gok g).
Local Notation cf := (g_ct g).
Local Notation co := (co N).
Local Notation qn := (qn N).
Local Notation linked := (linked N).
Local Notation c_ut := (c_ut N).
Local Notation Cw := (Cw N g X).
Local Notation Cv := (Cv N g X).
Local Notation Cv2 := (Cv2 N g X).
Local Notation dn := (dn N g X).
Local Notation de := (de N g X).
Local Notation dg := (dg N g X).
Local Notation wtab := (wtab N g X).
Local Notation etn := (etn N).
Local Notation isnode := (isnode N).
Local Notation tedge := (tedge N g X).
Local Notation gedge := (gedge N g X).
Local Notation cinv := (cinv N g nb X).
Local Notation uinv := (uinv N g nb X).
Local Notation nodeok := (nodeok N g nb X).
Local Notation inv := (inv N g nb X).
Local Notation step := (step N g nb X).
Local Notation qext := (qext N).
Local Notation owns := (owns N).
Local Notation wok := (wok N g X).
Local Notation wp := (wp N).
Local Notation al0 := (al0 N g X).
Local Notation nnorm := (nnorm N g X).
Local Notation iedge := (iedge (g:=g) (X:=X)).
Local Notation trsp := (trsp (nb:=nb) (X:=X)).
Local Notation unok := (unok N g X).
Local Notation binok := (binok N g X).
Local Notation addok := (addok N g X).
Local Notation tinv := (tinv N g X).
Local Notation vres := (vres N g X).
Local Notation dv := (dv N g X).
Local Notation mkpost := (mkpost (nb:=nb) (X:=X)).
Local Notation mulCached_sp := (mulCached_sp (nb:=nb) (X:=X) G).
Local Notation addCached_sp := (addCached_sp (nb:=nb) (X:=X) G).
Local Notation getCached_sp := (getCached_sp (nb:=nb) (X:=X) G).
Local Notation makeDDNode_sp := (makeDDNode_sp (nb:=nb) (X:=X) G).
Local Notation lookupC_sp := (lookupC_sp (nb:=nb) (X:=X) G).
Local Notation tedge_gedge := (tedge_gedge (nb:=nb) (X:=X)).
Local Notation child_ok := (child_ok (nb:=nb) (X:=X)).
Local Notation dn_ext := (dn_ext (nb:=nb) (X:=X)).
Local Notation Cw_eq0 := (Cw_eq0 (nb:=nb) (X:=X)).
Local Notation addInsert_sp := (addInsert_sp (g:=g) (nb:=nb) (X:=X)).
Local Notation binInsert_sp := (binInsert_sp (g:=g) (nb:=nb) (X:=X)).
Local Notation unInsert_sp := (unInsert_sp (g:=g) (nb:=nb) (X:=X)).
Local Notation addLookup_sp := (addLookup_sp (g:=g) (nb:=nb) (X:=X)).
Local Notation binLookup_sp := (binLookup_sp (g:=g) (nb:=nb) (X:=X)).
Local Notation unLookup_sp := (unLookup_sp (g:=g) (nb:=nb) (X:=X)).
Local Notation cres := (cres (g:=g) (X:=X)).
Local Notation addsp := (addsp (g:=g) (nb:=nb) (X:=X)).
Local Notation rel_sp := (rel_sp (g:=g) (nb:=nb) (X:=X)).
Local Notation relif_sp := (relif_sp (g:=g) (nb:=nb) (X:=X)).
Local Notation mapM_cres := (mapM_cres (g:=g) (nb:=nb) (X:=X)).
Local Notation de_step := (de_step (g:=g) (nb:=nb) (X:=X)).
Local Notation dg_step := (dg_step (g:=g) (nb:=nb) (X:=X)).
Local Notation mulSelf_sp := (mulSelf_sp (g:=g) (nb:=nb) (X:=X)).
Local Notation finish_sp := (finish_sp (g:=g) (nb:=nb) (X:=X) G).
Local Notation add2F_sp := (add2F_sp (g:=g) (nb:=nb) (X:=X) G).
Implicit Types (s : st N).

Local Notation dn_nz := (dn_nz (g:=g) (nb:=nb) (X:=X)).
Local Notation idok := (idok N g X).
Local Notation makeDDNode_t := (makeDDNode_t (nb:=nb) (X:=X) G).
Local Notation mk_weight := (mk_weight (nb:=nb) (X:=X)).
Local Notation c_nq := (c_nq N).
Local Notation rcok := (rcok (nb:=nb)).

(** The effect of one call; it is only defined where the interface allows the call. *)
Inductive dstep (nq : Z) (D : denv) : ins N -> denv -> list (option dout) -> Prop :=
  | d_zero n : 0 <= n <= nq -> dstep nq D (IZero n) (D ++ [dnew KV (n - 1) (Some (bsval []))]) []
  | d_basis n bs : 0 <= n <= nq -> n <= Z.of_nat (length bs) ->
      dstep nq D (IBasis n bs) (D ++ [dnew KV (n - 1) (Some (bsval (bits_st bs)))]) []
  | d_prod n sts : (ex X \/ forall b, In b sts -> b = BSzero \/ b = BSone) -> 0 <= n <= nq -> n <= Z.of_nat (length sts) ->
      dstep nq D (IProd n sts) (D ++ [dnew KV (n - 1) (Some (bsval sts))]) []
  | d_vec lv v : (length v = 2 ^ lv)%nat -> Z.of_nat lv <= nq ->
      dstep nq D (IVec v) (D ++ [dnew KV (Z.of_nat lv - 1) (Some (fun p => Cv2 (nth (vidx p) v (n0, n0))))]) []
  | d_mat lv m : (length m = 2 ^ lv)%nat -> (forall row, In row m -> length row = length m) -> Z.of_nat lv <= nq ->
      dstep nq D (IMat m) (D ++ [dnew KM (Z.of_nat lv - 1) (Some (fun p => Cv2 (mentry m (ridx p) (cidx p))))]) []
  | d_ident msq : -1 <= msq < nq -> dstep nq D (IIdent msq) (D ++ [dnew KM msq (Some idm)]) []
  | d_add k l i j a b : k <> KD -> live D i k l a -> live D j k l b ->
      dstep nq D (IAdd k i j) (D ++ [dnew k l (lift2 dadd a b)]) []
  | d_mul k l i j a b : k <> KD -> live D i KM l a -> live D j k l b ->
      dstep nq D (IMul k i j) (D ++ [dnew k l (lift2 (dmul k) a b)]) []
  | d_kronv lx ly i j a b : lx + ly + 1 < nq -> live D i KV lx a -> live D j KV ly b ->
      dstep nq D (IKron KV i j) (D ++ [dnew KV (lx + ly + 1) (lift2 (dkron lx) a b)]) []
  | d_kronm lx ly i j a b : lx + ly + 1 < nq -> live D i KM lx (Some a) -> live D j KM ly b ->
      noident lx a \/ (forall p, vpath KM lx p -> a p = idm p) ->
      dstep nq D (IKron KM i j) (D ++ [dnew KM (lx + ly + 1) (lift1 (dkron lx a) b)]) []
  | d_kronx lx ly i j a b : lx + ly + 1 < nq -> live D i KM lx a -> live D j KM ly b ->
      dstep nq D (IKron KM i j) (D ++ [dnew KM (lx + ly + 1) None]) []
  | d_tr l i a : live D i KM l a -> dstep nq D (ITr i) (D ++ [dnew KM l (lift1 dtr a)]) []
  | d_ct l i a : live D i KM l a -> dstep nq D (ICt i) (D ++ [dnew KM l (lift1 dct a)]) []
  | d_ptr n i a elim : live D i KM (Z.of_nat n - 1) a -> (n <= length elim)%nat -> ntrue (skipn n elim) = 0%nat ->
      dstep nq D (IPtr i elim) (D ++ [dnew KM (Z.of_nat (n - ntrue (elimtop elim n)) - 1) (lift1 (dptr (elimtop elim n)) a)]) []
  | d_inner l i j a b : live D i KV l a -> live D j KV l b ->
      dstep nq D (IInner i j) D [lift2 (fun a b => DC (dinner (Z.to_nat (l + 1)) a b)) a b]
  | d_fid l i j a b : live D i KV l a -> live D j KV l b ->
      dstep nq D (IFid i j) D [lift2 (fun a b => DR (Cmag2 (dinner (Z.to_nat (l + 1)) a b))) a b]
  | d_trace n i a : live D i KM (Z.of_nat n - 1) a -> dstep nq D (ITrace i) D [lift1 (fun a => DC (dtrace n a)) a]
  | d_inc k l i a : live D i k l a -> dstep nq D (IInc k i) (upde D i S) []
  | d_dec k l i c a : nth_error D i = Some (Some (DV k l (S c) a)) -> dstep nq D (IDec k i) (upde D i pred) []
  | d_gc force : dstep nq D (IGc force) (kept D) []
  | d_reset : dstep nq D IReset (map (fun _ => None) D) []
  | d_mk k v js fs : k <> KD -> 0 <= v < nq -> length js = arity k -> Forall2 (fun j f => live D j k (v - 1) f) js fs ->
      dstep nq D (IMk k v js) (D ++ [dnew k v (lift1 dstack (lifts fs))]) []
  | d_exp l i j a b p q : ex X -> live D i KM l (Some a) -> live D j KV l (Some b) ->
      vpath KM l p -> a p <> C0 -> vpath KV l q -> b q <> C0 -> snd (dinner (Z.to_nat (l + 1)) b (dmv a b)) = 0%R ->
      dstep nq D (IExp i j) (kept D) [Some (DR (fst (dinner (Z.to_nat (l + 1)) b (dmv a b))))]
  | d_path k l i a els : live D i k l a ->
      (forall v, 0 <= v <= l -> exists d, nth_error els (Z.to_nat v) = Some d /\ (d < arity k)%nat) ->
      dstep nq D (IPath k i els) D [lift1 (fun a => DC (a (strpath l els))) a]
  | d_valv n i a idx : (n <= 64)%nat -> live D i KV (Z.of_nat n - 1) a ->
      dstep nq D (IValV i idx) D [lift1 (fun a => DC (a (digp (bitV idx) n))) a]
  | d_valm n i a r c : (n <= 64)%nat -> live D i KM (Z.of_nat n - 1) a ->
      dstep nq D (IValM i r c) D [lift1 (fun a => DC (a (digp (bitM r c) n))) a]
  | d_getvec n i a p : ex X -> (0 < n <= 63)%nat -> live D i KV (Z.of_nat n - 1) (Some a) -> vpath KV (Z.of_nat n - 1) p -> a p <> C0 ->
      dstep nq D (IGetVec i) D [Some (DVec n a)]
  | d_getmat n i a p : ex X -> (0 < n <= 63)%nat -> live D i KM (Z.of_nat n - 1) (Some a) -> vpath KM (Z.of_nat n - 1) p -> a p <> C0 ->
      dstep nq D (IGetMat i) D [Some (DMat n a)]
  | d_export n i a p amps : ex X -> (0 < n <= 63)%nat -> live D i KV (Z.of_nat n - 1) (Some a) -> vpath KV (Z.of_nat n - 1) p -> a p <> C0 ->
      length amps = (2 ^ n)%nat -> dstep nq D (IExport i amps (Z.of_nat n)) D [Some (DVec n a)]
  | d_addamps n i a p amps : ex X -> (0 < n <= 63)%nat -> live D i KV (Z.of_nat n - 1) (Some a) -> vpath KV (Z.of_nat n - 1) p -> a p <> C0 ->
      length amps = (2 ^ n)%nat ->
      dstep nq D (IAddAmps i amps (Z.of_nat n)) D [Some (DVec n (fun p => Cv2 (nth (vidx p) amps (n0, n0)) + a p)%C)]
  | d_gate mat n cs t : length mat = 4%nat -> 0 <= t < n -> n <= nq -> n <= 128 -> ctlok n [t] cs ->
      dstep nq D (IGate mat n cs t) (D ++ [dnew KM (n - 1) (Some (gatem cs [t] (fun ds => Cv2 (nth (nth 0 ds 0%nat) mat (n0, n0)))))]) []
  | d_two mat n t0 t1 : length mat = 4%nat -> (forall row, In row mat -> length row = 4%nat) -> 0 <= t0 < n -> 0 <= t1 < n -> t0 <> t1 ->
      n <= nq -> n <= 127 ->
      dstep nq D (ITwo mat n t0 t1) (D ++ [dnew KM (n - 1) (Some (gatem [] [t0; t1] (fun ds => Cv2 (mentry mat (ridx ds) (cidx ds)))))]) []
  | d_named T w n cs t0 t1 : trigok X T -> 0 <= t0 < n -> 0 <= t1 < n -> t0 <> t1 -> n <= nq -> n <= 128 -> ctlok n [t0; t1] cs ->
      dstep nq D (INamed T w n cs t0 t1) (D ++ [dnew KM (n - 1) (Some (gatem cs [t0; t1] (m4 (named_m (X:=X) w))))]) []
  | d_del k l i a v idx : live D i k l a -> dstep nq D (IDel k i v idx) (D ++ [dnew k l (lift1 (cut v idx) a)]) []
  | d_size k l i a : live D i k l a -> dstep nq D (ISize k i) D [None]
  | d_probs l i a p idx norm : ex X -> live D i KV l (Some a) -> vpath KV l p -> a p <> C0 -> 0 <= idx <= l ->
      dstep nq D (IProbs i idx norm) D [Some (DPr (nrm2 (Z.to_nat (l + 1)) (proj idx 0 a)) (nrm2 (Z.to_nat (l + 1)) (proj idx 1 a)))]
  | d_meas1 l i c a idx norm eps t b : ex X -> nth_error D i = Some (Some (DV KV l (S c) (Some a))) -> 0 <= idx <= l -> l < 128 ->
      (0 < nrm2 (Z.to_nat (l + 1)) a)%R -> (Rabs (nrm2 (Z.to_nat (l + 1)) a - 1) <= toR X eps)%R -> (0 <= toR X t < 1)%R ->
      b = (if Rlt_dec (toR X t) (nrm2 (Z.to_nat (l + 1)) (proj idx 0 a) / nrm2 (Z.to_nat (l + 1)) a) then false else true) ->
      dstep nq D (IMeasOne i idx norm eps t)
        (upde D i pred ++ [Some (DV KV l 1 (Some (fun p => (RtoC (1 / sqrt (nrm2 (Z.to_nat (l + 1)) (proj idx (b2n b) a))) * proj idx (b2n b) a p)%C)))])
        [Some (DB [b])]
  | d_draw l i a p eps ts : ex X -> live D i KV l (Some a) -> vpath KV l p -> a p <> C0 -> (0 <= toR X eps)%R ->
      (Z.to_nat (l + 1) <= length ts)%nat -> Forall (fun t => (0 <= toR X t < 1)%R) ts ->
      dstep nq D (IMeasAll i false eps ts) D [Some (DB (dsample (Z.to_nat (l + 1)) a (map (toR X) ts)))]
  | d_measall l i c a p eps ts bs : ex X -> nth_error D i = Some (Some (DV KV l (S c) (Some a))) -> vpath KV l p -> a p <> C0 -> (0 <= toR X eps)%R ->
      (Z.to_nat (l + 1) <= length ts)%nat -> Forall (fun t => (0 <= toR X t < 1)%R) ts -> bs = dsample (Z.to_nat (l + 1)) a (map (toR X) ts) ->
      dstep nq D (IMeasAll i true eps ts) (kept (upde D i pred) ++ [Some (DV KV l 1 (Some (delta (map b2n bs))))]) [Some (DB bs)]
  | d_anc l i c a anc regular f0 : nth_error D i = Some (Some (DV KM l (S c) a)) -> nq <= Z.of_nat (length anc) -> (length anc <= 128)%nat ->
      (forall f, f0 = Some f -> ex X -> exists h q, a = Some h /\ onlyset anc q /\ sharefree q l h /\ f = mask q (ancbd regular) h) ->
      dstep nq D (IAnc i anc regular) (upde D i pred ++ [Some (DV KM l 1 f0)]) []
  | d_garv l i c a gar : nth_error D i = Some (Some (DV KV l (S c) a)) -> nq <= Z.of_nat (length gar) -> (length gar <= 128)%nat -> nltb n1 (mag2 (@n0 N, @n0 N)) = false ->
      dstep nq D (IGarV i gar) (upde D i pred ++ [Some (DV KV l 1 None)]) []
  | d_garm l i c a gar regular : nth_error D i = Some (Some (DV KM l (S c) a)) -> nq <= Z.of_nat (length gar) -> (length gar <= 128)%nat -> nltb n1 (mag2 (@n0 N, @n0 N)) = false ->
      dstep nq D (IGarM i gar regular) (upde D i pred ++ [Some (DV KM l 1 None)]) []
  | d_ancb l i c h anc regular : ex X -> nth_error D i = Some (Some (DV KM l (S c) (Some h))) -> nq <= Z.of_nat (length anc) -> (length anc <= 128)%nat ->
      flat KM ancP false l h -> dstep nq D (IAnc i anc regular) (upde D i pred ++ [Some (DV KM l 1 (Some (ancT anc regular h)))]) []
  | d_garvb l i c h gar : ex X -> nth_error D i = Some (Some (DV KV l (S c) (Some h))) -> nq <= Z.of_nat (length gar) -> (length gar <= 128)%nat ->
      flat KV (garVP gar) true l h -> dstep nq D (IGarV i gar) (upde D i pred ++ [Some (DV KV l 1 (Some (garVT gar h)))]) []
  | d_garmb l i c h gar regular : ex X -> nth_error D i = Some (Some (DV KM l (S c) (Some h))) -> nq <= Z.of_nat (length gar) -> (length gar <= 128)%nat ->
      flat KM (garMP gar regular) true l h -> dstep nq D (IGarM i gar regular) (upde D i pred ++ [Some (DV KM l 1 (Some (garMT gar regular h)))]) []
  | d_read k fl l f : k <> KD -> ex X -> fileok Cv2 (fun _ => True) nq k fl l f -> dstep nq D (IRead k fl) (D ++ [dnew k l (Some f)]) []
  | d_read0 k w l : ex X -> -1 <= l < nq -> dstep nq D (IRead k (FL w [])) (D ++ [dnew k l (Some (fun _ => C0))]) []
  | d_copy k fl l f : k <> KD -> ex X -> fileok (cvX (X:=X)) (goodX (X:=X)) nq k fl l f -> dstep nq D (ICopy k fl) (D ++ [dnew k l (Some f)]) []
  | d_copy0 k x l : ex X -> goodX (X:=X) x -> l = -1 \/ cvX (X:=X) x = C0 -> -1 <= l < nq ->
      dstep nq D (ICopy k (FL x [])) (D ++ [dnew k l (Some (fun _ => cvX (X:=X) x))]) []
  | d_dzero n : 0 <= n <= nq -> dstep nq D (IDZero n) (D ++ [dnew KD (n - 1) (Some dzero)]) []
  | d_dadd l i j a b : live D i KD l a -> live D j KD l b -> dstep nq D (IDAdd i j) (D ++ [dnew KD l (lift2 dadd a b)]) []
  | d_dmul ka kb l i j a b : ka <> KV -> kb <> KV -> live D i ka l a -> live D j kb l b ->
      dstep nq D (IDMul ka kb i j) (D ++ [dnew KD l (lift2 dmm a b)]) []
  | d_dapply l i j c a b : nth_error D i = Some (Some (DV KD l (S c) a)) -> live D j KM l b ->
      dstep nq D (IDApply i j) (upde D i pred ++ [Some (DV KD l 1 (lift2 dconj b a))]) [].

(** The effect of a program. *)
Inductive druns (nq : Z) : denv -> list (ins N) -> denv -> list (option dout) -> Prop :=
  | dr_nil D : druns nq D [] D []
  | dr_cons D c prog D1 o1 D2 o2 : dstep nq D c D1 o1 -> druns nq D1 prog D2 o2 -> druns nq D (c :: prog) D2 (o1 ++ o2).

(** ** The simulation *)

(** References held by the user. *)
Definition refs1 (p : option dvar * edge) : list (kind * edge) :=
  match fst p with Some v => repeat (dk v, snd p) (dc v) | None => [] end.
(** All references held by the user. *)
Definition refs (D : denv) (V : list edge) : list (kind * edge) := flat_map refs1 (combine D V).

(** A variable holds a stored diagram with the claimed entries. *)
Definition varok s (x : option dvar) (e : edge) : Prop :=
  match x with
  | Some v => -1 <= dl v < s_nq s /\ tedge (co s) (dk v) (dl v) e /\
      (ex X -> forall f, df v = Some f -> forall p, vpath (dk v) (dl v) p -> de (co s) (dk v) e p = f p)
  | None => True
  end.

(** References to table entries that nobody gives back: those of a new table (the entry for
    0.5 has one), none after a reset. *)
Definition pinok (pin : nat -> Z) : Prop := pin = ctpin (g:=g) (ct_init cf) \/ pin = (fun _ => 0).

(** [O]: storage of the temporary numbers the caller holds. *)
Section Tmp.
Context (O : list nat).
(** The package state and its variables agree with dense linear algebra. *)
Record sim (nq : Z) s (V : list edge) (D : denv) : Prop := {
  si_nq : s_nq s = nq;
  si_inv : inv s;
  si_ow : owns (s_cc s) O;
  si_rc : exists pin, pinok pin /\ rcok s pin (refs D V);
  si_var : Forall2 (varok s) D V }.

(** A returned number agrees with dense linear algebra. *)
Definition outok (o : out N) (d : option dout) : Prop :=
  ex X -> match d with
          | None => True
          | Some (DC z) => exists v, o = OC v /\ Cv2 v = z
          | Some (DR x) => exists v, o = OR v /\ toR X v = x
          | Some (DVec n f) => exists v, o = OV v /\ length v = (2 ^ n)%nat /\
              forall p, vpath KV (Z.of_nat n - 1) p -> Cv2 (nth (vidx p) v (n0, n0)) = f p
          | Some (DMat n f) => exists m, o = OM m /\ dimM m (2 ^ n) /\
              forall p, vpath KM (Z.of_nat n - 1) p -> Cv2 (mentry m (ridx p) (cidx p)) = f p
          | Some (DPr x y) => exists u v, o = OP u v /\ toR X u = x /\ toR X v = y
          | Some (DB bs) => o = OB bs
          end.

Lemma zero_path q l c : ex X -> cinv q -> tedge q KM l c -> -1 <= l -> (forall p, vpath KM l p -> de q KM c p = C0) -> ew c = Czero /\ ep c = PTerm.
Proof.
  intros Ex I T Hl H. destruct (ceqb (ew c) Czero) eqn:Z; [apply ceqb_spec in Z; split; auto; now apply T|]. apply ceqb_false in Z. exfalso.
  destruct (dn_nz q KM Ex I (Z.to_nat (l + 1)) l (ep c)) as (p & Vp & Np); [lia|apply (tedge_nt (g:=g) (X:=X)); auto|].
  specialize (H p Vp). unfold Inv.de in H. apply Cmul_integral in H. destruct H as [H|H]; [|contradiction].
  apply Cw_eq0 in H; auto. apply T.
Qed.

Lemma idm_zeros m : idm (repeat 0%nat m) = C1.
Proof. unfold idm. replace (forallb _ (repeat 0%nat m)) with true; auto. symmetry. induction m; auto. Qed.
Lemma vpath_zeros k m : vpath k (Z.of_nat m - 1) (repeat 0%nat m).
Proof. split; [rewrite repeat_length; lia|]. induction m; constructor; auto. destruct k; simpl; lia. Qed.
Lemma idm_cons i p : (i < 4)%nat -> idm (i :: p) = if Nat.eqb i 0 || Nat.eqb i 3 then idm p else C0.
Proof. intros H. unfold idm. cbn [forallb]. destruct (Nat.eqb i 0 || Nat.eqb i 3); auto. Qed.

(** A node cannot denote a multiple of the identity other than the identity. *)
Lemma ident_scale q : ex X -> cinv q -> forall n p c, node_or_term (N:=N) q KM (Z.of_nat n - 1) p ->
  (forall path, vpath KM (Z.of_nat n - 1) path -> dn q KM p path = (c * idm path)%C) -> c = C1.
Proof.
  intros Ex I. induction n as [|m IH]; intros p c Nt H.
  - specialize (H [] (vpath_zeros KM 0)). simpl in H. unfold idm in H. simpl in H. rewrite H. ring.
  - destruct Nt as [Nd|[E _]]; [|lia]. replace (Z.of_nat (S m) - 1) with (Z.of_nat m) in * by lia.
    destruct Nd as [Nd NT]. destruct p as [| |a]; [contradiction|contradiction|]. destruct Nd as [L Nv].
    destruct (linked_ok (g:=g) (nb:=nb) (X:=X) _ _ _ I L) as (b & K & _). rewrite Nv in K.
    assert (Ch: forall i, (i < 4)%nat -> tedge q KM (Z.of_nat m - 1) (nthe (ne (qn q KM a)) i)).
    { intros i Hi. rewrite <- Nv. apply child_ok; auto. }
    assert (D: forall i path, (i < 4)%nat -> vpath KM (Z.of_nat m - 1) path -> de q KM (nthe (ne (qn q KM a)) i) path = (c * idm (i :: path))%C).
    { intros i path Hi Vp. rewrite <- H; [reflexivity|]. apply vpath_cons. split; auto. }
    destruct (no_norm _ _ _ _ _ _ _ _ _ K Ex) as (am & Ham & Wam & _).
    assert (Dg: forall i, (i < 4)%nat -> ew (nthe (ne (qn q KM a)) i) = Cone -> c = C1).
    { intros i Hi Wi. assert (Z1: ew (nthe (ne (qn q KM a)) i) <> Czero) by (rewrite Wi; discriminate).
      pose proof (tedge_nt (g:=g) (X:=X) _ _ _ _ (Ch i Hi) Z1) as Nti.
      destruct (Nat.eqb i 0 || Nat.eqb i 3) eqn:Ei.
      - apply (IH _ c Nti). intros path Vp. specialize (D i path Hi Vp). rewrite idm_cons, Ei in D by auto. rewrite <- D. unfold Inv.de. rewrite Wi, Cw_one by auto. ring.
      - exfalso. destruct (zero_path q (Z.of_nat m - 1) (nthe (ne (qn q KM a)) i)) as [Z _]; auto; [lia|].
        intros path Vp. rewrite D, idm_cons, Ei by auto. ring. }
    eapply Dg; eauto.
Qed.

Lemma kgood_ident q : ex X -> cinv q -> forall n e, tedge q KM (Z.of_nat n - 1) e ->
  (forall path, vpath KM (Z.of_nat n - 1) path -> de q KM e path = idm path) -> kgood N g X q n e.
Proof.
  intros Ex I. induction n as [|m IH]; intros e T H; cbn [kgood]; auto. replace (Z.of_nat (S m) - 1) with (Z.of_nat m) in * by lia.
  assert (W: Cw q (ew e) <> C0).
  { intros W. assert (V: vpath KM (Z.of_nat m) (repeat 0%nat (S m))). { replace (Z.of_nat m) with (Z.of_nat (S m) - 1) by lia. apply vpath_zeros. }
    specialize (H _ V). unfold Inv.de in H. rewrite W, idm_zeros in H. apply C1_neq_0. rewrite <- H. ring. }
  assert (Nt: node_or_term (N:=N) q KM (Z.of_nat m) (ep e)).
  { apply (tedge_nt (g:=g) (X:=X)); auto. intros Z. rewrite Z, Cw_zero in W by auto. now apply W. }
  assert (S1: Cw q (ew e) = C1).
  { assert (E: (C1 / Cw q (ew e))%C = C1).
    { eapply (ident_scale q Ex I (S m) (ep e)). { replace (Z.of_nat (S m) - 1) with (Z.of_nat m) by lia. exact Nt. }
      intros path V. replace (Z.of_nat (S m) - 1) with (Z.of_nat m) in V by lia. rewrite <- (H path V). unfold Inv.de. field. exact W. }
    transitivity (Cw q (ew e) * (C1 / Cw q (ew e)))%C; [rewrite E; ring|field; exact W]. }
  split. { intros _. apply (Cw_eq1 (nb:=nb) (X:=X) q); auto. apply T. }
  destruct (ep e) as [| |a] eqn:Ea; auto. intros i Hi.
  assert (Nv: linked q KM a /\ nv (qn q KM a) = Z.of_nat m). { destruct Nt as [[Nt _]|[Nt _]]; [exact Nt|lia]. } destruct Nv as [L Nv].
  assert (Ch: tedge q KM (Z.of_nat m - 1) (nthe (ne (qn q KM a)) i)) by (rewrite <- Nv; apply child_ok; auto).
  assert (D: forall path, vpath KM (Z.of_nat m - 1) path -> de q KM (nthe (ne (qn q KM a)) i) path = idm (i :: path)).
  { intros path Vp. rewrite <- H. unfold Inv.de. rewrite Ea, dn_cons, S1. unfold Inv.de. ring. apply vpath_cons. split; auto. }
  destruct (Nat.eqb i 0 || Nat.eqb i 3) eqn:Ei.
  - apply IH; auto. intros path Vp. rewrite D, idm_cons, Ei by auto. reflexivity.
  - destruct (zero_path q (Z.of_nat m - 1) (nthe (ne (qn q KM a)) i)) as [Z P]; auto; [lia| |].
    { intros path Vp. now rewrite D, idm_cons, Ei by auto. }
    destruct m as [|m']; cbn [kgood]; auto. rewrite Z, P. split; auto. intros Hd. exfalso.
    assert (V: vpath KM (Z.of_nat m') (1%nat :: repeat 0%nat m')). { apply vpath_cons. split; [simpl; lia|]. apply vpath_zeros. }
    specialize (Hd _ V). rewrite dn_term in Hd. rewrite idm_cons in Hd by lia. cbn in Hd. now apply C1_neq_0.
Qed.

Lemma kgood_noident q : ex X -> cinv q -> forall n e a z, z <> C0 -> tedge q KM (Z.of_nat n - 1) e ->
  (forall path, vpath KM (Z.of_nat n - 1) path -> a path = (z * de q KM e path)%C) -> noident (Z.of_nat n - 1) a -> kgood N g X q n e.
Proof.
  intros Ex I. induction n as [|m IH]; intros e a z Hz T H NI; cbn [kgood]; auto. replace (Z.of_nat (S m) - 1) with (Z.of_nat m) in * by lia.
  assert (W: forall n, ep e = PNode n -> Cw q (ew e) <> C0).
  { intros n En W. apply Cw_eq0 in W; auto; [|apply T]. apply (te_z _ _ _ _ _ _ _ T Ex) in W. congruence. }
  split.
  - intros Hd. exfalso. destruct (ep e) as [| |n] eqn:Ee.
    + destruct T as [T _ _ _]. rewrite Ee in T. contradiction.
    + assert (V: vpath KM (Z.of_nat m) (1%nat :: repeat 0%nat m)). { apply vpath_cons. split; [simpl; lia|]. apply vpath_zeros. }
      specialize (Hd _ V). rewrite dn_term in Hd. rewrite idm_cons in Hd by lia. cbn in Hd. now apply C1_neq_0.
    + apply (NI [] (S m) (z * Cw q (ew e))%C); auto; [simpl; lia|lia|apply Cmul_neq; eauto|].
      intros p Vp. replace (Z.of_nat (S m) - 1) with (Z.of_nat m) in Vp by lia. cbn [app]. rewrite H by auto. unfold Inv.de. rewrite Ee, Hd by auto. ring.
  - destruct (ep e) as [| |n] eqn:Ee; auto. intros i Hi.
    assert (Nv: linked q KM n /\ nv (qn q KM n) = Z.of_nat m). { destruct T as [T _ _ _]. rewrite Ee in T. exact T. } destruct Nv as [L Nv].
    apply (IH _ (fun p => a (i :: p)) (z * Cw q (ew e))%C).
    + apply Cmul_neq; eauto.
    + rewrite <- Nv. apply child_ok; auto.
    + intros p Vp. rewrite H by (apply vpath_cons; split; auto). unfold Inv.de at 1. rewrite Ee, dn_cons. unfold Inv.de. ring.
    + intros pre k z' Hl Hk Fp Hz' Hd. apply (NI (i :: pre) k z'); auto; simpl length; lia.
Qed.

Lemma varok_step O' s s' x e : inv s -> step O' s s' -> varok s x e -> varok s' x e.
Proof.
  intros I S. assert (Nq: s_nq s' = s_nq s) by apply (qe_nq _ _ _ (sp_ext _ _ _ _ _ _ _ S)).
  destruct x as [v|]; cbn; auto. intros (A & B & D). rewrite Nq. split; auto. split; [eapply tedge_ext; [apply S|auto]|].
  intros Ex f Ef p Vp. rewrite (de_step O' s s' (dk v) (dl v)) by auto. eauto.
Qed.
Lemma Forall2_imp {A B} (P Q : A -> B -> Prop) l m : (forall a b, In a l -> P a b -> Q a b) -> Forall2 P l m -> Forall2 Q l m.
Proof. intros H F. induction F; constructor; auto. - apply H; auto. now left. - apply IHF. intros; apply H; auto. now right. Qed.

Lemma F2_len {A B} (P : A -> B -> Prop) l m : Forall2 P l m -> length l = length m.
Proof. intros F. induction F; simpl; auto. Qed.

Lemma sim_step nq s s' V D : sim nq s V D -> step O s s' -> owns (s_cc s') O -> sim nq s' V D.
Proof.
  intros [A B E (pin & Pk & F) H] S Ow. constructor; auto.
  - rewrite <- A. apply (qe_nq _ _ _ (sp_ext _ _ _ _ _ _ _ S)).
  - apply S.
  - exists pin. split; auto. eapply rcok_step; eauto.
  - eapply Forall2_imp; [|exact H]. intros x e _. eapply varok_step; eauto.
Qed.
Lemma combine_snoc {A B} (l : list A) (m : list B) a b : length l = length m -> combine (l ++ [a]) (m ++ [b]) = combine l m ++ [(a, b)].
Proof. revert m. induction l as [|x l IH]; intros [|y m] H; simpl in H; try lia; auto. simpl. rewrite IH by lia. auto. Qed.

Lemma sim_push nq s s' V D k l r f0 : sim nq s V D -> step O s s' -> owns (s_cc s') O -> -1 <= l < nq -> tedge (co s') k l r ->
  (ex X -> forall f, f0 = Some f -> forall p, vpath k l p -> de (co s') k r p = f p) -> sim nq s' (V ++ [r]) (D ++ [dnew k l f0]).
Proof.
  intros S0 S Ow Hl T Hf. pose proof (sim_step _ _ _ _ _ S0 S Ow) as [A B E (pin & Pk & F) H]. constructor; auto.
  - exists pin. split; auto. unfold refs. rewrite combine_snoc, flat_map_app by (eapply F2_len; eauto). cbn [flat_map refs1 fst snd dnew dc repeat app].
    rewrite app_nil_r. exact F.
  - apply Forall2_app; auto. constructor; auto. cbn. rewrite A. auto.
Qed.

Lemma Forall2_nth {A B} (P : A -> B -> Prop) d : forall l m i a, Forall2 P l m -> nth_error l i = Some a -> P a (nth i m d).
Proof.
  intros l m i a F. revert i. induction F as [|x y l m H F IH]; intros [|i] E; simpl in E; try discriminate.
  - injection E as ->. auto.
  - simpl. auto.
Qed.
Lemma sim_live nq s V D i k l a : sim nq s V D -> live D i k l a -> -1 <= l < nq /\ tedge (co s) k l (var V i) /\
  (ex X -> forall f, a = Some f -> forall p, vpath k l p -> de (co s) k (var V i) p = f p).
Proof.
  intros [A B E F H] (c & L). pose proof (Forall2_nth _ Enull _ _ _ _ H L) as K. cbn in K. rewrite A in K. exact K.
Qed.

(** What holds after a call. *)
Definition post nq s0 (D : denv) (os : list (option dout)) (r : list edge * list (out N)) s : Prop :=
  sim nq s (fst r) D /\ Forall2 outok (snd r) os /\ keep N O (s_cc s0) (s_cc s).

Lemma push_sp nq s V D k l f0 (m : M N edge) (al : bad -> Prop) : (forall b, al b -> al1 N g X b) -> sim nq s V D -> -1 <= l < nq ->
  wp al m s (fun r s' => step O s s' /\ owns (s_cc s') O /\ tedge (co s') k l r /\
    (ex X -> forall f, f0 = Some f -> forall p, vpath k l p -> de (co s') k r p = f p)) ->
  wp (al1 N g X) (push N V m) s (post nq s (D ++ [dnew k l f0]) []).
Proof.
  intros Al S Hl H. unfold push. apply wp_bind. eapply wp_mono; [eapply wp_al; [exact H|exact Al]|].
  intros r s' (A & B & E & F). apply wp_ret. split; [|split; [constructor|apply A]]. eapply sim_push; eauto.
Qed.
Lemma al01 b : al0 b -> al1 N g X b.
Proof. intros [A B]. split; auto. Qed.

Lemma vpath_split k lx ly p : -1 <= lx -> -1 <= ly -> vpath k (lx + ly + 1) p ->
  vpath k lx (firstn (Z.to_nat (lx + 1)) p) /\ vpath k ly (skipn (Z.to_nat (lx + 1)) p).
Proof.
  intros Hx Hy [A B]. split; split.
  - rewrite firstn_length. lia.
  - rewrite <- (firstn_skipn (Z.to_nat (lx + 1)) p) in B. now apply Forall_app in B.
  - rewrite skipn_length. lia.
  - rewrite <- (firstn_skipn (Z.to_nat (lx + 1)) p) in B. now apply Forall_app in B.
Qed.

Lemma vpath_mp l rs cs : vpath KV l rs -> vpath KV l cs -> vpath KM l (mp rs cs).
Proof.
  revert l cs. induction rs as [|r rs IH]; intros l [|c cs] V W.
  - destruct V as [V1 V2]. split; [exact V1|constructor].
  - destruct V, W. cbn [length] in *. lia.
  - destruct V, W. cbn [length] in *. lia.
  - apply vpath_cons in V. apply vpath_cons in W. destruct V as [V1 V2], W as [W1 W2]. cbn [mp]. apply vpath_cons. split; [simpl in *; lia|auto].
Qed.
Lemma bits_vpath l cs : -1 <= l -> In cs (bits (Z.to_nat (l + 1))) -> vpath KV l cs.
Proof. intros Hl H. apply bits_In in H. destruct H as [A B]. split; auto. lia. Qed.

Lemma kron_sp nq s V D k lx ly i j a b f0 : k <> KD -> sim nq s V D -> lx + ly + 1 < nq -> live D i k lx a -> live D j k ly b ->
  (ex X -> forall f, f0 = Some f -> kx (g:=g) (X:=X) k (co s) lx (var V i) /\
     exists fa fb, a = Some fa /\ b = Some fb /\ forall p, f p = dkron lx fa fb p) ->
  wp (al1 N g X) (push N V (kronecker N g nb k (var V i) (var V j) true)) s (post nq s (D ++ [dnew k (lx + ly + 1) f0]) []).
Proof.
  intros Hk S Hl Li Lj Hf. destruct (sim_live _ _ _ _ _ _ _ _ S Li) as (A1 & A2 & A3). destruct (sim_live _ _ _ _ _ _ _ _ S Lj) as (B1 & B2 & B3).
  pose proof S as [Q I Ow _ _].
  apply (push_sp nq s V D k (lx + ly + 1) f0 _ (al1 N g X)); auto; [lia|].
  eapply wp_mono; [apply (kronecker_sp (g:=g) (nb:=nb) (X:=X) G s O k lx ly); auto; try lia|].
  intros r s' (S' & O' & T' & V'). split; auto. split; auto. split; auto. intros Ex f Ef p Vp.
  destruct (Hf Ex f Ef) as (Kx & fa & fb & Ea & Eb & Ff). destruct (vpath_split k lx ly p) as [V1 V2]; auto; [lia|lia|].
  rewrite Ff. unfold dkron. rewrite <- (A3 Ex fa Ea), <- (B3 Ex fb Eb) by auto. rewrite <- V'; auto. now rewrite firstn_skipn.
Qed.

Lemma refs_S : forall D V i k l c a, length D = length V -> nth_error D i = Some (Some (DV k l c a)) ->
  Permutation ((k, var V i) :: refs D V) (refs (upde D i S) V).
Proof.
  unfold refs. induction D as [|x D IH]; intros [|e V] [|i] k l c a L E; simpl in L, E; try discriminate; try lia.
  - injection E as ->. cbn. apply Permutation_refl.
  - cbn [combine flat_map var nth]. specialize (IH V i k l c a ltac:(lia) E).
    assert (U: upde (x :: D) (S i) S = x :: upde D i S) by (destruct x; auto). rewrite U.
    cbn [combine flat_map]. eapply Permutation_trans; [apply Permutation_middle|]. now apply Permutation_app_head.
Qed.
Lemma upde_nth : forall D i c v, nth_error D i = Some (Some v) -> nth_error (upde D i c) i = Some (Some (DV (dk v) (dl v) (c (dc v)) (df v))).
Proof. induction D as [|x D IH]; intros [|i] c v E; simpl in E; try discriminate. - injection E as ->. reflexivity. - destruct x; cbn; auto. Qed.
Lemma upde_upde : forall D i c d, upde (upde D i c) i d = upde D i (fun n => d (c n)).
Proof. induction D as [|[v|] D IH]; intros [|i] c d; cbn; auto; now rewrite IH. Qed.
Lemma upde_id : forall D i c v, nth_error D i = Some (Some v) -> c (dc v) = dc v -> upde D i c = D.
Proof.
  induction D as [|x D IH]; intros [|i] c v E H; simpl in E; try discriminate.
  - injection E as ->. cbn. rewrite H. now destruct v.
  - destruct x; cbn; f_equal; eapply IH; eauto.
Qed.
Lemma refs_pred D V i k l c a : length D = length V -> nth_error D i = Some (Some (DV k l (S c) a)) ->
  Permutation (refs D V) ((k, var V i) :: refs (upde D i pred) V).
Proof.
  intros L E. pose proof (upde_nth D i pred _ E) as E'. cbn in E'.
  assert (L': length (upde D i pred) = length V). { rewrite <- L. clear. revert i. induction D as [|[v|] D IH]; intros [|i]; cbn; auto. }
  pose proof (refs_S _ _ _ _ _ _ _ L' E') as P. rewrite upde_upde in P. rewrite (upde_id D i (fun n => S (pred n)) _ E) in P by reflexivity.
  now apply Permutation_sym.
Qed.
Lemma upde_F2 s D V i c : Forall2 (varok s) D V -> Forall2 (varok s) (upde D i c) V.
Proof.
  intros F. revert i. induction F as [|x e D V H F IH]; intros [|i]; cbn; auto.
  - destruct x; constructor; auto.
  - destruct x; constructor; auto.
Qed.
Lemma varok_rst s s' x e : rst (nb:=nb) (X:=X) s s' -> varok s x e -> varok s' x e.
Proof.
  intros [A _ _ _ _ _ _]. assert (Q: s_nq s' = s_nq s) by apply (rs_nq _ _ A). destruct x as [v|]; cbn; auto.
  intros (B & D & E). rewrite Q. split; auto. split; [eapply (rs_tedge (nb:=nb)); eauto|]. intros Ex f Ef p Vp. rewrite (rs_de (g:=g) (X:=X) (co s) (co s') A). eauto.
Qed.

Lemma proj_sum n idx a : 0 <= idx < Z.of_nat n -> (nrm2 n (proj idx 0 a) + nrm2 n (proj idx 1 a))%R = nrm2 n a.
Proof.
  intros H. unfold nrm2.
  assert (E: forall p, In p (bits n) -> (Cmag2 (proj idx 0 a p) + Cmag2 (proj idx 1 a p))%R = Cmag2 (a p)).
  { intros p Hp. apply bits_In in Hp. destruct Hp as [L F]. unfold proj.
    assert (B: (dig idx p < 2)%nat) by (unfold dig; rewrite Forall_forall in F; apply F, nth_In; lia).
    destruct (dig idx p) as [|[|d]]; try lia; cbn [Nat.eqb]; rewrite Cmag2_0; ring. }
  induction (bits n) as [|p l IH]; cbn [map fold_right]; [ring|].
  assert (E1: (Cmag2 (proj idx 0 a p) + Cmag2 (proj idx 1 a p))%R = Cmag2 (a p)) by (apply E; now left).
  assert (E2 := IH (fun q Hq => E q (or_intror Hq))). lra.
Qed.
Lemma inc_sim nq s V D i k l c a : sim nq s V D -> nth_error D i = Some (Some (DV k l c a)) ->
  exists s', incRef N k (var V i) s = Ok tt s' /\ sim nq s' V (upde D i S) /\ keep N O (s_cc s) (s_cc s').
Proof.
  intros S H. pose proof S as [Q I Ow (pin & Pk & RC) VO]. destruct (sim_live _ _ _ _ _ _ _ _ S (ex_intro _ c H)) as (A1 & A2 & A3).
  destruct (incRef_sp G s k l (var V i) pin (refs D V) I A2 RC) as (s' & E & R' & RC').
  exists s'. split; auto. split; [|intros x _; now rewrite (rt_cc _ _ R')]. constructor.
  + rewrite <- Q. apply (rs_nq _ _ (rt_same _ _ R')).
  + apply R'.
  + now rewrite (rt_cc _ _ R').
  + exists pin. split; auto. eapply rcok_perm; [|exact RC']. eapply refs_S; eauto. eapply F2_len; eauto.
  + apply upde_F2. eapply Forall2_imp; [|exact VO]. intros x e _. now apply varok_rst.
Qed.
Lemma dec_sim nq s V D i k l c a : sim nq s V D -> nth_error D i = Some (Some (DV k l (S c) a)) ->
  exists s', decRef N k (var V i) s = Ok tt s' /\ sim nq s' V (upde D i pred) /\ keep N O (s_cc s) (s_cc s').
Proof.
  intros S H. pose proof S as [Q I Ow (pin & Pk & RC) VO]. destruct (sim_live _ _ _ _ _ _ _ _ S (ex_intro _ (Datatypes.S c) H)) as (A1 & A2 & A3).
  assert (RC1: rcok s pin ((k, var V i) :: refs (upde D i pred) V)).
  { eapply rcok_perm; [|exact RC]. eapply refs_pred; eauto. eapply F2_len; eauto. }
  destruct (decRef_sp G s k l (var V i) pin _ I A2 RC1) as (s' & E & R' & RC').
  exists s'. split; auto. split; [|intros x _; now rewrite (rt_cc _ _ R')]. constructor.
  + rewrite <- Q. apply (rs_nq _ _ (rt_same _ _ R')).
  + apply R'.
  + now rewrite (rt_cc _ _ R').
  + exists pin. auto.
  + apply upde_F2. eapply Forall2_imp; [|exact VO]. intros x e _. now apply varok_rst.
Qed.
Lemma upde_len : forall D i c, length (upde D i c) = length D.
Proof. induction D as [|[v|] D IH]; intros [|i] c; cbn; auto. Qed.
Lemma upde_app : forall D i c x, (i < length D)%nat -> upde (D ++ [x]) i c = upde D i c ++ [x].
Proof. induction D as [|[v|] D IH]; intros [|i] c x H; cbn [length] in H; try lia; cbn; auto; now rewrite IH by lia. Qed.
Lemma upde_last : forall D v c, upde (D ++ [Some v]) (length D) c = D ++ [Some (DV (dk v) (dl v) (c (dc v)) (df v))].
Proof. induction D as [|[u|] D IH]; intros v c; cbn; auto; now rewrite IH. Qed.
Lemma var_app V e i : (i < length V)%nat -> var (V ++ [e]) i = var V i.
Proof. intros H. unfold var. now apply app_nth1. Qed.
Lemma var_last V e : var (V ++ [e]) (length V) = e.
Proof. unfold var. rewrite app_nth2, Nat.sub_diag by lia. reflexivity. Qed.

Lemma gc_sim nq s V D force : sim nq s V D ->
  exists b s', garbageCollect N g nb force s = Ok b s' /\ sim nq s' V (kept D) /\ keep N O (s_cc s) (s_cc s').
Proof.
  intros S. pose proof S as [Q I Ow (pin & Pk & RC) VO].
  destruct (gc_sp (g:=g) (nb:=nb) (X:=X) G force s I (rcok_rcact _ _ _ I RC)) as (b & s' & E & GS & _).
  exists b, s'. split; auto. split; [|intros x _; now rewrite (gs_cc _ _ GS)].
  unfold kept. set (F := fun x : option dvar => match x with Some v => if Nat.eqb (dc v) 0 then None else Some v | None => None end).
  assert (RE: refs (map F D) V = refs D V).
  { clear. unfold refs. revert V. induction D as [|x D IH]; intros [|e V]; cbn [map combine flat_map]; auto. rewrite IH. f_equal.
    destruct x as [v|]; cbn; auto. destruct (Nat.eqb (dc v) 0) eqn:Z; auto. apply Nat.eqb_eq in Z. unfold refs1. cbn. now rewrite Z. }
  constructor.
  + rewrite <- Q. apply (gs_same _ _ GS).
  + apply GS.
  + now rewrite (gs_cc _ _ GS).
  + exists pin. split; auto. rewrite RE. eapply rcok_gc; eauto.
  + assert (Sub: forall x e, In (x, e) (combine D V) -> varok s x e -> varok s' (F x) e).
    { intros x e Hin Hv. destruct x as [v|]; cbn; auto. destruct (Nat.eqb (dc v) 0) eqn:Z; cbn; auto. apply Nat.eqb_neq in Z.
      destruct Hv as (B1 & B2 & B3). assert (Q': s_nq s' = s_nq s) by apply (gs_same _ _ GS). rewrite Q'. split; auto.
      destruct (rcok_prot s pin (refs D V) (dk v) (dl v) e I RC) as [P1 P2]; auto.
      { unfold refs. apply in_flat_map. exists (Some v, e). split; auto. unfold refs1. cbn. destruct (dc v); [lia|]. now left. }
      split; [eapply (gs_edge _ _ GS); eauto|]. intros Ex f Ef p Vp. rewrite (qs_de (co s) (co s')); auto. apply GS. }
    clear RE. clear -VO Sub. induction VO as [|x e D V H VO IH]; cbn; constructor.
    * apply Sub; auto. now left.
    * apply IH. intros; apply Sub; auto. now right.
Qed.

Lemma nz_lvl s k l e (f : list nat -> C) p : ex X -> inv s -> tedge (co s) k l e -> (forall p, vpath k l p -> de (co s) k e p = f p) -> vpath k l p -> f p <> C0 ->
  lvl s k (ep e) = l /\ (0 <= l -> ep e <> PTerm).
Proof.
  intros Ex I T H Vp Np. rewrite <- H in Np by auto.
  assert (Z: ew e <> Czero). { intros Z. apply Np. unfold Inv.de. rewrite Z, Cw_zero by auto. ring. }
  destruct (tedge_nt (g:=g) (X:=X) _ _ _ _ T Z) as [[A B]|[A B]].
  - destruct (ep e) as [| |n]; [contradiction|contradiction|]. split; [apply A|discriminate].
  - rewrite B in *. split; [auto|lia].
Qed.

Lemma Forall2_in_l {A B} (P : A -> B -> Prop) l m a : Forall2 P l m -> In a l -> exists b, In b m /\ P a b.
Proof. intros F. induction F; intros Hi; [destruct Hi|]. destruct Hi as [->|Hi]; [exists y; split; [now left|auto]|]. destruct (IHF Hi) as (b & B1 & B2). exists b. split; [now right|auto]. Qed.
Lemma lifts_nth D k l : forall js fs gs, Forall2 (fun j f => live D j k l f) js fs -> lifts fs = Some gs ->
  forall i, (i < length js)%nat -> forall V, exists j f, nthe (map (var V) js) i = var V j /\ nth i gs (fun _ => C0) = f /\ live D j k l (Some f).
Proof.
  intros js fs gs F. revert gs. induction F as [|j f js fs L F IH]; intros gs E i Hi V; [simpl in Hi; lia|].
  cbn [lifts] in E. destruct f as [f|]; [|discriminate]. destruct (lifts fs) as [gs'|]; [|discriminate]. injection E as <-.
  destruct i as [|i]; [exists j, f; auto|]. destruct (IH gs' eq_refl i) with (V:=V) as (j' & f' & A & B & E); [simpl in Hi; lia|].
  exists j', f'. auto.
Qed.

Lemma strpath_vpath k l els : -1 <= l -> (forall v, 0 <= v <= l -> exists d, nth_error els (Z.to_nat v) = Some d /\ (d < arity k)%nat) -> vpath k l (strpath l els).
Proof.
  intros Hl H. assert (K: forall n, Z.of_nat n - 1 <= l -> vpath k (Z.of_nat n - 1) (strpath (Z.of_nat n - 1) els)).
  { induction n as [|m IH]; intros Hn; [rewrite strpath_m1; split; auto|]. destruct (H (Z.of_nat m)) as (d & E & Hd); [lia|].
    replace (Z.of_nat (S m) - 1) with (Z.of_nat m) by lia. rewrite (strpath_cons _ _ d) by (auto; lia). apply vpath_cons. split; auto. apply IH. lia. }
  specialize (K (Z.to_nat (l + 1))). replace (Z.of_nat (Z.to_nat (l + 1)) - 1) with l in K by lia. apply K. lia.
Qed.

(** The entry points of the reductions exchange the reference held to the argument for one to the result. *)
Lemma red_sim nq s V D k i l c a pst cap b f0 : sim nq s V D -> nth_error D i = Some (Some (DV k l (S c) a)) -> (length b <= 128)%nat ->
  (forall q, firstSet b = Some q -> wp al0 (redF N g nb (fuelof N s) k pst cap (Z.of_nat q) (var V i)) s
     (fun r s' => step O s s' /\ owns (s_cc s') O /\ tedge (co s') k l r /\ (ex X -> forall f, f0 = Some f -> forall p, vpath k l p -> de (co s') k r p = f p))) ->
  (firstSet b = None \/ (exists q, firstSet b = Some q /\ lvl s k (ep (var V i)) < Z.of_nat q) -> ex X -> forall f, f0 = Some f -> forall p, vpath k l p -> de (co s) k (var V i) p = f p) ->
  wp (al1 N g X) (push N V (redTop N g nb k pst cap b (var V i))) s (post nq s (upde D i pred ++ [Some (DV k l 1 f0)]) []).
Proof.
  intros S E0 Lb Rec Unch. pose proof S as [Q I Ow (pin & Pk & RC) VO].
  assert (LD: (i < length D)%nat) by (apply nth_error_Some; now rewrite E0). assert (LV: length D = length V) by (eapply F2_len; eauto).
  destruct (sim_live _ _ _ _ _ _ _ _ S (ex_intro _ (Datatypes.S c) E0)) as (A1 & A2 & A3).
  assert (Same: (ex X -> forall f, f0 = Some f -> forall p, vpath k l p -> de (co s) k (var V i) p = f p) ->
     sim nq s (V ++ [var V i]) (upde D i pred ++ [Some (DV k l 1 f0)])).
  { intros Hf. constructor; auto.
    - exists pin. split; auto. eapply rcok_perm; [|exact RC]. eapply Permutation_trans; [apply (refs_pred D V i k l c a); auto|].
      unfold refs. rewrite combine_snoc by (rewrite upde_len; auto). rewrite flat_map_app. cbn [flat_map refs1 fst snd dk dc repeat app].
      apply Permutation_cons_append.
    - apply Forall2_app; [now apply upde_F2|]. constructor; [|constructor]. cbn. rewrite Q. auto. }
  unfold push, redTop. apply wp_bind.
  destruct (firstSet b) as [q|] eqn:Eq.
  - destruct (firstSet_some _ _ Eq) as [Hq _]. rewrite int8_small by lia.
    pose proof (te_n _ _ _ _ _ _ _ A2) as Tn.
    assert (Main: wp (al1 N g X) (fun s0 => if lvl s0 k (ep (var V i)) <? Z.of_nat q then Ok (var V i) s0
        else (let* f := redF N g nb (fuelof N s0) k pst cap (Z.of_nat q) (var V i) in decRef N k (var V i) ;;; incRef N k f ;;; ret f) s0) s
      (fun r s' => wp (al1 N g X) (ret (V ++ [r], [])) s' (post nq s (upde D i pred ++ [Some (DV k l 1 f0)]) []))).
    { destruct (Z.ltb_spec (lvl s k (ep (var V i))) (Z.of_nat q)) as [Lt|Ge].
      - eapply wp_eq; [cbv beta; rewrite (proj2 (Z.ltb_lt _ _) Lt); instantiate (1 := ret (var V i)); reflexivity|]. apply wp_ret. apply wp_ret.
        split; [|split; [constructor|intros z _; auto]]. apply Same. intros Ex f Ef p Vp. apply (Unch (or_intror (ex_intro _ q (conj eq_refl Lt))) Ex); auto.
      - eapply wp_eq; [cbv beta; rewrite (proj2 (Z.ltb_ge _ _) Ge); reflexivity|]. apply wp_bind.
        eapply wp_mono; [eapply wp_al; [apply (Rec q eq_refl)|exact al01]|]. intros r s1 (St & O1 & T1 & V1).
        assert (S1: sim nq s1 (V ++ [r]) (D ++ [dnew k l f0])) by (eapply sim_push; eauto).
        destruct (dec_sim nq s1 _ _ i k l c a S1) as (s2 & E2 & S2 & K2). { rewrite nth_error_app1 by lia. exact E0. }
        rewrite upde_app in S2 by lia. rewrite var_app in E2 by lia.
        destruct (inc_sim nq s2 _ _ (length D) k l 0%nat f0 S2) as (s3 & E3 & S3 & K3).
        { rewrite nth_error_app2, upde_len, Nat.sub_diag by (rewrite upde_len; lia). reflexivity. }
        unfold dnew in S3. rewrite <- (upde_len D i pred), upde_last in S3. cbn [dk dl dc df] in S3. rewrite LV, var_last in E3.
        eapply wp_bind_ok; [exact E2|]. eapply wp_bind_ok; [exact E3|]. apply wp_ret. apply wp_ret. split; [exact S3|]. split; [constructor|].
        intros z Hz. cbn [fst snd]. rewrite K3, K2 by auto. apply St; auto. }
    destruct (ep (var V i)) eqn:Ee; [contradiction| |]; exact Main.
  - apply wp_ret. apply wp_ret. split; [|split; [constructor|intros z _; auto]]. apply Same. intros Ex f Ef p Vp. apply (Unch (or_introl eq_refl) Ex); auto.
Qed.

Lemma psum_dmm l x y a b p : (forall q, vpath KM l q -> x q = a q) -> (forall q, vpath KM l q -> y q = b q) -> vpath KM l p -> psum KM x y p = dmm a b p.
Proof.
  intros Ha Hb Vp. destruct (mp_rc l p Vp) as (E & Vr & Vc). rewrite <- E at 1. rewrite psum_KM; [|destruct Vr as [Lr _], Vc as [Lc _]; lia|apply Vc].
  unfold dmm. rewrite (InvL.vpath_len _ _ _ Vp), (InvL.vpath_len _ _ _ Vr). apply Csum_ext. intros ks Hk. apply bits_vpath in Hk; [|destruct Vp; lia].
  rewrite Ha, Hb; auto; now apply vpath_mp.
Qed.
Lemma dmm_ext l x y a b p : (forall q, vpath KM l q -> x q = a q) -> (forall q, vpath KM l q -> y q = b q) -> vpath KM l p -> dmm x y p = dmm a b p.
Proof. intros Ha Hb Vp. rewrite <- (psum_dmm l x y x y p); auto. apply (psum_dmm l); auto. Qed.
Lemma dopd_ok q k l e : k <> KV -> tedge q k l e -> htedge (g:=g) (X:=X) q l (dopd k e) /\ hde (g:=g) (X:=X) q (dopd k e) = de q k e.
Proof. intros Hk T. destruct k; [contradiction| |]; unfold htedge, hde, hed, hkd; cbn [dopd hmat hden hp hk hw hdp]; destruct e; auto. Qed.

Lemma exec_sp nq s V D c D' os : (c = IReset -> O = []) -> sim nq s V D -> dstep nq D c D' os -> wp (al1 N g X) (exec N g nb c V) s (post nq s D' os).
Proof.
  intros Rs S H. pose proof S as [Q I Ow (pin & Pk & RC) VO]. destruct H; cbn [exec].
  - apply (push_sp nq s V D KV (n - 1) _ _ al0 al01); auto; [lia|].
    eapply wp_mono; [apply (makeZeroState_sp (g:=g) (nb:=nb) (X:=X) G s O n); auto; lia|].
    intros r s' (A & B & T & E). split; auto. split; auto. split; auto. intros Ex f [= <-] p Vp.
    destruct (E Ex) as [W Dn]. unfold Inv.de. rewrite W, Cw_one, Dn by auto. ring.
  - apply (push_sp nq s V D KV (n - 1) _ _ al0 al01); auto; [lia|].
    eapply wp_mono; [apply (makeBasisState_sp (g:=g) (nb:=nb) (X:=X) G s O n); auto; lia|].
    intros r s' (A & B & T & E). split; auto. split; auto. split; auto. intros Ex f [= <-] p Vp.
    destruct (E Ex) as [W Dn]. unfold Inv.de. rewrite W, Cw_one, Dn by auto. ring.
  - apply (push_sp nq s V D KV (n - 1) _ _ al0 al01); auto; [lia|].
    eapply wp_mono; [apply (makeBasisStateB_sp (g:=g) (nb:=nb) (X:=X) G s O n); auto; lia|].
    intros r s' (A & B & T & E). split; auto. split; auto. split; auto. intros Ex f [= <-] p Vp.
    destruct (E Ex) as [W Dn]. unfold Inv.de. rewrite W, Cw_one, Dn by auto. ring.
  - apply (push_sp nq s V D KV (Z.of_nat lv - 1) _ _ al0 al01); auto; [lia|].
    eapply wp_mono; [apply (makeStateFromVector_sp (g:=g) (nb:=nb) (X:=X) G lv v s O); auto; lia|].
    intros r s' (A & B & T & E). split; auto. split; auto. split; auto. intros Ex f [= <-] p Vp. auto.
  - apply (push_sp nq s V D KM (Z.of_nat lv - 1) _ _ al0 al01); auto; [lia|].
    eapply wp_mono; [apply (makeDDFromMatrix_sp (g:=g) (nb:=nb) (X:=X) G lv m s O); auto; lia|].
    intros r s' (A & B & T & E). split; auto. split; auto. split; auto. intros Ex f [= <-] p Vp. auto.
  - apply (push_sp nq s V D KM msq _ _ al0 al01); auto.
    eapply wp_mono; [apply (makeIdent_sp (g:=g) (nb:=nb) (X:=X) G s O msq); auto; lia|].
    intros r s' (A & B & T & _ & E). split; auto. split; auto. split; auto. intros Ex f [= <-] p Vp.
    destruct (E Ex) as [W Dn]. unfold Inv.de. rewrite W, Cw_one, Dn by auto. ring.
  - destruct (sim_live _ _ _ _ _ _ _ _ S H0) as (A1 & A2 & A3). destruct (sim_live _ _ _ _ _ _ _ _ S H1) as (B1 & B2 & B3).
    apply (push_sp nq s V D k l _ _ al0 al01); auto.
    eapply wp_mono; [apply (add_sp (g:=g) (nb:=nb) (X:=X) G s O k l); auto; [lia|now apply tedge_gedge|now apply tedge_gedge]|].
    intros r s' (O' & S' & T' & V'). split; auto. split; auto. split; auto. intros Ex f Ef p Vp.
    destruct a as [fa|], b as [fb|]; try discriminate. injection Ef as <-. rewrite V' by auto. unfold dadd.
    rewrite <- (A3 Ex fa eq_refl), <- (B3 Ex fb eq_refl) by auto. unfold Inv.dg, Inv.de. rewrite !Cv_Cw; auto; [apply B2|apply A2].
  - destruct (sim_live _ _ _ _ _ _ _ _ S H0) as (A1 & A2 & A3). destruct (sim_live _ _ _ _ _ _ _ _ S H1) as (B1 & B2 & B3).
    apply (push_sp nq s V D k l _ _ al0 al01); auto.
    eapply wp_mono; [apply (multiply_sp (g:=g) (nb:=nb) (X:=X) G s O k l); auto; lia|].
    intros r s' (O' & S' & T' & V'). split; auto. split; auto. split; auto. intros Ex f Ef p Vp.
    destruct a as [fa|], b as [fb|]; try discriminate. injection Ef as <-. specialize (V' Ex).
    destruct k; [| |contradiction].
    + apply (mvsem_psem (g:=g) (X:=X)) in V'. rewrite V' by auto. cbn [dmul]. unfold dmv. apply Csum_ext. intros cs Hc.
      rewrite (InvL.vpath_len _ _ _ Vp) in Hc. apply bits_vpath in Hc; [|lia]. rewrite (A3 Ex fa eq_refl), (B3 Ex fb eq_refl); auto. now apply vpath_mp.
    + apply (mmsem_psem (g:=g) (X:=X)) in V'. destruct (mp_rc l p Vp) as (E & Vr & Vc). rewrite <- E at 1. rewrite V' by auto. cbn [dmul]. unfold dmm.
      rewrite (InvL.vpath_len _ _ _ Vp), (InvL.vpath_len _ _ _ Vr). apply Csum_ext. intros cs Hc.
      apply bits_vpath in Hc; [|lia]. rewrite (A3 Ex fa eq_refl), (B3 Ex fb eq_refl); auto; now apply vpath_mp.
  - apply (kron_sp nq s V D KV lx ly i j a b); auto; [discriminate|]. intros Ex f Ef. split; [discriminate|].
    destruct a as [fa|], b as [fb|]; try discriminate. injection Ef as <-. eauto.
  - apply (kron_sp nq s V D KM lx ly i j (Some a) b); auto; [discriminate|]. intros Ex f Ef.
    destruct b as [fb|]; try discriminate. injection Ef as <-. split; [|eauto]. intros _.
    destruct (sim_live _ _ _ _ _ _ _ _ S H0) as (A1 & A2 & A3).
    assert (A2': tedge (co s) KM (Z.of_nat (Z.to_nat (lx + 1)) - 1) (var V i)). { replace (Z.of_nat (Z.to_nat (lx + 1)) - 1) with lx by lia. exact A2. }
    destruct H2 as [NI|Id].
    + apply (kgood_noident (co s) Ex (iv_c _ _ _ _ _ I) _ _ a C1); auto; [apply C1_neq_0| |]; replace (Z.of_nat (Z.to_nat (lx + 1)) - 1) with lx by lia; auto.
      intros p Vp. rewrite (A3 Ex a eq_refl) by auto. ring.
    + apply (kgood_ident (co s) Ex (iv_c _ _ _ _ _ I)); auto. replace (Z.of_nat (Z.to_nat (lx + 1)) - 1) with lx by lia.
      intros p Vp. rewrite (A3 Ex a eq_refl) by auto. auto.
  - apply (kron_sp nq s V D KM lx ly i j a b); auto; discriminate.
  - destruct (sim_live _ _ _ _ _ _ _ _ S H) as (A1 & A2 & A3).
    apply (push_sp nq s V D KM l _ _ al0 al01); auto.
    eapply wp_mono; [apply (transpose_sp (g:=g) (nb:=nb) (X:=X) G l (proj1 A1) s O (var V i) I Ow A2)|].
    intros r s' (S' & O' & T' & V'). split; auto. split; auto. split; auto. intros Ex f Ef p Vp.
    destruct a as [fa|]; try discriminate. injection Ef as <-. pose proof (vpath_tr4 _ _ Vp) as Vt. specialize (V' Ex _ Vt).
    rewrite map_map in V'. erewrite map_ext in V'; [rewrite map_id in V'|intros; apply tr4_tr4]. rewrite V'. cbn [uval]. unfold dtr. apply A3; auto.
  - destruct (sim_live _ _ _ _ _ _ _ _ S H) as (A1 & A2 & A3).
    apply (push_sp nq s V D KM l _ _ al0 al01); auto.
    eapply wp_mono; [apply (conjTrans_sp (g:=g) (nb:=nb) (X:=X) G l (proj1 A1) s O (var V i) I Ow A2)|].
    intros r s' (S' & O' & T' & V'). split; auto. split; auto. split; auto. intros Ex f Ef p Vp.
    destruct a as [fa|]; try discriminate. injection Ef as <-. pose proof (vpath_tr4 _ _ Vp) as Vt. specialize (V' Ex _ Vt).
    rewrite map_map in V'. erewrite map_ext in V'; [rewrite map_id in V'|intros; apply tr4_tr4]. rewrite V'. cbn [uval]. unfold dct. f_equal. apply A3; auto.
  - destruct (sim_live _ _ _ _ _ _ _ _ S H) as (A1 & A2 & A3).
    pose proof (ntrue_le (elimtop elim n)) as NL. rewrite elimtop_len in NL by auto.
    apply (push_sp nq s V D KM (Z.of_nat (n - ntrue (elimtop elim n)) - 1) _ _ al0 al01); auto; [lia|].
    eapply wp_mono; [apply (partialTrace_sp (g:=g) (nb:=nb) (X:=X) G elim n s O); auto; lia|].
    intros r s' (O' & S' & T' & V'). split; auto. split; auto. split; auto. intros Ex f Ef p Vp.
    destruct a as [fa|]; try discriminate. injection Ef as <-.
    assert (Vp': vpath KM (Z.of_nat (length (elimtop elim n) - ntrue (elimtop elim n)) - 1) p) by (rewrite elimtop_len by auto; exact Vp).
    rewrite (V' Ex p Vp'). unfold dptr. apply Csum_ext. intros bs Hb. apply bits_In in Hb. destruct Hb as [Hb1 Hb2]. apply A3; auto.
    pose proof (fill_vpath (elimtop elim n) bs p Hb1 Hb2 Vp') as F. rewrite elimtop_len in F by lia. exact F.
  - destruct (sim_live _ _ _ _ _ _ _ _ S H) as (A1 & A2 & A3). destruct (sim_live _ _ _ _ _ _ _ _ S H0) as (B1 & B2 & B3).
    destruct (innerProduct_sp (g:=g) (nb:=nb) (X:=X) G s O l (var V i) (var V j)) as (v & s' & E & S' & O' & V'); auto; [lia|].
    unfold emit. eapply wp_bind_ok; [exact E|]. apply wp_ret. split; [eapply sim_step; eauto|]. split; [|apply S']. constructor; auto. intros Ex.
    destruct a as [fa|], b as [fb|]; cbn; auto. exists v. split; auto. rewrite V' by auto. unfold ipsem, dinner. apply Csum_ext.
    intros cs Hc. apply bits_vpath in Hc; [|lia]. rewrite (A3 Ex fa eq_refl), (B3 Ex fb eq_refl); auto.
  - destruct (sim_live _ _ _ _ _ _ _ _ S H) as (A1 & A2 & A3). destruct (sim_live _ _ _ _ _ _ _ _ S H0) as (B1 & B2 & B3).
    destruct (fidelity_sp (g:=g) (nb:=nb) (X:=X) G s O l (var V i) (var V j)) as (v & s' & E & S' & O' & V'); auto; [lia|].
    unfold emit. eapply wp_bind_ok; [exact E|]. apply wp_ret. split; [eapply sim_step; eauto|]. split; [|apply S']. constructor; auto. intros Ex.
    destruct a as [fa|], b as [fb|]; cbn; auto. exists v. split; auto. rewrite V' by auto. f_equal. unfold ipsem, dinner. apply Csum_ext.
    intros cs Hc. apply bits_vpath in Hc; [|lia]. rewrite (A3 Ex fa eq_refl), (B3 Ex fb eq_refl); auto.
  - destruct (sim_live _ _ _ _ _ _ _ _ S H) as (A1 & A2 & A3).
    unfold emit. apply wp_bind. eapply wp_mono; [eapply wp_al; [apply (trace_sp (g:=g) (nb:=nb) (X:=X) G n s O); auto; lia|apply al01]|].
    intros v s' (O' & S' & V'). apply wp_ret. split; [eapply sim_step; eauto|]. split; [|apply S']. constructor; auto. intros Ex.
    destruct a as [fa|]; cbn; auto. exists v. split; auto. rewrite V' by auto. unfold dtrace. apply Csum_ext. intros bs Hb.
    apply A3; auto. apply bits_In in Hb. apply vpath_mp; split; try apply Hb; lia.
  - destruct H as (c & H). destruct (inc_sim nq s V D i k l c a S H) as (s' & E & S' & K). unfold quiet. eapply wp_bind_ok; [exact E|]. apply wp_ret. split; auto. split; [constructor|exact K].
  - destruct (dec_sim nq s V D i k l c a S H) as (s' & E & S' & K). unfold quiet. eapply wp_bind_ok; [exact E|]. apply wp_ret. split; auto. split; [constructor|exact K].
  - destruct (gc_sim nq s V D force S) as (b & s' & E & S' & K). unfold quiet. eapply wp_bind_ok; [exact E|]. apply wp_ret. split; auto. split; [constructor|exact K].
  - destruct (reset_sp (g:=g) (nb:=nb) (X:=X) G s I) as (s' & E & Q' & I' & O' & RC').
    unfold quiet. eapply wp_bind_ok; [exact E|]. apply wp_ret. split; [|split; [constructor|intros x Hx; rewrite Rs in Hx by auto; destruct Hx]]. cbn [fst]. constructor; rewrite ?Rs by auto; auto; [congruence| |].
    + exists (fun _ => 0). split; [now right|]. replace (refs (map (fun _ => None) D) V) with (@nil (kind * edge)); auto.
      clear. unfold refs. revert V. induction D as [|x D IH]; intros [|e V]; cbn; auto.
    + clear -VO. induction VO; cbn; constructor; auto. exact Logic.I.
  - assert (Ch: forall e, In e (map (var V) js) -> tedge (co s) k (v - 1) e).
    { intros e He. apply in_map_iff in He. destruct He as (j & <- & Hj). destruct (Forall2_in_l _ _ _ _ H2 Hj) as (f & _ & L). eapply sim_live; eauto. }
    apply (push_sp nq s V D k v _ _ al0 al01); auto; [lia|].
    eapply wp_mono; [apply (makeDDNode_t k v s (map (var V) js) O); auto; [rewrite map_length; auto|lia]|].
    intros r s' (A & B & T & _ & E). split; auto. split; auto. split; auto. intros Ex f Ef p Vp.
    destruct (lifts fs) as [gs|] eqn:Lf; try discriminate. injection Ef as <-.
    destruct p as [|i p]; [destruct Vp as [Lp _]; cbn in Lp; lia|]. apply vpath_cons in Vp. destruct Vp as [Hi Vp].
    rewrite E by auto. cbn [dstack]. destruct (lifts_nth D k (v - 1) js fs gs H2 Lf i) with (V:=V) as (j & f & -> & -> & L); [lia|].
    destruct (sim_live _ _ _ _ _ _ _ _ S L) as (_ & _ & A3). apply A3; auto.
  - destruct (sim_live _ _ _ _ _ _ _ _ S H0) as (A1 & A2 & A3). destruct (sim_live _ _ _ _ _ _ _ _ S H1) as (B1 & B2 & B3).
    destruct (nz_lvl s KM l (var V i) a p) as [La _]; auto. destruct (nz_lvl s KV l (var V j) b q) as [Lb _]; auto.
    unfold emit. apply wp_bind. apply (wp_eq (al1 N g X) _ (let* y' := multiply N g nb KV (var V i) (var V j) 0 in
        let* v := innerProduct N g (var V j) y' in assertM (approx_zero (snd v)) ;;; garbageCollect N g nb false ;;; ret (fst v))).
    { unfold expectationValue. now rewrite La, Lb, Z.eqb_refl. }
    apply wp_bind. eapply wp_mono; [eapply wp_al; [apply (multiply_sp (g:=g) (nb:=nb) (X:=X) G s O KV l); auto; try lia; discriminate|apply al01]|].
    intros y' s1 (O1 & S1 & T1 & V1). specialize (V1 H). apply (mvsem_psem (g:=g) (X:=X)) in V1.
    pose proof (sim_step _ _ _ _ _ S S1 O1) as Sm1. assert (Q1: s_nq s1 = s_nq s) by apply (qe_nq _ _ _ (sp_ext _ _ _ _ _ _ _ S1)).
    destruct (innerProduct_sp (g:=g) (nb:=nb) (X:=X) G s1 O l (var V j) y') as (v & s2 & E2 & S2 & O2 & V2); auto; [lia|apply S1|eapply tedge_ext; [apply S1|auto]|].
    eapply wp_bind_ok; [exact E2|]. specialize (V2 H).
    assert (Ev: Cv2 v = dinner (Z.to_nat (l + 1)) b (dmv a b)).
    { rewrite V2. unfold ipsem, dinner. apply Csum_ext. intros rs Hr. pose proof Hr as Hr'. apply bits_vpath in Hr; [|lia].
      rewrite V1 by auto. rewrite (de_step O s s1 KV l) by auto. rewrite (B3 H b eq_refl) by auto. f_equal. unfold dmv. apply Csum_ext. intros cs Hc.
      rewrite (InvL.vpath_len _ _ _ Hr) in Hc. apply bits_vpath in Hc; [|lia]. rewrite (A3 H a eq_refl), (B3 H b eq_refl); auto. now apply vpath_mp. }
    assert (Az: approx_zero (snd v) = true). { rewrite <- Ev in H6. cbn in H6. unfold approx_zero. apply (x_leb X H). rewrite (x_abs X H), (x_tol X H), H6, Rabs_R0. lra. }
    rewrite Az. apply wp_bind. apply wp_ret.
    pose proof (sim_step _ _ _ _ _ Sm1 S2 O2) as Sm2. destruct (gc_sim nq s2 V D false Sm2) as (bb & s3 & E3 & Sm3 & K3).
    eapply wp_bind_ok; [exact E3|]. apply wp_ret. apply wp_ret. split; auto. split; cbn [snd].
    + constructor; auto. intros _. exists (fst v). split; auto. rewrite <- Ev. reflexivity.
    + intros x Hx. rewrite K3 by auto. rewrite (sp_keep _ _ _ _ _ _ _ S2) by auto. now apply S1.
  - destruct (sim_live _ _ _ _ _ _ _ _ S H) as (A1 & A2 & A3).
    destruct (getValueByPath_sp (g:=g) (nb:=nb) (X:=X) G k els l s O (var V i)) as (v & s' & E & S' & O' & V'); auto; [lia|].
    unfold emit. eapply wp_bind_ok; [exact E|]. apply wp_ret. split; [eapply sim_step; eauto|]. split; [|apply S']. constructor; auto. intros Ex.
    destruct a as [fa|]; cbn; auto. exists v. split; auto. rewrite V' by auto. apply A3; auto. apply strpath_vpath; auto; lia.
  - destruct (sim_live _ _ _ _ _ _ _ _ S H0) as (A1 & A2 & A3).
    destruct (getValueV_sp (g:=g) (nb:=nb) (X:=X) G idx n s O (var V i)) as (v & s' & E & S' & O' & V'); auto; [lia|].
    unfold emit. eapply wp_bind_ok; [exact E|]. apply wp_ret. split; [eapply sim_step; eauto|]. split; [|apply S']. constructor; auto. intros Ex.
    destruct a as [fa|]; cbn; auto. exists v. split; auto. rewrite V' by auto. apply A3; auto. apply digp_vpath. intros w. unfold bitV. destruct (Z.testbit idx w); simpl; lia.
  - destruct (sim_live _ _ _ _ _ _ _ _ S H0) as (A1 & A2 & A3).
    destruct (getValueM_sp (g:=g) (nb:=nb) (X:=X) G r c n s O (var V i)) as (v & s' & E & S' & O' & V'); auto; [lia|].
    unfold emit. eapply wp_bind_ok; [exact E|]. apply wp_ret. split; [eapply sim_step; eauto|]. split; [|apply S']. constructor; auto. intros Ex.
    destruct a as [fa|]; cbn; auto. exists v. split; auto. rewrite V' by auto. apply A3; auto. apply digp_vpath. intros w. unfold bitM, bitV. destruct (Z.testbit r w), (Z.testbit c w); simpl; lia.
  - destruct (sim_live _ _ _ _ _ _ _ _ S H1) as (A1 & A2 & A3). destruct (nz_lvl s KV (Z.of_nat n - 1) (var V i) a p) as [_ Nt]; auto.
    destruct (getVector_sp (g:=g) (nb:=nb) (X:=X) G n s O (var V i)) as (v & s' & E & S' & O' & L' & V'); auto; try lia; [apply Nt; lia|].
    unfold emit. eapply wp_bind_ok; [exact E|]. apply wp_ret. split; [eapply sim_step; eauto|]. split; [|apply S']. constructor; auto. intros Ex.
    exists v. split; auto. split; auto. intros p' Vp. rewrite V' by auto. now apply A3.
  - destruct (sim_live _ _ _ _ _ _ _ _ S H1) as (A1 & A2 & A3). destruct (nz_lvl s KM (Z.of_nat n - 1) (var V i) a p) as [_ Nt]; auto.
    destruct (getMatrix_sp (g:=g) (nb:=nb) (X:=X) G n s O (var V i)) as (v & s' & E & S' & O' & L' & V'); auto; try lia; [apply Nt; lia|].
    unfold emit. eapply wp_bind_ok; [exact E|]. apply wp_ret. split; [eapply sim_step; eauto|]. split; [|apply S']. constructor; auto. intros Ex.
    exists v. split; auto. split; auto. intros p' Vp. rewrite V' by auto. now apply A3.
  - destruct (sim_live _ _ _ _ _ _ _ _ S H1) as (A1 & A2 & A3). destruct (nz_lvl s KV (Z.of_nat n - 1) (var V i) a p) as [_ Nt]; auto.
    destruct (exportAmplitudes_sp (g:=g) (nb:=nb) (X:=X) G n s O (var V i) amps) as (v & s' & E & S' & O' & L' & V'); auto; try lia; [apply Nt; lia|].
    unfold emit. eapply wp_bind_ok; [exact E|]. apply wp_ret. split; [eapply sim_step; eauto|]. split; [|apply S']. constructor; auto. intros Ex.
    exists v. split; auto. split; auto. intros p' Vp. rewrite V' by auto. now apply A3.
  - destruct (sim_live _ _ _ _ _ _ _ _ S H1) as (A1 & A2 & A3). destruct (nz_lvl s KV (Z.of_nat n - 1) (var V i) a p) as [_ Nt]; auto.
    destruct (addAmplitudes_sp (g:=g) (nb:=nb) (X:=X) n s (var V i) amps) as (v & E & L' & V'); auto; try lia; [apply Nt; lia|].
    unfold emit. eapply wp_bind_ok; [exact E|]. apply wp_ret. split; auto. split; [|intros x _; auto]. constructor; auto. intros Ex.
    exists v. split; auto. split; auto. intros p' Vp. rewrite V' by auto. f_equal. now apply A3.
  - apply (push_sp nq s V D KM (n - 1) _ _ al0 al01); auto; [lia|].
    eapply wp_mono; [apply (makeGateDD_sp (g:=g) (nb:=nb) (X:=X) G mat n cs t s O); auto; lia|].
    intros r s' (A & B & T & E). split; auto. split; auto. split; auto. intros Ex f [= <-] p Vp. auto.
  - apply (push_sp nq s V D KM (n - 1) _ _ al0 al01); auto; [lia|].
    eapply wp_mono; [apply (makeTwoQubitGateDD_sp (g:=g) (nb:=nb) (X:=X) G mat n t0 t1 s O); auto; lia|].
    intros r s' (A & B & T & E). split; auto. split; auto. split; auto. intros Ex f [= <-] p Vp. auto.
  - apply (push_sp nq s V D KM (n - 1) _ _ al0 al01); auto; [lia|].
    eapply wp_mono; [apply (named_gate_sp (g:=g) (nb:=nb) (X:=X) G T H n t0 t1 cs H0 H1 H2 H4 H5 w s O); auto; lia|].
    intros r s' (A & B & Te & E). split; auto. split; auto. split; auto. intros Ex f [= <-] p Vp. auto.
  - destruct (sim_live _ _ _ _ _ _ _ _ S H) as (A1 & A2 & A3).
    apply (push_sp nq s V D k l _ _ al0 al01); auto.
    eapply wp_mono; [apply (deleteEdge_sp (g:=g) (nb:=nb) (X:=X) G k v idx l s O); auto; lia|].
    intros r s' (S' & O' & T' & V'). split; auto. split; auto. split; auto. intros Ex f Ef p Vp.
    destruct a as [fa|]; try discriminate. injection Ef as <-. rewrite V' by auto. apply cut_ext. apply A3; auto.
  - destruct (sim_live _ _ _ _ _ _ _ _ S H) as (A1 & A2 & A3).
    destruct (size_sp (g:=g) (nb:=nb) (X:=X) s k l (var V i)) as (ps & E & _); auto; [lia|].
    unfold emit. eapply wp_bind_ok; [exact E|]. apply wp_ret. split; auto. split; [constructor; auto; intros _; exact Logic.I|intros x _; auto].
  - destruct (sim_live _ _ _ _ _ _ _ _ S H0) as (A1 & A2 & A3).
    destruct (measureProbs_sp (g:=g) (nb:=nb) (X:=X) H s l (var V i) idx norm) as (x & y & E & Ex0 & Ex1); auto.
    { intros Z. apply H2. rewrite <- (A3 H a eq_refl) by auto. unfold Inv.de. rewrite Z, Cw_zero by auto. ring. }
    unfold emit. eapply wp_bind_ok; [exact E|]. apply wp_ret. split; auto. split; [|intros z _; auto]. constructor; auto. intros _.
    exists x, y. split; auto. rewrite Ex0, Ex1. split; apply nrm2_ext; intros q Hq; apply bits_vpath in Hq; try lia; unfold proj; rewrite (A3 H a eq_refl); auto.
  - rename H0 into E0, H into Ex. assert (LD: (i < length D)%nat) by (apply nth_error_Some; now rewrite E0). assert (LV: length D = length V) by (eapply F2_len; eauto).
    destruct (sim_live _ _ _ _ _ _ _ _ S (ex_intro _ (Datatypes.S c) E0)) as (A1 & A2 & A3).
    assert (EN: forall q, nrm2 (Z.to_nat (l + 1)) (proj idx q (de (co s) KV (var V i))) = nrm2 (Z.to_nat (l + 1)) (proj idx q a)).
    { intros q. apply nrm2_ext. intros bs Hb. apply bits_vpath in Hb; [|lia]. unfold proj. rewrite (A3 Ex a eq_refl) by auto. reflexivity. }
    assert (Nz: ew (var V i) <> Czero).
    { intros Z. assert (Z0: nrm2 (Z.to_nat (l + 1)) a = 0%R); [|lra]. apply nrm2_zero. intros bs Hb. apply bits_vpath in Hb; [|lia].
      rewrite <- (A3 Ex a eq_refl) by auto. unfold Inv.de. rewrite Z, Cw_zero by auto. ring. }
    destruct (measureProbs_sp (g:=g) (nb:=nb) (X:=X) Ex s l (var V i) idx norm) as (x & y & E & Ex0 & Ex1); auto. rewrite EN in Ex0, Ex1.
    assert (Sum: (toR X x + toR X y)%R = nrm2 (Z.to_nat (l + 1)) a) by (rewrite Ex0, Ex1; apply proj_sum; lia).
    assert (P0: (0 <= toR X x)%R) by (rewrite Ex0; apply nrm2_nonneg). assert (P1: (0 <= toR X y)%R) by (rewrite Ex1; apply nrm2_nonneg).
    apply wp_bind. unfold measureOne. eapply wp_bind_ok; [exact E|]. cbn [fst snd].
    assert (Of: off1 N eps (nadd x y) = false).
    { unfold off1. apply not_true_is_false. intros Hf. apply (x_ltb X Ex) in Hf. rewrite (x_abs X Ex), (x_sub X Ex), (x_add X Ex), (x_1 X Ex), Sum in Hf. lra. }
    rewrite Of.
    assert (Eb: negb (nltb t (ndiv x (nadd x y))) = b).
    { subst b. destruct (nltb t (ndiv x (nadd x y))) eqn:Lt.
      - apply (x_ltb X Ex) in Lt. rewrite (x_div X Ex) in Lt by (rewrite (x_add X Ex), Sum; lra). rewrite (x_add X Ex), Sum, Ex0 in Lt. destruct Rlt_dec; [reflexivity|contradiction].
      - destruct Rlt_dec as [Lt'|]; [|reflexivity]. exfalso. assert (Qq: nltb t (ndiv x (nadd x y)) = true); [|congruence]. apply (x_ltb X Ex).
        rewrite (x_div X Ex) by (rewrite (x_add X Ex), Sum; lra). now rewrite (x_add X Ex), Sum, Ex0. }
    rewrite Eb.
    assert (Nf: toR X (if b then y else x) = nrm2 (Z.to_nat (l + 1)) (proj idx (b2n b) a)) by (destruct b; cbn [b2n]; auto).
    assert (Np: toR X (if b then y else x) <> 0%R).
    { rewrite Ex0 in *. subst b. destruct Rlt_dec as [Lt'|Ge].
      - intros Z. rewrite <- Ex0, Z in Lt'. unfold Rdiv in Lt'. rewrite Rmult_0_l in Lt'. lra.
      - intros Z. apply Ge. rewrite Z, Rplus_0_r in Sum. rewrite Sum. unfold Rdiv. rewrite Rinv_r by lra. lra. }
    apply wp_bind. eapply wp_mono; [eapply wp_al; [apply (projectTo_sp (g:=g) (nb:=nb) (X:=X) G Ex s O l (var V i) idx b _); auto; try lia; now rewrite EN|exact al01]|].
    intros r s1 (St & O1 & T1 & V1). rewrite Nf in V1.
    set (h := (fun p => RtoC (1 / sqrt (nrm2 (Z.to_nat (l + 1)) (proj idx (b2n b) a))) * proj idx (b2n b) a p)%C).
    assert (S1: sim nq s1 (V ++ [r]) (D ++ [dnew KV l (Some h)])).
    { eapply (sim_push nq s s1 V D KV l r (Some h)); auto. intros _ f [= <-] p Vp. rewrite V1 by auto. unfold h, proj. rewrite (A3 Ex a eq_refl) by auto. reflexivity. }
    destruct (inc_sim nq s1 _ _ (length D) KV l 0%nat (Some h) S1) as (s2 & E2 & S2 & K2).
    { rewrite nth_error_app2, Nat.sub_diag by lia. reflexivity. }
    unfold dnew in S2. rewrite upde_last in S2. cbn [dk dl dc df] in S2. rewrite LV, var_last in E2.
    destruct (dec_sim nq s2 _ _ i KV l c (Some a) S2) as (s3 & E3 & S3 & K3).
    { rewrite nth_error_app1 by lia. exact E0. }
    rewrite upde_app in S3 by lia. rewrite var_app in E3 by lia.
    eapply wp_bind_ok; [exact E2|]. eapply wp_bind_ok; [exact E3|]. apply wp_ret. apply wp_ret. cbn [fst snd]. split; [exact S3|]. split.
    + constructor; [|constructor]. intros _. reflexivity.
    + intros z Hz. rewrite K3, K2 by auto. apply St; auto.
  - rename H0 into L0, H into Ex. destruct (sim_live _ _ _ _ _ _ _ _ S L0) as (A1 & A2 & A3).
    destruct (measureAll_draw (g:=g) (nb:=nb) (X:=X) Ex s eps l (var V i) ts) as (B1 & B2 & B3 & B4); auto; [lia| |].
    { intros Z. apply H2. rewrite <- (A3 Ex a eq_refl) by auto. unfold Inv.de. rewrite Z, Cw_zero by auto. ring. }
    assert (Ed: dsample (Z.to_nat (l + 1)) (de (co s) KV (var V i)) (map (toR X) ts) = dsample (Z.to_nat (l + 1)) a (map (toR X) ts)).
    { apply dsample_ext. intros bs Hb. apply A3; auto. apply bits_vpath; auto. lia. }
    apply wp_bind. eapply wp_eq; [unfold measureAll, bind, get; rewrite B3, andb_false_r, B2, B1, B4; reflexivity|]. cbv beta iota. apply wp_ret. apply wp_ret. cbn [fst snd].
    split; auto. split; [|intros z Hz; auto]. constructor; [|constructor]. intros _. cbn. now rewrite Ed.
  - rename H0 into E0, H into Ex. assert (LD: (i < length D)%nat) by (apply nth_error_Some; now rewrite E0). assert (LV: length D = length V) by (eapply F2_len; eauto).
    destruct (sim_live _ _ _ _ _ _ _ _ S (ex_intro _ (Datatypes.S c) E0)) as (A1 & A2 & A3).
    destruct (measureAll_draw (g:=g) (nb:=nb) (X:=X) Ex s eps l (var V i) ts) as (B1 & B2 & B3 & B4); auto; [lia| |].
    { intros Z. apply H2. rewrite <- (A3 Ex a eq_refl) by auto. unfold Inv.de. rewrite Z, Cw_zero by auto. ring. }
    assert (Ed: dsample (Z.to_nat (l + 1)) (de (co s) KV (var V i)) (map (toR X) ts) = bs).
    { subst bs. apply dsample_ext. intros q Hb. apply A3; auto. apply bits_vpath; auto. lia. }
    rewrite Ed in B4.
    assert (Lb: length bs = Z.to_nat (l + 1)) by (subst bs; apply dsample_len; now rewrite map_length).
    destruct (dec_sim nq s _ _ i KV l c (Some a) S E0) as (s1 & E1 & S1 & K1). pose proof S1 as [Q1 I1 O1 _ _].
    apply wp_bind. eapply wp_eq; [unfold measureAll, bind at 1, get; rewrite B3, andb_false_r, B2, B1; unfold bind at 1; rewrite B4; reflexivity|]. cbv beta iota.
    eapply wp_bind_ok; [exact E1|]. apply wp_bind.
    eapply wp_mono; [eapply wp_al; [apply (basisF_sp (g:=g) (nb:=nb) (X:=X) G (bits_st (rev bs)) (rev bs) 0 s1 O Eone); auto; [lia|rewrite rev_length; lia| |]|exact al01]|].
    { apply bs_init. }
    { intros j b Hj. cbn [Z.to_nat Nat.add]. unfold bits_st. erewrite nth_indep by (rewrite map_length; apply nth_error_Some; now rewrite Hj).
      rewrite (map_nth (fun b : bool => if b then BSone else BSzero) (rev bs) b j). erewrite nth_error_nth; eauto. }
    rewrite rev_length, Lb. replace (0 + Z.of_nat (Z.to_nat (l + 1))) with (l + 1) by lia.
    intros r s2 (St & O2 & T2 & V2). replace (l + 1 - 1) with l in T2, V2 by lia.
    assert (S2: sim nq s2 (V ++ [r]) (upde D i pred ++ [dnew KV l (Some (delta (map b2n bs)))])).
    { eapply sim_push; eauto. intros _ f [= <-] p0 Vp. destruct (V2 Ex) as [W2 W3]. unfold Inv.de. rewrite W2, Cw_one, W3 by auto.
      destruct Vp as [Vp1 Vp2]. rewrite bsval_delta by (auto; lia). ring. }
    destruct (inc_sim nq s2 _ _ (length D) KV l 0%nat (Some (delta (map b2n bs))) S2) as (s3 & E3 & S3 & K3).
    { rewrite nth_error_app2, upde_len, Nat.sub_diag by (rewrite upde_len; lia). reflexivity. }
    unfold dnew in S3. rewrite <- (upde_len D i pred), upde_last in S3. cbn [dk dl dc df] in S3. rewrite LV, var_last in E3.
    destruct (gc_sim nq s3 _ _ false S3) as (b & s4 & E4 & S4 & K4).
    eapply wp_bind_ok; [exact E3|]. eapply wp_bind_ok; [exact E4|]. apply wp_ret. apply wp_ret. cbn [fst snd]. split.
    + unfold kept in S4 |- *. rewrite map_app in S4. exact S4.
    + split; [|intros z Hz; rewrite K4, K3 by auto; rewrite (sp_keep _ _ _ _ _ _ _ St) by auto; apply K1; auto]. constructor; [|constructor]. intros _. reflexivity.
  - destruct (sim_live _ _ _ _ _ _ _ _ S (ex_intro _ (Datatypes.S c) H)) as (A1 & A2 & A3). rename H2 into Hf.
    apply (red_sim nq s V D KM i l c a); auto.
    + intros q Eq. destruct (firstSet_some _ _ Eq) as [Lq Nq].
      set (sm := ex X /\ exists f, f0 = Some f).
      destruct (f0) as [f|] eqn:E0.
      * assert (Hsm: forall Ex : ex X, exists h, a = Some h /\ onlyset anc (Z.of_nat q) /\ sharefree (Z.of_nat q) l h /\ f = mask (Z.of_nat q) (ancbd regular) h).
        { intros Ex. destruct (Hf f eq_refl Ex) as (h & q' & Ea & Os & SF & Ef). exists h. assert (Eqq: q' = Z.of_nat q).
          { destruct Os as [Os1 Os2]. apply Os2 in Nq. lia. } subst q'. auto. }
        eapply wp_mono; [apply (redF_sp (g:=g) (nb:=nb) (X:=X) G KM (ancPost N g nb anc regular) false (Z.of_nat q) (Z.of_nat q) (ancbd regular) nq sm (fun n => forall h, a = Some h -> nodesof (g:=g) (X:=X) s l h n)) with (l := l) (O := O); auto; try lia|].
        -- intros [Ex _]. auto.
        -- apply (ancPost_ok (g:=g) (nb:=nb) (X:=X) G); auto. intros [Ex _]. split; auto. destruct (Hsm Ex) as (h & _ & Os & _). intros v Hv. destruct Os as [_ Os]. rewrite Os. lia.
        -- unfold fuelof. lia.
        -- unfold fuelof. lia.
        -- intros [Ex _]. destruct (Hsm Ex) as (h & Ea & _ & SF & _). rewrite Ea. intros n Hn. specialize (Hn h eq_refl).
           destruct (nodesof_uni (g:=g) (nb:=nb) (X:=X) s (Z.of_nat q) l h Ex I SF n Hn) as (B1 & B2 & B3). split; auto. split; auto.
           intros x Hx. specialize (B2 x Hx). destruct (ep x); cbn in *; auto. intros h' [= <-]. exact B2.
        -- intros [Ex _]. destruct (Hsm Ex) as (h & Ea & _ & SF & _). pose proof (nodesof_root (g:=g) (nb:=nb) (X:=X) s l (var V i) Ex I A2) as B.
           destruct (ep (var V i)); cbn in *; auto. intros h' Eh. destruct B as (pre & c' & C1' & C2' & C3' & C4'). exists pre, c'. split; auto. split; auto. split; auto.
           intros p Vp. rewrite <- C4' by auto. symmetry. apply (A3 Ex h' Eh). destruct Vp as [Vp1 Vp2]. split; [rewrite app_length; lia|]. apply Forall_app. split; auto.
        -- intros r s' (B1 & B2 & B3 & B4). split; auto. split; auto. split; auto. intros Ex f' [= <-] p Vp. rewrite B4 by (auto; split; eauto).
           destruct (Hsm Ex) as (h & Ea & _ & _ & ->). apply mask_ext. now apply (A3 Ex h Ea).
      * eapply wp_mono; [apply (redF_sp (g:=g) (nb:=nb) (X:=X) G KM (ancPost N g nb anc regular) false (Z.of_nat q) (Z.of_nat q) (ancbd regular) nq False (fun _ => True)) with (l := l) (O := O); auto; try lia|].
        -- apply (ancPost_ok (g:=g) (nb:=nb) (X:=X) G); auto. intros [].
        -- unfold fuelof. lia.
        -- unfold fuelof. lia.
        -- intros r s' (B1 & B2 & B3 & B4). split; auto. split; auto. split; auto. discriminate.
    + intros Hun Ex f Ef p Vp. destruct (Hf f Ef Ex) as (h & q' & Ea & Os & SF & ->). rewrite (A3 Ex h Ea) by auto.
      destruct Hun as [Hn|(q & Eq & Lt)].
      * exfalso. destruct Os as [_ Os]. pose proof (firstSet_none _ (Z.to_nat q') Hn) as B. rewrite (proj2 (Os _) eq_refl) in B. discriminate.
      * destruct (firstSet_some _ _ Eq) as [Lq Nq]. assert (Eqq: q' = Z.of_nat q) by (destruct Os as [Os1 Os2]; apply Os2 in Nq; lia). subst q'.
        destruct (ep (var V i)) as [| |n] eqn:Ee.
        -- pose proof (te_n _ _ _ _ _ _ _ A2) as Tn. rewrite Ee in Tn. contradiction.
        -- destruct (te_t _ _ _ _ _ _ _ A2 Ee) as [-> | Z].
           ++ symmetry. apply mask_short. destruct Vp as [Vp _]. lia.
           ++ assert (Z0: h p = C0) by (rewrite <- (A3 Ex h Ea) by auto; unfold Inv.de; rewrite Z, Cw_zero by auto; ring).
              unfold mask. rewrite Z0. destruct (_ && _ && _); auto.
        -- symmetry. apply mask_short. pose proof (te_n _ _ _ _ _ _ _ A2) as Tn. rewrite Ee in Tn. destruct Tn as [_ Nv]. cbn [lvl] in Lt.
           change (nv (nod s KM n)) with (nv (qn (co s) KM n)) in Lt. destruct Vp as [Vp _]. lia.
  - destruct (sim_live _ _ _ _ _ _ _ _ S (ex_intro _ (Datatypes.S c) H)) as (A1 & A2 & A3).
    apply (red_sim nq s V D KV i l c a); auto; [|discriminate].
    intros q Eq. eapply wp_mono; [apply (redF_sp (g:=g) (nb:=nb) (X:=X) G KV (garPostV N g nb gar) true (Z.of_nat q) 0 (fun _ => false) nq False (fun _ => True)) with (l := l) (O := O); auto; try lia|].
    + now apply (garPostV_ok (g:=g) (nb:=nb) (X:=X) G).
    + unfold fuelof. lia.
    + unfold fuelof. lia.
    + intros r s' (B1 & B2 & B3 & B4). split; auto. split; auto. split; auto. discriminate.
  - destruct (sim_live _ _ _ _ _ _ _ _ S (ex_intro _ (Datatypes.S c) H)) as (A1 & A2 & A3).
    apply (red_sim nq s V D KM i l c a); auto; [|discriminate].
    intros q Eq. eapply wp_mono; [apply (redF_sp (g:=g) (nb:=nb) (X:=X) G KM (garPostM N g nb gar regular) true (Z.of_nat q) 0 (fun _ => false) nq False (fun _ => True)) with (l := l) (O := O); auto; try lia|].
    + now apply (garPostM_ok (g:=g) (nb:=nb) (X:=X) G).
    + unfold fuelof. lia.
    + unfold fuelof. lia.
    + intros r s' (B1 & B2 & B3 & B4). split; auto. split; auto. split; auto. discriminate.
  - destruct (sim_live _ _ _ _ _ _ _ _ S (ex_intro _ (Datatypes.S c) H0)) as (A1 & A2 & A3).
    assert (Ea: forall p, vpath KM l p -> ancT anc regular (de (co s) KM (var V i)) p = ancT anc regular h p).
    { intros p Vp. apply (Tr_ext KM (flag anc) (ancloc regular) (ancloc_ext regular) p l); auto. }
    apply (red_sim nq s V D KM i l c (Some h)); auto.
    + intros q Eq. eapply wp_mono; [apply (anc_val (g:=g) (nb:=nb) (X:=X) G) with (l := l) (O := O); auto; try lia|].
      * eapply flat_ext; [|eassumption]. intros p Vp. symmetry. auto.
      * intros r s' (B1 & B2 & B3 & B4). split; auto. split; auto. split; auto. intros _ f [= <-] p Vp. rewrite B4 by auto. now apply Ea.
    + intros Hun _ f [= <-] p Vp. rewrite <- Ea by auto. symmetry.
      apply (Tr_unch (g:=g) (nb:=nb) (X:=X) KM (ancloc regular) anc l s (var V i)); auto; [exact (ancloc_ext regular)|exact (ancloc_scale regular)].
  - destruct (sim_live _ _ _ _ _ _ _ _ S (ex_intro _ (Datatypes.S c) H0)) as (A1 & A2 & A3).
    assert (Ea: forall p, vpath KV l p -> garVT gar (de (co s) KV (var V i)) p = garVT gar h p).
    { intros p Vp. apply (Tr_ext KV (flag gar) garlocV (garlocV_ext) p l); auto. }
    apply (red_sim nq s V D KV i l c (Some h)); auto.
    + intros q Eq. eapply wp_mono; [apply (garV_val (g:=g) (nb:=nb) (X:=X) G) with (l := l) (O := O); auto; try lia|].
      * eapply flat_ext; [|eassumption]. intros p Vp. symmetry. auto.
      * intros r s' (B1 & B2 & B3 & B4). split; auto. split; auto. split; auto. intros _ f [= <-] p Vp. rewrite B4 by auto. now apply Ea.
    + intros Hun _ f [= <-] p Vp. rewrite <- Ea by auto. symmetry.
      apply (Tr_unch (g:=g) (nb:=nb) (X:=X) KV garlocV gar l s (var V i)); auto; [exact (garlocV_ext)|exact (garlocV_scale)].
  - destruct (sim_live _ _ _ _ _ _ _ _ S (ex_intro _ (Datatypes.S c) H0)) as (A1 & A2 & A3).
    assert (Ea: forall p, vpath KM l p -> garMT gar regular (de (co s) KM (var V i)) p = garMT gar regular h p).
    { intros p Vp. apply (Tr_ext KM (flag gar) (garlocM regular) (garlocM_ext regular) p l); auto. }
    apply (red_sim nq s V D KM i l c (Some h)); auto.
    + intros q Eq. eapply wp_mono; [apply (garM_val (g:=g) (nb:=nb) (X:=X) G) with (l := l) (O := O); auto; try lia|].
      * eapply flat_ext; [|eassumption]. intros p Vp. symmetry. auto.
      * intros r s' (B1 & B2 & B3 & B4). split; auto. split; auto. split; auto. intros _ f [= <-] p Vp. rewrite B4 by auto. now apply Ea.
    + intros Hun _ f [= <-] p Vp. rewrite <- Ea by auto. symmetry.
      apply (Tr_unch (g:=g) (nb:=nb) (X:=X) KM (garlocM regular) gar l s (var V i)); auto; [exact (garlocM_ext regular)|exact (garlocM_scale regular)].
  - pose proof (fileok_level _ _ _ _ _ _ _ H1) as Hl.
    apply (push_sp nq s V D k l _ _ al0 al01); auto; [lia|].
    eapply wp_mono; [apply (deserialize_sp (g:=g) (nb:=nb) (X:=X) G O s k fl l f); auto; now rewrite Q|].
    intros r s' (A & B & T & E). split; auto. split; auto. split; auto. intros Ex h [= <-] p Vp. auto.
  - apply (push_sp nq s V D k l _ _ al0 al01); auto.
    eapply wp_mono; [apply (deserialize_none (g:=g) (nb:=nb) (X:=X) G O s k l w); auto|].
    intros r s' (A & B & T & ->). split; auto. split; auto. split; auto. intros Ex h [= <-] p Vp. now apply de_zero.
  - pose proof (fileok_level _ _ _ _ _ _ _ H1) as Hl.
    apply (push_sp nq s V D k l _ _ al0 al01); auto; [lia|].
    eapply wp_mono; [apply (rebuild_sp (g:=g) (nb:=nb) (X:=X) G O s k fl l f); auto; now rewrite Q|].
    intros r s' (A & B & T & E). split; auto. split; auto. split; auto. intros Ex h [= <-] p Vp. auto.
  - apply (push_sp nq s V D k l _ _ al0 al01); auto.
    eapply wp_mono; [apply (rebuild_none (g:=g) (nb:=nb) (X:=X) G O s k l x); auto|].
    intros r s' (A & B & T & Et & Ew). split; auto. split; auto. split; auto. intros Ex h [= <-] p Vp. unfold Inv.de. rewrite Ew, Et.
    destruct H1 as [->|H1]; [|rewrite H1; ring]. destruct p as [|d p]; [cbn; ring|]. destruct Vp as [Vp _]. cbn in Vp. lia.
  - apply (push_sp nq s V D KD (n - 1) _ _ al0 al01); auto; [lia|].
    eapply wp_mono; [apply (makeZeroDensity_sp (g:=g) (nb:=nb) (X:=X) G s O n); auto; lia|].
    intros r s' (A & B & T & E). split; auto. split; auto. split; auto. intros Ex f [= <-] p Vp. auto.
  - destruct (sim_live _ _ _ _ _ _ _ _ S H) as (A1 & A2 & A3). destruct (sim_live _ _ _ _ _ _ _ _ S H0) as (B1 & B2 & B3).
    apply (push_sp nq s V D KD l _ _ al0 al01); auto. unfold dcall. apply wp_bind.
    eapply wp_mono; [apply (addD_sp (g:=g) (nb:=nb) (X:=X) G s O l); auto; lia|].
    intros r s' (_ & O' & S' & T' & V'). apply wp_ret. split; auto. split; auto. split; auto. intros Ex f Ef p Vp.
    destruct a as [fa|], b as [fb|]; try discriminate. injection Ef as <-. rewrite V' by auto. unfold dadd. now rewrite (A3 Ex fa eq_refl), (B3 Ex fb eq_refl).
  - destruct (sim_live _ _ _ _ _ _ _ _ S H1) as (A1 & A2 & A3). destruct (sim_live _ _ _ _ _ _ _ _ S H2) as (B1 & B2 & B3).
    destruct (dopd_ok (co s) ka l (var V i) H A2) as [Ta Da]. destruct (dopd_ok (co s) kb l (var V j) H0 B2) as [Tb Db].
    apply (push_sp nq s V D KD l _ _ al0 al01); auto. unfold dcall. apply wp_bind.
    eapply wp_mono; [apply (multiplyD_sp (g:=g) (nb:=nb) (X:=X) G s O l); auto; lia|].
    intros r s' (_ & O' & S' & T' & V'). apply wp_ret. split; auto. split; auto. split; auto. intros Ex f Ef p Vp.
    destruct a as [fa|], b as [fb|]; try discriminate. injection Ef as <-. rewrite V' by auto. rewrite Da, Db. apply (psum_dmm l); auto.
    + intros q Vq. apply A3; auto. destruct ka; [contradiction| |]; exact Vq.
    + intros q Vq. apply B3; auto. destruct kb; [contradiction| |]; exact Vq.
  - rename H into E0, H0 into L0.
    assert (LD: (i < length D)%nat) by (apply nth_error_Some; now rewrite E0). assert (LV: length D = length V) by (eapply F2_len; eauto).
    destruct (sim_live _ _ _ _ _ _ _ _ S (ex_intro _ (Datatypes.S c) E0)) as (A1 & A2 & A3). destruct (sim_live _ _ _ _ _ _ _ _ S L0) as (B1 & B2 & B3).
    unfold push, dcall. apply wp_bind. apply wp_bind. apply wp_bind. unfold applyOpD.
    apply wp_dbind, wp_dlift. eapply wp_mono; [eapply wp_al; [apply (conjTrans_sp (g:=g) (nb:=nb) (X:=X) G l (proj1 B1) s O (var V j)); auto|apply al01]|].
    intros t0 s1 (S1 & O1 & T1 & V1). cbn [fst snd]. assert (Q1: s_nq s1 = s_nq s) by apply (qe_nq _ _ _ (sp_ext _ _ _ _ _ _ _ S1)).
    assert (A2': tedge (co s1) KD l (var V i)) by (eapply tedge_ext; [apply S1|exact A2]).
    destruct (dopd_ok (co s1) KD l (var V i)) as [Ta Da]; auto; [discriminate|]. destruct (dopd_ok (co s1) KM l t0) as [Tb Db]; auto; [discriminate|]. cbn [dopd] in *.
    apply wp_dbind. eapply wp_mono; [eapply wp_al; [apply (multiplyD_sp (g:=g) (nb:=nb) (X:=X) G s1 O l); auto; [lia|apply S1]|apply al01]|].
    intros [t1 k1] s2 (-> & O2 & S2 & T2 & V2). cbn [fst snd] in *. assert (Q2: s_nq s2 = s_nq s1) by apply (qe_nq _ _ _ (sp_ext _ _ _ _ _ _ _ S2)).
    assert (S12: step O s s2) by (eapply step_trans; eauto).
    assert (B2': tedge (co s2) KM l (var V j)) by (eapply tedge_ext; [apply S12|exact B2]).
    destruct (dopd_ok (co s2) KM l (var V j)) as [Tc Dc]; auto; [discriminate|]. destruct (dopd_ok (co s2) KD l t1) as [Td Dd]; auto; [discriminate|]. cbn [dopd] in *.
    apply wp_dbind. eapply wp_mono; [eapply wp_al; [apply (multiplyD_sp (g:=g) (nb:=nb) (X:=X) G s2 O l); auto; [lia|apply S2]|apply al01]|].
    intros [t2 k2] s3 (-> & O3 & S3 & T3 & V3). cbn [fst snd] in *.
    assert (S13: step O s s3) by (eapply step_trans; eauto).
    assert (Sm: sim nq s3 (V ++ [t2]) (D ++ [dnew KD l (lift2 dconj b a)])).
    { eapply sim_push; eauto. intros Ex f Ef p Vp. destruct a as [fa|], b as [fb|]; try discriminate. injection Ef as <-.
      rewrite V3, Dc, Dd by auto. unfold dconj. apply (psum_dmm l); auto.
      - intros q Vq. rewrite (de_step O s s2 KM l) by auto. apply B3; auto.
      - intros q Vq. rewrite V2, Da, Db by auto. apply (psum_dmm l); auto.
        + intros q' Vq'. rewrite (de_step O s s1 KD l) by auto. apply A3; auto.
        + intros q' Vq'. pose proof (vpath_tr4 _ _ Vq') as Vt. specialize (V1 Ex _ Vt). rewrite map_map in V1.
          erewrite map_ext in V1; [rewrite map_id in V1|intros; apply tr4_tr4]. rewrite V1. cbn [uval]. unfold dct. f_equal. apply B3; auto. }
    destruct (inc_sim nq s3 _ _ (length D) KD l 0%nat (lift2 dconj b a) Sm) as (s4 & E4 & S4 & K4).
    { rewrite nth_error_app2, Nat.sub_diag by lia. reflexivity. }
    unfold dnew in S4. rewrite upde_last in S4. cbn [dk dl dc df] in S4. rewrite LV, var_last in E4.
    destruct (dec_sim nq s4 _ _ i KD l c a S4) as (s5 & E5 & S5 & K5).
    { rewrite nth_error_app1 by lia. exact E0. }
    rewrite upde_app in S5 by lia. rewrite var_app in E5 by lia.
    apply wp_dbind, wp_dlift.
    eapply wp_eq; [instantiate (1 := fun _ => Ok tt s4); exact E4|]. unfold Inv.wp at 1. cbn [fst snd].
    apply wp_dbind, wp_dlift. cbn [hden hp hw hdp]. replace (Ed (ep (var V i)) (ew (var V i))) with (var V i) by (now destruct (var V i)).
    eapply wp_eq; [instantiate (1 := fun _ => Ok tt s5); exact E5|]. unfold Inv.wp at 1. cbn [fst snd].
    apply wp_dret. apply wp_ret. apply wp_ret. apply wp_ret. cbn [hden hp hw hdp fst snd].
    replace (Ed (ep t2) (ew t2)) with t2 by (now destruct t2). split; [exact S5|]. split; [constructor|].
    intros z Hz. cbn [fst snd]. rewrite K5, K4 by auto. apply S13; auto.
Qed.

Lemma run_sp nq : forall prog s V D D' os, (In IReset prog -> O = []) -> sim nq s V D -> druns nq D prog D' os ->
  wp (al1 N g X) (run N g nb prog V) s (post nq s D' os).
Proof.
  induction prog as [|c prog IH]; intros s V D D' os Rs S H; inversion H; subst; cbn [run].
  - apply wp_ret. split; auto. split; [constructor|intros a _; auto].
  - apply wp_bind. eapply wp_mono; [eapply exec_sp; eauto; intros ->; apply Rs; now left|]. intros [V1 o1'] s1 (S1 & F1 & K1). cbn [fst snd] in *.
    apply wp_bind. eapply wp_mono; [eapply IH; eauto; intros Hi; apply Rs; now right|]. intros [V2 o2'] s2 (S2 & F2 & K2). cbn [fst snd] in *.
    apply wp_ret. split; auto. cbn [fst snd]. split; [now apply Forall2_app|]. intros a Ha. rewrite K2; auto.
Qed.

End Tmp.

Lemma sim_init nq : 0 <= nq -> (forall k, 0 < nb k) -> sim [] nq (pkg_init N g nq) [] [].
Proof. intros H H'. destruct (init_sp (g:=g) (nb:=nb) (X:=X) G nq H H') as (A & B & D). constructor; auto. exists (ctpin (g:=g) (ct_init cf)). split; auto. now left. Qed.

(** Replaces what is claimed about variable [i]. *)
Fixpoint claim (D : denv) (i : nat) (f : option (list nat -> C)) : denv :=
  match D, i with
  | [], _ => []
  | x :: r, O => match x with Some v => Some (DV (dk v) (dl v) (dc v) f) | None => None end :: r
  | x :: r, S j => x :: claim r j f
  end.

(** A state reached by a program from a new package, with its variables: a new package, one
    more call, or stating what a diagram denotes. *)
Inductive reached (nq : Z) : st N -> list edge -> denv -> Prop :=
  | rc_init : 0 <= nq -> (forall k, 0 < nb k) -> reached nq (pkg_init N g nq) [] []
  | rc_exec s V D c D' os V' outs s' : reached nq s V D -> dstep nq D c D' os -> exec N g nb c V s = Ok (V', outs) s' -> reached nq s' V' D'
  | rc_claim s V D i k l f0 f : reached nq s V D -> ex X -> live D i k l f0 ->
      (forall h, f = Some h -> forall p, vpath k l p -> de (co s) k (var V i) p = h p) -> reached nq s V (claim D i f).

Lemma claim_refs : forall D V i f, refs (claim D i f) V = refs D V.
Proof. induction D as [|x D IH]; intros [|e V] [|i] f; unfold refs in *; cbn [claim combine flat_map]; auto; f_equal; auto. now destruct x. Qed.
Lemma claim_F2 s : forall D V i k l f0 f, Forall2 (varok s) D V -> live D i k l f0 ->
  (forall h, f = Some h -> forall p, vpath k l p -> de (co s) k (var V i) p = h p) -> Forall2 (varok s) (claim D i f) V.
Proof.
  intros D V i k l f0 f F. revert i. induction F as [|x e D V H F IH]; intros i (c & L) Hf; [constructor|].
  destruct i as [|i]; cbn [claim].
  - injection L as ->. constructor; auto. destruct H as (A & B & _). split; auto.
  - constructor; auto. apply IH; auto. now exists c.
Qed.
Lemma claim_live : forall D i k l f0 f, live D i k l f0 -> live (claim D i f) i k l f.
Proof.
  induction D as [|x D IH]; intros [|i] k l f0 f (c & L); try discriminate; cbn [claim].
  - injection L as ->. now exists c.
  - destruct (IH i k l f0 f) as (c' & L'); [now exists c|]. now exists c'.
Qed.
Lemma claim_live_ne : forall D i j k l f0 f, j <> i -> live D j k l f0 -> live (claim D i f) j k l f0.
Proof.
  induction D as [|x D IH]; intros [|i] [|j] k l f0 f Ne (c & L); try discriminate; cbn [claim]; try (now exists c); try contradiction.
  destruct (IH i j k l f0 f) as (c' & L'); [congruence|now exists c|]. now exists c'.
Qed.
Lemma claim_back : forall D i k l f0 f, live D i k l f0 -> claim (claim D i f) i f0 = D.
Proof.
  induction D as [|x D IH]; intros [|i] k l f0 f (c & L); try discriminate; cbn [claim].
  - injection L as ->. reflexivity.
  - f_equal. apply (IH i k l). now exists c.
Qed.
Lemma claim_kept : forall D i f, kept (claim D i f) = claim (kept D) i f.
Proof. induction D as [|x D IH]; intros [|i] f; cbn [claim kept map]; auto; f_equal; [|apply IH]. destruct x as [v|]; auto. cbn. destruct (Nat.eqb (dc v) 0); auto. Qed.

Lemma reached_sim nq s V D : reached nq s V D -> sim [] nq s V D.
Proof.
  induction 1 as [Hq Hnb|s V D c D' os V' outs s' R IH Ds E|s V D i k l f0 f R IH Ex L Hf].
  - now apply sim_init.
  - pose proof (exec_sp [] nq s V D c D' os (fun _ => eq_refl) IH Ds) as W. unfold Inv.wp in W. rewrite E in W. apply W.
  - destruct IH as [A B E (pin & Pk & RC) F]. constructor; auto.
    + exists pin. split; auto. now rewrite claim_refs.
    + eapply claim_F2; eauto.
Qed.

Lemma run_app p1 p2 V s : run N g nb (p1 ++ p2) V s = (let* a := run N g nb p1 V in let* b := run N g nb p2 (fst a) in ret (fst b, snd a ++ snd b)) s.
Proof.
  revert V s. induction p1 as [|c p1 IH]; intros V s; cbn [run app].
  - unfold bind, ret. cbn [fst snd app]. destruct (run N g nb p2 V s) as [[a b] s'| |]; auto.
  - unfold bind, ret in *. destruct (exec N g nb c V s) as [[a b] s'| |]; auto. cbn [fst snd]. rewrite IH.
    destruct (run N g nb p1 a s') as [[a2 b2] s2| |]; auto. cbn [fst snd]. destruct (run N g nb p2 a2 s2) as [[a3 b3] s3| |]; auto. cbn [fst snd]. now rewrite app_assoc.
Qed.
Lemma druns_app nq D p1 D1 o1 p2 D2 o2 : druns nq D p1 D1 o1 -> druns nq D1 p2 D2 o2 -> druns nq D (p1 ++ p2) D2 (o1 ++ o2).
Proof. induction 1; cbn [app]; auto. intros. rewrite <- app_assoc. econstructor; eauto. Qed.

(** Any further allowed call that returns leads to a reached state. *)
Lemma reached_exec nq s V D c D' os V' outs s' : reached nq s V D -> dstep nq D c D' os -> exec N g nb c V s = Ok (V', outs) s' ->
  reached nq s' V' D' /\ Forall2 outok outs os.
Proof.
  intros R H E. pose proof (exec_sp [] nq s V D c D' os (fun _ => eq_refl) (reached_sim _ _ _ _ R) H) as W. unfold Inv.wp in W. rewrite E in W. destruct W as (_ & F & _). split; auto.
  eapply rc_exec; eauto.
Qed.
Lemma reached_run nq : forall prog s V D D' os V' outs s', reached nq s V D -> druns nq D prog D' os -> run N g nb prog V s = Ok (V', outs) s' ->
  reached nq s' V' D' /\ Forall2 outok outs os.
Proof.
  induction prog as [|c prog IH]; intros s V D D' os V' outs s' R H E; inversion H as [|D_ c_ p_ D1 o1 D2 o2 Hs Hr]; subst; cbn [run] in E.
  - injection E as <- <- <-. split; auto.
  - unfold bind in E. destruct (exec N g nb c V s) as [[V1 o1'] s1| |] eqn:E1; try discriminate. cbn [fst snd] in E.
    destruct (run N g nb prog V1 s1) as [[V2 o2'] s2| |] eqn:E2; try discriminate. injection E as <- <- <-. cbn [fst snd].
    destruct (reached_exec _ _ _ _ _ _ _ _ _ _ R Hs E1) as [R1 F1]. destruct (IH _ _ _ _ _ _ _ _ R1 Hr E2) as [R2 F2]. split; auto. now apply Forall2_app.
Qed.
End RunL.
