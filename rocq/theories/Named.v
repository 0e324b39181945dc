(** Gate matrices (GateMatrixDefinitions.hpp) and named two-qubit gates (Package.hpp:629-810). *)
From Coq Require Import ZArith List Bool.
From Verif Require Import Num Base CTable State Pkg Control Gate.
Import ListNotations.
Local Open Scope Z_scope.

(** std::cos, std::sin (GateMatrixDefinitions.hpp:51-174) and the constants PI_2, PI_4
    (Definitions.hpp:51-52).  The C library's functions are not modelled; they are a parameter. *)
Record trig (N : num) := Trig { tcos : N -> N; tsin : N -> N; tpi2 : N; tpi4 : N }.
Arguments tcos {N}. Arguments tsin {N}. Arguments tpi2 {N}. Arguments tpi4 {N}.

Section Mats.
Context {N : num}.
Local Notation cv := (N * N)%type.

(** complex_one (GateMatrixDefinitions.hpp:18) *)
Definition c_one : cv := (n1, n0).
(** complex_mone (GateMatrixDefinitions.hpp:19) *)
Definition c_mone : cv := (nneg n1, n0).
(** complex_zero (GateMatrixDefinitions.hpp:20) *)
Definition c_zero : cv := (n0, n0).
(** complex_i (GateMatrixDefinitions.hpp:21) *)
Definition c_i : cv := (n0, n1).
(** complex_mi (GateMatrixDefinitions.hpp:22) *)
Definition c_mi : cv := (n0, nneg n1).
(** complex_SQRT2_2 (GateMatrixDefinitions.hpp:23) *)
Definition c_sq : cv := (nsq2, n0).
(** complex_mSQRT2_2 (GateMatrixDefinitions.hpp:24) *)
Definition c_msq : cv := (nneg nsq2, n0).
(** complex_iSQRT2_2 (GateMatrixDefinitions.hpp:25) *)
Definition c_isq : cv := (n0, nsq2).
(** complex_miSQRT2_2 (GateMatrixDefinitions.hpp:26) *)
Definition c_misq : cv := (n0, nneg nsq2).
(** complex_1plusi (GateMatrixDefinitions.hpp:27) *)
Definition c_1pi : cv := (nsq2, nsq2).
(** complex_1minusi (GateMatrixDefinitions.hpp:28) *)
Definition c_1mi : cv := (nsq2, nneg nsq2).
(** complex_1plusi_2 (GateMatrixDefinitions.hpp:29) *)
Definition c_1pi2 : cv := (nhalf, nhalf).
(** complex_1minusi_2 (GateMatrixDefinitions.hpp:30) *)
Definition c_1mi2 : cv := (nhalf, nneg nhalf).

(** Imat (GateMatrixDefinitions.hpp:34) *)
Definition Imat : list cv := [c_one; c_zero; c_zero; c_one].
(** Hmat (GateMatrixDefinitions.hpp:35) *)
Definition Hmat : list cv := [c_sq; c_sq; c_sq; c_msq].
(** Xmat (GateMatrixDefinitions.hpp:36) *)
Definition Xmat : list cv := [c_zero; c_one; c_one; c_zero].
(** Ymat (GateMatrixDefinitions.hpp:37) *)
Definition Ymat : list cv := [c_zero; c_mi; c_i; c_zero].
(** Zmat (GateMatrixDefinitions.hpp:38) *)
Definition Zmat : list cv := [c_one; c_zero; c_zero; c_mone].
(** Smat (GateMatrixDefinitions.hpp:39) *)
Definition Smat : list cv := [c_one; c_zero; c_zero; c_i].
(** Sdagmat (GateMatrixDefinitions.hpp:40) *)
Definition Sdagmat : list cv := [c_one; c_zero; c_zero; c_mi].
(** Tmat (GateMatrixDefinitions.hpp:41) *)
Definition Tmat : list cv := [c_one; c_zero; c_zero; c_1pi].
(** Tdagmat (GateMatrixDefinitions.hpp:42) *)
Definition Tdagmat : list cv := [c_one; c_zero; c_zero; c_1mi].
(** SXmat (GateMatrixDefinitions.hpp:43) *)
Definition SXmat : list cv := [c_1pi2; c_1mi2; c_1mi2; c_1pi2].
(** SXdagmat (GateMatrixDefinitions.hpp:44) *)
Definition SXdagmat : list cv := [c_1mi2; c_1pi2; c_1pi2; c_1mi2].
(** Vmat (GateMatrixDefinitions.hpp:45) *)
Definition Vmat : list cv := [c_sq; c_misq; c_misq; c_sq].
(** Vdagmat (GateMatrixDefinitions.hpp:46) *)
Definition Vdagmat : list cv := [c_sq; c_isq; c_isq; c_sq].

Context (T : trig N).
(** [x / 2.] (GateMatrixDefinitions.hpp:49); 1 + 1 is exactly 2 in binary64. *)
Definition half2 (x : N) : N := ndiv x (nadd n1 n1).
(** U3mat (GateMatrixDefinitions.hpp:48-53) *)
Definition U3mat (lambda phi theta : N) : list cv :=
  [(tcos T (half2 theta), n0);
   (nmul (nneg (tcos T lambda)) (tsin T (half2 theta)), nmul (nneg (tsin T lambda)) (tsin T (half2 theta)));
   (nmul (tcos T phi) (tsin T (half2 theta)), nmul (tsin T phi) (tsin T (half2 theta)));
   (nmul (tcos T (nadd lambda phi)) (tcos T (half2 theta)), nmul (tsin T (nadd lambda phi)) (tcos T (half2 theta)))].
(** U2mat (GateMatrixDefinitions.hpp:55-60) *)
Definition U2mat (lambda phi : N) : list cv :=
  [c_sq;
   (nmul (nneg (tcos T lambda)) nsq2, nmul (nneg (tsin T lambda)) nsq2);
   (nmul (tcos T phi) nsq2, nmul (tsin T phi) nsq2);
   (nmul (tcos T (nadd lambda phi)) nsq2, nmul (tsin T (nadd lambda phi)) nsq2)].
(** Phasemat (GateMatrixDefinitions.hpp:62-64) *)
Definition Phasemat (lambda : N) : list cv := [c_one; c_zero; c_zero; (tcos T lambda, tsin T lambda)].
(** RXmat (GateMatrixDefinitions.hpp:66-71) *)
Definition RXmat (lambda : N) : list cv :=
  [(tcos T (half2 lambda), n0); (n0, nneg (tsin T (half2 lambda))); (n0, nneg (tsin T (half2 lambda))); (tcos T (half2 lambda), n0)].
(** RYmat (GateMatrixDefinitions.hpp:73-78) *)
Definition RYmat (lambda : N) : list cv :=
  [(tcos T (half2 lambda), n0); (nneg (tsin T (half2 lambda)), n0); (tsin T (half2 lambda), n0); (tcos T (half2 lambda), n0)].
(** RZmat (GateMatrixDefinitions.hpp:80-85) *)
Definition RZmat (lambda : N) : list cv :=
  [(tcos T (half2 lambda), nneg (tsin T (half2 lambda))); c_zero; c_zero; (tcos T (half2 lambda), tsin T (half2 lambda))].

(** CXmat (GateMatrixDefinitions.hpp:88-91), by rows. *)
Definition CXmat : list (list cv) :=
  [[c_one; c_zero; c_zero; c_zero]; [c_zero; c_one; c_zero; c_zero]; [c_zero; c_zero; c_zero; c_one]; [c_zero; c_zero; c_one; c_zero]].
(** CZmat (GateMatrixDefinitions.hpp:93-96), by rows. *)
Definition CZmat : list (list cv) :=
  [[c_one; c_zero; c_zero; c_zero]; [c_zero; c_one; c_zero; c_zero]; [c_zero; c_zero; c_one; c_zero]; [c_zero; c_zero; c_zero; c_mone]].
(** SWAPmat (GateMatrixDefinitions.hpp:98-101), by rows. *)
Definition SWAPmat : list (list cv) :=
  [[c_one; c_zero; c_zero; c_zero]; [c_zero; c_zero; c_one; c_zero]; [c_zero; c_one; c_zero; c_zero]; [c_zero; c_zero; c_zero; c_one]].
(** iSWAPmat (GateMatrixDefinitions.hpp:103-106), by rows. *)
Definition iSWAPmat : list (list cv) :=
  [[c_one; c_zero; c_zero; c_zero]; [c_zero; c_zero; c_i; c_zero]; [c_zero; c_i; c_zero; c_zero]; [c_zero; c_zero; c_zero; c_one]].
(** iSWAPinvmat (GateMatrixDefinitions.hpp:108-111), by rows. *)
Definition iSWAPinvmat : list (list cv) :=
  [[c_one; c_zero; c_zero; c_zero]; [c_zero; c_zero; c_mi; c_zero]; [c_zero; c_mi; c_zero; c_zero]; [c_zero; c_zero; c_zero; c_one]].
(** ECRmat (GateMatrixDefinitions.hpp:113-116), by rows. *)
Definition ECRmat : list (list cv) :=
  [[c_zero; c_zero; c_sq; c_isq]; [c_zero; c_zero; c_isq; c_sq]; [c_sq; c_misq; c_zero; c_zero]; [c_misq; c_sq; c_zero; c_zero]].
(** DCXmat (GateMatrixDefinitions.hpp:118-121), by rows. *)
Definition DCXmat : list (list cv) :=
  [[c_one; c_zero; c_zero; c_zero]; [c_zero; c_zero; c_zero; c_one]; [c_zero; c_one; c_zero; c_zero]; [c_zero; c_zero; c_one; c_zero]].
(** RXXmat (GateMatrixDefinitions.hpp:123-131) *)
Definition RXXmat (theta : N) : list (list cv) :=
  let c := tcos T (half2 theta) in let s := tsin T (half2 theta) in
  [[(c, n0); c_zero; c_zero; (n0, nneg s)]; [c_zero; (c, n0); (n0, nneg s); c_zero];
   [c_zero; (n0, nneg s); (c, n0); c_zero]; [(n0, nneg s); c_zero; c_zero; (c, n0)]].
(** RYYmat (GateMatrixDefinitions.hpp:133-141) *)
Definition RYYmat (theta : N) : list (list cv) :=
  let c := tcos T (half2 theta) in let s := tsin T (half2 theta) in
  [[(c, n0); c_zero; c_zero; (n0, s)]; [c_zero; (c, n0); (n0, nneg s); c_zero];
   [c_zero; (n0, nneg s); (c, n0); c_zero]; [(n0, s); c_zero; c_zero; (c, n0)]].
(** RZZmat (GateMatrixDefinitions.hpp:143-151) *)
Definition RZZmat (theta : N) : list (list cv) :=
  let c := tcos T (half2 theta) in let s := tsin T (half2 theta) in
  [[(c, nneg s); c_zero; c_zero; c_zero]; [c_zero; (c, s); c_zero; c_zero];
   [c_zero; c_zero; (c, s); c_zero]; [c_zero; c_zero; c_zero; (c, nneg s)]].
(** RZXmat (GateMatrixDefinitions.hpp:153-161) *)
Definition RZXmat (theta : N) : list (list cv) :=
  let c := tcos T (half2 theta) in let s := tsin T (half2 theta) in
  [[(c, n0); (n0, nneg s); c_zero; c_zero]; [(n0, nneg s); (c, n0); c_zero; c_zero];
   [c_zero; c_zero; (c, n0); (n0, s)]; [c_zero; c_zero; (n0, s); (c, n0)]].
(** XXMinusYYmat (GateMatrixDefinitions.hpp:163-173) *)
Definition XXMinusYYmat (theta beta : N) : list (list cv) :=
  let c := tcos T (half2 theta) in let s := tsin T (half2 theta) in let cb := tcos T beta in let sb := tsin T beta in
  [[(c, n0); c_zero; c_zero; (nmul sb s, nmul (nneg cb) s)]; [c_zero; c_one; c_zero; c_zero];
   [c_zero; c_zero; c_one; c_zero]; [(nmul (nneg sb) s, nmul (nneg cb) s); c_zero; c_zero; (c, n0)]].
(** XXPlusYYmat (GateMatrixDefinitions.hpp:175-185) *)
Definition XXPlusYYmat (theta beta : N) : list (list cv) :=
  let c := tcos T (half2 theta) in let s := tsin T (half2 theta) in let cb := tcos T beta in let sb := tsin T beta in
  [[c_one; c_zero; c_zero; c_zero]; [c_zero; (c, n0); (nmul sb s, nmul (nneg cb) s); c_zero];
   [c_zero; (nmul (nneg sb) s, nmul (nneg cb) s); (c, n0); c_zero]; [c_zero; c_zero; c_zero; c_one]].
End Mats.

(** std::set::erase of a key (Package.hpp:635 and others). *)
Fixpoint cs_erase (a : control) (l : list control) : list control :=
  match l with
  | [] => []
  | b :: r => if ctl_ltb a b then l else if ctl_ltb b a then b :: cs_erase a r else r
  end.

(** The gates with a controlled overload, and the two Peres gates (Package.hpp:629-810). *)
Inductive ngate (N : num) : Type :=
| GSwap | GPeres | GPeresdag | GiSwap | GiSwapinv | GDcx
| GRzz (theta : N) | GRyy (theta : N) | GRxx (theta : N) | GRzx (theta : N) | GEcr
| GXXmYY (theta beta : N) | GXXpYY (theta beta : N).
Arguments GSwap {N}. Arguments GPeres {N}. Arguments GPeresdag {N}. Arguments GiSwap {N}. Arguments GiSwapinv {N}.
Arguments GDcx {N}. Arguments GRzz {N}. Arguments GRyy {N}. Arguments GRxx {N}. Arguments GRzx {N}.
Arguments GEcr {N}. Arguments GXXmYY {N}. Arguments GXXpYY {N}.

Section Named.
Context (N : num) (g : cfg N) (nb : kind -> Z) (T : trig N).
Local Notation M := (M N).
Local Notation makeGateDD := (makeGateDD N g nb).
Local Notation multiply := (multiply N g nb KM).

(** [multiply(e, makeGateDD(m, n, c, t, start))] (Package.hpp:663 and others). *)
Definition gmul (e : edge) (m : list (N * N)) (n : Z) (c : list control) (t start : Z) : M edge :=
  let* x := makeGateDD m n c t start in multiply e x 0.

(** Control{q} is positive (Control.hpp:14-20). *)
Definition pc (q : Z) : control := Ctl q true.

(** makeSWAPDD with controls (Package.hpp:632-640) *)
Definition makeSWAPDD (n : Z) (cs : list control) (t0 t1 start : Z) : M edge :=
  let c := cs_insert (pc t0) cs in
  let* e := makeGateDD Xmat n c t1 start in
  let c := cs_insert (pc t1) (cs_erase (pc t0) c) in
  let* x := makeGateDD Xmat n c t0 start in
  let* y := multiply x e 0 in
  multiply e y 0.
(** makePeresDD (Package.hpp:642-648) *)
Definition makePeresDD (n : Z) (cs : list control) (t0 t1 start : Z) : M edge :=
  let c := cs_insert (pc t1) cs in
  let* e := makeGateDD Xmat n c t0 start in
  let* x := makeGateDD Xmat n cs t1 start in
  multiply x e 0.
(** makePeresdagDD (Package.hpp:650-656) *)
Definition makePeresdagDD (n : Z) (cs : list control) (t0 t1 start : Z) : M edge :=
  let* e := makeGateDD Xmat n cs t1 start in
  let c := cs_insert (pc t1) cs in
  let* x := makeGateDD Xmat n c t0 start in
  multiply x e 0.
(** makeiSWAPDD with controls (Package.hpp:661-673) *)
Definition makeiSWAPDD (n : Z) (cs : list control) (t0 t1 start : Z) : M edge :=
  let* e := makeGateDD Smat n cs t1 start in
  let* e := gmul e Smat n cs t0 start in
  let* e := gmul e Hmat n cs t0 start in
  let c := cs_insert (pc t0) cs in
  let* e := gmul e Xmat n c t1 start in
  let c := cs_insert (pc t1) (cs_erase (pc t0) c) in
  let* e := gmul e Xmat n c t0 start in
  gmul e Hmat n cs t1 start.
(** makeiSWAPinvDD with controls (Package.hpp:678-690) *)
Definition makeiSWAPinvDD (n : Z) (cs : list control) (t0 t1 start : Z) : M edge :=
  let* e := makeGateDD Hmat n cs t1 start in
  let c := cs_insert (pc t1) cs in
  let* e := gmul e Xmat n c t0 start in
  let c := cs_insert (pc t0) (cs_erase (pc t1) c) in
  let* e := gmul e Xmat n c t1 start in
  let* e := gmul e Hmat n cs t0 start in
  let* e := gmul e Sdagmat n cs t0 start in
  gmul e Sdagmat n cs t1 start.
(** makeDCXDD with controls (Package.hpp:695-703) *)
Definition makeDCXDD (n : Z) (cs : list control) (t0 t1 start : Z) : M edge :=
  let c := cs_insert (pc t0) cs in
  let* e := makeGateDD Xmat n c t1 start in
  let c := cs_insert (pc t1) (cs_erase (pc t0) c) in
  gmul e Xmat n c t0 start.
(** makeRZZDD with controls (Package.hpp:708-717) *)
Definition makeRZZDD (n : Z) (cs : list control) (t0 t1 : Z) (theta : N) (start : Z) : M edge :=
  let c := cs_insert (pc t0) cs in
  let* e := makeGateDD Xmat n c t1 start in
  let c := cs_erase (pc t0) c in
  let* e := gmul e (RZmat T theta) n c t1 start in
  let c := cs_insert (pc t0) c in
  gmul e Xmat n c t1 start.
(** [multiply(e, makeRZZDD(...))] (Package.hpp:726, 739, 751) *)
Definition zzmul (e : edge) (n : Z) (cs : list control) (t0 t1 : Z) (theta : N) (start : Z) : M edge :=
  let* x := makeRZZDD n cs t0 t1 theta start in multiply e x 0.
(** makeRYYDD with controls (Package.hpp:722-730) *)
Definition makeRYYDD (n : Z) (cs : list control) (t0 t1 : Z) (theta : N) (start : Z) : M edge :=
  let* e := makeGateDD (RXmat T (tpi2 T)) n [] t0 start in
  let* e := gmul e (RXmat T (tpi2 T)) n [] t1 start in
  let* e := zzmul e n cs t0 t1 theta start in
  let* e := gmul e (RXmat T (nneg (tpi2 T))) n [] t1 start in
  gmul e (RXmat T (nneg (tpi2 T))) n [] t0 start.
(** makeRXXDD with controls (Package.hpp:735-743) *)
Definition makeRXXDD (n : Z) (cs : list control) (t0 t1 : Z) (theta : N) (start : Z) : M edge :=
  let* e := makeGateDD Hmat n [] t0 start in
  let* e := gmul e Hmat n [] t1 start in
  let* e := zzmul e n cs t0 t1 theta start in
  let* e := gmul e Hmat n [] t1 start in
  gmul e Hmat n [] t0 start.
(** makeRZXDD with controls (Package.hpp:748-754) *)
Definition makeRZXDD (n : Z) (cs : list control) (t0 t1 : Z) (theta : N) (start : Z) : M edge :=
  let* e := makeGateDD Hmat n [] t1 start in
  let* e := zzmul e n cs t0 t1 theta start in
  gmul e Hmat n [] t1 start.
(** makeECRDD with controls (Package.hpp:759-764) *)
Definition makeECRDD (n : Z) (cs : list control) (t0 t1 start : Z) : M edge :=
  let* e := makeRZXDD n cs t0 t1 (nneg (tpi4 T)) start in
  let* e := gmul e Xmat n cs t0 start in
  let* x := makeRZXDD n cs t0 t1 (tpi4 T) start in
  multiply e x 0.
(** makeXXMinusYYDD with controls (Package.hpp:769-787) *)
Definition makeXXMinusYYDD (n : Z) (cs : list control) (t0 t1 : Z) (theta beta : N) (start : Z) : M edge :=
  let* e := makeGateDD (RZmat T (nneg beta)) n [] t1 start in
  let* e := gmul e (RZmat T (nneg (tpi2 T))) n [] t0 start in
  let* e := gmul e SXmat n [] t0 start in
  let* e := gmul e (RZmat T (tpi2 T)) n [] t0 start in
  let* e := gmul e Smat n [] t1 start in
  let* e := gmul e Xmat n [pc t0] t1 start in
  let* e := gmul e (RYmat T (half2 (nneg theta))) n cs t0 start in
  let* e := gmul e (RYmat T (half2 theta)) n cs t1 start in
  let* e := gmul e Xmat n [pc t0] t1 start in
  let* e := gmul e Sdagmat n [] t1 start in
  let* e := gmul e (RZmat T (nneg (tpi2 T))) n [] t0 start in
  let* e := gmul e SXdagmat n [] t0 start in
  let* e := gmul e (RZmat T (tpi2 T)) n [] t0 start in
  gmul e (RZmat T beta) n [] t1 start.
(** makeXXPlusYYDD with controls (Package.hpp:792-810) *)
Definition makeXXPlusYYDD (n : Z) (cs : list control) (t0 t1 : Z) (theta beta : N) (start : Z) : M edge :=
  let* e := makeGateDD (RZmat T beta) n [] t1 start in
  let* e := gmul e (RZmat T (nneg (tpi2 T))) n [] t0 start in
  let* e := gmul e SXmat n [] t0 start in
  let* e := gmul e (RZmat T (tpi2 T)) n [] t0 start in
  let* e := gmul e Smat n [] t1 start in
  let* e := gmul e Xmat n [pc t0] t1 start in
  let* e := gmul e (RYmat T (half2 theta)) n cs t0 start in
  let* e := gmul e (RYmat T (half2 theta)) n cs t1 start in
  let* e := gmul e Xmat n [pc t0] t1 start in
  let* e := gmul e Sdagmat n [] t1 start in
  let* e := gmul e (RZmat T (nneg (tpi2 T))) n [] t0 start in
  let* e := gmul e SXdagmat n [] t0 start in
  let* e := gmul e (RZmat T (tpi2 T)) n [] t0 start in
  gmul e (RZmat T (nneg beta)) n [] t1 start.

(** The call for a named gate (Package.hpp:629-810). *)
Definition makeNamed (w : ngate N) (n : Z) (cs : list control) (t0 t1 start : Z) : M edge :=
  match w with
  | GSwap => makeSWAPDD n cs t0 t1 start
  | GPeres => makePeresDD n cs t0 t1 start
  | GPeresdag => makePeresdagDD n cs t0 t1 start
  | GiSwap => makeiSWAPDD n cs t0 t1 start
  | GiSwapinv => makeiSWAPinvDD n cs t0 t1 start
  | GDcx => makeDCXDD n cs t0 t1 start
  | GRzz th => makeRZZDD n cs t0 t1 th start
  | GRyy th => makeRYYDD n cs t0 t1 th start
  | GRxx th => makeRXXDD n cs t0 t1 th start
  | GRzx th => makeRZXDD n cs t0 t1 th start
  | GEcr => makeECRDD n cs t0 t1 start
  | GXXmYY th b => makeXXMinusYYDD n cs t0 t1 th b start
  | GXXpYY th b => makeXXPlusYYDD n cs t0 t1 th b start
  end.
End Named.
