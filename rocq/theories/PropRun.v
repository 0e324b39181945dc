(** Whole programs: the package against dense linear algebra (C47), and what cannot go wrong in
    double arithmetic (C49). *)
From Coq Require Import ZArith List Bool Lia Arith Reals Lra.
From Verif Require Import Num Base CTable CTableWf Cx State Pkg Read Inv InvL PrimL GateAct Run Inst PropBase PropStruct.
Import ListNotations.
Local Open Scope Z_scope.

(** * C47 *)

Section Exact.
Context (g : cfg R0) (nb : kind -> Z) (G : gok g) (Hnb : forall k, 0 < nb k).
Local Notation XR := (XR g G).

(** Every program of calls within their domains ([druns] lists the domains and, next to them, what
    dense linear algebra computes) runs without failing.  Every diagram the user may still use has
    the entries that dense linear algebra yields, and every number the program printed is the one
    dense linear algebra yields. *)
Theorem package_is_dense nq prog D os : 0 <= nq -> druns (g:=g) (X:=XR) nq [] prog D os ->
  exists V outs s, run R0 g nb prog [] (pkg_init R0 g nq) = Ok (V, outs) s /\ Forall2 (outok (X:=XR)) outs os /\
    forall i k l f, live D i k l (Some f) -> forall p, vpath k l p -> entry g G s k (var V i) p = f p.
Proof.
  intros Hq Dr. destruct (runs g nb G nq prog D os Hq Hnb Dr) as (s & V & outs & E & R & F). exists V, outs, s. split; auto. split; auto.
  intros i k l f L p Hp. eapply usr_entry; eauto.
Qed.
(** The same holds after every prefix of the program. *)
Theorem package_is_dense_throughout nq prog1 prog2 D os : 0 <= nq -> druns (g:=g) (X:=XR) nq [] (prog1 ++ prog2) D os ->
  exists V outs s D1 os1, run R0 g nb prog1 [] (pkg_init R0 g nq) = Ok (V, outs) s /\ druns (g:=g) (X:=XR) nq [] prog1 D1 os1 /\ Forall2 (outok (X:=XR)) outs os1 /\
    forall i k l f, live D1 i k l (Some f) -> forall p, vpath k l p -> entry g G s k (var V i) p = f p.
Proof.
  intros Hq Dr. assert (Sp: forall prog1 D0 D os, druns (g:=g) (X:=XR) nq D0 (prog1 ++ prog2) D os -> exists D1 os1, druns (g:=g) (X:=XR) nq D0 prog1 D1 os1).
  { clear. induction prog1 as [|c prog1 IH]; intros D0 D os H; [exists D0, []; constructor|]. cbn in H. inversion H as [|D_ c_ p_ D1 o1 D2 o2 Hs Hr]; subst.
    destruct (IH _ _ _ Hr) as (D3 & o3 & H3). exists D3, (o1 ++ o3). econstructor; eauto. }
  destruct (Sp _ _ _ _ Dr) as (D1 & os1 & H1). destruct (package_is_dense nq prog1 D1 os1 Hq H1) as (V & outs & s & A & B & C). exists V, outs, s, D1, os1. auto.
Qed.
End Exact.

Example package_is_dense_ex : druns (g:=gR) (X:=XR gR GR) 3 [] prog0 D0 [] /\ live D0 6 KV 1 (Some fP) /\ (forall k, 0 < nbdef k).
Proof. split; [apply druns0|]. split; [exists 0%nat; reflexivity|apply nbdef_pos]. Qed.

(** * C49 *)

Section Any.
Context {N : num} (g : cfg N) (nb : kind -> Z) (S : sane N) (G : gok g) (Hnb : forall k, 0 < nb k).
Local Notation X := (numG N (g_ct g) S).

(** In any arithmetic, doubles included, a program of calls within their domains never throws,
    never dereferences a null pointer, never indexes out of range, never shifts too far, never
    returns storage twice and always ends.  It can stop only at a number whose bucket cannot be
    computed or at a failing assertion. *)
Theorem programs_safe nq prog D os : 0 <= nq -> druns (g:=g) (X:=X) nq [] prog D os ->
  match run N g nb prog [] (pkg_init N g nq) with
  | Ok _ _ => True
  | Thr _ _ => False
  | Bad b => b = BadNum \/ b = BadAssert
  end.
Proof.
  intros Hq Dr. pose proof (run_sp G [] nq prog _ _ _ _ _ (fun _ => eq_refl) (sim_init G nq Hq Hnb) Dr) as W. unfold Inv.wp in W.
  destruct (run N g nb prog [] (pkg_init N g nq)) as [r s|x s|b]; auto. apply W.
Qed.
End Any.

(** A program on doubles that builds, adds and multiplies diagrams and references some of them. *)
Example programs_safe_ex : druns (g:=gS) (X:=numG NumF (g_ct gS) saneF) 3 [] progS DS [] /\ gok gS /\ (forall k, 0 < nbS k).
Proof. split; [exact drunsS|]. split; [exact gS_ok|reflexivity]. Qed.

Print Assumptions package_is_dense.
Print Assumptions package_is_dense_throughout.
Print Assumptions programs_safe.
