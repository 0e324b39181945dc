(** Properties of the operations that do not hold, with witnesses computed in IEEE doubles.
    All numbers in the witnesses are small integers, so rounding plays no role. *)
From Coq Require Import ZArith List Bool Lia SpecFloat.
From Verif Require Import Num Base CTable Cx State Pkg Read StateL Inst GateAct Run PropBase.
Import ListNotations.
Local Open Scope Z_scope.

Notation gF := (gdef NumF).

(** What a program prints on a new package for [nq] qubits: its outputs, an exception, or a
    fault (an access the C++ standard leaves undefined). *)
Inductive seen := SeenOuts (o : list (out NumF)) | SeenThrow (x : exn) | SeenBad (b : bad).
Definition watch (nq : Z) (prog : list (ins NumF)) : seen :=
  match run NumF gF nbdef prog [] (pkg_init NumF gF nq) with
  | Ok (_, o) _ => SeenOuts o | Thr x _ => SeenThrow x | Bad b => SeenBad b
  end.
Lemma watch_outs nq prog o : watch nq prog = SeenOuts o -> exists V s, run NumF gF nbdef prog [] (pkg_init NumF gF nq) = Ok (V, o) s.
Proof. unfold watch. destruct (run _ _ _ _ _ _) as [[V o'] s| |] eqn:E; intros H; try discriminate. injection H as ->. eauto. Qed.
Lemma watch_bad nq prog b : watch nq prog = SeenBad b -> run NumF gF nbdef prog [] (pkg_init NumF gF nq) = Bad b.
Proof. unfold watch. destruct (run _ _ _ _ _ _) as [[V o'] s| |] eqn:E; intros H; try discriminate. now injection H as ->. Qed.

Definition f0 : NumF := F0.
Definition f1 : NumF := F1.
(** The double 2. *)
Definition f2 : NumF := nadd f1 f1.

(** * C26: the identity shortcut of the Kronecker product drops the weight of its first operand
    (Package.hpp:1983-1996): (2 I) (x) I has the entry 1 instead of 2 * 1. *)
Definition diag (a : NumF) : list (list (NumF * NumF)) := [[(a, f0); (f0, f0)]; [(f0, f0); (a, f0)]].
Theorem kronecker_matrices_refuted : exists (a b : list (list (NumF * NumF))) V s v,
  run NumF gF nbdef [IMat a; IMat b; IKron KM 0 1; IValM 2 0 0] [] (pkg_init NumF gF 2) = Ok (V, [OC v]) s /\
  mentry a 0 0 = (f2, f0) /\ mentry b 0 0 = (f1, f0) /\ fst v <> nmul f2 f1.
Proof.
  exists (diag f2), (diag f1). destruct (watch_outs 2 [IMat (diag f2); IMat (diag f1); IKron KM 0 1; IValM 2 0 0] [OC (f1, f0)]) as (V & s & E); [vm_compute; reflexivity|].
  exists V, s, (f1, f0). split; [exact E|]. split; [reflexivity|]. split; [reflexivity|]. vm_compute. discriminate.
Qed.
(** The weight is lost on inner edges too: (Z (x) I) (x) I has the entry 1 instead of -1 in the
    lower right corner. *)
Definition fm1 : NumF := nneg f1.
Definition pauliZ : list (list (NumF * NumF)) := [[(f1, f0); (f0, f0)]; [(f0, f0); (fm1, f0)]].
Theorem kronecker_inner_weight_refuted : exists V s a b,
  run NumF gF nbdef [IMat pauliZ; IMat (diag f1); IKron KM 0 1; IKron KM 2 1; IValM 2 3 3; IValM 3 7 7] [] (pkg_init NumF gF 3) = Ok (V, [OC a; OC b]) s /\
  a = (fm1, f0) /\ b = (f1, f0).
Proof.
  destruct (watch_outs 3 [IMat pauliZ; IMat (diag f1); IKron KM 0 1; IKron KM 2 1; IValM 2 3 3; IValM 3 7 7] [OC (fm1, f0); OC (f1, f0)]) as (V & s & E); [vm_compute; reflexivity|].
  exists V, s, (fm1, f0), (f1, f0). auto.
Qed.

(** * C18, C19, C44: getVector and getMatrix shift by a negative amount for terminal roots. *)
Theorem getVector_zero_refuted : exists v : list (NumF * NumF), length v = 2%nat /\
  run NumF gF nbdef [IVec v; IGetVec 0] [] (pkg_init NumF gF 1) = Bad BadShift.
Proof. exists [(f0, f0); (f0, f0)]. split; [reflexivity|]. apply watch_bad. vm_compute. reflexivity. Qed.
Theorem getMatrix_zero_refuted : exists m : list (list (NumF * NumF)), length m = 2%nat /\ (forall r, In r m -> length r = 2%nat) /\
  run NumF gF nbdef [IMat m; IGetMat 0] [] (pkg_init NumF gF 1) = Bad BadShift.
Proof. exists (diag f0). split; [reflexivity|]. split; [intros r [<-|[<-|[]]]; reflexivity|]. apply watch_bad. vm_compute. reflexivity. Qed.
(** Exporting the zero vector leaves the list as it was. *)
Theorem export_zero_refuted : exists (v l : list (NumF * NumF)) V s,
  length v = 2%nat /\ (forall x, In x v -> x = (f0, f0)) /\
  run NumF gF nbdef [IVec v; IExport 0 l 1] [] (pkg_init NumF gF 1) = Ok (V, [OV l]) s /\ length l = 2%nat /\ l <> v.
Proof.
  exists [(f0, f0); (f0, f0)], [(f1, f0); (f1, f0)].
  destruct (watch_outs 1 [IVec [(f0, f0); (f0, f0)]; IExport 0 [(f1, f0); (f1, f0)] 1] [OV [(f1, f0); (f1, f0)]]) as (V & s & E); [vm_compute; reflexivity|].
  exists V, s. split; [reflexivity|]. split; [intros x [<-|[<-|[]]]; reflexivity|]. split; [exact E|]. split; [reflexivity|]. discriminate.
Qed.
(** With 65 qubits, reading by index shifts a 64-bit number by 64. *)
Theorem getValueByIndex_65_refuted :
  run NumF gF nbdef [IZero 65; IValV 0 0] [] (pkg_init NumF gF 65) = Bad BadShift.
Proof. apply watch_bad. vm_compute. reflexivity. Qed.

(** * C20: the version taking bits reads past the end of a list that is too short. *)
Theorem makeBasisState_short_refuted :
  run NumF gF nbdef [IBasis 2 [true]] [] (pkg_init NumF gF 2) = Bad BadIndex.
Proof. apply watch_bad. vm_compute. reflexivity. Qed.

(** * C29: makeIdent(1, 2) is the identity on qubits 1 and 2 of a new package, but the identity on
    qubits 0 to 2 after makeIdent(0, 1): an off-diagonal digit at qubit 0 reads 1, then 0. *)
Definition ident_entry (before : list Z) : option (NumF * NumF) :=
  match (let* _ := mapM NumF (fun m => makeIdent NumF gF nbdef 0 m) before in
         let* e := makeIdent NumF gF nbdef 1 2 in
         getValueByPath NumF gF KM e [1; 0; 0]%nat) (pkg_init NumF gF 3)
  with Ok v _ => Some v | _ => None end.
Theorem makeIdent_history_refuted : ident_entry [] = Some (f1, f0) /\ ident_entry [1] = Some (f0, f0).
Proof. split; vm_compute; reflexivity. Qed.


Print Assumptions kronecker_matrices_refuted.
Print Assumptions kronecker_inner_weight_refuted.
Print Assumptions getVector_zero_refuted.
Print Assumptions getMatrix_zero_refuted.
Print Assumptions export_zero_refuted.
Print Assumptions getValueByIndex_65_refuted.
Print Assumptions makeBasisState_short_refuted.
Print Assumptions makeIdent_history_refuted.
