(** Vocabulary shared by the property files: default parameters, exact real arithmetic,
    reachable package states and the diagrams the user holds in them, and a sample program. *)
From Coq Require Import ZArith List Bool Lia Arith Reals Lra.
From Verif Require Import Num Base CTable CTableWf Cx State Pkg Inv InvL PrimL StateL Inst TraceL RefL Run.
Import ListNotations.
Local Open Scope Z_scope.

(** ** Parameters *)

(** The default template parameters: ComplexTable.hpp:26, ComplexCache.hpp:18,
    UniqueTable.hpp:29.  The hash functions are samples. *)
Definition hedge (e : edge) : Z := match ep e with PNode n => Z.of_nat n + 1 | _ => 0 end.
Definition gdef (N : num) : cfg N :=
  Cfg N ct_default 2048 2 131072 (fun _ es => fold_right (fun e h => hedge e + 3 * h) 0 es)
      (fun _ _ _ => 0) (fun _ a b => hedge a + 5 * hedge b) (fun _ a => hedge a).
(** Buckets of the unique tables (UniqueTable.hpp:29). *)
Definition nbdef (k : kind) : Z := 32768.
Lemma gdef_ok N : gok (gdef N).
Proof. split; [apply ct_default_ok|]. cbn. split; [lia|]. split; [lia|]. exists 1024. reflexivity. Qed.
Lemma nbdef_pos k : 0 < nbdef k.
Proof. unfold nbdef. lia. Qed.

(** ** Exact real arithmetic *)

Notation R0 := (NumR 0).
Section Exact.
Context (g : cfg R0) (nb : kind -> Z) (G : gok g).
Definition XR : numx R0 (g_ct g) := numR0 (g_ct g) (proj1 G).

(** Entry of the vector or matrix denoted by edge [e] of kind [k] at the index with digits
    [p] (from the most significant qubit down; 2 * row bit + column bit for matrices). *)
Definition entry (s : st R0) (k : kind) (e : edge) (p : list nat) : C := de R0 g XR (co R0 s) k e p.

(** [s] is the state and [V] are the variables after an allowed sequence of calls on a new
    package for [nq] qubits; [D] tells what dense linear algebra yields for them. *)
Definition reachedR (nq : Z) (s : st R0) (V : list edge) (D : denv) : Prop := reached (g:=g) (nb:=nb) (X:=XR) nq s V D.

(** [e] is a diagram over qubits 0..l that the user may use. *)
Definition usr (V : list edge) (D : denv) (k : kind) (l : Z) (e : edge) : Prop :=
  exists i f, live D i k l f /\ var V i = e.

(** Every diagram the user may use has the same entries in [s'] as in [s]. *)
Definition unchanged (V : list edge) (D : denv) (s s' : st R0) : Prop :=
  forall k l e, usr V D k l e -> forall p, vpath k l p -> entry s' k e p = entry s k e p.

Lemma usr_ok nq s V D k l e : reachedR nq s V D -> usr V D k l e ->
  -1 <= l < s_nq s /\ tedge R0 g XR (co R0 s) k l e.
Proof.
  intros H (i & f & L & <-). pose proof (reached_sim G _ _ _ _ H) as S. destruct (sim_live _ _ _ _ _ _ _ _ _ S L) as (A & B & _).
  rewrite (si_nq _ _ _ _ _ S). auto.
Qed.
Lemma reached_inv nq s V D : reachedR nq s V D -> inv R0 g nb XR s /\ owns R0 (s_cc s) [] /\ s_nq s = nq.
Proof. intros H. pose proof (reached_sim G _ _ _ _ H) as S. split; [apply S|]. split; apply S. Qed.
Lemma step_unchanged nq s V D O s' : reachedR nq s V D -> step R0 g nb XR O s s' -> unchanged V D s s'.
Proof.
  intros H St k l e U p Vp. destruct (usr_ok _ _ _ _ _ _ _ H U) as [_ T]. destruct (reached_inv _ _ _ _ H) as (I & _).
  apply (TrL.de_step (nb:=nb) O s s' k l); auto.
Qed.
Lemma usr_entry nq s V D i k l f : reachedR nq s V D -> live D i k l (Some f) -> forall p, vpath k l p -> entry s k (var V i) p = f p.
Proof.
  intros H L. pose proof (reached_sim G _ _ _ _ H) as S. destruct (sim_live _ _ _ _ _ _ _ _ _ S L) as (_ & _ & E). apply E; auto. exact Logic.I.
Qed.
(** In exact arithmetic nothing goes wrong. *)
Lemma wp_ok {A} (m : M R0 A) s Q (al : bad -> Prop) : (forall b, al b -> al1 R0 g XR b) -> wp R0 al m s Q -> exists r s', m s = Ok r s' /\ Q r s'.
Proof.
  intros Al W. unfold Inv.wp in W. destruct (m s) as [r s'|x s'|b]; [eauto|contradiction|]. apply Al in W. destruct W as [_ W]. exfalso. apply W. exact Logic.I.
Qed.
Lemma al0_1 b : al0 R0 g XR b -> al1 R0 g XR b.
Proof. intros [A B]. split; auto. Qed.
Lemma al1_1 b : al1 R0 g XR b -> al1 R0 g XR b.
Proof. auto. Qed.

(** An allowed program runs and leads to a reachable state. *)
Lemma runs nq prog D os : 0 <= nq -> (forall k, 0 < nb k) -> druns (X:=XR) nq [] prog D os ->
  exists s V outs, run R0 g nb prog [] (pkg_init R0 g nq) = Ok (V, outs) s /\ reachedR nq s V D /\ Forall2 (outok (X:=XR)) outs os.
Proof.
  intros Hq Hn Dr. pose proof (run_sp G [] nq prog _ _ _ _ _ (fun _ => eq_refl) (sim_init G nq Hq Hn) Dr) as W.
  apply (wp_ok _ _ _ _ al1_1) in W. destruct W as ([V outs] & s & E & S & F & _). exists s, V, outs. split; auto. split; auto.
  eapply (reached_run G nq prog); eauto. now constructor.
Qed.
End Exact.

(** ** A sample program on three qubits *)

Definition gR : cfg R0 := gdef R0.
Definition GR : gok gR := gdef_ok R0.
Definition vec1 : list (R0 * R0) := [(1, 0); (0, 1); (2, 0); (0, 0)]%R.
Definition vec2 : list (R0 * R0) := [(3, 0); (0, 4)]%R.
Definition mat1 : list (list (R0 * R0)) := [[(1, 0); (2, 0)]; [(0, 3); (4, 0)]]%R.
Definition prog0 : list (ins R0) :=
  [@IProd R0 2 [BSplus; BSone]; @IVec R0 vec1; @IMat R0 mat1; IIdent 1; IInc KV 1; IMul KV 3 1; ITr 2; IGc true; IProd 2 [BSplus; BSone]; @IMat R0 mat1; IIdent 1; @IVec R0 vec2].
Definition fP : list nat -> C := bsval [BSplus; BSone].
Definition fV : list nat -> C := fun p => Cv2 R0 gR (XR gR GR) (nth (vidx p) vec1 (n0, n0)).
Definition fW : list nat -> C := fun p => Cv2 R0 gR (XR gR GR) (nth (vidx p) vec2 (n0, n0)).
Definition fM : list nat -> C := fun p => Cv2 R0 gR (XR gR GR) (mentry mat1 (ridx p) (cidx p)).
(** Variables 1 (referenced), 6, 7, 8 and 9 survive the collection or were built after it. *)
Definition D0 : denv :=
  [None; Some (DV KV 1 1 (Some fV)); None; None; None; None; Some (DV KV 1 0 (Some fP)); Some (DV KM 0 0 (Some fM)); Some (DV KM 1 0 (Some idm));
   Some (DV KV 0 0 (Some fW))].
Lemma druns0 : druns (g:=gR) (X:=XR gR GR) 3 [] prog0 D0 [].
Proof.
  unfold prog0. change (@nil (option dout)) with (((((((((((([] ++ []) ++ []) ++ []) ++ []) ++ []) ++ []) ++ []) ++ []) ++ []) ++ []) ++ []) ++ @nil (option dout)).
  rewrite <- !app_assoc.
  eapply dr_cons. { apply (d_prod 3 [] 2 [BSplus; BSone]); [left; exact Logic.I|lia|simpl; lia]. }
  eapply dr_cons. { apply (d_vec (N:=R0) 3 _ 2 vec1); [reflexivity|simpl; lia]. }
  eapply dr_cons. { apply (d_mat (N:=R0) 3 _ 1 mat1); [reflexivity| |simpl; lia]. intros row [<-|[<-|[]]]; reflexivity. }
  eapply dr_cons. { apply (d_ident 3 _ 1). lia. }
  eapply dr_cons. { eapply d_inc. exists 0%nat. reflexivity. }
  eapply dr_cons. { eapply d_mul; [discriminate|exists 0%nat; reflexivity|exists 1%nat; reflexivity]. }
  eapply dr_cons. { eapply d_tr. exists 0%nat. reflexivity. }
  eapply dr_cons. { apply d_gc. }
  eapply dr_cons. { apply (d_prod 3 _ 2 [BSplus; BSone]); [left; exact Logic.I|lia|simpl; lia]. }
  eapply dr_cons. { apply (d_mat (N:=R0) 3 _ 1 mat1); [reflexivity| |simpl; lia]. intros row [<-|[<-|[]]]; reflexivity. }
  eapply dr_cons. { apply (d_ident 3 _ 1). lia. }
  replace (@nil (option dout)) with (@nil (option dout) ++ []) by reflexivity.
  eapply dr_cons. { apply (d_vec (N:=R0) 3 _ 1 vec2); [reflexivity|simpl; lia]. }
  apply dr_nil.
Qed.
Lemma reached0 : exists s V, reachedR gR nbdef GR 3 s V D0.
Proof. destruct (runs gR nbdef GR 3 prog0 D0 []) as (s & V & outs & _ & H & _); [lia|apply nbdef_pos|apply druns0|]. eauto. Qed.
Lemma usr0_v V : usr V D0 KV 1 (var V 1).
Proof. exists 1%nat, (Some fV). split; auto. exists 1%nat. reflexivity. Qed.
Lemma usr0_p V : usr V D0 KV 1 (var V 6).
Proof. exists 6%nat, (Some fP). split; auto. exists 0%nat. reflexivity. Qed.
Lemma usr0_m V : usr V D0 KM 0 (var V 7).
Proof. exists 7%nat, (Some fM). split; auto. exists 0%nat. reflexivity. Qed.
Lemma usr0_i V : usr V D0 KM 1 (var V 8).
Proof. exists 8%nat, (Some idm). split; auto. exists 0%nat. reflexivity. Qed.
Lemma usr0_w V : usr V D0 KV 0 (var V 9).
Proof. exists 9%nat, (Some fW). split; auto. exists 0%nat. reflexivity. Qed.
