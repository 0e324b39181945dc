(** Specification of the gate diagrams. *)
From Coq Require Import ZArith List Bool Lia Arith Reals Lra Permutation.
From Verif Require Import Num Base CTable CTableWf Cx State Pkg Control Gate Inv InvL PrimL NormL MkL TrL AddL MulL KronL CanonL IdentL StateL.
Import ListNotations.
Local Open Scope Z_scope.

(** Digit of qubit [q] in an index. *)
Definition dig (q : Z) (p : list nat) : nat := nth (length p - 1 - Z.to_nat q) p 0%nat.
(** All digits except those of the qubits [ts] are diagonal: row bit = column bit. *)
Fixpoint diagx (ts : list Z) (p : list nat) : bool :=
  match p with
  | [] => true
  | i :: r => (existsb (Z.eqb (Z.of_nat (length r))) ts || Nat.eqb i 0 || Nat.eqb i 3) && diagx ts r
  end.
(** On every control qubit row and column bit are the one the control asks for. *)
Definition ctl_sat (cs : list control) (p : list nat) : bool :=
  forallb (fun c => Nat.eqb (dig (cqb c) p) (if cpos c then 3 else 0)) cs.
(** The matrix that applies [F] to the qubits [ts] where the controls are satisfied and the identity
    elsewhere. *)
Definition gatem (cs : list control) (ts : list Z) (F : list nat -> C) (p : list nat) : C :=
  if diagx ts p
  then (if ctl_sat cs p then F else idm) (map (fun t => dig t p) ts)
  else C0.

Lemma dig_cons q i p : 0 <= q <= Z.of_nat (length p) -> dig q (i :: p) = if q =? Z.of_nat (length p) then i else dig q p.
Proof.
  intros H. unfold dig. cbn [length]. destruct (Z.eqb_spec q (Z.of_nat (length p))) as [->|Ne].
  - rewrite Nat2Z.id. replace (S (length p) - 1 - length p)%nat with 0%nat by lia. reflexivity.
  - replace (S (length p) - 1 - Z.to_nat q)%nat with (S (length p - 1 - Z.to_nat q)) by lia. reflexivity.
Qed.
Lemma ctl_sat_app a b p : ctl_sat (a ++ b) p = ctl_sat a p && ctl_sat b p.
Proof. apply forallb_app. Qed.
Lemma ctl_sat_cons cs i p : (forall c, In c cs -> 0 <= cqb c < Z.of_nat (length p)) -> ctl_sat cs (i :: p) = ctl_sat cs p.
Proof.
  intros H. unfold ctl_sat. induction cs as [|c cs IH]; auto. cbn [forallb]. rewrite IH by (intros; apply H; now right). f_equal.
  specialize (H c (or_introl eq_refl)). rewrite dig_cons by lia. destruct (Z.eqb_spec (cqb c) (Z.of_nat (length p))); [lia|reflexivity].
Qed.
Lemma diagx_nil_idm p : idm p = if diagx [] p then C1 else C0.
Proof. unfold idm. replace (forallb (fun i => Nat.eqb i 0 || Nat.eqb i 3) p) with (diagx [] p); auto. induction p; cbn; auto. now rewrite IHp. Qed.
Lemma digs_cons ts i p : (forall t, In t ts -> 0 <= t < Z.of_nat (length p)) -> map (fun t => dig t (i :: p)) ts = map (fun t => dig t p) ts.
Proof.
  intros H. apply map_ext_in. intros t Ht. specialize (H t Ht). rewrite dig_cons by lia. destruct (Z.eqb_spec t (Z.of_nat (length p))); [lia|reflexivity].
Qed.
Lemma diagx_cons ts i p : (forall t, In t ts -> t <> Z.of_nat (length p)) -> diagx ts (i :: p) = (Nat.eqb i 0 || Nat.eqb i 3) && diagx ts p.
Proof.
  intros H. cbn [diagx]. replace (existsb (Z.eqb (Z.of_nat (length p))) ts) with false; auto. symmetry. apply not_true_is_false. intros E.
  apply existsb_exists in E. destruct E as (t & Ht & E). apply Z.eqb_eq in E. apply (H t Ht). auto.
Qed.
Lemma diagx_out ts p : (forall t, In t ts -> t < 0 \/ Z.of_nat (length p) <= t) -> diagx ts p = diagx [] p.
Proof.
  induction p as [|i p IH]; intros H; auto. rewrite diagx_cons.
  - rewrite IH. reflexivity. intros t Ht. specialize (H t Ht). cbn [length] in H. lia.
  - intros t Ht. specialize (H t Ht). cbn [length] in H. lia.
Qed.
Lemma diagx_iff ts p : diagx ts p = true <-> forall q, 0 <= q < Z.of_nat (length p) -> In q ts \/ dig q p = 0%nat \/ dig q p = 3%nat.
Proof.
  induction p as [|i p IH].
  - split; [intros _ q Hq; cbn in Hq; lia|reflexivity].
  - cbn [diagx length]. rewrite andb_true_iff, !orb_true_iff, !Nat.eqb_eq, IH. split.
    + intros [A B] q Hq. rewrite dig_cons by lia. destruct (Z.eqb_spec q (Z.of_nat (length p))) as [->|Ne]; [|apply B; lia].
      destruct A as [[A|A]|A]; auto. left. apply existsb_exists in A. destruct A as (t & Ht & A). apply Z.eqb_eq in A. now subst.
    + intros H. split.
      * destruct (H (Z.of_nat (length p))) as [A|A]; [lia| |].
        -- left. left. apply existsb_exists. exists (Z.of_nat (length p)). split; auto. apply Z.eqb_refl.
        -- rewrite dig_cons, Z.eqb_refl in A by lia. tauto.
      * intros q Hq. destruct (H q) as [A|A]; [lia|auto|]. rewrite dig_cons in A by lia. destruct (Z.eqb_spec q (Z.of_nat (length p))); [lia|auto].
Qed.
Lemma idm_split ts p : (forall t, In t ts -> 0 <= t < Z.of_nat (length p)) -> idm p = if diagx ts p then idm (map (fun t => dig t p) ts) else C0.
Proof.
  intros H. unfold idm. assert (E: forallb (fun i => Nat.eqb i 0 || Nat.eqb i 3) p = diagx [] p) by (clear; induction p; cbn; auto; now rewrite IHp).
  rewrite E. destruct (diagx ts p) eqn:D.
  - replace (diagx [] p) with (forallb (fun i => Nat.eqb i 0 || Nat.eqb i 3) (map (fun t => dig t p) ts)); auto. apply eq_true_iff_eq.
    rewrite (diagx_iff [] p), forallb_forall. pose proof (proj1 (diagx_iff ts p) D) as D'. split.
    + intros F q Hq. right. destruct (D' q Hq) as [A|A]; auto. specialize (F (dig q p)). rewrite orb_true_iff, !Nat.eqb_eq in F. apply F. apply in_map_iff. exists q. auto.
    + intros F x Hx. apply in_map_iff in Hx. destruct Hx as (t & <- & Ht). destruct (F t (H t Ht)) as [[]|A]. rewrite orb_true_iff, !Nat.eqb_eq. exact A.
  - destruct (diagx [] p) eqn:D2; auto. exfalso. enough (diagx ts p = true) by congruence. apply diagx_iff. intros q Hq. right.
    pose proof (proj1 (diagx_iff [] p) D2 q Hq) as [[]|A]. exact A.
Qed.

Section GateL.
Context {N : num} {g : cfg N} {nb : kind -> Z} {X : numx N (g_ct g)} (G : gok g).
Local Notation cf := (g_ct g).
Local Notation co := (co N).
Local Notation qn := (qn N).
Local Notation linked := (linked N).
Local Notation c_ut := (c_ut N).
Local Notation Cw := (Cw N g X).
Local Notation Cv := (Cv N g X).
Local Notation Cv2 := (Cv2 N g X).
Local Notation dn := (dn N g X).
Local Notation de := (de N g X).
Local Notation dg := (dg N g X).
Local Notation wtab := (wtab N g X).
Local Notation etn := (etn N).
Local Notation isnode := (isnode N).
Local Notation tedge := (tedge N g X).
Local Notation gedge := (gedge N g X).
Local Notation cinv := (cinv N g nb X).
Local Notation uinv := (uinv N g nb X).
Local Notation nodeok := (nodeok N g nb X).
Local Notation inv := (inv N g nb X).
Local Notation step := (step N g nb X).
Local Notation qext := (qext N).
Local Notation owns := (owns N).
Local Notation wok := (wok N g X).
Local Notation wp := (wp N).
Local Notation al0 := (al0 N g X).
Local Notation nnorm := (nnorm N g X).
Local Notation iedge := (iedge (g:=g) (X:=X)).
Local Notation trsp := (trsp (nb:=nb) (X:=X)).
Local Notation unok := (unok N g X).
Local Notation binok := (binok N g X).
Local Notation addok := (addok N g X).
Local Notation tinv := (tinv N g X).
Local Notation vres := (vres N g X).
Local Notation dv := (dv N g X).
Local Notation mkpost := (mkpost (nb:=nb) (X:=X)).
Local Notation mulCached_sp := (mulCached_sp (nb:=nb) (X:=X) G).
Local Notation addCached_sp := (addCached_sp (nb:=nb) (X:=X) G).
Local Notation getCached_sp := (getCached_sp (nb:=nb) (X:=X) G).
Local Notation makeDDNode_sp := (makeDDNode_sp (nb:=nb) (X:=X) G).
Local Notation lookupC_sp := (lookupC_sp (nb:=nb) (X:=X) G).
Local Notation tedge_gedge := (tedge_gedge (nb:=nb) (X:=X)).
Local Notation child_ok := (child_ok (nb:=nb) (X:=X)).
Local Notation dn_ext := (dn_ext (nb:=nb) (X:=X)).
Local Notation Cw_eq0 := (Cw_eq0 (nb:=nb) (X:=X)).
Local Notation addInsert_sp := (addInsert_sp (g:=g) (nb:=nb) (X:=X)).
Local Notation binInsert_sp := (binInsert_sp (g:=g) (nb:=nb) (X:=X)).
Local Notation unInsert_sp := (unInsert_sp (g:=g) (nb:=nb) (X:=X)).
Local Notation addLookup_sp := (addLookup_sp (g:=g) (nb:=nb) (X:=X)).
Local Notation binLookup_sp := (binLookup_sp (g:=g) (nb:=nb) (X:=X)).
Local Notation unLookup_sp := (unLookup_sp (g:=g) (nb:=nb) (X:=X)).
Local Notation cres := (cres (g:=g) (X:=X)).
Local Notation addsp := (addsp (g:=g) (nb:=nb) (X:=X)).
Local Notation rel_sp := (rel_sp (g:=g) (nb:=nb) (X:=X)).
Local Notation relif_sp := (relif_sp (g:=g) (nb:=nb) (X:=X)).
Local Notation mapM_cres := (mapM_cres (g:=g) (nb:=nb) (X:=X)).
Local Notation de_step := (de_step (g:=g) (nb:=nb) (X:=X)).
Local Notation dg_step := (dg_step (g:=g) (nb:=nb) (X:=X)).
Local Notation mulSelf_sp := (mulSelf_sp (g:=g) (nb:=nb) (X:=X)).
Local Notation finish_sp := (finish_sp (g:=g) (nb:=nb) (X:=X) G).
Local Notation add2F_sp := (add2F_sp (g:=g) (nb:=nb) (X:=X) G).
Implicit Types (s : st N).

Local Notation dn_nz := (dn_nz (g:=g) (nb:=nb) (X:=X)).
Local Notation idok := (idok N g X).
Local Notation makeDDNode_t := (makeDDNode_t (nb:=nb) (X:=X) G).
Local Notation mk_weight := (mk_weight (nb:=nb) (X:=X)).
Local Notation makeIdent_sp := (makeIdent_sp (g:=g) (nb:=nb) (X:=X) G).
Local Notation lookup_sp := (lookup_sp (g:=g) (nb:=nb) (X:=X) G).
Local Notation isid := (isid (g:=g) (X:=X)).

Lemma nthe_In es i : (i < length es)%nat -> In (nthe es i) es.
Proof. intros H. now apply nth_In. Qed.

Lemma mapM_t {A} (d : A) l (f : A -> M N edge) (V : A -> list nat -> C) : forall idx s O, inv s -> owns (s_cc s) O ->
  (forall i s1, In i idx -> inv s1 -> step O s s1 -> owns (s_cc s1) O ->
     wp al0 (f i) s1 (fun r s2 => step O s1 s2 /\ owns (s_cc s2) O /\ tedge (co s2) KM l r /\
       (ex X -> forall p, vpath KM l p -> de (co s2) KM r p = V i p))) ->
  wp al0 (mapM N f idx) s (fun es s' => step O s s' /\ owns (s_cc s') O /\ length es = length idx /\
    (forall e, In e es -> tedge (co s') KM l e) /\
    (ex X -> forall j p, (j < length idx)%nat -> vpath KM l p -> de (co s') KM (nthe es j) p = V (nth j idx d) p)).
Proof.
  induction idx as [|i idx IH]; intros s O I Ow H; cbn [mapM].
  - apply wp_ret. split; [now apply step_refl|]. split; auto. split; auto. split; [intros e []|]. cbn [length]. intros; lia.
  - apply wp_bind. eapply wp_mono; [apply (H i s); auto; [now left|now apply step_refl]|].
    intros r s1 (S1 & O1 & T1 & V1). apply wp_bind. assert (I1: inv s1) by apply S1.
    eapply wp_mono; [apply (IH s1 O); auto|].
    { intros j s2 Hj I2 S2 Ow2. apply H; auto; [now right|]. eapply step_trans; eauto. }
    intros es s2 (S2 & O2 & L2 & T2 & V2). apply wp_ret.
    split; [eapply step_trans; eauto|]. split; auto. split; [cbn [length]; congruence|]. split.
    + intros e [<-|He]; auto. eapply tedge_ext; [apply S2|auto].
    + intros Ex [|j] p Hj Vp.
      * cbn [nthe nth]. rewrite (de_step O s1 s2 KM l) by auto. now apply V1.
      * cbn [nthe nth]. apply V2; auto. cbn [length] in Hj. lia.
Qed.

Lemma is0_sp (x : N) : ex X -> is0 N x = true -> toR X x = 0%R.
Proof.
  intros Ex H. unfold is0 in H. apply andb_true_iff in H. destruct H as [A B]. apply (x_leb X Ex) in A. apply (x_leb X Ex) in B.
  rewrite (x_0 X Ex) in A, B. lra.
Qed.
Lemma entryDD_sp s O v : inv s -> owns (s_cc s) O ->
  wp al0 (entryDD N g v) s (fun r s' => step O s s' /\ owns (s_cc s') O /\ tedge (co s') KM (-1) r /\
    (ex X -> forall p, vpath KM (-1) p -> de (co s') KM r p = Cv2 v)).
Proof.
  intros I Ow. unfold entryDD. destruct (is0 N (fst v) && is0 N (snd v)) eqn:Z.
  - apply wp_ret. split; [now apply step_refl|]. split; auto. split; [apply tedge_zero|]. intros Ex p _.
    apply andb_true_iff in Z. destruct Z as [A B]. rewrite de_zero by auto. unfold Inv.Cv2. rewrite (is0_sp _ Ex A), (is0_sp _ Ex B). reflexivity.
  - apply wp_bind. eapply wp_mono; [apply (lookup_sp O s (fst v) (snd v) I)|]. intros w s1 (S1 & C1' & W1 & V1). apply wp_ret.
    split; auto. rewrite C1'. split; auto. split.
    + constructor; cbn; auto.
    + intros Ex p Vp. apply vpath_m1 in Vp. subst. unfold Inv.de. cbn [ew ep]. rewrite V1 by auto. destruct v. unfold Inv.dn. cbn [fst snd]. ring.
Qed.

(** The entries of the node built by [gateLine]. *)
Definition lineval (z : Z) (cs : list control) (b : bool) (h : list nat -> C) (i : nat) (p : list nat) : C :=
  let plain := if Nat.eqb i 0 || Nat.eqb i 3 then h p else C0 in
  match cs with
  | [] => plain
  | c :: _ => if cqb c =? z then
                if Nat.eqb i (if cpos c then 3 else 0) then h p
                else if Nat.eqb i (if cpos c then 0 else 3) then if b then idm p else C0
                else C0
              else plain
  end.

Lemma plain_sp s O z e : inv s -> owns (s_cc s) O -> 0 <= z < s_nq s -> tedge (co s) KM (z - 1) e ->
  wp al0 (makeDDNode N g nb KM z [e; Ezero; Ezero; e] false) s (fun r s' => step O s s' /\ owns (s_cc s') O /\ tedge (co s') KM z r /\
    (ex X -> forall i p, (i < 4)%nat -> vpath KM (z - 1) p -> de (co s') KM r (i :: p) = if Nat.eqb i 0 || Nat.eqb i 3 then de (co s) KM e p else C0)).
Proof.
  intros I Ow Hz T. eapply wp_mono; [apply (makeDDNode_t KM z s [e; Ezero; Ezero; e] O); auto|].
  { intros a [<-|[<-|[<-|[<-|[]]]]]; auto; apply tedge_zero. }
  intros r s' (S & Ow' & T' & _ & V). split; auto. split; auto. split; auto. intros Ex i p Hi Vp. rewrite V by auto.
  destruct i as [|[|[|[|i]]]]; [| | | |lia]; cbn [nthe nth Nat.eqb orb]; auto; now apply de_zero.
Qed.
Lemma two_sp s O z a b : inv s -> owns (s_cc s) O -> 0 <= z < s_nq s -> tedge (co s) KM (z - 1) a -> tedge (co s) KM (z - 1) b ->
  wp al0 (makeDDNode N g nb KM z [a; Ezero; Ezero; b] false) s (fun r s' => step O s s' /\ owns (s_cc s') O /\ tedge (co s') KM z r /\
    (ex X -> forall i p, (i < 4)%nat -> vpath KM (z - 1) p -> de (co s') KM r (i :: p) =
      if Nat.eqb i 0 then de (co s) KM a p else if Nat.eqb i 3 then de (co s) KM b p else C0)).
Proof.
  intros I Ow Hz Ta Tb. eapply wp_mono; [apply (makeDDNode_t KM z s [a; Ezero; Ezero; b] O); auto|].
  { intros x [<-|[<-|[<-|[<-|[]]]]]; auto; apply tedge_zero. }
  intros r s' (S & Ow' & T' & _ & V). split; auto. split; auto. split; auto. intros Ex i p Hi Vp. rewrite V by auto.
  destruct i as [|[|[|[|i]]]]; [| | | |lia]; cbn [nthe nth Nat.eqb orb]; auto; now apply de_zero.
Qed.

Lemma qcast_id z : -128 <= z <= 127 -> qcast z = z.
Proof. intros H. unfold qcast. rewrite Z.mod_small by lia. lia. Qed.

Lemma gateLine_sp s O z cs b e : inv s -> owns (s_cc s) O -> 0 <= z < s_nq s -> z <= 128 -> tedge (co s) KM (z - 1) e ->
  wp al0 (gateLine N g nb 0 z cs b e) s (fun r s' => step O s s' /\ owns (s_cc s') O /\ tedge (co s') KM z r /\
    (ex X -> forall i p, (i < 4)%nat -> vpath KM (z - 1) p -> de (co s') KM r (i :: p) = lineval z cs b (de (co s) KM e) i p)).
Proof.
  intros I Ow Hz Hm T. unfold gateLine. destruct cs as [|c cs]; [cbn [lineval]; now apply plain_sp|]. cbn [lineval].
  destruct (cqb c =? z); [|now apply plain_sp]. rewrite qcast_id by lia. apply wp_bind.
  assert (W: wp al0 (if b then makeIdent N g nb 0 (z - 1) else ret Ezero) s (fun a s1 => step O s s1 /\ owns (s_cc s1) O /\ tedge (co s1) KM (z - 1) a /\
     (ex X -> forall p, vpath KM (z - 1) p -> de (co s1) KM a p = if b then idm p else C0))).
  { destruct b.
    - eapply wp_mono; [apply (makeIdent_sp s O (z - 1)); auto; lia|]. intros a s1 (S1 & O1 & T1 & _ & V1). split; auto. split; auto. split; auto.
      intros Ex p Vp. destruct (V1 Ex) as [W V]. unfold Inv.de. rewrite W, Cw_one, V by auto. ring.
    - apply wp_ret. split; [now apply step_refl|]. split; auto. split; [apply tedge_zero|]. intros Ex p _. now apply de_zero. }
  eapply wp_mono; [exact W|]. intros a s1 (S1 & O1 & T1 & V1). assert (I1: inv s1) by apply S1. assert (Nq: s_nq s1 = s_nq s) by apply (stp_nq _ _ _ S1).
  assert (Te: tedge (co s1) KM (z - 1) e) by (eapply tedge_ext; [apply S1|auto]).
  destruct (cpos c).
  - eapply wp_mono; [apply (two_sp s1 O z a e); auto; lia|]. intros r s2 (S2 & O2 & T2 & V2). split; [eapply step_trans; eauto|]. split; auto. split; auto.
    intros Ex i p Hi Vp. rewrite V2 by auto. rewrite V1 by auto. rewrite (de_step O s s1 KM (z - 1)) by auto.
    destruct i as [|[|[|[|i]]]]; [| | | |lia]; reflexivity.
  - eapply wp_mono; [apply (two_sp s1 O z e a); auto; lia|]. intros r s2 (S2 & O2 & T2 & V2). split; [eapply step_trans; eauto|]. split; auto. split; auto.
    intros Ex i p Hi Vp. rewrite V2 by auto. rewrite V1 by auto. rewrite (de_step O s s1 KM (z - 1)) by auto.
    destruct i as [|[|[|[|i]]]]; [| | | |lia]; reflexivity.
Qed.

(** Controls from [z] on, one per qubit, in order. *)
Fixpoint ctls (z : Z) (cs : list control) : Prop :=
  match cs with
  | [] => True
  | c :: r => z <= cqb c /\ ctls (cqb c + 1) r
  end.
Lemma ctls_weak z z' cs : z' <= z -> ctls z cs -> ctls z' cs.
Proof. destruct cs; cbn; auto. intros H [A B]. split; auto. lia. Qed.
Lemma ctls_in : forall cs z c, ctls z cs -> In c cs -> z <= cqb c.
Proof. induction cs as [|a cs IH]; intros z c H Hi; [contradiction|]. destruct H as [A B], Hi as [<-|Hi]; auto. specialize (IH _ _ B Hi). lia. Qed.

(** The controls the iterator has passed at [z], and the entries built so far. *)
Definition passed (z : Z) (cs : list control) : list control := match cs with c :: _ => if cqb c =? z then [c] else [] | [] => [] end.
Lemma passed_advance z cs : passed z cs ++ advance z cs = cs.
Proof. destruct cs as [|c cs]; auto. cbn. destruct (cqb c =? z); auto. Qed.
Lemma advance_ctls z cs : ctls z cs -> ctls (z + 1) (advance z cs).
Proof.
  destruct cs as [|c cs]; cbn; auto. intros [A B]. destruct (Z.eqb_spec (cqb c) z) as [<-|Ne]; [exact B|]. split; auto. lia.
Qed.

(** Entries of the edge for entry [m] of the matrix below the target. *)
Definition lowv (cs : list control) (b : bool) (m : C) (p : list nat) : C :=
  if diagx [] p then if ctl_sat cs p then m else if b then C1 else C0 else C0.

Lemma lineval_low cs1 z cs b m i p : Z.of_nat (length p) = z -> (i < 4)%nat -> (forall c, In c cs1 -> 0 <= cqb c < z) ->
  lineval z cs b (lowv cs1 b m) i p = lowv (cs1 ++ passed z cs) b m (i :: p).
Proof.
  intros Lp Hi H1. unfold lowv. rewrite ctl_sat_app, (ctl_sat_cons cs1) by (intros c Hc; specialize (H1 c Hc); lia).
  rewrite diagx_cons by (intros t []). unfold lineval, passed.
  assert (Plain: (if Nat.eqb i 0 || Nat.eqb i 3 then if diagx [] p then if ctl_sat cs1 p then m else if b then C1 else C0 else C0 else C0) =
    (if (Nat.eqb i 0 || Nat.eqb i 3) && diagx [] p then if ctl_sat cs1 p && true then m else if b then C1 else C0 else C0)).
  { rewrite andb_true_r. destruct (Nat.eqb i 0 || Nat.eqb i 3); auto. }
  destruct cs as [|c cs]; [cbn [ctl_sat forallb]; exact Plain|]. destruct (Z.eqb_spec (cqb c) z) as [Ez|Ne]; [|exact Plain].
  cbn [ctl_sat forallb]. rewrite dig_cons by lia. rewrite Lp, Ez, Z.eqb_refl, andb_true_r. rewrite diagx_nil_idm.
  destruct (cpos c); destruct i as [|[|[|[|i]]]]; try lia; cbn [Nat.eqb orb andb]; rewrite ?andb_true_r, ?andb_false_r; auto;
    destruct (diagx [] p), b; reflexivity.
Qed.

Lemma gateBelow_sp (ms : list C) : length ms = 4%nat -> forall cnt z cs cs1 em s O, inv s -> owns (s_cc s) O ->
  0 <= z -> z + Z.of_nat cnt <= s_nq s -> z + Z.of_nat cnt <= 128 -> ctls z cs -> (forall c, In c cs1 -> 0 <= cqb c < z) ->
  length em = 4%nat -> (forall e, In e em -> tedge (co s) KM (z - 1) e) ->
  (ex X -> forall j p, (j < 4)%nat -> vpath KM (z - 1) p -> de (co s) KM (nthe em j) p = lowv cs1 (nth j diags true) (nth j ms C0) p) ->
  wp al0 (gateBelow N g nb 0 cnt z cs em) s (fun r s' => step O s s' /\ owns (s_cc s') O /\
    exists cs2, cs = cs2 ++ fst r /\ (forall c, In c cs2 -> z <= cqb c < z + Z.of_nat cnt) /\ ctls (z + Z.of_nat cnt) (fst r) /\
    length (snd r) = 4%nat /\ (forall e, In e (snd r) -> tedge (co s') KM (z + Z.of_nat cnt - 1) e) /\
    (ex X -> forall j p, (j < 4)%nat -> vpath KM (z + Z.of_nat cnt - 1) p ->
       de (co s') KM (nthe (snd r) j) p = lowv (cs1 ++ cs2) (nth j diags true) (nth j ms C0) p)).
Proof.
  intros Lm. induction cnt as [|cnt IH]; intros z cs cs1 em s O I Ow Hz Hq Hm Hc H1 Le Te Ve; cbn [gateBelow].
  - apply wp_ret. split; [now apply step_refl|]. split; auto. exists []. cbn [fst snd app]. rewrite Z.add_0_r, app_nil_r.
    split; auto. split; [intros c []|]. auto.
  - assert (Le4: length (combine diags em) = 4%nat) by (rewrite combine_length, Le; reflexivity).
    apply wp_bind. eapply wp_mono; [apply (mapM_t (true, Enull) z (fun p => gateLine N g nb 0 z cs (fst p) (snd p))
       (fun be p => match p with i :: p => lineval z cs (fst be) (de (co s) KM (snd be)) i p | [] => C0 end) (combine diags em) s O); auto|].
    { intros [b e] s1 Hi I1 S1 O1. cbn [fst snd]. assert (He: In e em) by (apply in_combine_r in Hi; exact Hi).
      eapply wp_mono; [apply (gateLine_sp s1 O z cs b e); auto|].
      - rewrite (stp_nq _ _ _ S1). lia.
      - lia.
      - eapply tedge_ext; [apply S1|auto].
      - intros r s2 (S2 & O2 & T2 & V2). split; auto. split; auto. split; auto. intros Ex p Vp. apply vpath_inv in Vp; [|lia].
        destruct Vp as (i & q & -> & Hi' & Vq). rewrite V2 by auto. unfold lineval. rewrite (de_step O s s1 KM (z - 1)) by auto. reflexivity. }
    intros em' s1 (S1 & O1 & L1 & T1 & V1). rewrite Le4 in *. assert (Nq: s_nq s1 = s_nq s) by apply (stp_nq _ _ _ S1).
    eapply wp_mono; [apply (IH (z + 1) (advance z cs) (cs1 ++ passed z cs) em' s1 O); auto; try lia|].
    + apply S1.
    + now apply advance_ctls.
    + intros c Hc'. apply in_app_iff in Hc'. destruct Hc' as [Hc'|Hc']; [specialize (H1 c Hc'); lia|].
      unfold passed in Hc'. destruct cs as [|c0 cs]; [contradiction|]. destruct (Z.eqb_spec (cqb c0) z); [|contradiction]. destruct Hc' as [<-|[]]. lia.
    + replace (z + 1 - 1) with z by lia. exact T1.
    + replace (z + 1 - 1) with z by lia. intros Ex j p Hj Vp. pose proof Vp as Vp'. apply vpath_inv in Vp; [|lia]. destruct Vp as (i & q & -> & Hi & Vq).
      rewrite V1 by (auto; lia). cbv beta iota. rewrite <- (lineval_low cs1 z cs (nth j diags true) (nth j ms C0) i q); auto.
      2:{ destruct Vq as [Vq _]. lia. }
      assert (E: nth j (combine diags em) (true, Enull) = (nth j diags true, nthe em j)) by (apply combine_nth; now rewrite Le).
      rewrite E. cbn [fst snd]. unfold lineval. rewrite (Ve Ex j q Hj Vq). reflexivity.
    + intros r s2 (S2 & O2 & cs2 & E2 & H2 & C2 & L2 & T2 & V2). split; [eapply step_trans; eauto|]. split; auto.
      exists (passed z cs ++ cs2). rewrite <- app_assoc in V2. replace (z + Z.of_nat (S cnt)) with (z + 1 + Z.of_nat cnt) by lia.
      split; [now rewrite <- app_assoc, <- E2, passed_advance|]. split; [|auto].
      intros c Hc'. apply in_app_iff in Hc'. destruct Hc' as [Hc'|Hc']; [|specialize (H2 c Hc'); lia].
      unfold passed in Hc'. destruct cs as [|c0 cs]; [contradiction|]. destruct (Z.eqb_spec (cqb c0) z); [|contradiction]. destruct Hc' as [<-|[]]. lia.
Qed.

Lemma lineval_up cs1 ts F q cs i p : Z.of_nat (length p) = q -> (i < 4)%nat -> (forall c, In c cs1 -> 0 <= cqb c < q) ->
  (forall t, In t ts -> 0 <= t < q) ->
  lineval q cs true (gatem cs1 ts F) i p = gatem (cs1 ++ passed q cs) ts F (i :: p).
Proof.
  intros Lp Hi H1 Ht. unfold gatem. rewrite ctl_sat_app, (ctl_sat_cons cs1) by (intros c Hc; specialize (H1 c Hc); lia).
  rewrite diagx_cons by (intros t Hx; specialize (Ht t Hx); lia). rewrite digs_cons by (intros t Hx; specialize (Ht t Hx); lia).
  set (ds := map (fun t => dig t p) ts). unfold lineval, passed. rewrite (idm_split ts p) by (intros t Hx; specialize (Ht t Hx); lia). fold ds.
  assert (Plain: (if Nat.eqb i 0 || Nat.eqb i 3 then if diagx ts p then (if ctl_sat cs1 p then F else idm) ds else C0 else C0) =
    (if (Nat.eqb i 0 || Nat.eqb i 3) && diagx ts p then (if ctl_sat cs1 p && true then F else idm) ds else C0)).
  { rewrite andb_true_r. destruct (Nat.eqb i 0 || Nat.eqb i 3); auto. }
  destruct cs as [|c cs]; [cbn [ctl_sat forallb]; exact Plain|]. destruct (Z.eqb_spec (cqb c) q) as [Ez|Ne]; [|exact Plain].
  cbn [ctl_sat forallb]. rewrite dig_cons by lia. rewrite Lp, Ez, Z.eqb_refl, andb_true_r.
  destruct (cpos c); destruct i as [|[|[|[|i]]]]; try lia; cbn [Nat.eqb orb andb]; rewrite ?andb_true_r, ?andb_false_r; auto.
Qed.

Lemma gateAbove_sp ts F : forall cnt z cs cs1 e s O, inv s -> owns (s_cc s) O ->
  0 <= z -> z + Z.of_nat cnt < s_nq s -> z + Z.of_nat cnt <= 127 -> ctls (z + 1) cs -> (forall c, In c cs1 -> 0 <= cqb c <= z) ->
  (forall c, In c cs -> cqb c <= z + Z.of_nat cnt) -> (forall t, In t ts -> 0 <= t <= z) ->
  tedge (co s) KM z e -> (ex X -> forall p, vpath KM z p -> de (co s) KM e p = gatem cs1 ts F p) ->
  wp al0 (gateAbove N g nb 0 cnt z cs e) s (fun r s' => step O s s' /\ owns (s_cc s') O /\ tedge (co s') KM (z + Z.of_nat cnt) r /\
    (ex X -> forall p, vpath KM (z + Z.of_nat cnt) p -> de (co s') KM r p = gatem (cs1 ++ cs) ts F p)).
Proof.
  induction cnt as [|cnt IH]; intros z cs cs1 e s O I Ow Hz Hq Hm Hc H1 Hl Ht Te Ve; cbn [gateAbove].
  - apply wp_ret. split; [now apply step_refl|]. split; auto. rewrite Z.add_0_r in *. split; auto.
    destruct cs as [|c cs]; [now rewrite app_nil_r|]. specialize (Hl c (or_introl eq_refl)). pose proof (ctls_in _ _ c Hc (or_introl eq_refl)). lia.
  - apply wp_bind. eapply wp_mono; [apply (gateLine_sp s O (z + 1) cs true e); auto; try lia; now replace (z + 1 - 1) with z by lia|].
    intros r s1 (S1 & O1 & T1 & V1). assert (Nq: s_nq s1 = s_nq s) by apply (stp_nq _ _ _ S1).
    eapply wp_mono; [apply (IH (z + 1) (advance (z + 1) cs) (cs1 ++ passed (z + 1) cs) r s1 O); auto; try lia|].
    + apply S1.
    + now apply advance_ctls.
    + intros c Hc'. apply in_app_iff in Hc'. destruct Hc' as [Hc'|Hc']; [specialize (H1 c Hc'); lia|].
      unfold passed in Hc'. destruct cs as [|c0 cs]; [contradiction|]. destruct (Z.eqb_spec (cqb c0) (z + 1)); [|contradiction]. destruct Hc' as [<-|[]]. lia.
    + intros c Hc'. assert (In c cs). { rewrite <- (passed_advance (z + 1) cs). apply in_app_iff. auto. } specialize (Hl c H). lia.
    + intros t Hx. specialize (Ht t Hx). lia.
    + intros Ex p Vp. apply vpath_inv in Vp; [|lia]. destruct Vp as (i & q & -> & Hi & Vq). rewrite V1 by auto.
      rewrite <- lineval_up; auto.
      * unfold lineval. replace (z + 1 - 1) with z in Vq by lia. rewrite (Ve Ex q Vq). reflexivity.
      * destruct Vq as [Vq _]. lia.
      * intros c Hc'. specialize (H1 c Hc'). lia.
      * intros t Hx. specialize (Ht t Hx). lia.
    + intros r' s2 (S2 & O2 & T2 & V2). split; [eapply step_trans; eauto|]. split; auto.
      rewrite <- app_assoc, passed_advance in V2. replace (z + Z.of_nat (S cnt)) with (z + 1 + Z.of_nat cnt) by lia. auto.
Qed.

(** The set of controls: one per qubit, below [n], none on the target. *)
Definition ctlok (n : Z) (ts : list Z) (cs : list control) : Prop :=
  ctls 0 cs /\ forall c, In c cs -> cqb c < n /\ ~ In (cqb c) ts.

Theorem makeGateDD_sp mat n cs t s O : length mat = 4%nat -> 0 <= t < n -> n <= s_nq s -> n <= 128 -> ctlok n [t] cs -> inv s -> owns (s_cc s) O ->
  wp al0 (makeGateDD N g nb mat n cs t 0) s (fun r s' => step O s s' /\ owns (s_cc s') O /\ tedge (co s') KM (n - 1) r /\
    (ex X -> forall p, vpath KM (n - 1) p -> de (co s') KM r p = gatem cs [t] (fun ds => Cv2 (nth (nth 0 ds 0%nat) mat (n0, n0))) p)).
Proof.
  intros Lm Ht Hn Hm [Cs Cr] I Ow. unfold makeGateDD.
  match goal with |- wp _ (fun s => if _ then _ else ?m s) _ _ => apply (wp_eq al0 _ m) end.
  { replace (s_nq s <? n + 0) with false; auto. symmetry. apply Z.ltb_ge. lia. }
  change (qcast 0) with 0. rewrite Z.sub_0_r, (Z.max_r 0 t) by lia. rewrite qcast_id by lia.
  apply wp_bind. eapply wp_mono; [apply (mapM_t (n0, n0) (-1) (entryDD N g) (fun v _ => Cv2 v) mat s O); auto|].
  { intros v s1 _ I1 S1 O1. now apply entryDD_sp. }
  intros em s1 (S1 & O1 & L1 & T1 & V1). assert (Nq: s_nq s1 = s_nq s) by apply (stp_nq _ _ _ S1). rewrite Lm in *.
  set (ms := map Cv2 mat).
  assert (Lms: length ms = 4%nat) by (unfold ms; now rewrite map_length).
  apply wp_bind. eapply wp_mono; [apply (gateBelow_sp ms Lms (Z.to_nat t) 0 cs [] em s1 O); auto; try lia|].
  - apply S1.
  - intros c [].
  - intros Ex j p Hj Vp. rewrite V1 by auto. apply vpath_m1 in Vp. subst. unfold lowv. cbn. unfold ms.
    rewrite <- (map_nth Cv2). symmetry. rewrite nth_indep with (d' := Cv2 (n0, n0)); auto. rewrite map_length. lia.
  - intros [cs' em'] s2 (S2 & O2 & cs2 & E2 & H2 & C2 & L2 & T2 & V2). cbn [fst snd] in *. rewrite Z.add_0_l, Z2Nat.id in * by lia.
    assert (Nq2: s_nq s2 = s_nq s) by (rewrite (stp_nq _ _ _ S2); auto).
    apply wp_bind. eapply wp_mono; [apply (makeDDNode_t KM t s2 em' O); auto; [apply S2|lia]|].
    intros e s3 (S3 & O3 & T3 & _ & V3). assert (Nq3: s_nq s3 = s_nq s) by (rewrite (stp_nq _ _ _ S3); auto).
    eapply wp_mono; [apply (gateAbove_sp [t] (fun ds => Cv2 (nth (nth 0 ds 0%nat) mat (n0, n0))) (Z.to_nat (n - 1 + 0 - t)) t cs' cs2 e s3 O); auto; try lia|].
    + apply S3.
    + destruct cs' as [|c cs']; auto. destruct C2 as [C2 C3]. split; auto. assert (Hc: In c cs) by (rewrite E2; apply in_app_iff; right; now left).
      destruct (Cr c Hc) as [_ Hc']. assert (cqb c <> t) by (intros E; apply Hc'; left; auto). lia.
    + intros c Hc. specialize (H2 c Hc). lia.
    + intros c Hc. assert (Hc': In c cs) by (rewrite E2; apply in_app_iff; auto). destruct (Cr c Hc') as [? _]. lia.
    + intros x [<-|[]]. lia.
    + intros Ex p Vp. apply vpath_inv in Vp; [|lia]. destruct Vp as (i & q & -> & Hi & Vq). rewrite V3 by auto. cbn [app] in V2. rewrite V2 by auto.
      assert (Lq: Z.of_nat (length q) = t) by (destruct Vq as [Vq _]; lia). unfold lowv, gatem.
      assert (Dx: diagx [t] (i :: q) = diagx [] q).
      { cbn [diagx existsb]. rewrite Lq, Z.eqb_refl. cbn [orb andb]. apply diagx_out. intros x [<-|[]]. lia. }
      rewrite Dx. rewrite ctl_sat_cons by (intros c Hc; specialize (H2 c Hc); lia). cbn [map]. rewrite dig_cons, Lq, Z.eqb_refl by lia.
      destruct (diagx [] q); auto. destruct (ctl_sat cs2 q).
      * cbn [nth]. unfold ms. rewrite <- (map_nth Cv2). apply nth_indep. rewrite map_length, Lm. exact Hi.
      * cbn [arity] in Hi. destruct i as [|[|[|[|i]]]]; [| | | |lia]; reflexivity.
    + intros r s4 (S4 & O4 & T4 & V4). replace (t + Z.of_nat (Z.to_nat (n - 1 + 0 - t))) with (n - 1) in * by lia. rewrite <- E2 in V4.
      split; [|auto]. eapply step_trans; [exact S1|]. eapply step_trans; [exact S2|]. eapply step_trans; [exact S3|exact S4].
Qed.

(** ** Two targets *)

Lemma gatem_up ts F i p : (i < 4)%nat -> (forall t, In t ts -> 0 <= t < Z.of_nat (length p)) ->
  gatem [] ts F (i :: p) = if Nat.eqb i 0 || Nat.eqb i 3 then gatem [] ts F p else C0.
Proof.
  intros Hi Ht. pose proof (lineval_up [] ts F (Z.of_nat (length p)) [] i p eq_refl Hi ltac:(intros c []) Ht) as E. cbn [passed app] in E. rewrite <- E. reflexivity.
Qed.
Lemma gatem_target t ts F i p : Z.of_nat (length p) = t -> (forall x, In x ts -> 0 <= x < t) ->
  gatem [] (t :: ts) F (i :: p) = gatem [] ts (fun ds => F (i :: ds)) p.
Proof.
  intros Lp Ht. unfold gatem. cbn [ctl_sat forallb diagx existsb map]. rewrite Lp, Z.eqb_refl. cbn [orb andb].
  assert (D: diagx (t :: ts) p = diagx ts p).
  { apply eq_true_iff_eq. rewrite !diagx_iff. split; intros H q Hq; destruct (H q Hq) as [A|A]; auto. - destruct A as [A|A]; [lia|auto]. - left. now right. }
  rewrite D. destruct (diagx ts p); auto. rewrite dig_cons, Lp, Z.eqb_refl by lia. rewrite digs_cons; auto. intros x Hx. specialize (Ht x Hx). lia.
Qed.
Lemma gatem_ext ts F F' p : (forall ds, F ds = F' ds) -> gatem [] ts F p = gatem [] ts F' p.
Proof. intros H. unfold gatem. cbn [ctl_sat forallb]. destruct (diagx ts p); auto. Qed.
Lemma gatem_swap a b F p : gatem [] [a; b] F p = gatem [] [b; a] (fun ds => F (rev ds)) p.
Proof.
  unfold gatem. cbn [ctl_sat forallb map rev app]. assert (D: diagx [a; b] p = diagx [b; a] p).
  { apply eq_true_iff_eq. rewrite !diagx_iff. split; intros H q Hq; destruct (H q Hq) as [A|A]; auto; left; destruct A as [A|[A|[]]]; [right; left|left|right; left|left]; auto. }
  now rewrite D.
Qed.

Lemma plain_gatem s O z e ts F : inv s -> owns (s_cc s) O -> 0 <= z < s_nq s -> (forall t, In t ts -> 0 <= t < z) -> tedge (co s) KM (z - 1) e ->
  (ex X -> forall p, vpath KM (z - 1) p -> de (co s) KM e p = gatem [] ts F p) ->
  wp al0 (makeDDNode N g nb KM z [e; Ezero; Ezero; e] false) s (fun r s' => step O s s' /\ owns (s_cc s') O /\ tedge (co s') KM z r /\
    (ex X -> forall p, vpath KM z p -> de (co s') KM r p = gatem [] ts F p)).
Proof.
  intros I Ow Hz Ht T V. eapply wp_mono; [apply (plain_sp s O z e); auto|]. intros r s' (S' & O' & T' & V'). split; auto. split; auto. split; auto.
  intros Ex p Vp. apply vpath_inv in Vp; [|lia]. destruct Vp as (i & q & -> & Hi & Vq). rewrite V' by auto. rewrite gatem_up; auto.
  - now rewrite V.
  - intros t Hx. destruct Vq as [Vq _]. specialize (Ht t Hx). lia.
Qed.

Lemma idLines_sp ts F : forall cnt z e s O, inv s -> owns (s_cc s) O -> 0 <= z -> z + Z.of_nat cnt <= s_nq s -> (forall t, In t ts -> 0 <= t < z) ->
  tedge (co s) KM (z - 1) e -> (ex X -> forall p, vpath KM (z - 1) p -> de (co s) KM e p = gatem [] ts F p) ->
  wp al0 (idLines N g nb cnt z e) s (fun r s' => step O s s' /\ owns (s_cc s') O /\ tedge (co s') KM (z + Z.of_nat cnt - 1) r /\
    (ex X -> forall p, vpath KM (z + Z.of_nat cnt - 1) p -> de (co s') KM r p = gatem [] ts F p)).
Proof.
  induction cnt as [|cnt IH]; intros z e s O I Ow Hz Hq Ht T V; cbn [idLines].
  - apply wp_ret. split; [now apply step_refl|]. split; auto. now rewrite Z.add_0_r.
  - apply wp_bind. eapply wp_mono; [apply (plain_gatem s O z e ts F); auto; lia|]. intros r s1 (S1 & O1 & T1 & V1).
    assert (Nq: s_nq s1 = s_nq s) by apply (stp_nq _ _ _ S1).
    eapply wp_mono; [apply (IH (z + 1) r s1 O); auto; try lia|].
    + apply S1.
    + intros t Hx. specialize (Ht t Hx). lia.
    + now replace (z + 1 - 1) with z by lia.
    + now replace (z + 1 - 1) with z by lia.
    + intros r' s2 (S2 & O2 & T2 & V2). split; [eapply step_trans; eauto|]. split; auto. now replace (z + Z.of_nat (S cnt) - 1) with (z + 1 + Z.of_nat cnt - 1) by lia.
Qed.

Lemma idLinesL_sp ts (Fs : nat -> list nat -> C) : forall cnt z em s O, inv s -> owns (s_cc s) O -> 0 <= z -> z + Z.of_nat cnt <= s_nq s -> (forall t, In t ts -> 0 <= t < z) ->
  (forall e, In e em -> tedge (co s) KM (z - 1) e) ->
  (ex X -> forall j p, (j < length em)%nat -> vpath KM (z - 1) p -> de (co s) KM (nthe em j) p = gatem [] ts (Fs j) p) ->
  wp al0 (idLinesL N g nb cnt z em) s (fun r s' => step O s s' /\ owns (s_cc s') O /\ length r = length em /\
    (forall e, In e r -> tedge (co s') KM (z + Z.of_nat cnt - 1) e) /\
    (ex X -> forall j p, (j < length em)%nat -> vpath KM (z + Z.of_nat cnt - 1) p -> de (co s') KM (nthe r j) p = gatem [] ts (Fs j) p)).
Proof.
  induction cnt as [|cnt IH]; intros z em s O I Ow Hz Hq Ht T V; cbn [idLinesL].
  - apply wp_ret. split; [now apply step_refl|]. split; auto. split; auto. now rewrite Z.add_0_r.
  - apply wp_bind. eapply wp_mono; [apply (mapM_t Enull z (fun e => makeDDNode N g nb KM z [e; Ezero; Ezero; e] false)
       (fun e p => match p with i :: q => if Nat.eqb i 0 || Nat.eqb i 3 then de (co s) KM e q else C0 | [] => C0 end) em s O); auto|].
    { intros e s1 He I1 S1 O1. eapply wp_mono; [apply (plain_sp s1 O z e); auto|].
      - rewrite (stp_nq _ _ _ S1). lia.
      - eapply tedge_ext; [apply S1|auto].
      - intros r s2 (S2 & O2 & T2 & V2). split; auto. split; auto. split; auto. intros Ex p Vp. apply vpath_inv in Vp; [|lia].
        destruct Vp as (i & q & -> & Hi & Vq). rewrite V2 by auto. now rewrite (de_step O s s1 KM (z - 1)) by auto. }
    intros em' s1 (S1 & O1 & L1 & T1 & V1). assert (Nq: s_nq s1 = s_nq s) by apply (stp_nq _ _ _ S1).
    eapply wp_mono; [apply (IH (z + 1) em' s1 O); auto; try lia|].
    + apply S1.
    + intros t Hx. specialize (Ht t Hx). lia.
    + now replace (z + 1 - 1) with z by lia.
    + replace (z + 1 - 1) with z by lia. rewrite L1. intros Ex j p Hj Vp. rewrite V1 by auto. apply vpath_inv in Vp; [|lia].
      destruct Vp as (i & q & -> & Hi & Vq). rewrite gatem_up; auto.
      * change (nth j em Enull) with (nthe em j). now rewrite (V Ex j q Hj Vq).
      * intros t Hx. destruct Vq as [Vq _]. specialize (Ht t Hx). lia.
    + intros r' s2 (S2 & O2 & L2 & T2 & V2). rewrite L1 in *. split; [eapply step_trans; eauto|]. split; auto. split; auto.
      now replace (z + Z.of_nat (S cnt) - 1) with (z + 1 + Z.of_nat cnt - 1) by lia.
Qed.

Lemma mentry_concat (m : list (list (N * N))) i j : length m = 4%nat -> (forall row, In row m -> length row = 4%nat) -> (i < 4)%nat -> (j < 4)%nat ->
  nth (4 * i + j) (concat m) (n0, n0) = mentry m i j.
Proof.
  intros Lm Lr Hi Hj. destruct m as [|r0 [|r1 [|r2 [|r3 [|]]]]]; try discriminate.
  assert (E: forall r, In r [r0; r1; r2; r3] -> exists a b c d, r = [a; b; c; d]).
  { intros r Hr. specialize (Lr r Hr). destruct r as [|a [|b [|c [|d [|]]]]]; try discriminate. eauto. }
  destruct (E r0) as (? & ? & ? & ? & ->); [cbn; auto|]. destruct (E r1) as (? & ? & ? & ? & ->); [cbn; auto|].
  destruct (E r2) as (? & ? & ? & ? & ->); [cbn; auto|]. destruct (E r3) as (? & ? & ? & ? & ->); [cbn; auto|]. clear - Hi Hj.
  unfold mentry. do 4 (destruct i as [|i]; [do 4 (destruct j as [|j]; [reflexivity|]); lia|]). lia.
Qed.

(** Entry of the 4x4 matrix for the digits of the larger and the smaller target. *)
Definition big_small (gt : bool) (m : list (list (N * N))) (b s : nat) : C :=
  Cv2 (if gt then mentry m (b / 2 * 2 + s / 2) (b mod 2 * 2 + s mod 2) else mentry m (s / 2 * 2 + b / 2) (s mod 2 * 2 + b mod 2))%nat.

Theorem makeTwoQubitGateDD_sp mat n t0 t1 s O : length mat = 4%nat -> (forall row, In row mat -> length row = 4%nat) ->
  0 <= t0 < n -> 0 <= t1 < n -> t0 <> t1 -> n <= s_nq s -> n <= 127 -> inv s -> owns (s_cc s) O ->
  wp al0 (makeTwoQubitGateDD N g nb mat n t0 t1 0) s (fun r s' => step O s s' /\ owns (s_cc s') O /\ tedge (co s') KM (n - 1) r /\
    (ex X -> forall p, vpath KM (n - 1) p -> de (co s') KM r p = gatem [] [t0; t1] (fun ds => Cv2 (mentry mat (ridx ds) (cidx ds))) p)).
Proof.
  intros Lm Lr H0 H1 Ne Hn Hm I Ow. unfold makeTwoQubitGateDD.
  match goal with |- wp _ (fun s => if _ then _ else ?m s) _ _ => apply (wp_eq al0 _ m) end.
  { replace (s_nq s <? n + 0) with false; auto. symmetry. apply Z.ltb_ge. lia. }
  change (qcast 0) with 0. rewrite qcast_id by lia. set (sm := Z.min t0 t1). set (lg := Z.max t0 t1).
  assert (Hs: 0 <= sm /\ sm < lg /\ lg < n) by lia. rewrite Z.sub_0_r, Z.add_0_r, (Z.max_r 0 sm), (Z.max_r (sm + 1) lg) by lia.
  set (gt := t1 <? t0).
  assert (Lc: length (concat mat) = 16%nat).
  { destruct mat as [|r0 [|r1 [|r2 [|r3 [|]]]]]; try discriminate. cbn [concat]. rewrite !app_length, !Lr by (cbn; auto). reflexivity. }
  apply wp_bind. eapply wp_mono; [apply (mapM_t (n0, n0) (-1) (entryDD N g) (fun v _ => Cv2 v) (concat mat) s O); auto|].
  { intros v s1 _ I1 S1 O1. now apply entryDD_sp. }
  intros em s1 (S1 & O1 & L1 & T1 & V1). assert (Nq1: s_nq s1 = s_nq s) by apply (stp_nq _ _ _ S1). rewrite Lc in *.
  apply wp_bind. eapply wp_mono; [apply (idLinesL_sp [] (fun j _ => Cv2 (nth j (concat mat) (n0, n0))) (Z.to_nat sm) 0 em s1 O); auto; try lia|].
  { apply S1. }
  { intros t []. }
  { rewrite L1. intros Ex j p Hj Vp. rewrite V1 by auto. apply vpath_m1 in Vp. subst. reflexivity. }
  intros em1 s2 (S2 & O2 & L2 & T2 & V2). rewrite Z.add_0_l, Z2Nat.id in * by lia. rewrite L1 in *.
  assert (Nq2: s_nq s2 = s_nq s) by (rewrite (stp_nq _ _ _ S2); auto).
  assert (Loc: forall row col i p, (row < 2)%nat -> (col < 2)%nat -> (i < 4)%nat -> ex X -> vpath KM (sm - 1) p ->
     de (co s2) KM (nthe (locals gt em1 row col) i) p = gatem [] [] (fun _ => big_small gt mat (2 * row + col) i) p).
  { intros row col i p Hr Hc Hi Ex Vp. unfold big_small.
    replace ((2 * row + col) / 2)%nat with row by (destruct row as [|[|]], col as [|[|]]; try lia; reflexivity).
    replace ((2 * row + col) mod 2)%nat with col by (destruct row as [|[|]], col as [|[|]]; try lia; reflexivity).
    assert (At: forall a b, (a < 4)%nat -> (b < 4)%nat -> de (co s2) KM (at44 em1 a b) p = gatem [] [] (fun _ => Cv2 (mentry mat a b)) p).
    { intros a b Ha Hb. unfold at44. rewrite V2 by (auto; lia). apply gatem_ext. intros _. now rewrite mentry_concat. }
    destruct i as [|[|[|[|i]]]]; [| | | |lia]; unfold locals, nthe; cbn [map nth]; destruct gt; rewrite At by lia; reflexivity. }
  assert (Tl: forall row col e, (row < 2)%nat -> (col < 2)%nat -> In e (locals gt em1 row col) -> tedge (co s2) KM (sm - 1) e).
  { intros row col e Hr Hc He. unfold locals in He. apply in_map_iff in He. destruct He as ([i j] & <- & Hij). apply T2.
    assert (i < 2 /\ j < 2)%nat by (destruct Hij as [E|[E|[E|[E|[]]]]]; injection E as <- <-; lia).
    destruct gt; apply nthe_In; lia. }
  apply wp_bind. eapply wp_mono; [apply (mapM_t (0, 0)%nat sm (fun rc => makeDDNode N g nb KM sm (locals gt em1 (fst rc) (snd rc)) false)
     (fun rc p => gatem [] [sm] (fun ds => big_small gt mat (2 * fst rc + snd rc) (nth 0 ds 0)) p)%nat [(0, 0); (0, 1); (1, 0); (1, 1)]%nat s2 O); auto; [apply S2|]|].
  { intros [row col] s3 Hrc I3 S3 O3. cbn [fst snd]. assert (Hr: (row < 2 /\ col < 2)%nat) by (destruct Hrc as [E|[E|[E|[E|[]]]]]; injection E as <- <-; lia).
    eapply wp_mono; [apply (makeDDNode_t KM sm s3 (locals gt em1 row col) O); auto|].
    - rewrite (stp_nq _ _ _ S3). lia.
    - intros e He. eapply tedge_ext; [apply S3|]. apply (Tl row col); [lia|lia|exact He].
    - intros r s4 (S4 & O4 & T4 & _ & V4). split; auto. split; auto. split; auto. intros Ex p Vp. apply vpath_inv in Vp; [|lia].
      destruct Vp as (i & q & -> & Hi & Vq). rewrite V4 by auto. rewrite gatem_target; [|destruct Vq; lia|intros x []].
      rewrite (de_step O s2 s3 KM (sm - 1)); auto; [|apply S2|].
      + cbn [nth]. apply Loc; auto; lia.
      + apply (Tl row col); [lia|lia|]. apply nthe_In. unfold locals. rewrite map_length. exact Hi. }
  intros em2 s3 (S3 & O3 & L3 & T3 & V3). cbn [length] in L3, V3. assert (Nq3: s_nq s3 = s_nq s) by (rewrite (stp_nq _ _ _ S3); auto).
  apply wp_bind. eapply wp_mono; [apply (idLinesL_sp [sm] (fun j ds => big_small gt mat j (nth 0 ds 0%nat)) (Z.to_nat (lg - (sm + 1))) (sm + 1) em2 s3 O); auto; try lia|].
  { apply S3. }
  { intros t [<-|[]]. lia. }
  { now replace (sm + 1 - 1) with sm by lia. }
  { replace (sm + 1 - 1) with sm by lia. rewrite L3. intros Ex j p Hj Vp. rewrite V3 by auto. apply gatem_ext. intros ds.
    destruct j as [|[|[|[|j]]]]; [| | | |lia]; reflexivity. }
  intros em3 s4 (S4 & O4 & L4 & T4 & V4). replace (sm + 1 + Z.of_nat (Z.to_nat (lg - (sm + 1))) - 1) with (lg - 1) in * by lia. rewrite L3 in *.
  assert (Nq4: s_nq s4 = s_nq s) by (rewrite (stp_nq _ _ _ S4); auto).
  apply wp_bind. eapply wp_mono; [apply (makeDDNode_t KM lg s4 em3 O); auto; [apply S4|lia]|].
  intros e s5 (S5 & O5 & T5 & _ & V5). assert (Nq5: s_nq s5 = s_nq s) by (rewrite (stp_nq _ _ _ S5); auto).
  eapply wp_mono; [apply (idLines_sp [lg; sm] (fun ds => big_small gt mat (nth 0 ds 0%nat) (nth 1 ds 0%nat)) (Z.to_nat (n - (lg + 1))) (lg + 1) e s5 O); auto; try lia|].
  { apply S5. }
  { intros t [<-|[<-|[]]]; lia. }
  { now replace (lg + 1 - 1) with lg by lia. }
  { replace (lg + 1 - 1) with lg by lia. intros Ex p Vp. apply vpath_inv in Vp; [|lia].
    destruct Vp as (i & q & -> & Hi & Vq). rewrite V5 by auto. cbn [arity] in Hi. rewrite V4 by auto. rewrite gatem_target; [reflexivity|destruct Vq; lia|intros x [<-|[]]; lia]. }
  intros r s6 (S6 & O6 & T6 & V6). replace (lg + 1 + Z.of_nat (Z.to_nat (n - (lg + 1))) - 1) with (n - 1) in * by lia.
  split. { eapply step_trans; [exact S1|]. eapply step_trans; [exact S2|]. eapply step_trans; [exact S3|]. eapply step_trans; [exact S4|]. eapply step_trans; [exact S5|exact S6]. }
  split; auto. split; auto. intros Ex p Vp. rewrite V6 by auto.
  destruct (Z.ltb_spec t1 t0) as [Lt|Ge]; unfold gt, big_small.
  - replace lg with t0 by lia. replace sm with t1 by lia. unfold gatem. cbn [ctl_sat forallb]. destruct (diagx [t0; t1] p); auto. cbn [map nth].
    destruct (Z.ltb_spec t1 t0); [|lia]. unfold ridx, cidx. cbn [map vidx length Nat.pow]. f_equal. f_equal; lia.
  - replace lg with t1 by lia. replace sm with t0 by lia. rewrite gatem_swap. unfold gatem. cbn [ctl_sat forallb]. destruct (diagx [t0; t1] p); auto. cbn [map nth rev app].
    destruct (Z.ltb_spec t1 t0); [lia|]. unfold ridx, cidx. cbn [map vidx length Nat.pow]. f_equal. f_equal; lia.
Qed.
End GateL.
