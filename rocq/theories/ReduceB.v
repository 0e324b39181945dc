(** Values of the reductions of ancillary and garbage qubits on matrices of zeros and ones and on basis
    states: there no weight is lost when a node is rebuilt, and successors that share a node have the
    same weight. *)
From Coq Require Import ZArith List Bool Lia Arith Reals Lra Permutation.
From Verif Require Import Num Base CTable CTableWf Cx State Pkg Control Gate Meas Reduce Inv InvL PrimL NormL MkL TrL AddL MulL KronL CanonL IdentL StateL GateL DelL ReduceL.
Import ListNotations.
Local Open Scope Z_scope.

(** The reduction of a function of the entries: at the levels in [A] the blocks of the level, reduced
    further down, are combined by [loc]. *)
Section Tr.
Variables (k : kind) (A : Z -> bool) (loc : (nat -> C) -> nat -> C).
Fixpoint Tr (h : list nat -> C) (p : list nat) : C :=
  match p with
  | [] => h []
  | i :: q => if A (Z.of_nat (length q)) then loc (fun j => Tr (fun r => h (j :: r)) q) i else Tr (fun r => h (i :: r)) q
  end.
Hypothesis loc_ext : forall x y i, (i < arity k)%nat -> (forall j, (j < arity k)%nat -> x j = y j) -> loc x i = loc y i.
Hypothesis loc_scale : forall c x i, loc (fun j => (c * x j)%C) i = (c * loc x i)%C.
Lemma Tr_ext : forall p l h h', (forall q, vpath k l q -> h q = h' q) -> vpath k l p -> Tr h p = Tr h' p.
Proof.
  induction p as [|i p IH]; intros l h h' H V; cbn [Tr]; [now apply H|]. apply vpath_cons in V. destruct V as [Hi V].
  destruct (A _).
  - apply loc_ext; auto. intros j Hj. apply (IH (l - 1)); auto. intros q Vq. apply H. apply vpath_cons. auto.
  - apply (IH (l - 1)); auto. intros q Vq. apply H. apply vpath_cons. auto.
Qed.
Lemma Tr_scale c : forall p l h, vpath k l p -> Tr (fun q => (c * h q)%C) p = (c * Tr h p)%C.
Proof.
  induction p as [|i p IH]; intros l h V; cbn [Tr]; auto. apply vpath_cons in V. destruct V as [Hi V]. destruct (A _); [|now apply (IH (l - 1))].
  rewrite <- loc_scale. apply loc_ext; auto. intros j _. now apply (IH (l - 1)).
Qed.
Lemma Tr_below : forall p h, (forall v, 0 <= v < Z.of_nat (length p) -> A v = false) -> Tr h p = h p.
Proof.
  induction p as [|i p IH]; intros h H; cbn [Tr]; auto. rewrite H by (cbn [length]; lia). apply IH. intros v Hv. apply H. cbn [length]. lia.
Qed.
Lemma Tr_zero p l h : (forall q, vpath k l q -> h q = C0) -> vpath k l p -> Tr h p = C0.
Proof.
  intros H V. rewrite (Tr_ext p l h (fun q => (C0 * C0)%C)) by (auto; intros q Vq; rewrite H by auto; ring).
  rewrite (Tr_scale C0 p l (fun _ => C0)) by auto. ring.
Qed.
End Tr.

(** Entries zero or one; for vectors, at most one of them not zero. *)
Definition Pb (k : kind) (l : Z) (h : list nat -> C) : Prop :=
  (forall p, vpath k l p -> h p = C0 \/ h p = C1) /\
  (k = KV -> forall p p', vpath k l p -> vpath k l p' -> h p <> C0 -> h p' <> C0 -> p = p').
Lemma Pb_ext k l h h' : (forall p, vpath k l p -> h p = h' p) -> Pb k l h -> Pb k l h'.
Proof.
  intros E [A B]. split.
  - intros p V. rewrite <- E by auto. auto.
  - intros Hk p p' V V' N N'. apply B; auto; rewrite E; auto.
Qed.

(** ** The classes of functions *)
Lemma dec_lt (P Q : nat -> Prop) : forall n, (forall j, (j < n)%nat -> P j \/ Q j) -> (forall j, (j < n)%nat -> P j) \/ exists j, (j < n)%nat /\ Q j.
Proof.
  induction n as [|n IH]; intros H; [left; intros; lia|]. destruct IH as [Y|(j & Hj & Y)].
  - intros j Hj. apply H. lia.
  - destruct (H n) as [Z|Z]; [lia| |right; exists n; split; [lia|auto]]. left. intros j Hj. destruct (Nat.eq_dec j n) as [-> |]; auto. apply Y. lia.
  - right. exists j. split; [lia|auto].
Qed.
(** Ancillary qubits: removal of entries *)
Section ClassA.
Variables (A : Z -> bool) (bd : nat -> bool).
Fixpoint kept (p : list nat) : bool := match p with [] => true | i :: q => negb (A (Z.of_nat (length q)) && bd i) && kept q end.
Lemma Tr_kept (loc : (nat -> C) -> nat -> C) : (forall x i, loc x i = if bd i then C0 else x i) -> forall p h, Tr A loc h p = if kept p then h p else C0.
Proof.
  intros Hl. induction p as [|i p IH]; intros h; cbn [Tr kept]; auto. rewrite Hl, !IH. destruct (A _); cbn [andb negb]; auto.
  destruct (bd i); cbn [andb negb]; auto.
Qed.
End ClassA.
(** Garbage qubits: [z] is applied to the digits of the garbage qubits, and the entries that get the same
    index are added up. *)
Section ClassG.
Variables (k : kind) (A : Z -> bool) (z : nat -> nat) (loc : (nat -> C) -> nat -> C).
Fixpoint clr (p : list nat) : list nat := match p with [] => [] | i :: q => (if A (Z.of_nat (length q)) then z i else i) :: clr q end.
Lemma clr_len p : length (clr p) = length p.
Proof. induction p; cbn; auto. Qed.
Definition Pg (l : Z) (h : list nat -> C) : Prop := Pb k l h /\
  forall p p', vpath k l p -> vpath k l p' -> h p <> C0 -> h p' <> C0 -> clr p = clr p' -> p = p'.
Hypothesis L1 : forall x i, (i < arity k)%nat -> (forall j, (j < arity k)%nat -> z j = i -> x j = C0) -> loc x i = C0.
Hypothesis L2 : forall x i j, (i < arity k)%nat -> (j < arity k)%nat -> z j = i -> (forall j', (j' < arity k)%nat -> z j' = i -> j' <> j -> x j' = C0) -> loc x i = x j.
Hypothesis Hz : forall j, (j < arity k)%nat -> (z j < arity k)%nat.
Lemma clr_vpath : forall p l, vpath k l p -> vpath k l (clr p).
Proof.
  induction p as [|i p IH]; intros l V; [exact V|]. apply vpath_cons in V. destruct V as [Hi V]. cbn [clr]. apply vpath_cons. split; [|auto].
  destruct (A _); auto.
Qed.
Lemma Pg_sub l h i : 0 <= l -> Pg l h -> (i < arity k)%nat -> Pg (l - 1) (fun q => h (i :: q)).
Proof.
  intros Hl [[B S] D] Hi. assert (V: forall q, vpath k (l - 1) q -> vpath k l (i :: q)) by (intros q Vq; apply vpath_cons; auto). split; [split|].
  - intros p Vp. auto.
  - intros Hk p p' Vp Vp' Np Np'. assert (E: i :: p = i :: p') by (apply (S Hk); auto). now injection E.
  - intros p p' Vp Vp' Np Np' E. assert (E': i :: p = i :: p'); [|now injection E']. apply D; auto. cbn [clr].
    assert (El: length p = length p') by (destruct Vp as [Vp _], Vp' as [Vp' _]; lia). now rewrite El, E.
Qed.
Lemma Pg_ext l h h' : (forall p, vpath k l p -> h p = h' p) -> Pg l h -> Pg l h'.
Proof. intros E [B D]. split; [now apply (Pb_ext k l h)|]. intros p p' Vp Vp' Np Np'. apply D; auto; rewrite E; auto. Qed.
Lemma Tr_g : forall q l h, Pg l h -> vpath k l q ->
  (Tr A loc h q = C0 /\ forall p, vpath k l p -> clr p = q -> h p = C0) \/ (exists p, vpath k l p /\ clr p = q /\ h p <> C0 /\ Tr A loc h q = h p).
Proof.
  induction q as [|i q IH]; intros l h Ph V.
  - cbn [Tr]. destruct Ph as [[B _] _]. destruct (B [] V) as [E|E].
    + left. split; auto. intros p _ Ep. destruct p; [auto|discriminate].
    + right. exists []. rewrite E. split; auto. split; auto. split; [apply C1_neq_0|reflexivity].
  - apply vpath_cons in V. destruct V as [Hi V]. assert (Hl: 0 <= l) by (destruct V; lia). cbn [Tr].
    assert (Lq: forall p, vpath k (l - 1) p -> length p = length q) by (intros p [Lp _]; destruct V as [V _]; lia).
    destruct (A (Z.of_nat (length q))) eqn:Ea.
    + destruct (dec_lt (fun j => z j = i -> Tr A loc (fun r => h (j :: r)) q = C0 /\ forall p, vpath k (l - 1) p -> clr p = q -> h (j :: p) = C0)
                       (fun j => z j = i /\ exists p, vpath k (l - 1) p /\ clr p = q /\ h (j :: p) <> C0 /\ Tr A loc (fun r => h (j :: r)) q = h (j :: p)) (arity k)) as [Y|(j & Hj & Ej & p & Vp & Ep & Np & Tp)].
      { intros j Hj. destruct (Nat.eq_dec (z j) i) as [E|]; [|left; intros; contradiction].
        destruct (IH (l - 1) (fun r => h (j :: r)) (Pg_sub l h j Hl Ph Hj) V) as [Y|Y]; [left; auto|right; auto]. }
      * left. split; [apply L1; auto; intros j Hj E; apply (Y j Hj E)|]. intros p Vp Ep. destruct p as [|j p]; [discriminate|].
        apply vpath_cons in Vp. destruct Vp as [Hj Vp]. cbn [clr] in Ep. rewrite (Lq p Vp), Ea in Ep. injection Ep as Ej Ep. now apply (Y j Hj Ej).
      * right. exists (j :: p). split; [apply vpath_cons; auto|]. split; [cbn [clr]; rewrite (Lq p Vp), Ea, Ej, Ep; reflexivity|]. split; auto.
        rewrite (L2 _ i j) by (auto; intros j' Hj' Ej' Nj; destruct (IH (l - 1) (fun r => h (j' :: r)) (Pg_sub l h j' Hl Ph Hj') V) as [[Y _]|(p' & Vp' & Ep' & Np' & _)]; auto;
          exfalso; apply Nj; destruct Ph as [_ D]; assert (E: j' :: p' = j :: p) by (apply D; auto; try (apply vpath_cons; auto); cbn [clr]; rewrite (Lq p Vp), (Lq p' Vp'), Ea, Ej, Ej', Ep, Ep'; reflexivity); now injection E).
        exact Tp.
    + destruct (IH (l - 1) (fun r => h (i :: r)) (Pg_sub l h i Hl Ph Hi) V) as [[Y1 Y2]|(p & Vp & Ep & Np & Tp)].
      * left. split; auto. intros p Vp Ep. destruct p as [|j p]; [discriminate|]. apply vpath_cons in Vp. destruct Vp as [Hj Vp].
        cbn [clr] in Ep. rewrite (Lq p Vp), Ea in Ep. injection Ep as -> Ep. now apply Y2.
      * right. exists (i :: p). split; [apply vpath_cons; auto|]. split; [cbn [clr]; rewrite (Lq p Vp), Ea, Ep; reflexivity|]. auto.
Qed.
Lemma Pg_tr l h : Pg l h -> Pb k l (Tr A loc h).
Proof.
  intros Ph. pose proof Ph as [[B S] _]. split.
  - intros q V. destruct (Tr_g q l h Ph V) as [[Y _]|(p & Vp & _ & _ & ->)]; auto.
  - intros Hk q q' V V' Nq Nq'. destruct (Tr_g q l h Ph V) as [[Y _]|(p & Vp & Ep & Np & _)]; [contradiction|].
    destruct (Tr_g q' l h Ph V') as [[Y _]|(p' & Vp' & Ep' & Np' & _)]; [contradiction|]. rewrite <- Ep, <- Ep'. f_equal. now apply (S Hk).
Qed.
Lemma Pg_tr1 l h : 0 <= l -> Pg l h -> Pb k l (fun p => match p with [] => C0 | i :: q => Tr A loc (fun r => h (i :: r)) q end).
Proof.
  intros Hl Ph. pose proof Ph as [[B S] _]. split.
  - intros [|i q] V; auto. apply vpath_cons in V. destruct V as [Hi V]. apply (Pg_tr (l - 1)); auto. now apply Pg_sub.
  - intros Hk [|i q] [|i' q'] V V' Nq Nq'; auto; try contradiction. apply vpath_cons in V. destruct V as [Hi V]. apply vpath_cons in V'. destruct V' as [Hi' V'].
    destruct (Tr_g q (l - 1) _ (Pg_sub l h i Hl Ph Hi) V) as [[Y _]|(p & Vp & Ep & Np & _)]; [contradiction|].
    destruct (Tr_g q' (l - 1) _ (Pg_sub l h i' Hl Ph Hi') V') as [[Y _]|(p' & Vp' & Ep' & Np' & _)]; [contradiction|].
    assert (E: i :: p = i' :: p') by (apply (S Hk); auto; apply vpath_cons; auto). injection E as -> ->. now rewrite <- Ep, <- Ep'.
Qed.
End ClassG.

Section ReduceB.
Context {N : num} {g : cfg N} {nb : kind -> Z} {X : numx N (g_ct g)} (G : gok g).
Local Notation cf := (g_ct g).
Local Notation co := (co N).
Local Notation qn := (qn N).
Local Notation linked := (linked N).
Local Notation c_ut := (c_ut N).
Local Notation Cw := (Cw N g X).
Local Notation Cv := (Cv N g X).
Local Notation Cv2 := (Cv2 N g X).
Local Notation dn := (dn N g X).
Local Notation de := (de N g X).
Local Notation dg := (dg N g X).
Local Notation wtab := (wtab N g X).
Local Notation etn := (etn N).
Local Notation isnode := (isnode N).
Local Notation tedge := (tedge N g X).
Local Notation gedge := (gedge N g X).
Local Notation cinv := (cinv N g nb X).
Local Notation uinv := (uinv N g nb X).
Local Notation nodeok := (nodeok N g nb X).
Local Notation inv := (inv N g nb X).
Local Notation step := (step N g nb X).
Local Notation qext := (qext N).
Local Notation owns := (owns N).
Local Notation wok := (wok N g X).
Local Notation wp := (wp N).
Local Notation al0 := (al0 N g X).
Local Notation nnorm := (nnorm N g X).
Local Notation iedge := (iedge (g:=g) (X:=X)).
Local Notation trsp := (trsp (nb:=nb) (X:=X)).
Local Notation unok := (unok N g X).
Local Notation binok := (binok N g X).
Local Notation addok := (addok N g X).
Local Notation tinv := (tinv N g X).
Local Notation vres := (vres N g X).
Local Notation dv := (dv N g X).
Local Notation mkpost := (mkpost (nb:=nb) (X:=X)).
Local Notation mulCached_sp := (mulCached_sp (nb:=nb) (X:=X) G).
Local Notation addCached_sp := (addCached_sp (nb:=nb) (X:=X) G).
Local Notation getCached_sp := (getCached_sp (nb:=nb) (X:=X) G).
Local Notation makeDDNode_sp := (makeDDNode_sp (nb:=nb) (X:=X) G).
Local Notation lookupC_sp := (lookupC_sp (nb:=nb) (X:=X) G).
Local Notation tedge_gedge := (tedge_gedge (nb:=nb) (X:=X)).
Local Notation child_ok := (child_ok (nb:=nb) (X:=X)).
Local Notation dn_ext := (dn_ext (nb:=nb) (X:=X)).
Local Notation Cw_eq0 := (Cw_eq0 (nb:=nb) (X:=X)).
Local Notation addInsert_sp := (addInsert_sp (g:=g) (nb:=nb) (X:=X)).
Local Notation binInsert_sp := (binInsert_sp (g:=g) (nb:=nb) (X:=X)).
Local Notation unInsert_sp := (unInsert_sp (g:=g) (nb:=nb) (X:=X)).
Local Notation addLookup_sp := (addLookup_sp (g:=g) (nb:=nb) (X:=X)).
Local Notation binLookup_sp := (binLookup_sp (g:=g) (nb:=nb) (X:=X)).
Local Notation unLookup_sp := (unLookup_sp (g:=g) (nb:=nb) (X:=X)).
Local Notation cres := (cres (g:=g) (X:=X)).
Local Notation addsp := (addsp (g:=g) (nb:=nb) (X:=X)).
Local Notation rel_sp := (rel_sp (g:=g) (nb:=nb) (X:=X)).
Local Notation relif_sp := (relif_sp (g:=g) (nb:=nb) (X:=X)).
Local Notation mapM_cres := (mapM_cres (g:=g) (nb:=nb) (X:=X)).
Local Notation de_step := (de_step (g:=g) (nb:=nb) (X:=X)).
Local Notation dg_step := (dg_step (g:=g) (nb:=nb) (X:=X)).
Local Notation mulSelf_sp := (mulSelf_sp (g:=g) (nb:=nb) (X:=X)).
Local Notation finish_sp := (finish_sp (g:=g) (nb:=nb) (X:=X) G).
Local Notation add2F_sp := (add2F_sp (g:=g) (nb:=nb) (X:=X) G).
Implicit Types (s : st N).

Local Notation dn_nz := (dn_nz (g:=g) (nb:=nb) (X:=X)).
Local Notation idok := (idok N g X).
Local Notation makeDDNode_t := (makeDDNode_t (nb:=nb) (X:=X) G).
Local Notation mk_weight := (mk_weight (nb:=nb) (X:=X)).


Local Notation wp_cmul := (wp_cmul (g:=g) (nb:=nb) (X:=X) G).
Local Notation kids := (kids (g:=g) (nb:=nb) (X:=X)).
Lemma nz_w q k l e : ex X -> cinv q -> tedge q k l e -> ew e <> Czero -> Cw q (ew e) <> C0.
Proof. intros Ex I T H Z. apply H. apply (Cw_eq0 q); auto. apply T. Qed.

(** A stored node has an entry one; for vectors, if only one entry is not zero. *)
Lemma dn_one q k : ex X -> cinv q -> k <> KD -> forall m l p, Z.of_nat m = l + 1 -> etn q k l p -> (p = PTerm -> l = -1) ->
  (k = KV -> forall p1 p2, vpath k l p1 -> vpath k l p2 -> dn q k p p1 <> C0 -> dn q k p p2 <> C0 -> p1 = p2) ->
  exists path, vpath k l path /\ dn q k p path = C1.
Proof.
  intros Ex I Hk. induction m as [|m IH]; intros l p Hm T Np Sg.
  - exists []. replace l with (-1) by lia. split; [split; [reflexivity|constructor]|reflexivity].
  - destruct p as [| |n]; [contradiction|specialize (Np eq_refl); lia|]. pose proof T as [L Nv].
    destruct (linked_ok (g:=g) (nb:=nb) (X:=X) _ _ _ I L) as (b & K & _). pose proof (no_norm _ _ _ _ _ _ _ _ _ K Ex) as Nn.
    assert (Ch: forall i, (i < arity k)%nat -> tedge q k (l - 1) (nthe (ne (qn q k n)) i)).
    { intros i Hi. rewrite <- Nv. apply child_ok; auto. }
    assert (Down: forall i, (i < arity k)%nat -> ew (nthe (ne (qn q k n)) i) = Cone -> exists path, vpath k l path /\ dn q k (PNode n) path = C1).
    { intros i Hi W. destruct (IH (l - 1) (ep (nthe (ne (qn q k n)) i))) as (path & V & E); [lia|apply Ch; auto| | |].
      - intros Q. destruct (te_t _ _ _ _ _ _ _ (Ch i Hi) Q) as [|Q']; auto. rewrite W in Q'. discriminate.
      - intros Ek p1 p2 V1 V2 N1 N2. assert (Q: i :: p1 = i :: p2); [|now injection Q].
        apply (Sg Ek); try (apply vpath_cons; auto); rewrite dn_cons; unfold Inv.de; rewrite W, Cw_one by auto; intros Z; [apply N1|apply N2]; rewrite <- Z; ring.
      - exists (i :: path). split; [apply vpath_cons; auto|]. rewrite dn_cons. unfold Inv.de. rewrite W, E, Cw_one by auto. ring. }
    destruct k; [| |congruence].
    + cbn in Nn. destruct Nn as [[_ W]|[[W _]|(N0 & N1 & _)]]; [apply (Down 1%nat); auto; cbn; lia|apply (Down 0%nat); auto; cbn; lia|].
      exfalso. assert (Two: forall i, (i < 2)%nat -> Cw q (ew (nthe (ne (qn q KV n)) i)) <> C0 -> exists path, vpath KV l (i :: path) /\ dn q KV (PNode n) (i :: path) <> C0).
      { intros i Hi W. destruct (dn_nz q KV Ex I m (l - 1) (ep (nthe (ne (qn q KV n)) i))) as (path & V & E); [lia| |].
        - destruct (nptr_eqb (ep (nthe (ne (qn q KV n)) i)) PTerm) eqn:Et.
          + apply nptr_eqb_true in Et. right. split; auto. destruct (te_t _ _ _ _ _ _ _ (Ch i Hi) Et) as [|Q]; auto. rewrite Q, Cw_zero in W by auto. congruence.
          + left. split; [apply Ch; auto|]. intros Q. rewrite Q in Et. discriminate.
        - exists path. split; [apply vpath_cons; auto|]. rewrite dn_cons. unfold Inv.de. now apply Cmul_neq. }
      destruct (Two 0%nat ltac:(lia) N0) as (p0 & V0 & E0). destruct (Two 1%nat ltac:(lia) N1) as (p1 & V1 & E1).
      specialize (Sg eq_refl _ _ V0 V1 E0 E1). discriminate.
    + cbn in Nn. destruct Nn as (am & Ha & W & _). apply (Down am); auto.
Qed.
(** So an edge for a matrix of zeros and ones, or a basis state, has weight zero or one. *)
Lemma Pb_w q k l e : ex X -> cinv q -> k <> KD -> -1 <= l -> tedge q k l e -> Pb k l (de q k e) -> e = Ezero \/ ew e = Cone.
Proof.
  intros Ex I Hk Hl T [B Sg]. destruct (ceqb (ew e) Czero) eqn:Ez.
  - left. apply ceqb_spec in Ez. pose proof (te_z _ _ _ _ _ _ _ T Ex Ez). destruct e; cbn in *; subst; reflexivity.
  - right. assert (Nz: ew e <> Czero) by (intros Z; rewrite Z in Ez; discriminate). pose proof (nz_w _ _ _ _ Ex I T Nz) as Nw.
    destruct (dn_one q k Ex I Hk (Z.to_nat (l + 1)) l (ep e)) as (p & V & E); [lia|apply T| | |].
    + intros Q. destruct (te_t _ _ _ _ _ _ _ T Q); [auto|contradiction].
    + intros Ek p1 p2 V1 V2 N1 N2. apply (Sg Ek); auto; unfold Inv.de; now apply Cmul_neq.
    + apply (Cw_eq1 (g:=g) (nb:=nb) (X:=X) q); auto; [apply T|]. destruct (B p V) as [Q|Q]; unfold Inv.de in Q; rewrite E in Q.
      * exfalso. apply Nw. rewrite <- Q. ring.
      * rewrite <- Q. ring.
Qed.

Section Red.
Variables (k : kind) (post : edge -> M N edge) (cap : bool) (lb : Z) (A : Z -> bool) (loc : (nat -> C) -> nat -> C) (nqs : Z) (P : Z -> (list nat -> C) -> Prop).
Hypothesis Ex : ex X.
Hypothesis Hk : k <> KD.
Hypothesis Hlb : 0 <= lb.
Hypothesis HA : forall v, 0 <= v < lb -> A v = false.
Hypothesis loc_ext : forall x y i, (i < arity k)%nat -> (forall j, (j < arity k)%nat -> x j = y j) -> loc x i = loc y i.
Hypothesis loc_scale : forall c x i, loc (fun j => (c * x j)%C) i = (c * loc x i)%C.
Local Notation Tr := (Tr A loc).
Hypothesis P_sub : forall l h i, 0 <= l -> P l h -> (i < arity k)%nat -> P (l - 1) (fun q => h (i :: q)).
Hypothesis P_ext : forall l h h', (forall p, vpath k l p -> h p = h' p) -> P l h -> P l h'.
Hypothesis P_b : forall l h, P l h -> Pb k l h.
Hypothesis P_tr : forall l h, P l h -> Pb k l (Tr h).
Hypothesis P_tr1 : forall l h, 0 <= l -> P l h -> Pb k l (fun p => match p with [] => C0 | i :: q => Tr (fun r => h (i :: r)) q end).

Definition postokT : Prop := forall l s O f, inv s -> owns (s_cc s) O -> 0 <= l < s_nq s -> s_nq s = nqs -> tedge (co s) k l f -> f = Ezero \/ ew f = Cone ->
  (ep f = PTerm -> f = Ezero) ->
  wp al0 (post f) s (fun r s' => step O s s' /\ owns (s_cc s') O /\ tedge (co s') k l r /\ (ep r = PTerm -> r = Ezero) /\
    forall i p, (i < arity k)%nat -> vpath k (l - 1) p ->
      de (co s') k r (i :: p) = if A l then loc (fun j => de (co s) k f (j :: p)) i else de (co s) k f (i :: p)).
Hypothesis Hpost : postokT.

Definition loopokT l (cs : list edge) O s0 (i : nat) (st : (nat -> edge) * (nat -> bool)) s : Prop :=
  step O s0 s /\ owns (s_cc s) O /\
  forall j, (j < arity k)%nat -> (j < i)%nat \/ snd st j = true ->
    tedge (co s) k l (fst st j) /\ forall p, vpath k l p -> de (co s) k (fst st j) p = Tr (de (co s0) k (nthe cs j)) p.
Lemma redLoopT (rec : edge -> M N edge) l (cs : list edge) O s0 : inv s0 -> -1 <= l < s_nq s0 -> length cs = arity k ->
  (forall j, (j < arity k)%nat -> tedge (co s0) k l (nthe cs j)) ->
  (forall j n, (j < arity k)%nat -> ep (nthe cs j) = PNode n -> ew (nthe cs j) = Cone /\ P l (dn (co s0) k (PNode n))) ->
  (forall s c n, inv s -> owns (s_cc s) O -> s_nq s = s_nq s0 -> tedge (co s) k l c -> ep c = PNode n -> ew c = Cone -> P l (dn (co s) k (PNode n)) ->
     wp al0 (rec c) s (fun r s' => step O s s' /\ owns (s_cc s') O /\ tedge (co s') k l r /\
       forall p, vpath k l p -> de (co s') k r p = Tr (de (co s) k c) p)) ->
  forall m i st s, (i + m = arity k)%nat -> loopokT l cs O s0 i st s ->
    wp al0 (foldM N (redStep N k rec cs) (seq i m) st) s (fun st' s' => loopokT l cs O s0 (arity k) st' s').
Proof.
  intros I0 Hl Len Tc Pc Rec. induction m as [|m IH]; intros i st s Him J; cbn [seq foldM].
  - apply wp_ret. replace (arity k) with i by lia. exact J.
  - apply wp_bind. destruct J as (S & Ow & J). assert (I: inv s) by apply S. assert (Hnq: s_nq s = s_nq s0) by apply (stp_nq O _ _ S).
    assert (Tci: tedge (co s) k l (nthe cs i)) by (eapply tedge_ext; [apply S|apply Tc; lia]).
    unfold redStep at 1. destruct (snd st i) eqn:Hi.
    { apply wp_ret. apply IH; [lia|]. split; auto. split; auto. intros j Hj [Lt|Eq]; apply J; auto.
      destruct (Nat.eq_dec j i) as [-> |]; [now right|left; lia]. }
    cbv zeta. destruct (ep (nthe cs i)) as [| |n] eqn:Ec.
    + pose proof (te_n _ _ _ _ _ _ _ Tci) as Tn. rewrite Ec in Tn. contradiction.
    + apply wp_ret. apply IH; [lia|]. split; auto. split; auto. intros j Hj Hh. cbn [fst snd] in *. unfold upd in *.
      destruct (Nat.eqb_spec j i) as [-> |Nj].
      * split; [exact Tci|]. intros p Vp. rewrite (de_step O s0 s k l) by auto.
        destruct (te_t _ _ _ _ _ _ _ Tci Ec) as [El|Z].
        -- destruct Vp as [Vp _]. destruct p; [reflexivity|cbn [length] in Vp; lia].
        -- rewrite (Tr_zero k A loc loc_ext loc_scale p l); auto; [|intros q _]; unfold Inv.de; rewrite Z, Cw_zero by auto; ring.
      * apply J; auto. destruct Hh as [Hh|Hh]; auto. left; lia.
    + destruct (Pc i n ltac:(lia) Ec) as [Wi Pi]. assert (Et: etn (co s0) k l (PNode n)) by (rewrite <- Ec; apply Tc; lia).
      apply wp_bind. eapply wp_mono; [apply (Rec s (nthe cs i) n); auto|].
      { eapply P_ext; [|exact Pi]. intros p Vp. symmetry. apply (dn_ext (co s0) (co s) k (iv_c _ _ _ _ _ I0) (sp_ext _ _ _ _ _ _ _ S) p l (PNode n)); auto. }
      intros r s1 (S1 & O1 & T1 & V1). apply wp_ret. assert (S01: step O s0 s1) by (eapply step_trans; eauto).
      apply IH; [lia|]. split; auto. split; auto. intros j Hj Hh. cbn [fst snd] in *.
      set (sm' := Nat.ltb i j && Nat.ltb j (arity k) && nptr_eqb (PNode n) (ep (nthe cs j))) in *.
      destruct (Nat.eqb j i || sm') eqn:Es.
      * split; auto. intros p Vp. rewrite V1 by auto. apply (Tr_ext k A loc loc_ext p l); auto. intros q Vq.
        rewrite (de_step O s0 s k l) by (auto; apply Tc; lia).
        apply orb_true_iff in Es. destruct Es as [Es|Es]; [apply Nat.eqb_eq in Es; subst j; reflexivity|].
        unfold sm' in Es. apply andb_true_iff in Es. destruct Es as [_ Es]. apply nptr_eqb_true in Es.
        unfold Inv.de. rewrite Ec, <- Es. rewrite Wi. destruct (Pc j n Hj (eq_sym Es)) as [-> _]. reflexivity.
      * apply orb_false_iff in Es. destruct Es as [Es Es']. apply Nat.eqb_neq in Es.
        destruct (J j Hj) as [Tj Vj]. { destruct Hh as [Hh|Hh]; [left; lia|right]. exact Hh. }
        split; [eapply tedge_ext; [apply S1|exact Tj]|]. intros p Vp. rewrite (de_step O s s1 k l) by auto. now apply Vj.
Qed.

Lemma redT_sp : forall f l e s O, l + 2 <= Z.of_nat f -> (0 < f)%nat -> inv s -> owns (s_cc s) O -> -1 <= l < s_nq s -> s_nq s = nqs -> tedge (co s) k l e ->
  (forall n, ep e = PNode n -> P l (dn (co s) k (PNode n))) -> (cap = true -> (Cmag2 (Cw (co s) (ew e)) <= 1)%R) ->
  wp al0 (redF N g nb f k post cap lb e) s (fun r s' => step O s s' /\ owns (s_cc s') O /\ tedge (co s') k l r /\
    forall p, vpath k l p -> de (co s') k r p = Tr (de (co s) k e) p).
Proof.
  induction f as [|f IH]; intros l e s O Hf Hf0 I Ow Hl Hq T P0 W0; [lia|]. cbn [redF].
  destruct (ep e) as [| |n] eqn:Ee.
  - pose proof (te_n _ _ _ _ _ _ _ T) as Tn. rewrite Ee in Tn. contradiction.
  - destruct (Z.ltb_spec (-1) lb); [|lia]. apply wp_ret. split; [now apply step_refl|]. split; auto. split; auto.
    intros p Vp. destruct (te_t _ _ _ _ _ _ _ T Ee) as [-> | Z].
    + destruct Vp as [Vp _]. destruct p; [reflexivity|cbn [length] in Vp; lia].
    + rewrite (Tr_zero k A loc loc_ext loc_scale p l); auto; [|intros q _]; unfold Inv.de; rewrite Z, Cw_zero by auto; ring.
  - pose proof (te_n _ _ _ _ _ _ _ T) as Tn. rewrite Ee in Tn. pose proof Tn as [L Nv]. specialize (P0 n eq_refl).
    destruct (linked_ok (g:=g) (nb:=nb) (X:=X) _ _ _ (iv_c _ _ _ _ _ I) L) as (b & K & _). pose proof (no_v _ _ _ _ _ _ _ _ _ K) as Hv. rewrite Nv in K, Hv.
    apply wp_bind, wp_get. cbv zeta. change (nod s k n) with (qn (co s) k n). rewrite Nv.
    assert (Ch: forall i, (i < arity k)%nat -> tedge (co s) k (l - 1) (nthe (ne (qn (co s) k n)) i)).
    { intros i Hi. rewrite <- Nv. apply child_ok; auto. apply I. }
    assert (Len := no_len _ _ _ _ _ _ _ _ _ K).
    destruct (Z.ltb_spec l lb) as [Lt|Ge].
    { apply wp_ret. split; [now apply step_refl|]. split; auto. split; auto.
      intros p Vp. rewrite Tr_below; [reflexivity|]. intros v Hv'. apply HA. destruct Vp as [Vp _]. lia. }
    assert (Dc: forall i q, de (co s) k (nthe (ne (qn (co s) k n)) i) q = dn (co s) k (PNode n) (i :: q)) by (intros; now rewrite dn_cons).
    assert (Pc: forall j m, (j < arity k)%nat -> ep (nthe (ne (qn (co s) k n)) j) = PNode m ->
      ew (nthe (ne (qn (co s) k n)) j) = Cone /\ P (l - 1) (dn (co s) k (PNode m))).
    { intros j m Hj Em. pose proof (P_sub l _ j ltac:(lia) P0 Hj) as Pj.
      assert (Bj: Pb k (l - 1) (de (co s) k (nthe (ne (qn (co s) k n)) j))).
      { eapply Pb_ext; [|apply P_b; exact Pj]. intros p _. cbv beta. now rewrite Dc. }
      destruct (Pb_w (co s) k (l - 1) _ Ex (iv_c _ _ _ _ _ I) Hk ltac:(lia) (Ch j Hj) Bj) as [Z|Z].
      - rewrite Z in Em. discriminate.
      - split; auto. eapply P_ext; [|exact Pj]. intros p _. cbv beta. rewrite <- Dc. unfold Inv.de. rewrite Z, Em, Cw_one by auto. ring. }
    apply wp_bind. eapply wp_mono.
    { apply (redLoopT (redF N g nb f k post cap lb) (l - 1) (ne (qn (co s) k n)) O s); auto; try lia.
      - intros s1 c m I1 O1 Hn T1 E1 W1 P1. apply IH; auto; try lia; [intros m' Em; rewrite E1 in Em; injection Em as <-; exact P1|].
        intros _. rewrite W1, Cw_one by auto. rewrite Cmag2_1. lra.
      - split; [now apply step_refl|]. split; auto. cbn [snd]. intros j _ [H|H]; [lia|discriminate]. }
    intros st s1 (S1 & O1 & J). apply wp_bind. assert (I1: inv s1) by apply S1. assert (Hq1: s_nq s1 = s_nq s) by apply (stp_nq O _ _ S1).
    eapply wp_mono; [apply (makeDDNode_t k l s1 (map (fst st) (seq 0 (arity k))) O); auto; try lia|].
    { now rewrite map_length, seq_length. }
    { intros c Hc. apply in_map_iff in Hc. destruct Hc as (j & <- & Hj). apply in_seq in Hj. apply J; lia. }
    intros f1 s2 (S2 & O2 & T2 & Z2 & V2). assert (I2: inv s2) by apply S2. assert (Hq2: s_nq s2 = s_nq s) by (rewrite (stp_nq O _ _ S2); exact Hq1).
    assert (S02: step O s s2) by (eapply step_trans; eauto).
    assert (Vf: forall i p, (i < arity k)%nat -> vpath k (l - 1) p -> de (co s2) k f1 (i :: p) = Tr (fun q => dn (co s) k (PNode n) (i :: q)) p).
    { intros i p Hi Vp. rewrite V2 by auto.
      assert (En: nthe (map (fst st) (seq 0 (arity k))) i = fst st i).
      { unfold nthe. rewrite (nth_indep _ Enull (fst st 0%nat)) by (rewrite map_length, seq_length; exact Hi). rewrite map_nth, seq_nth by exact Hi. reflexivity. }
      rewrite En. destruct (J i Hi) as [_ Vi]; [now left|]. rewrite Vi by auto. apply (Tr_ext k A loc loc_ext p (l - 1)); auto. }
    assert (W1: f1 = Ezero \/ ew f1 = Cone).
    { apply (Pb_w (co s2) k l); auto; [apply I2|lia|]. eapply Pb_ext; [|apply (P_tr1 l _ ltac:(lia) P0)]. intros p Vp.
      destruct p as [|i p]; [destruct Vp as [Vp _]; cbn in Vp; lia|]. apply vpath_cons in Vp. destruct Vp as [Hi Vp]. now rewrite Vf. }
    apply wp_bind. eapply wp_mono; [apply (Hpost l s2 O f1); auto; lia|].
    intros f2 s3 (S3 & O3 & T3 & Z3 & V3). assert (I3: inv s3) by apply S3. assert (S03: step O s s3) by (eapply step_trans; eauto).
    assert (Vr: forall p, vpath k l p -> de (co s3) k f2 p = Tr (dn (co s) k (PNode n)) p).
    { intros p Vp. destruct p as [|i p]; [destruct Vp as [Vp _]; cbn in Vp; lia|]. apply vpath_cons in Vp. destruct Vp as [Hi Vp].
      assert (Lp: l = Z.of_nat (length p)) by (destruct Vp; lia). rewrite V3 by auto. cbn [ReduceB.Tr]. rewrite <- Lp.
      destruct (A l); [|now apply Vf]. apply loc_ext; auto. }
    assert (W2: f2 = Ezero \/ ew f2 = Cone).
    { apply (Pb_w (co s3) k l); auto; [apply I3|lia|]. eapply Pb_ext; [|apply (P_tr l _ P0)]. intros p Vp. now rewrite Vr. }
    assert (We: wtab (co s3) (ew e)) by (eapply wtab_ext; [apply S03|apply T]).
    assert (Ew: Cw (co s3) (ew e) = Cw (co s) (ew e)) by (apply (Cw_ext (g:=g) (X:=X)); [apply S03|apply T]).
    apply (wp_cmul O); auto; [left; apply T3|left; exact We|].
    intros w s4 S4 O4 W4 V4 Zw. apply wp_bind, wp_get. apply wp_ret. split; [eapply step_trans; eauto|]. split; auto.
    rewrite !Cv_Cw in V4 by (auto; apply T3). specialize (V4 Ex).
    assert (Mw: cap && nltb n1 (wmag2 s4 w) = false).
    { destruct cap; auto. cbn [andb]. apply not_true_is_false. intros Q. apply (x_ltb X Ex) in Q. rewrite (x_1 X Ex), (x_wmag2 (X:=X) s4 w Ex), Cv_Cw, V4 in Q by auto.
      specialize (W0 eq_refl). rewrite Ew in Q. destruct W2 as [-> | W2].
      - cbn [ew Ezero] in Q. rewrite Cw_zero in Q by auto. rewrite Cmag2_mul in Q. unfold Cmag2 in Q at 1. cbn in Q. lra.
      - rewrite W2, Cw_one, Cmul_1_l in Q by auto. lra. }
    rewrite Mw.
    assert (Tr': tedge (co s4) k l (Ed (ep f2) w)).
    { constructor; cbn [ep ew]; auto.
      - eapply etn_ext; [apply S4|apply T3].
      - intros Et2. right. apply Zw. left. rewrite (Z3 Et2). reflexivity.
      - intros _ Zw'. destruct (ep f2) eqn:E2; auto.
        + pose proof (te_n _ _ _ _ _ _ _ T3) as Tn'. rewrite E2 in Tn'. contradiction.
        + exfalso. assert (Q: (Cw (co s3) (ew f2) * Cw (co s3) (ew e) = C0)%C) by (rewrite <- V4; rewrite Zw'; now apply Cw_zero).
          apply Cmul_integral in Q.
          destruct Q as [Q|Q]; apply (Cw_eq0 (co s3) _ Ex (iv_c _ _ _ _ _ I3)) in Q.
          * apply (te_z _ _ _ _ _ _ _ T3 Ex) in Q. congruence.
          * exact (te_w _ _ _ _ _ _ _ T3).
          * apply (te_z _ _ _ _ _ _ _ T Ex) in Q. congruence.
          * exact We. }
    split; [exact Tr'|]. intros p Vp. unfold Inv.de at 1. cbn [ep ew]. rewrite V4.
    assert (E4: dn (co s4) k (ep f2) p = dn (co s3) k (ep f2) p).
    { apply (dn_ext (co s3) (co s4) k (iv_c _ _ _ _ _ I3) (sp_ext _ _ _ _ _ _ _ S4) p l (ep f2)); auto. apply T3. }
    rewrite E4. specialize (Vr p Vp). unfold Inv.de in Vr. rewrite Ew.
    transitivity (Cw (co s) (ew e) * (Cw (co s3) (ew f2) * dn (co s3) k (ep f2) p))%C; [ring|]. rewrite Vr.
    rewrite <- (Tr_scale k A loc loc_ext loc_scale _ p l) by auto. apply (Tr_ext k A loc loc_ext p l); auto. intros q _. unfold Inv.de. now rewrite Ee.
Qed.
(** From the values of the argument: a multiple of a function of the class *)
Lemma redT_flat f l e s O c F : l + 2 <= Z.of_nat f -> (0 < f)%nat -> inv s -> owns (s_cc s) O -> -1 <= l < s_nq s -> s_nq s = nqs -> tedge (co s) k l e ->
  P l F -> (forall p, vpath k l p -> de (co s) k e p = (c * F p)%C) -> (cap = true -> (Cmag2 c <= 1)%R) ->
  wp al0 (redF N g nb f k post cap lb e) s (fun r s' => step O s s' /\ owns (s_cc s') O /\ tedge (co s') k l r /\
    forall p, vpath k l p -> de (co s') k r p = Tr (de (co s) k e) p).
Proof.
  intros Hf Hf0 I Ow Hl Hq T PF Hv Hc. pose proof (P_b _ _ PF) as [B Sg].
  assert (Nd: ew e <> Czero -> exists p, vpath k l p /\ dn (co s) k (ep e) p = C1 /\ Cw (co s) (ew e) = c).
  { intros Nz. pose proof (nz_w _ _ _ _ Ex (iv_c _ _ _ _ _ I) T Nz) as Nw.
    assert (Sup: forall p, vpath k l p -> dn (co s) k (ep e) p <> C0 -> F p <> C0).
    { intros p Vp Np Z. specialize (Hv p Vp). unfold Inv.de in Hv. rewrite Z in Hv. apply (Cmul_neq _ _ Nw Np). rewrite Hv. ring. }
    destruct (dn_one (co s) k Ex (iv_c _ _ _ _ _ I) Hk (Z.to_nat (l + 1)) l (ep e)) as (p & V & E); [lia|apply T| | |].
    - intros Q. destruct (te_t _ _ _ _ _ _ _ T Q); [auto|contradiction].
    - intros Ek p1 p2 V1 V2 N1 N2. apply (Sg Ek); auto.
    - exists p. split; auto. split; auto. assert (Fp: F p = C1).
      { destruct (B p V) as [Z|Z]; auto. exfalso. apply (Sup p V); auto. rewrite E. apply C1_neq_0. }
      specialize (Hv p V). unfold Inv.de in Hv. rewrite E, Fp in Hv. transitivity (Cw (co s) (ew e) * C1)%C; [ring|]. rewrite Hv. ring. }
  apply redT_sp; auto.
  - intros n En. assert (Nz: ew e <> Czero) by (intros Z; apply (te_z _ _ _ _ _ _ _ T Ex) in Z; congruence).
    destruct (Nd Nz) as (p & V & E & Ec). eapply P_ext; [|exact PF]. intros q Vq. specialize (Hv q Vq). unfold Inv.de in Hv. rewrite Ec, En in Hv.
    pose proof (nz_w _ _ _ _ Ex (iv_c _ _ _ _ _ I) T Nz) as Nw. rewrite Ec in Nw.
    transitivity (Cinv c * (c * F q))%C; [|rewrite <- Hv]; field; exact Nw.
  - intros Ec. destruct (ceqb (ew e) Czero) eqn:Ez.
    + apply ceqb_spec in Ez. rewrite Ez, Cw_zero by auto. unfold Cmag2. cbn. lra.
    + destruct Nd as (p & _ & _ & ->); auto. intros Z. rewrite Z in Ez. discriminate.
Qed.
End Red.

(** ** The reductions of one qubit *)
Definition flag (b : list bool) (v : Z) : bool := nth (Z.to_nat v) b false.
Definition ancloc (regular : bool) (x : nat -> C) (i : nat) : C := if ancbd regular i then C0 else x i.
Definition garlocV (x : nat -> C) (i : nat) : C := match i with O => (x 0%nat + x 1%nat)%C | _ => C0 end.
Definition garlocM (regular : bool) (x : nat -> C) (i : nat) : C :=
  if regular then match i with 0%nat => (x 0%nat + x 2%nat)%C | 1%nat => (x 1%nat + x 3%nat)%C | _ => C0 end
  else match i with 0%nat => (x 0%nat + x 1%nat)%C | 2%nat => (x 2%nat + x 3%nat)%C | _ => C0 end.
Lemma ancloc_ext regular x y i : (i < 4)%nat -> (forall j, (j < 4)%nat -> x j = y j) -> ancloc regular x i = ancloc regular y i.
Proof. intros Hi H. unfold ancloc. rewrite H by auto. reflexivity. Qed.
Lemma ancloc_scale regular c x i : ancloc regular (fun j => (c * x j)%C) i = (c * ancloc regular x i)%C.
Proof. unfold ancloc. destruct (ancbd _ _); [ring|reflexivity]. Qed.
Lemma garlocV_ext x y i : (i < 2)%nat -> (forall j, (j < 2)%nat -> x j = y j) -> garlocV x i = garlocV y i.
Proof. intros Hi H. unfold garlocV. destruct i; auto. rewrite !H by lia. reflexivity. Qed.
Lemma garlocV_scale c x i : garlocV (fun j => (c * x j)%C) i = (c * garlocV x i)%C.
Proof. unfold garlocV. destruct i; ring. Qed.
Lemma garlocM_ext regular x y i : (i < 4)%nat -> (forall j, (j < 4)%nat -> x j = y j) -> garlocM regular x i = garlocM regular y i.
Proof. intros Hi H. unfold garlocM. destruct regular, i as [|[|[|i]]]; auto; rewrite !H by lia; reflexivity. Qed.
Lemma garlocM_scale regular c x i : garlocM regular (fun j => (c * x j)%C) i = (c * garlocM regular x i)%C.
Proof. unfold garlocM. destruct regular, i as [|[|[|i]]]; ring. Qed.

(** What is common to the three: the node [n] is rebuilt with successors of the right values, or left alone. *)
Lemma postT_node k post (A : Z -> bool) (loc : (nat -> C) -> nat -> C) nqs : ex X -> k <> KD ->
  (forall x y i, (i < arity k)%nat -> (forall j, (j < arity k)%nat -> x j = y j) -> loc x i = loc y i) ->
  (forall c x i, loc (fun j => (c * x j)%C) i = (c * loc x i)%C) ->
  (forall f s, ep f = PTerm -> post f s = Ok f s) ->
  (forall l s O n, inv s -> owns (s_cc s) O -> 0 <= l < s_nq s -> s_nq s = nqs -> etn (co s) k l (PNode n) ->
     wp al0 (post (Ed (PNode n) Cone)) s (fun r s' => step O s s' /\ owns (s_cc s') O /\ tedge (co s') k l r /\ (ep r = PTerm -> r = Ezero) /\
       forall i p, (i < arity k)%nat -> vpath k (l - 1) p ->
         de (co s') k r (i :: p) = if A l then loc (fun j => dn (co s) k (PNode n) (j :: p)) i else dn (co s) k (PNode n) (i :: p))) ->
  postokT k post A loc nqs.
Proof.
  intros Ex Hk Le Ls Ht Hn l s O f I Ow Hl Hq T Wf Zf.
  destruct (ep f) as [| |n] eqn:Ef.
  - pose proof (te_n _ _ _ _ _ _ _ T) as Tn. rewrite Ef in Tn. contradiction.
  - specialize (Zf eq_refl). subst f. eapply wp_eq; [rewrite Ht by reflexivity; instantiate (1 := ret Ezero); reflexivity|].
    apply wp_ret. split; [now apply step_refl|]. split; auto. split; auto. split; auto. intros i p Hi Vp. rewrite de_zero by auto.
    destruct (A l); auto. rewrite (Le _ (fun j => (C0 * C0)%C)) by (auto; intros j _; rewrite de_zero by auto; ring). rewrite (Ls C0 (fun _ => C0)). ring.
  - destruct Wf as [-> |Wf]; [discriminate|]. destruct f as [fp fw]. cbn [ep ew] in *. subst fp fw.
    assert (En: etn (co s) k l (PNode n)) by apply T.
    eapply wp_mono; [apply (Hn l s O n); auto|]. intros r s' (B1 & B2 & B3 & B4 & B5). repeat (split; auto). intros i p Hi Vp. rewrite B5 by auto.
    assert (De: forall j, de (co s) k (Ed (PNode n) Cone) (j :: p) = dn (co s) k (PNode n) (j :: p)) by (intros j; unfold Inv.de; cbn [ep ew]; rewrite Cw_one by auto; ring).
    destruct (A l); [|now rewrite De]. apply Le; auto.
Qed.
Lemma garAddT k l x y s O : ex X -> inv s -> owns (s_cc s) O -> -1 <= l < s_nq s -> tedge (co s) k l x -> tedge (co s) k l y ->
  wp al0 (garAdd N g nb k x y) s (fun r s' => step O s s' /\ owns (s_cc s') O /\ tedge (co s') k l r /\
    forall p, vpath k l p -> de (co s') k r p = (de (co s) k x p + de (co s) k y p)%C).
Proof.
  intros Ex I Ow Hl Tx Ty. unfold garAdd.
  assert (Z: forall e, ceqb (ew e) Czero = true -> forall p, de (co s) k e p = C0).
  { intros e Q p. apply ceqb_spec in Q. unfold Inv.de. rewrite Q, Cw_zero by auto. ring. }
  destruct (ceqb (ew x) Czero && _) eqn:E1.
  - apply andb_true_iff in E1. destruct E1 as [E1 _]. apply wp_ret. split; [now apply step_refl|]. split; auto. split; auto.
    intros p _. rewrite (Z x E1). ring.
  - destruct (negb (ceqb (ew y) Czero)) eqn:E2.
    + eapply wp_mono; [apply (add_sp (g:=g) (nb:=nb) (X:=X) G s O k l x y); auto; apply tedge_gedge; auto|]. intros r s' (B1 & B2 & B3 & B4).
      split; auto. split; auto. split; auto. intros p Vp. rewrite B4 by auto. unfold Inv.dg, Inv.de. rewrite !Cv_Cw by (auto; (apply Tx || apply Ty)). reflexivity.
    + apply negb_false_iff in E2. apply wp_ret. split; [now apply step_refl|]. split; auto. split; auto. intros p _. rewrite (Z y E2). ring.
Qed.
Lemma ancPostT anc regular nqs : ex X -> nqs <= Z.of_nat (length anc) -> postokT KM (ancPost N g nb anc regular) (flag anc) (ancloc regular) nqs.
Proof.
  intros Ex Hlen. apply postT_node; auto; [discriminate|exact (ancloc_ext regular)|exact (ancloc_scale regular)| |].
  { intros f s Ef. unfold ancPost. rewrite Ef. reflexivity. }
  intros l s O n I Ow Hl Hq Tn. unfold ancPost. cbn [ep].
  destruct (kids _ _ _ _ I Tn) as [_ Ch]. pose proof Tn as [L Nv].
  apply wp_bind, wp_get. cbv zeta. change (nv (nod s KM n)) with (nv (qn (co s) KM n)). rewrite Nv.
  eapply wp_bind_ok; [apply bitAt_ok; lia|]. unfold flag.
  set (f := Ed (PNode n) Cone). assert (Tf: tedge (co s) KM l f) by (constructor; cbn [ep ew f]; auto; [apply wtab_one|discriminate|discriminate]).
  assert (Df: forall p, de (co s) KM f p = dn (co s) KM (PNode n) p) by (intros p; unfold Inv.de; cbn [ep ew f]; rewrite Cw_one by auto; ring).
  assert (Same: forall b : bool, (b = true -> forall i, ancbd regular i = true -> ew (nthe (ne (nod s KM n)) i) = Czero) ->
    wp al0 (ret f) s (fun r s' => step O s s' /\ owns (s_cc s') O /\ tedge (co s') KM l r /\ (ep r = PTerm -> r = Ezero) /\
       forall i p, (i < arity KM)%nat -> vpath KM (l - 1) p ->
         de (co s') KM r (i :: p) = if b then ancloc regular (fun j => dn (co s) KM (PNode n) (j :: p)) i else dn (co s) KM (PNode n) (i :: p))).
  { intros b Hb. apply wp_ret. split; [now apply step_refl|]. split; auto. split; auto. split; [discriminate|]. intros i p Hi Vp. rewrite Df.
    destruct b; auto. unfold ancloc. destruct (ancbd regular i) eqn:Ei; auto. rewrite dn_cons. unfold Inv.de. change (nod s KM n) with (qn (co s) KM n) in Hb. rewrite (Hb eq_refl i Ei), Cw_zero by auto. ring. }
  destruct (nth (Z.to_nat l) anc false) eqn:Eb; [|apply (Same false); discriminate].
  assert (Red: forall es, length es = 4%nat -> (forall i, (i < 4)%nat -> nthe es i = if ancbd regular i then Ezero else nthe (ne (nod s KM n)) i) ->
      wp al0 (makeDDNode N g nb KM l es false) s (fun r s' => step O s s' /\ owns (s_cc s') O /\ tedge (co s') KM l r /\ (ep r = PTerm -> r = Ezero) /\
       forall i p, (i < arity KM)%nat -> vpath KM (l - 1) p ->
         de (co s') KM r (i :: p) = ancloc regular (fun j => dn (co s) KM (PNode n) (j :: p)) i)).
  { intros es Len Hes. eapply wp_mono; [apply (makeDDNode_t KM l s es O); auto|].
    - intros c Hc. destruct (In_nth _ _ Enull Hc) as (j & Hj & Ej). fold (nthe es j) in Ej. rewrite <- Ej. rewrite Hes by lia.
      destruct (ancbd regular j); [apply tedge_zero|]. apply Ch. cbn [arity]. lia.
    - intros r s' (S1 & O1 & T1 & Z1 & V1). split; auto. split; auto. split; auto. split; auto. intros i p Hi Vp.
      rewrite V1 by auto. rewrite Hes by auto. unfold ancloc. destruct (ancbd regular i); [now apply de_zero|]. rewrite dn_cons. reflexivity. }
  destruct regular.
  - destruct (negb _ || negb _) eqn:E.
    + apply Red; auto. intros [|[|[|[|i]]]] Hi; try lia; reflexivity.
    + apply orb_false_iff in E. destruct E as [E1 E2]. apply negb_false_iff, ceqb_spec in E1. apply negb_false_iff, ceqb_spec in E2. apply (Same true). intros _.
      intros i Hi. apply orb_true_iff in Hi. destruct Hi as [Hi|Hi]; apply Nat.eqb_eq in Hi; subst i; auto.
  - destruct (negb _ || negb _) eqn:E.
    + apply Red; auto. intros [|[|[|[|i]]]] Hi; try lia; reflexivity.
    + apply orb_false_iff in E. destruct E as [E1 E2]. apply negb_false_iff, ceqb_spec in E1. apply negb_false_iff, ceqb_spec in E2. apply (Same true). intros _.
      intros i Hi. apply orb_true_iff in Hi. destruct Hi as [Hi|Hi]; apply Nat.eqb_eq in Hi; subst i; auto.
Qed.
Lemma garPostVT gar nqs : ex X -> nqs <= Z.of_nat (length gar) -> postokT KV (garPostV N g nb gar) (flag gar) garlocV nqs.
Proof.
  intros Ex Hlen. apply postT_node; auto; [discriminate|exact garlocV_ext|exact garlocV_scale| |].
  { intros f s Ef. unfold garPostV. rewrite Ef. reflexivity. }
  intros l s O n I Ow Hl Hq Tn. unfold garPostV. cbn [ep].
  destruct (kids _ _ _ _ I Tn) as [_ Ch]. pose proof Tn as [L Nv].
  apply wp_bind, wp_get. cbv zeta. change (nv (nod s KV n)) with (nv (qn (co s) KV n)). rewrite Nv.
  eapply wp_bind_ok; [apply bitAt_ok; lia|]. unfold flag.
  assert (Dn: forall j p, dn (co s) KV (PNode n) (j :: p) = de (co s) KV (nthe (ne (nod s KV n)) j) p) by (intros; now rewrite dn_cons).
  destruct (nth (Z.to_nat l) gar false && negb (ceqb (ew (nthe (ne (nod s KV n)) 1)) Czero)) eqn:E.
  - apply andb_true_iff in E. destruct E as [-> E].
    assert (C0': tedge (co s) KV (l - 1) (nthe (ne (nod s KV n)) 0)) by (apply Ch; cbn; lia).
    assert (C1': tedge (co s) KV (l - 1) (nthe (ne (nod s KV n)) 1)) by (apply Ch; cbn; lia).
    apply wp_bind. eapply wp_mono; [apply (garAddT KV (l - 1) _ _ s O); auto; lia|].
    intros h s1 (S1 & O1 & T1 & V1). eapply wp_mono; [apply (makeDDNode_t KV l s1 _ O); auto; [apply S1|rewrite (stp_nq O _ _ S1); lia|]|].
    + intros c [<-|[<-|[]]]; auto. apply tedge_zero.
    + intros r s2 (S2 & O2 & T2 & Z2 & V2). split; [eapply step_trans; eauto|]. split; auto. split; auto. split; auto.
      intros i p Hi Vp. rewrite V2 by auto. cbn [arity] in Hi. destruct i as [|[|i]]; try lia; cbn [nthe nth garlocV]; [rewrite V1 by auto; now rewrite !Dn|now apply de_zero].
  - apply wp_ret. split; [now apply step_refl|]. split; auto. split; [constructor; cbn [ep ew]; auto; [apply wtab_one|discriminate|discriminate]|].
    split; [discriminate|]. intros i p Hi Vp. unfold Inv.de at 1. cbn [ep ew]. rewrite Cw_one by auto.
    destruct (nth (Z.to_nat l) gar false); [|ring]. cbn [andb] in E. apply negb_false_iff, ceqb_spec in E.
    assert (Z1: dn (co s) KV (PNode n) (1%nat :: p) = C0) by (rewrite Dn; unfold Inv.de; rewrite E, Cw_zero by auto; ring).
    cbn [arity] in Hi. destruct i as [|[|i]]; try lia; cbn [garlocV]; rewrite ?Z1; ring.
Qed.
Lemma garPostMT gar regular nqs : ex X -> nqs <= Z.of_nat (length gar) -> postokT KM (garPostM N g nb gar regular) (flag gar) (garlocM regular) nqs.
Proof.
  intros Ex Hlen. apply postT_node; auto; [discriminate|exact (garlocM_ext regular)|exact (garlocM_scale regular)| |].
  { intros f s Ef. unfold garPostM. rewrite Ef. reflexivity. }
  intros l s O n I Ow Hl Hq Tn. unfold garPostM. cbn [ep].
  destruct (kids _ _ _ _ I Tn) as [_ Ch]. pose proof Tn as [L Nv].
  apply wp_bind, wp_get. cbv zeta. change (nv (nod s KM n)) with (nv (qn (co s) KM n)). rewrite Nv.
  eapply wp_bind_ok; [apply bitAt_ok; lia|]. unfold flag.
  assert (Dn: forall j p, dn (co s) KM (PNode n) (j :: p) = de (co s) KM (nthe (ne (nod s KM n)) j) p) by (intros; now rewrite dn_cons).
  set (f := Ed (PNode n) Cone). assert (Tf: tedge (co s) KM l f) by (constructor; cbn [ep ew f]; auto; [apply wtab_one|discriminate|discriminate]).
  assert (Df: forall p, de (co s) KM f p = dn (co s) KM (PNode n) p) by (intros p; unfold Inv.de; cbn [ep ew f]; rewrite Cw_one by auto; ring).
  destruct (nth (Z.to_nat l) gar false).
  2:{ apply wp_ret. split; [now apply step_refl|]. split; auto. split; auto. split; [discriminate|]. auto. }
  assert (Zr: forall i, ew (nthe (ne (nod s KM n)) i) = Czero -> forall p, dn (co s) KM (PNode n) (i :: p) = C0).
  { intros i Z p. rewrite Dn. unfold Inv.de. rewrite Z, Cw_zero by auto. ring. }
  assert (Ci: forall i, (i < 4)%nat -> tedge (co s) KM (l - 1) (nthe (ne (nod s KM n)) i)) by (intros i Hi; apply Ch; cbn; lia).
  assert (Two: forall i j i' j' (mkes : edge -> edge -> list edge) (lc : (nat -> C) -> nat -> C), (i < 4)%nat -> (j < 4)%nat -> (i' < 4)%nat -> (j' < 4)%nat ->
     (forall h h', length (mkes h h') = 4%nat /\ forall c, In c (mkes h h') -> c = h \/ c = h' \/ c = Ezero) ->
     (forall h h' x d, (d < 4)%nat -> (nthe (mkes h h') d = h /\ lc x d = (x i + x j)%C) \/ (nthe (mkes h h') d = h' /\ lc x d = (x i' + x j')%C) \/ (nthe (mkes h h') d = Ezero /\ lc x d = C0)) ->
     wp al0 (let* h := garAdd N g nb KM (nthe (ne (nod s KM n)) i) (nthe (ne (nod s KM n)) j) in
             let* h' := garAdd N g nb KM (nthe (ne (nod s KM n)) i') (nthe (ne (nod s KM n)) j') in makeDDNode N g nb KM l (mkes h h') false) s
       (fun r s' => step O s s' /\ owns (s_cc s') O /\ tedge (co s') KM l r /\ (ep r = PTerm -> r = Ezero) /\
         forall d p, (d < arity KM)%nat -> vpath KM (l - 1) p -> de (co s') KM r (d :: p) = lc (fun j => dn (co s) KM (PNode n) (j :: p)) d)).
  { intros i j i' j' mkes lc Hi Hj Hi' Hj' Hm Hv. apply wp_bind. eapply wp_mono; [apply (garAddT KM (l - 1) _ _ s O); auto; lia|].
    intros h s1 (S1 & O1 & T1 & V1). apply wp_bind. assert (I1: inv s1) by apply S1. assert (Hq1: s_nq s1 = s_nq s) by apply (stp_nq O _ _ S1).
    eapply wp_mono; [apply (garAddT KM (l - 1) _ _ s1 O); auto; try lia; (eapply tedge_ext; [apply S1|apply Ci; auto])|].
    intros h' s2 (S2 & O2 & T2 & V2). assert (I2: inv s2) by apply S2. assert (Hq2: s_nq s2 = s_nq s) by (rewrite (stp_nq O _ _ S2); exact Hq1).
    destruct (Hm h h') as [Hlen' Hin]. eapply wp_mono; [apply (makeDDNode_t KM l s2 _ O); auto; try lia|].
    - intros c Hc. destruct (Hin c Hc) as [-> | [-> | ->]]; [eapply tedge_ext; [apply S2|exact T1]|exact T2|apply tedge_zero].
    - intros r s3 (S3 & O3 & T3 & Z3 & V3). split; [eapply step_trans; [exact S1|]; eapply step_trans; eauto|]. split; auto. split; auto. split; auto.
      intros d p Hd Vp. rewrite V3 by auto. destruct (Hv h h' (fun j => dn (co s) KM (PNode n) (j :: p)) d Hd) as [[Q1 Q2]|[[Q1 Q2]|[Q1 Q2]]]; rewrite Q1, Q2.
      + rewrite (de_step O s1 s2 KM (l - 1)) by auto. rewrite V1 by auto. now rewrite !Dn.
      + rewrite V2 by auto. rewrite !(de_step O s s1 KM (l - 1)) by auto. now rewrite !Dn.
      + now apply de_zero. }
  destruct regular; destruct (_ || _) eqn:E.
  - apply (Two 0%nat 2%nat 1%nat 3%nat (fun h h' => [h; h'; Ezero; Ezero])); try lia.
    + intros h h'. split; [reflexivity|]. intros c [<-|[<-|[<-|[<-|[]]]]]; auto.
    + intros h h' x [|[|[|[|d]]]] Hd; try lia; cbn; auto.
  - apply orb_false_iff in E. destruct E as [E1 E2]. apply negb_false_iff, ceqb_spec in E1. apply negb_false_iff, ceqb_spec in E2.
    apply wp_ret. split; [now apply step_refl|]. split; auto. split; auto. split; [discriminate|]. intros i p Hi Vp. rewrite Df.
    cbn [arity] in Hi. destruct i as [|[|[|[|i]]]]; try lia; cbn [garlocM]; rewrite ?(Zr 2%nat E1), ?(Zr 3%nat E2); ring.
  - apply (Two 0%nat 1%nat 2%nat 3%nat (fun h h' => [h; Ezero; h'; Ezero])); try lia.
    + intros h h'. split; [reflexivity|]. intros c [<-|[<-|[<-|[<-|[]]]]]; auto.
    + intros h h' x [|[|[|[|d]]]] Hd; try lia; cbn; auto.
  - apply orb_false_iff in E. destruct E as [E1 E2]. apply negb_false_iff, ceqb_spec in E1. apply negb_false_iff, ceqb_spec in E2.
    apply wp_ret. split; [now apply step_refl|]. split; auto. split; auto. split; [discriminate|]. intros i p Hi Vp. rewrite Df.
    cbn [arity] in Hi. destruct i as [|[|[|[|i]]]]; try lia; cbn [garlocM]; rewrite ?(Zr 1%nat E1), ?(Zr 3%nat E2); ring.
Qed.

(** ** The reductions *)
Definition zV (d : nat) : nat := 0.
Definition zM (regular : bool) (d : nat) : nat := if regular then (d mod 2)%nat else (2 * (d / 2))%nat.
Lemma garlocV_1 x i : (i < 2)%nat -> (forall j, (j < 2)%nat -> zV j = i -> x j = C0) -> garlocV x i = C0.
Proof. intros Hi H. destruct i as [|i]; cbn; auto. rewrite !H by (auto; lia). ring. Qed.
Lemma garlocV_2 x i j : (i < 2)%nat -> (j < 2)%nat -> zV j = i -> (forall j', (j' < 2)%nat -> zV j' = i -> j' <> j -> x j' = C0) -> garlocV x i = x j.
Proof.
  intros Hi Hj <- H. unfold zV, garlocV in *. destruct j as [|[|j]]; try lia.
  - rewrite (H 1%nat) by (auto; lia). ring.
  - rewrite (H 0%nat) by (auto; lia). ring.
Qed.
Lemma garlocM_1 regular x i : (i < 4)%nat -> (forall j, (j < 4)%nat -> zM regular j = i -> x j = C0) -> garlocM regular x i = C0.
Proof.
  intros Hi H. unfold zM, garlocM in *. destruct regular, i as [|[|[|i]]]; auto.
  - rewrite (H 0%nat), (H 2%nat) by (auto; lia). ring.
  - rewrite (H 1%nat), (H 3%nat) by (auto; lia). ring.
  - rewrite (H 0%nat), (H 1%nat) by (auto; lia). ring.
  - rewrite (H 2%nat), (H 3%nat) by (auto; lia). ring.
Qed.
Lemma garlocM_2 regular x i j : (i < 4)%nat -> (j < 4)%nat -> zM regular j = i -> (forall j', (j' < 4)%nat -> zM regular j' = i -> j' <> j -> x j' = C0) -> garlocM regular x i = x j.
Proof.
  intros Hi Hj <- H. unfold zM, garlocM in *. destruct regular, j as [|[|[|[|j]]]]; try lia; cbn in *.
  - rewrite (H 2%nat) by (auto; lia). ring.
  - rewrite (H 3%nat) by (auto; lia). ring.
  - rewrite (H 0%nat) by (auto; lia). ring.
  - rewrite (H 1%nat) by (auto; lia). ring.
  - rewrite (H 1%nat) by (auto; lia). ring.
  - rewrite (H 0%nat) by (auto; lia). ring.
  - rewrite (H 3%nat) by (auto; lia). ring.
  - rewrite (H 2%nat) by (auto; lia). ring.
Qed.
Lemma zM_lt regular j : (j < 4)%nat -> (zM regular j < 4)%nat.
Proof. intros H. unfold zM. destruct regular, j as [|[|[|[|j]]]]; try lia; cbn; lia. Qed.
Lemma firstSet_before : forall b i j, firstSet b = Some i -> (j < i)%nat -> nth j b false = false.
Proof.
  induction b as [|x b IH]; intros i j E H; cbn in E; [discriminate|]. destruct x; [injection E as <-; lia|].
  destruct (firstSet b) as [i'|] eqn:Eb; [|discriminate]. injection E as <-. destruct j; cbn; auto. apply (IH i'); auto. lia.
Qed.
Lemma flag_below b i v : firstSet b = Some i -> 0 <= v < Z.of_nat i -> flag b v = false.
Proof. intros E H. unfold flag. apply (firstSet_before b i); auto. lia. Qed.
Lemma flag_none b v : firstSet b = None -> flag b v = false.
Proof. intros E. unfold flag. now apply firstSet_none. Qed.
(** Where nothing is to be done *)
Lemma Tr_unch k loc b l s e : ex X -> inv s -> tedge (co s) k l e ->
  (forall x y i, (i < arity k)%nat -> (forall j, (j < arity k)%nat -> x j = y j) -> loc x i = loc y i) ->
  (forall c x i, loc (fun j => (c * x j)%C) i = (c * loc x i)%C) ->
  firstSet b = None \/ (exists q, firstSet b = Some q /\ lvl s k (ep e) < Z.of_nat q) ->
  forall p, vpath k l p -> Tr (flag b) loc (de (co s) k e) p = de (co s) k e p.
Proof.
  intros Ex I T Le Ls [Hn|(q & Eq & Lt)] p Vp.
  - apply Tr_below. intros v _. now apply flag_none.
  - destruct (ep e) as [| |n] eqn:Ee.
    + pose proof (te_n _ _ _ _ _ _ _ T) as Tn. rewrite Ee in Tn. contradiction.
    + destruct (te_t _ _ _ _ _ _ _ T Ee) as [-> | Z].
      * destruct Vp as [Vp _]. destruct p; [reflexivity|cbn [length] in Vp; lia].
      * rewrite (Tr_zero k (flag b) loc Le Ls p l); auto; [|intros q' _]; unfold Inv.de; rewrite Z, Cw_zero by auto; ring.
    + pose proof (te_n _ _ _ _ _ _ _ T) as Tn. rewrite Ee in Tn. destruct Tn as [L Nv]. cbn [lvl] in Lt.
      change (nv (nod s k n)) with (nv (qn (co s) k n)) in Lt. rewrite Nv in Lt. apply Tr_below. intros v Hv. apply (flag_below b q); auto. destruct Vp as [Vp _]. lia.
Qed.

(** A multiple of a function of a class; [cap]: the factor is at most one in magnitude. *)
Definition flat (k : kind) (P : Z -> (list nat -> C) -> Prop) (cap : bool) (l : Z) (h : list nat -> C) : Prop :=
  exists c F, P l F /\ (forall p, vpath k l p -> h p = (c * F p)%C) /\ (cap = true -> (Cmag2 c <= 1)%R).
Lemma flat_ext k P cap l h h' : (forall p, vpath k l p -> h p = h' p) -> flat k P cap l h -> flat k P cap l h'.
Proof. intros E (c & F & A & B & D). exists c, F. split; auto. split; auto. intros p Vp. rewrite <- E by auto. auto. Qed.
Definition ancT (anc : list bool) (regular : bool) : (list nat -> C) -> list nat -> C := Tr (flag anc) (ancloc regular).
Definition garVT (gar : list bool) : (list nat -> C) -> list nat -> C := Tr (flag gar) garlocV.
Definition garMT (gar : list bool) (regular : bool) : (list nat -> C) -> list nat -> C := Tr (flag gar) (garlocM regular).
Definition ancP : Z -> (list nat -> C) -> Prop := Pb KM.
Definition garVP (gar : list bool) : Z -> (list nat -> C) -> Prop := Pg KV (flag gar) zV.
Definition garMP (gar : list bool) (regular : bool) : Z -> (list nat -> C) -> Prop := Pg KM (flag gar) (zM regular).

Definition redval (k : kind) (l : Z) (T : (list nat -> C) -> list nat -> C) s O e (r : edge) (s' : st N) : Prop :=
  step O s s' /\ owns (s_cc s') O /\ tedge (co s') k l r /\ forall p, vpath k l p -> de (co s') k r p = T (de (co s) k e) p.
Lemma anc_val anc regular q l e s O : ex X -> firstSet anc = Some q -> s_nq s <= Z.of_nat (length anc) -> inv s -> owns (s_cc s) O -> -1 <= l < s_nq s -> tedge (co s) KM l e ->
  flat KM ancP false l (de (co s) KM e) ->
  wp al0 (redF N g nb (fuelof N s) KM (ancPost N g nb anc regular) false (Z.of_nat q) e) s (redval KM l (ancT anc regular) s O e).
Proof.
  intros Ex Eq Hn I Ow Hl T (c & F & PF & Hv & Hc).
  assert (Hm: forall p h, Tr (flag anc) (ancloc regular) h p = if kept (flag anc) (ancbd regular) p then h p else C0) by (apply Tr_kept; reflexivity).
  assert (Sub: forall l' h i, 0 <= l' -> ancP l' h -> (i < 4)%nat -> ancP (l' - 1) (fun r => h (i :: r))).
  { intros l' h i Hl' [B _] Hi. split; [|discriminate]. intros p Vp. apply B. apply vpath_cons. auto. }
  assert (TrP: forall l' h, ancP l' h -> Pb KM l' (Tr (flag anc) (ancloc regular) h)).
  { intros l' h [B _]. split; [|discriminate]. intros p Vp. rewrite Hm. destruct (kept _ _ _); auto. }
  apply (redT_flat KM _ false (Z.of_nat q) (flag anc) (ancloc regular) (s_nq s) ancP Ex) with (c := c) (F := F); auto; try (unfold fuelof; lia); try discriminate; try lia.
  - intros v Hv'. now apply (flag_below anc q).
  - exact (ancloc_ext regular).
  - exact (ancloc_scale regular).
  - intros l' h h'. apply Pb_ext.
  - intros l' h Hl' Ph. split; [|discriminate]. intros [|i p] Vp; auto. apply vpath_cons in Vp. destruct Vp as [Hi Vp]. now apply (TrP (l' - 1)); [apply Sub|].
  - apply ancPostT; auto.
Qed.
Lemma garV_val gar q l e s O : ex X -> firstSet gar = Some q -> s_nq s <= Z.of_nat (length gar) -> inv s -> owns (s_cc s) O -> -1 <= l < s_nq s -> tedge (co s) KV l e ->
  flat KV (garVP gar) true l (de (co s) KV e) ->
  wp al0 (redF N g nb (fuelof N s) KV (garPostV N g nb gar) true (Z.of_nat q) e) s (redval KV l (garVT gar) s O e).
Proof.
  intros Ex Eq Hn I Ow Hl T (c & F & PF & Hv & Hc).
  apply (redT_flat KV _ true (Z.of_nat q) (flag gar) garlocV (s_nq s) (garVP gar) Ex) with (c := c) (F := F); auto; try (unfold fuelof; lia); try discriminate; try lia.
  - intros v Hv'. now apply (flag_below gar q).
  - exact garlocV_ext.
  - exact garlocV_scale.
  - apply Pg_sub.
  - apply Pg_ext.
  - intros l' h [B _]. exact B.
  - apply Pg_tr; [exact garlocV_1|exact garlocV_2].
  - apply Pg_tr1; [exact garlocV_1|exact garlocV_2].
  - apply garPostVT; auto.
Qed.
Lemma garM_val gar regular q l e s O : ex X -> firstSet gar = Some q -> s_nq s <= Z.of_nat (length gar) -> inv s -> owns (s_cc s) O -> -1 <= l < s_nq s -> tedge (co s) KM l e ->
  flat KM (garMP gar regular) true l (de (co s) KM e) ->
  wp al0 (redF N g nb (fuelof N s) KM (garPostM N g nb gar regular) true (Z.of_nat q) e) s (redval KM l (garMT gar regular) s O e).
Proof.
  intros Ex Eq Hn I Ow Hl T (c & F & PF & Hv & Hc).
  apply (redT_flat KM _ true (Z.of_nat q) (flag gar) (garlocM regular) (s_nq s) (garMP gar regular) Ex) with (c := c) (F := F); auto; try (unfold fuelof; lia); try discriminate; try lia.
  - intros v Hv'. now apply (flag_below gar q).
  - exact (garlocM_ext regular).
  - exact (garlocM_scale regular).
  - apply Pg_sub.
  - apply Pg_ext.
  - intros l' h [B _]. exact B.
  - apply Pg_tr; [exact (garlocM_1 regular)|exact (garlocM_2 regular)].
  - apply Pg_tr1; [exact (garlocM_1 regular)|exact (garlocM_2 regular)].
  - apply garPostMT; auto.
Qed.
End ReduceB.
