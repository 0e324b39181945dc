(** Canonicity: diagrams for proportional functions share their node. *)
From Coq Require Import ZArith List Bool Lia Arith Reals Lra Permutation.
From Verif Require Import Num Base CTable CTableWf Cx State Pkg Inv InvL PrimL NormL MkL TrL AddL MulL KronL.
Import ListNotations.
Local Open Scope Z_scope.

Section CanonL.
Context {N : num} {g : cfg N} {nb : kind -> Z} {X : numx N (g_ct g)} (G : gok g).
Local Notation cf := (g_ct g).
Local Notation co := (co N).
Local Notation qn := (qn N).
Local Notation linked := (linked N).
Local Notation c_ut := (c_ut N).
Local Notation Cw := (Cw N g X).
Local Notation Cv := (Cv N g X).
Local Notation Cv2 := (Cv2 N g X).
Local Notation dn := (dn N g X).
Local Notation de := (de N g X).
Local Notation dg := (dg N g X).
Local Notation wtab := (wtab N g X).
Local Notation etn := (etn N).
Local Notation isnode := (isnode N).
Local Notation tedge := (tedge N g X).
Local Notation gedge := (gedge N g X).
Local Notation cinv := (cinv N g nb X).
Local Notation uinv := (uinv N g nb X).
Local Notation nodeok := (nodeok N g nb X).
Local Notation inv := (inv N g nb X).
Local Notation step := (step N g nb X).
Local Notation qext := (qext N).
Local Notation owns := (owns N).
Local Notation wok := (wok N g X).
Local Notation wp := (wp N).
Local Notation al0 := (al0 N g X).
Local Notation nnorm := (nnorm N g X).
Local Notation iedge := (iedge (g:=g) (X:=X)).
Local Notation trsp := (trsp (nb:=nb) (X:=X)).
Local Notation unok := (unok N g X).
Local Notation binok := (binok N g X).
Local Notation addok := (addok N g X).
Local Notation tinv := (tinv N g X).
Local Notation vres := (vres N g X).
Local Notation dv := (dv N g X).
Local Notation mkpost := (mkpost (nb:=nb) (X:=X)).
Local Notation mulCached_sp := (mulCached_sp (nb:=nb) (X:=X) G).
Local Notation addCached_sp := (addCached_sp (nb:=nb) (X:=X) G).
Local Notation getCached_sp := (getCached_sp (nb:=nb) (X:=X) G).
Local Notation makeDDNode_sp := (makeDDNode_sp (nb:=nb) (X:=X) G).
Local Notation lookupC_sp := (lookupC_sp (nb:=nb) (X:=X) G).
Local Notation tedge_gedge := (tedge_gedge (nb:=nb) (X:=X)).
Local Notation child_ok := (child_ok (nb:=nb) (X:=X)).
Local Notation dn_ext := (dn_ext (nb:=nb) (X:=X)).
Local Notation Cw_eq0 := (Cw_eq0 (nb:=nb) (X:=X)).
Local Notation addInsert_sp := (addInsert_sp (g:=g) (nb:=nb) (X:=X)).
Local Notation binInsert_sp := (binInsert_sp (g:=g) (nb:=nb) (X:=X)).
Local Notation unInsert_sp := (unInsert_sp (g:=g) (nb:=nb) (X:=X)).
Local Notation addLookup_sp := (addLookup_sp (g:=g) (nb:=nb) (X:=X)).
Local Notation binLookup_sp := (binLookup_sp (g:=g) (nb:=nb) (X:=X)).
Local Notation unLookup_sp := (unLookup_sp (g:=g) (nb:=nb) (X:=X)).
Local Notation cres := (cres (g:=g) (X:=X)).
Local Notation addsp := (addsp (g:=g) (nb:=nb) (X:=X)).
Local Notation rel_sp := (rel_sp (g:=g) (nb:=nb) (X:=X)).
Local Notation relif_sp := (relif_sp (g:=g) (nb:=nb) (X:=X)).
Local Notation mapM_cres := (mapM_cres (g:=g) (nb:=nb) (X:=X)).
Local Notation de_step := (de_step (g:=g) (nb:=nb) (X:=X)).
Local Notation dg_step := (dg_step (g:=g) (nb:=nb) (X:=X)).
Local Notation mulSelf_sp := (mulSelf_sp (g:=g) (nb:=nb) (X:=X)).
Local Notation finish_sp := (finish_sp (g:=g) (nb:=nb) (X:=X) G).
Local Notation add2F_sp := (add2F_sp (g:=g) (nb:=nb) (X:=X) G).
Implicit Types (s : st N).

Local Notation dn_nz := (dn_nz (g:=g) (nb:=nb) (X:=X)).

(** A vector or matrix of weights in normal form determines its scaling. *)
Lemma nnormV q es : ex X -> nnorm q KV es ->
  let w0 := Cw q (ew (nthe es 0)) in let w1 := Cw q (ew (nthe es 1)) in
  (Cmag2 w0 + Cmag2 w1 = 1)%R /\ ((Cmag2 w1 <= Cmag2 w0)%R -> real_pos w0) /\ ((Cmag2 w0 < Cmag2 w1)%R -> real_pos w1).
Proof.
  intros Ex H. unfold Inv.nnorm in H. cbv zeta in *. assert (RP: real_pos C1) by (split; simpl; lra).
  destruct H as [[-> ->]|[[-> ->]|(A & B & D & E & F)]].
  - rewrite Cw_zero, Cw_one, Cmag2_0, Cmag2_1 by auto. repeat split; intros; try lra; apply RP.
  - rewrite Cw_zero, Cw_one, Cmag2_0, Cmag2_1 by auto. repeat split; intros; try lra; apply RP.
  - auto.
Qed.

Lemma real_pos_scale c w : real_pos w -> real_pos (c * w)%C -> Cmag2 c = 1%R -> c = C1.
Proof.
  destruct c as [a b], w as [x y]. unfold real_pos, Cmag2, Cmul, C1. simpl. intros [-> X0] [A B] M.
  assert (b = 0%R). { assert (E: (b * x = 0)%R) by lra. apply Rmult_integral in E. destruct E; lra. } subst b.
  assert (P: (0 < a)%R). { apply (Rmult_lt_reg_r x); lra. }
  f_equal. assert ((a - 1) * (a + 1) = 0)%R by lra. apply Rmult_integral in H. destruct H; lra.
Qed.

Lemma nnorm_scale q k es es' c : k <> KD -> ex X -> nnorm q k es -> nnorm q k es' ->
  (forall i, (i < arity k)%nat -> Cw q (ew (nthe es i)) = (c * Cw q (ew (nthe es' i)))%C) -> c = C1.
Proof.
  intros Hk Ex A B H. destruct k; [| |congruence].
  - apply nnormV in A; auto. apply nnormV in B; auto. cbv zeta in *.
    pose proof (H 0%nat ltac:(simpl; lia)) as H0. pose proof (H 1%nat ltac:(simpl; lia)) as H1.
    rewrite H0, H1 in A. rewrite !Cmag2_mul in A. destruct A as (A1 & A2 & A3), B as (B1 & B2 & B3).
    set (u := Cw q (ew (nthe es' 0))) in *. set (v := Cw q (ew (nthe es' 1))) in *.
    assert (M: Cmag2 c = 1%R) by (rewrite <- Rmult_plus_distr_l, B1 in A1; lra). rewrite M in *.
    destruct (Rle_or_lt (Cmag2 v) (Cmag2 u)) as [L|L].
    + eapply real_pos_scale; [apply B2; auto|apply A2; lra|auto].
    + eapply real_pos_scale; [apply B3; auto|apply A3; lra|auto].
  - destruct A as (a & Ha & A1 & A2 & A3), B as (b & Hb & B1 & B2 & B3).
    assert (Ca: (c * Cw q (ew (nthe es' a)) = C1)%C). { rewrite <- H by (simpl; lia). rewrite A1. now apply Cw_one. }
    assert (Cb: Cw q (ew (nthe es b)) = c). { rewrite H by (simpl; lia). rewrite B1, Cw_one by auto. ring. }
    assert (M: Cmag2 c = 1%R).
    { pose proof (A2 b Hb) as P. rewrite Cb in P. pose proof (B2 a Ha) as Q. pose proof (f_equal Cmag2 Ca) as E.
      rewrite Cmag2_mul, Cmag2_1 in E. pose proof (Cmag2_nonneg c) as Nc. pose proof (Cmag2_nonneg (Cw q (ew (nthe es' a)))) as Nw. nra. }
    assert (a = b).
    { destruct (Nat.lt_trichotomy a b) as [L|[L|L]]; auto; exfalso.
      - specialize (B3 a L). pose proof (f_equal Cmag2 Ca) as E. rewrite Cmag2_mul, Cmag2_1, M in E. lra.
      - specialize (A3 b L). rewrite Cb in A3. lra. }
    subst b. rewrite <- Cb, A1. now apply Cw_one.
Qed.

Definition node_or_term (q : core N) (k : kind) (l : Z) (p : nptr) : Prop := isnode q k l p \/ (l = -1 /\ p = PTerm).

Lemma tedge_nt q k l e : tedge q k l e -> ew e <> Czero -> node_or_term q k l (ep e).
Proof.
  intros [A B D E] Z. unfold node_or_term. destruct (ep e) as [| |a] eqn:Ep; [contradiction| |].
  - destruct (D eq_refl); [right; auto|contradiction].
  - left. split; auto. discriminate.
Qed.

(** Proportional functions have the same node. *)
Theorem canon_node q k : k <> KD -> ex X -> cinv q -> forall n l p1 p2 c, Z.of_nat n = l + 1 ->
  node_or_term q k l p1 -> node_or_term q k l p2 ->
  (forall path, vpath k l path -> dn q k p1 path = (c * dn q k p2 path)%C) -> p1 = p2 /\ c = C1.
Proof.
  intros Hk Ex I. induction n as [|n IH]; intros l p1 p2 c Hn N1 N2 H.
  - destruct N1 as [N1|[E1 ->]]; [apply (isnode_lvl (nb:=nb) (X:=X)) in N1; auto; lia|].
    destruct N2 as [N2|[_ ->]]; [apply (isnode_lvl (nb:=nb) (X:=X)) in N2; auto; lia|]. split; auto.
    subst l. specialize (H [] (vpath_nil k)). simpl in H. rewrite H. ring.
  - assert (Q1: isnode q k l p1) by (destruct N1 as [N1|[E1 _]]; [auto|lia]).
    assert (Q2: isnode q k l p2) by (destruct N2 as [N2'|[E1 _]]; [auto|lia]).
    assert (Cn: c <> C0).
    { intros Z. destruct (dn_nz q k Ex I (S n) l p1 Hn N1) as (path & V & D). apply D. rewrite H, Z by auto. ring. }
    apply isnode_n in Q1. apply isnode_n in Q2. destruct Q1 as (a & -> & La & Va), Q2 as (b & -> & Lb & Vb).
    destruct (linked_ok (nb:=nb) (X:=X) _ _ _ I La) as (ba & Ka & Ina). destruct (linked_ok (nb:=nb) (X:=X) _ _ _ I Lb) as (bb & Kb & Inb).
    rewrite Va in *. rewrite Vb in *.
    assert (Ch: forall i, (i < arity k)%nat -> nthe (ne (qn q k a)) i = Ed (ep (nthe (ne (qn q k b)) i)) (ew (nthe (ne (qn q k a)) i)) /\
       Cw q (ew (nthe (ne (qn q k a)) i)) = (c * Cw q (ew (nthe (ne (qn q k b)) i)))%C).
    { intros i Hi. set (e1 := nthe (ne (qn q k a)) i). set (e2 := nthe (ne (qn q k b)) i).
      assert (T1: tedge q k (l - 1) e1). { unfold e1. rewrite <- Va. apply child_ok; auto. }
      assert (T2: tedge q k (l - 1) e2). { unfold e2. rewrite <- Vb. apply child_ok; auto. }
      assert (E: forall path, vpath k (l - 1) path -> (Cw q (ew e1) * dn q k (ep e1) path = c * (Cw q (ew e2) * dn q k (ep e2) path))%C).
      { intros path V. specialize (H (i :: path)). rewrite !dn_cons in H. apply H. apply vpath_cons; auto. }
      destruct (ceqb (ew e1) Czero) eqn:Z1.
      - apply ceqb_spec in Z1. assert (Z2: ew e2 = Czero).
        { destruct (ceqb (ew e2) Czero) eqn:Z2; [now apply ceqb_spec|]. apply ceqb_false in Z2. exfalso.
          destruct (dn_nz q k Ex I n (l - 1) (ep e2)) as (path & V & D); [lia|now apply tedge_nt|].
          specialize (E path V). rewrite Z1, Cw_zero in E by auto.
          assert (Z: (c * (Cw q (ew e2) * dn q k (ep e2) path) = C0)%C) by (rewrite <- E; ring).
          apply Cmul_integral in Z. destruct Z as [Z|Z]; [contradiction|]. apply Cmul_integral in Z. destruct Z as [Z|Z]; [|contradiction].
          apply Z2. apply (Cw_eq0 q); auto. apply T2. }
        rewrite (te_z _ _ _ _ _ _ _ T2 Ex Z2), Z1, Z2, Cw_zero by auto. split; [|ring].
        pose proof (te_z _ _ _ _ _ _ _ T1 Ex Z1) as P1. destruct e1; simpl in *; congruence.
      - apply ceqb_false in Z1. assert (W1: Cw q (ew e1) <> C0). { intros Z. apply Cw_eq0 in Z; auto. apply T1. }
        destruct (dn_nz q k Ex I n (l - 1) (ep e1)) as (path & V & D); [lia|now apply tedge_nt|].
        assert (Z2: ew e2 <> Czero).
        { intros Z2. specialize (E path V). rewrite Z2, Cw_zero in E by auto.
          apply (Cmul_neq _ _ W1 D). rewrite E. ring. }
        destruct (IH (l - 1) (ep e1) (ep e2) (c * Cw q (ew e2) / Cw q (ew e1))%C) as [P Q]; [lia|now apply tedge_nt|now apply tedge_nt| |].
        { intros p Vp. specialize (E p Vp). apply (Cmul_cancel_l (Cw q (ew e1))); auto. rewrite E. field. auto. }
        split; [destruct e1; simpl in *; congruence|]. transitivity (c * Cw q (ew e2) / Cw q (ew e1) * Cw q (ew e1))%C; [rewrite Q; ring|]. field. auto. }
    assert (c = C1).
    { eapply (nnorm_scale q k); eauto; [eapply (no_norm _ _ _ _ _ _ _ _ _ Ka)|eapply (no_norm _ _ _ _ _ _ _ _ _ Kb)|]; auto. intros i Hi. apply Ch; auto. }
    subst c. split; auto.
    assert (Ee: ne (qn q k a) = ne (qn q k b)).
    { apply (nth_ext _ _ Enull Enull).
      - rewrite (no_len _ _ _ _ _ _ _ _ _ Ka), (no_len _ _ _ _ _ _ _ _ _ Kb). reflexivity.
      - intros i Hi. rewrite (no_len _ _ _ _ _ _ _ _ _ Ka) in Hi. destruct (Ch i Hi) as [C1' C2'].
        change (nthe (ne (qn q k a)) i = nthe (ne (qn q k b)) i). rewrite C1'.
        assert (W: ew (nthe (ne (qn q k a)) i) = ew (nthe (ne (qn q k b)) i)).
        { apply (Cw_inj (nb:=nb) (X:=X) q); auto; [| |rewrite C2'; ring].
          - assert (T1: tedge q k (l - 1) (nthe (ne (qn q k a)) i)) by (rewrite <- Va; apply child_ok; auto). apply T1.
          - assert (T1: tedge q k (l - 1) (nthe (ne (qn q k b)) i)) by (rewrite <- Vb; apply child_ok; auto). apply T1. }
        rewrite W. destruct (nthe (ne (qn q k b)) i); reflexivity. }
    f_equal. rewrite (no_b _ _ _ _ _ _ _ _ _ Ka), Ee, <- (no_b _ _ _ _ _ _ _ _ _ Kb) in Ina.
    eapply (uinv_uniq q k _ _ _ _ (ci_ut _ _ _ _ _ I k)); eauto. congruence.
Qed.

(** Equal functions have the same edge. *)
Theorem canon_edge q k l e1 e2 : k <> KD -> ex X -> cinv q -> -1 <= l -> tedge q k l e1 -> tedge q k l e2 ->
  (forall path, vpath k l path -> de q k e1 path = de q k e2 path) -> e1 = e2.
Proof.
  intros Hk Ex I Hl T1 T2 H.
  assert (Zc: forall a b, tedge q k l a -> tedge q k l b -> (forall path, vpath k l path -> de q k a path = de q k b path) -> ew a = Czero -> a = b).
  { intros a b Ta Tb E Z. assert (Zb: ew b = Czero).
    { destruct (ceqb (ew b) Czero) eqn:Zb; [now apply ceqb_spec|]. apply ceqb_false in Zb. exfalso.
      destruct (dn_nz q k Ex I (Z.to_nat (l + 1)) l (ep b)) as (path & V & D); [lia|now apply tedge_nt|].
      specialize (E path V). unfold Inv.de in E. rewrite Z, Cw_zero in E by auto.
      assert (Q: (Cw q (ew b) * dn q k (ep b) path = C0)%C) by (rewrite <- E; ring). apply Cmul_integral in Q.
      destruct Q as [Q|Q]; [|contradiction]. apply Zb. apply (Cw_eq0 q); auto. apply Tb. }
    pose proof (te_z _ _ _ _ _ _ _ Ta Ex Z). pose proof (te_z _ _ _ _ _ _ _ Tb Ex Zb). destruct a, b; simpl in *; congruence. }
  destruct (ceqb (ew e1) Czero) eqn:Z1; [apply ceqb_spec in Z1; auto|].
  destruct (ceqb (ew e2) Czero) eqn:Z2. { apply ceqb_spec in Z2. symmetry. apply Zc; auto. intros; symmetry; auto. }
  apply ceqb_false in Z1. apply ceqb_false in Z2.
  assert (W1: Cw q (ew e1) <> C0). { intros Z. apply Cw_eq0 in Z; auto. apply T1. }
  destruct (canon_node q k Hk Ex I (Z.to_nat (l + 1)) l (ep e1) (ep e2) (Cw q (ew e2) / Cw q (ew e1))%C) as [P Q]; [lia|now apply tedge_nt|now apply tedge_nt| |].
  { intros p Vp. specialize (H p Vp). unfold Inv.de in H. apply (Cmul_cancel_l (Cw q (ew e1))); auto. rewrite H. field. auto. }
  assert (W: ew e1 = ew e2).
  { apply (Cw_inj (nb:=nb) (X:=X) q); auto; [apply T1|apply T2|]. transitivity (Cw q (ew e2) / Cw q (ew e1) * Cw q (ew e1))%C; [rewrite Q; ring|field; auto]. }
  destruct e1, e2; simpl in *; congruence.
Qed.

(** Nodes of vectors have length one. *)
Definition nrm2 (n : nat) (f : list nat -> C) : R := fold_right Rplus 0%R (map (fun p => Cmag2 (f p)) (bits n)).

Lemma rsum_app (a b : list R) : fold_right Rplus 0%R (a ++ b) = (fold_right Rplus 0%R a + fold_right Rplus 0%R b)%R.
Proof. induction a as [|x a IH]; simpl; [ring|]. rewrite IH. ring. Qed.
Lemma nrm2_S n f : nrm2 (S n) f = (nrm2 n (fun p => f (0%nat :: p)) + nrm2 n (fun p => f (1%nat :: p)))%R.
Proof. unfold nrm2. cbn [bits]. rewrite map_app, rsum_app, !map_map. reflexivity. Qed.
Lemma nrm2_scale n c f h : (forall p, In p (bits n) -> f p = (c * h p)%C) -> nrm2 n f = (Cmag2 c * nrm2 n h)%R.
Proof.
  unfold nrm2. intros H. induction (bits n) as [|p l IH]; simpl; [ring|]. rewrite IH, H, Cmag2_mul by (intros; auto with datatypes). ring.
Qed.

Theorem dn_unit q : ex X -> cinv q -> forall n l p, Z.of_nat n = l + 1 -> node_or_term q KV l p -> nrm2 n (dn q KV p) = 1%R.
Proof.
  intros Ex I. induction n as [|n IH]; intros l p Hn H.
  - destruct H as [H|[_ ->]]; [apply (isnode_lvl (nb:=nb) (X:=X)) in H; auto; lia|]. unfold nrm2. simpl. rewrite Cmag2_1. lra.
  - destruct H as [H|[E _]]; [|lia]. apply isnode_n in H. destruct H as (m & -> & L & Nv).
    pose proof (linked_ok (nb:=nb) (X:=X) _ _ _ I L) as (b & K & _). pose proof (no_norm _ _ _ _ _ _ _ _ _ K Ex) as Nn. apply nnormV in Nn; auto.
    destruct Nn as (S1 & _).
    assert (Q: forall i, (i < 2)%nat -> nrm2 n (fun p => dn q KV (PNode m) (i :: p)) = Cmag2 (Cw q (ew (nthe (ne (qn q KV m)) i)))).
    { intros i Hi. set (e := nthe (ne (qn q KV m)) i). assert (T: tedge q KV (l - 1) e). { unfold e. rewrite <- Nv. apply child_ok; auto. }
      rewrite (nrm2_scale n (Cw q (ew e)) _ (dn q KV (ep e))) by (intros; apply dn_cons).
      destruct (ceqb (ew e) Czero) eqn:Z.
      - apply ceqb_spec in Z. rewrite Z, Cw_zero, Cmag2_0 by auto. ring.
      - apply ceqb_false in Z. rewrite (IH (l - 1)); [ring|lia|now apply tedge_nt]. }
    rewrite nrm2_S, !Q by lia. exact S1.
Qed.
End CanonL.
