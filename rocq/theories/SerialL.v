(** Reading, writing and copying of diagrams. *)
From Coq Require Import ZArith List Bool Lia Arith Reals Lra.
From Verif Require Import Num Base CTable CTableWf Cx State Pkg Serial Inv InvL PrimL NormL MkL TrL AddL MulL KronL CanonL IdentL StateL.
Import ListNotations.
Local Open Scope Z_scope.

(** Weights in normal form: vectors have norm one and a real positive weight at the larger successor (the
    first if both are of the same size), matrices the weight one at the first of the largest successors. *)
Definition unitary_weights (k : kind) (w : nat -> C) : Prop :=
  match k with
  | KV => (Cmag2 (w 0%nat) + Cmag2 (w 1%nat) = 1)%R /\ ((Cmag2 (w 1%nat) <= Cmag2 (w 0%nat))%R -> real_pos (w 0%nat)) /\
          ((Cmag2 (w 0%nat) < Cmag2 (w 1%nat))%R -> real_pos (w 1%nat))
  | _ => exists a, (a < 4)%nat /\ w a = C1 /\ (forall i, (i < 4)%nat -> (Cmag2 (w i) <= 1)%R) /\ (forall i, (i < a)%nat -> (Cmag2 (w i) < 1)%R)
  end.

Lemma uw_scale k w w' c : k <> KD -> unitary_weights k w -> unitary_weights k w' ->
  (forall i, (i < arity k)%nat -> w i = (c * w' i)%C) -> c = C1.
Proof.
  intros Hk A B H. destruct k; [| |congruence].
  - pose proof (H 0%nat ltac:(simpl; lia)) as H0. pose proof (H 1%nat ltac:(simpl; lia)) as H1. cbn in A, B.
    rewrite H0, H1 in A. rewrite !Cmag2_mul in A. destruct A as (A1 & A2 & A3), B as (B1 & B2 & B3).
    set (u := w' 0%nat) in *. set (v := w' 1%nat) in *.
    assert (M: Cmag2 c = 1%R) by (rewrite <- Rmult_plus_distr_l, B1 in A1; lra). rewrite M in *.
    destruct (Rle_or_lt (Cmag2 v) (Cmag2 u)) as [L|L].
    + eapply real_pos_scale; [apply B2; auto|apply A2; lra|auto].
    + eapply real_pos_scale; [apply B3; auto|apply A3; lra|auto].
  - destruct A as (a & Ha & A1 & A2 & A3), B as (b & Hb & B1 & B2 & B3).
    assert (Ca: (c * w' a = C1)%C) by (rewrite <- H by (simpl; lia); auto).
    assert (Cb: w b = c). { rewrite H by (simpl; lia). rewrite B1. ring. }
    assert (M: Cmag2 c = 1%R).
    { pose proof (A2 b Hb) as P. rewrite Cb in P. pose proof (B2 a Ha) as Q. pose proof (f_equal Cmag2 Ca) as E.
      rewrite Cmag2_mul, Cmag2_1 in E. pose proof (Cmag2_nonneg c) as Nc. pose proof (Cmag2_nonneg (w' a)) as Nw. nra. }
    assert (a = b).
    { destruct (Nat.lt_trichotomy a b) as [L|[L|L]]; auto; exfalso.
      - specialize (B3 a L). pose proof (f_equal Cmag2 Ca) as E. rewrite Cmag2_mul, Cmag2_1, M in E. lra.
      - specialize (A3 b L). rewrite Cb in A3. lra. }
    subst b. now rewrite <- Cb.
Qed.
Lemma uw_nz k w : unitary_weights k w -> exists i, (i < arity k)%nat /\ w i <> C0.
Proof.
  assert (Z: forall c, real_pos c -> c <> C0). { intros c [A B] ->. cbn in B. lra. }
  destruct k; cbn.
  - intros (A & B & D). destruct (Rle_or_lt (Cmag2 (w 1%nat)) (Cmag2 (w 0%nat))); [exists 0%nat|exists 1%nat]; split; auto; lia.
  - intros (a & Ha & E & _). exists a. rewrite E. split; [auto|apply C1_neq_0].
  - intros (a & Ha & E & _). exists a. rewrite E. split; [auto|apply C1_neq_0].
Qed.
Lemma uw_ext k w w' : (forall i, (i < arity k)%nat -> w i = w' i) -> unitary_weights k w -> unitary_weights k w'.
Proof.
  intros H. destruct k; cbn.
  - rewrite !H by (cbn; lia). auto.
  - intros (a & Ha & E & A & B). exists a. rewrite <- H by (cbn; lia). repeat split; auto; intros i Hi; rewrite <- H by (cbn; lia); auto.
  - intros (a & Ha & E & A & B). exists a. rewrite <- H by (cbn; lia). repeat split; auto; intros i Hi; rewrite <- H by (cbn; lia); auto.
Qed.

(** ** What a file stands for *)
Section Meaning.
Context {W : Type} (cv : W -> C) (good : W -> Prop) (nq : Z) (k : kind).

(** Nodes known by index: level and function of the index digits *)
Definition fenv := Z -> option (Z * (list nat -> C)).

(** The successor [c] of a node of level [v] stands for [w * f]. *)
Definition chok (rho : fenv) (v : Z) (c : option (Z * W)) (w : C) (f : list nat -> C) : Prop :=
  match c with
  | None => w = C0
  | Some (i, x) => good x /\ w = cv x /\ ((i = -1 /\ (w = C0 \/ v = 0 /\ f [] = C1)) \/ (0 <= i /\ w <> C0 /\ rho i = Some (v - 1, f)))
  end.
(** The line [r] stands for a node with the function [f]. *)
Definition recok (rho : fenv) (r : frec W) (f : list nat -> C) : Prop :=
  0 <= fr_ix r /\ 0 <= fr_v r < nq /\ length (fr_es r) = arity k /\
  exists w fs, (forall i, (i < arity k)%nat -> chok rho (fr_v r) (nth i (fr_es r) None) (w i) (fs i)) /\ unitary_weights k w /\
    forall i p, (i < arity k)%nat -> vpath k (fr_v r - 1) p -> f (i :: p) = (w i * fs i p)%C.
(** The last line stands for a node of level [l] with the function [f]. *)
Inductive recsok : fenv -> list (frec W) -> Z -> (list nat -> C) -> Prop :=
  | ro_last rho r f : recok rho r f -> recsok rho [r] (fr_v r) f
  | ro_cons rho r f1 rs l f : recok rho r f1 -> recsok (updZ rho (fr_ix r) (Some (fr_v r, f1))) rs l f -> recsok rho (r :: rs) l f.
(** The file stands for the function [f] of [l + 1] index digits. *)
Definition fileok (fl : file W) (l : Z) (f : list nat -> C) : Prop :=
  exists f1, recsok (fun _ => None) (fl_rs fl) l f1 /\ cv (fl_w fl) <> C0 /\ forall p, vpath k l p -> f p = (cv (fl_w fl) * f1 p)%C.
Lemma recsok_level rho rs l f : recsok rho rs l f -> 0 <= l < nq.
Proof. induction 1; auto. apply H. Qed.
Lemma fileok_level fl l f : fileok fl l f -> 0 <= l < nq.
Proof. intros (f1 & H & _). eapply recsok_level; eauto. Qed.
End Meaning.

Section SerialL.
Context {N : num} {g : cfg N} {nb : kind -> Z} {X : numx N (g_ct g)} (G : gok g).
Local Notation cf := (g_ct g).
Local Notation co := (co N).
Local Notation qn := (qn N).
Local Notation linked := (linked N).
Local Notation c_ut := (c_ut N).
Local Notation Cw := (Cw N g X).
Local Notation Cv := (Cv N g X).
Local Notation Cv2 := (Cv2 N g X).
Local Notation dn := (dn N g X).
Local Notation de := (de N g X).
Local Notation dg := (dg N g X).
Local Notation wtab := (wtab N g X).
Local Notation etn := (etn N).
Local Notation isnode := (isnode N).
Local Notation tedge := (tedge N g X).
Local Notation gedge := (gedge N g X).
Local Notation cinv := (cinv N g nb X).
Local Notation uinv := (uinv N g nb X).
Local Notation nodeok := (nodeok N g nb X).
Local Notation inv := (inv N g nb X).
Local Notation step := (step N g nb X).
Local Notation qext := (qext N).
Local Notation owns := (owns N).
Local Notation wok := (wok N g X).
Local Notation wp := (wp N).
Local Notation al0 := (al0 N g X).
Local Notation nnorm := (nnorm N g X).
Local Notation iedge := (iedge (g:=g) (X:=X)).
Local Notation trsp := (trsp (nb:=nb) (X:=X)).
Local Notation unok := (unok N g X).
Local Notation binok := (binok N g X).
Local Notation addok := (addok N g X).
Local Notation tinv := (tinv N g X).
Local Notation vres := (vres N g X).
Local Notation dv := (dv N g X).
Local Notation mkpost := (mkpost (nb:=nb) (X:=X)).
Local Notation mulCached_sp := (mulCached_sp (nb:=nb) (X:=X) G).
Local Notation addCached_sp := (addCached_sp (nb:=nb) (X:=X) G).
Local Notation getCached_sp := (getCached_sp (nb:=nb) (X:=X) G).
Local Notation makeDDNode_sp := (makeDDNode_sp (nb:=nb) (X:=X) G).
Local Notation lookupC_sp := (lookupC_sp (nb:=nb) (X:=X) G).
Local Notation tedge_gedge := (tedge_gedge (nb:=nb) (X:=X)).
Local Notation child_ok := (child_ok (nb:=nb) (X:=X)).
Local Notation dn_ext := (dn_ext (nb:=nb) (X:=X)).
Local Notation Cw_eq0 := (Cw_eq0 (nb:=nb) (X:=X)).
Local Notation addInsert_sp := (addInsert_sp (g:=g) (nb:=nb) (X:=X)).
Local Notation binInsert_sp := (binInsert_sp (g:=g) (nb:=nb) (X:=X)).
Local Notation unInsert_sp := (unInsert_sp (g:=g) (nb:=nb) (X:=X)).
Local Notation addLookup_sp := (addLookup_sp (g:=g) (nb:=nb) (X:=X)).
Local Notation binLookup_sp := (binLookup_sp (g:=g) (nb:=nb) (X:=X)).
Local Notation unLookup_sp := (unLookup_sp (g:=g) (nb:=nb) (X:=X)).
Local Notation cres := (cres (g:=g) (X:=X)).
Local Notation addsp := (addsp (g:=g) (nb:=nb) (X:=X)).
Local Notation rel_sp := (rel_sp (g:=g) (nb:=nb) (X:=X)).
Local Notation relif_sp := (relif_sp (g:=g) (nb:=nb) (X:=X)).
Local Notation mapM_cres := (mapM_cres (g:=g) (nb:=nb) (X:=X)).
Local Notation de_step := (de_step (g:=g) (nb:=nb) (X:=X)).
Local Notation dg_step := (dg_step (g:=g) (nb:=nb) (X:=X)).
Local Notation mulSelf_sp := (mulSelf_sp (g:=g) (nb:=nb) (X:=X)).
Local Notation finish_sp := (finish_sp (g:=g) (nb:=nb) (X:=X) G).
Local Notation add2F_sp := (add2F_sp (g:=g) (nb:=nb) (X:=X) G).
Implicit Types (s : st N).

Local Notation dn_nz := (dn_nz (g:=g) (nb:=nb) (X:=X)).
Local Notation idok := (idok N g X).
Local Notation makeDDNode_t := (makeDDNode_t (nb:=nb) (X:=X) G).
Local Notation mk_weight := (mk_weight (nb:=nb) (X:=X)).
Local Notation lookup_sp := (lookup_sp (nb:=nb) (X:=X) G).
Local Notation canon_node := (canon_node (g:=g) (nb:=nb) (X:=X)).

Lemma uw_of q k es : k <> KD -> ex X -> nnorm q k es -> unitary_weights k (fun i => Cw q (ew (nthe es i))).
Proof.
  intros Hk Ex H. destruct k; [| |congruence].
  - apply (nnormV (g:=g) (X:=X)) in H; auto.
  - destruct H as (a & Ha & A1 & A2 & A3). exists a. rewrite A1, Cw_one by auto. auto.
Qed.

(** A node made from weights in normal form has the root weight one. *)
Lemma canon_unit q k l r es w : k <> KD -> ex X -> cinv q -> 0 <= l -> tedge q k l r -> (ep r = PTerm -> r = Ezero) ->
  (forall i, (i < arity k)%nat -> tedge q k (l - 1) (nthe es i) /\ Cw q (ew (nthe es i)) = w i) -> unitary_weights k w ->
  (forall i p, (i < arity k)%nat -> vpath k (l - 1) p -> de q k r (i :: p) = de q k (nthe es i) p) ->
  Cw q (ew r) = C1 /\ isnode q k l (ep r).
Proof.
  intros Hk Ex I Hl T Tz H U V.
  assert (Nz: forall e, tedge q k (l - 1) e -> Cw q (ew e) <> C0 -> exists p, vpath k (l - 1) p /\ dn q k (ep e) p <> C0).
  { intros e Te We. apply (dn_nz q k Ex I (Z.to_nat l) (l - 1)); [lia|]. apply (tedge_nt (g:=g) (X:=X)); auto. intros Z. apply We. rewrite Z. now apply Cw_zero. }
  assert (Wr: Cw q (ew r) <> C0).
  { destruct (uw_nz k w U) as (i & Hi & Wi). destruct (H i Hi) as [Ti Ci]. destruct (Nz _ Ti) as (p & Vp & Dp); [congruence|].
    intros Z. specialize (V i p Hi Vp). unfold Inv.de in V. rewrite Z in V. apply (Cmul_neq _ _ Wi Dp). rewrite <- Ci, <- V. ring. }
  assert (Zr: ew r <> Czero). { intros Z. apply Wr. rewrite Z. now apply Cw_zero. }
  assert (Nr: isnode q k l (ep r)).
  { split; [apply T|]. intros E. apply Zr. rewrite (Tz E). reflexivity. }
  split; [|exact Nr]. destruct (isnode_n _ _ _ _ Nr) as (n & En & L & Lv).
  destruct (linked_ok (nb:=nb) (X:=X) _ _ _ I L) as (b & K & _). rewrite Lv in K.
  apply (uw_scale k w (fun i => Cw q (ew (nthe (ne (qn q k n)) i)))); auto.
  { apply uw_of; auto. apply (no_norm _ _ _ _ _ _ _ _ _ K Ex). }
  intros i Hi. destruct (H i Hi) as [Ti Ci].
  assert (Tc: tedge q k (l - 1) (nthe (ne (qn q k n)) i)). { rewrite <- Lv. apply child_ok; auto. }
  set (c := nthe (ne (qn q k n)) i) in *.
  assert (E: forall p, vpath k (l - 1) p -> (Cw q (ew r) * (Cw q (ew c) * dn q k (ep c) p) = w i * dn q k (ep (nthe es i)) p)%C).
  { intros p Vp. specialize (V i p Hi Vp). unfold Inv.de in V at 1. rewrite En, dn_cons in V. fold c in V. unfold Inv.de in V. rewrite Ci in V. exact V. }
  destruct (Ceq_dec (Cw q (ew c)) C0) as [Z1|Z1].
  - rewrite Z1. destruct (Ceq_dec (w i) C0) as [Z2|Z2]; [rewrite Z2; ring|]. exfalso.
    destruct (Nz _ Ti) as (p & Vp & Dp); [congruence|]. apply (Cmul_neq _ _ Z2 Dp). rewrite <- E, Z1 by auto. ring.
  - destruct (Nz _ Tc Z1) as (p & Vp & Dp). assert (Z2: w i <> C0).
    { intros Z. specialize (E p Vp). rewrite Z in E. apply (Cmul_neq _ _ Wr (Cmul_neq _ _ Z1 Dp)). rewrite E. ring. }
    destruct (canon_node q k Hk Ex I (Z.to_nat l) (l - 1) (ep c) (ep (nthe es i)) (w i / (Cw q (ew r) * Cw q (ew c)))%C) as [_ Q]; [lia| | | |].
    + apply (tedge_nt (g:=g) (X:=X)); auto. intros Z. apply Z1. rewrite Z. now apply Cw_zero.
    + apply (tedge_nt (g:=g) (X:=X)); auto. intros Z. apply Z2. rewrite <- Ci, Z. now apply Cw_zero.
    + intros p' Vp'. apply (Cmul_cancel_l (Cw q (ew r))); auto. apply (Cmul_cancel_l (Cw q (ew c))); auto.
      transitivity (Cw q (ew r) * (Cw q (ew c) * dn q k (ep c) p'))%C; [ring|]. rewrite E by auto. field. auto.
    + transitivity (w i / (Cw q (ew r) * Cw q (ew c)) * (Cw q (ew r) * Cw q (ew c)))%C; [field; auto|]. rewrite Q. ring.
Qed.

(** ** Reading *)
Section Reading.
Context {W : Type} (cv : W -> C) (good : W -> Prop) (look : W -> M N complex) (k : kind).
Hypothesis Hk : k <> KD.
Hypothesis Ex : ex X.
Hypothesis Hlook : forall O s x, inv s -> good x -> wp al0 (look x) s (fun u s' =>
  step O s s' /\ s_cc s' = s_cc s /\ wtab (co s') u /\ Cw (co s') u = cv x).

(** The nodes read so far *)
Definition rdok s (rho : fenv) (nodes : list (Z * nptr)) : Prop := forall i lv f, rho i = Some (lv, f) -> exists p,
  ixFind nodes i = Some p /\ isnode (co s) k lv p /\ forall path, vpath k lv path -> dn (co s) k p path = f path.

Lemma rdok_step O s s' rho nodes : inv s -> step O s s' -> rdok s rho nodes -> rdok s' rho nodes.
Proof.
  intros I S H i lv f E. destruct (H i lv f E) as (p & A & B & D). exists p. split; auto.
  split; [eapply isnode_ext; eauto; apply S|]. intros path Vp. rewrite <- D by auto.
  eapply dn_ext; eauto; [apply I|apply S|apply B].
Qed.

Lemma readChild_sp O s rho nodes v c w f : inv s -> 0 <= v -> rdok s rho nodes -> chok cv good rho v c w f ->
  wp al0 (readChild N look nodes c) s (fun e s' => step O s s' /\ s_cc s' = s_cc s /\ tedge (co s') k (v - 1) e /\ Cw (co s') (ew e) = w /\
    forall p, vpath k (v - 1) p -> de (co s') k e p = (w * f p)%C).
Proof.
  intros I Hv R H. destruct c as [[i x]|]; cbn [readChild chok] in *.
  - destruct H as (Gx & Ew & H). destruct (Z.eqb_spec i (-2)) as [E2|_]; [lia|].
    apply wp_bind. eapply wp_mono; [apply (Hlook O s x I Gx)|]. intros u s' (S & C & T & V). apply wp_ret. rewrite <- Ew in V.
    assert (I': inv s') by apply S. split; auto. split; auto. destruct H as [[-> Ht]|(Hi & Wz & Er)].
    + destruct (Z.eqb_spec (-1) (-1)); [|lia]. split; [|split; [exact V|]].
      * constructor; cbn [ep ew]; auto; [exact Logic.I|]. intros _. destruct Ht as [Hw|[-> _]]; [|auto]. right. apply (Cw_eq0 (co s')); auto; try apply I'. congruence.
      * intros p Vp. unfold Inv.de. cbn [ep ew]. rewrite V. destruct Ht as [Hw|[-> Hf]]; [rewrite Hw; ring|].
        destruct p as [|j p]; [cbn [Inv.dn]; now rewrite Hf|]. destruct Vp as [Vp _]. cbn in Vp. lia.
    + destruct (Z.eqb_spec i (-1)) as [|_]; [lia|]. destruct (R _ _ _ Er) as (p & Fp & Np & Dp). rewrite Fp.
      split; [|split; [exact V|]].
      * constructor; cbn [ep ew]; auto.
        -- eapply etn_ext; [apply S|apply Np].
        -- intros ->. destruct Np as [_ Np]. congruence.
        -- intros _ ->. rewrite Cw_zero in V by auto. congruence.
      * intros q Vq. unfold Inv.de. cbn [ep ew]. rewrite V, <- Dp by auto. f_equal. eapply dn_ext; eauto; [apply I|apply S|apply Np].
  - apply wp_ret. subst w. split; [now apply step_refl|]. split; [reflexivity|]. split; [apply tedge_zero|]. cbn [ew Ezero].
    rewrite Cw_zero by auto. split; [reflexivity|]. intros p _. rewrite de_zero by auto. ring.
Qed.

Lemma readChildren_sp O v rho nodes : 0 <= v -> forall cs s w f, inv s -> owns (s_cc s) O -> rdok s rho nodes ->
  (forall i, (i < length cs)%nat -> chok cv good rho v (nth i cs None) (w i) (f i)) ->
  wp al0 (mapM N (readChild N look nodes) cs) s (fun es s' => step O s s' /\ owns (s_cc s') O /\ length es = length cs /\
    forall i, (i < length cs)%nat -> tedge (co s') k (v - 1) (nthe es i) /\ Cw (co s') (ew (nthe es i)) = w i /\
      forall p, vpath k (v - 1) p -> de (co s') k (nthe es i) p = (w i * f i p)%C).
Proof.
  intros Hv. induction cs as [|c cs IH]; intros s w f I Ow R H; cbn [mapM].
  - apply wp_ret. split; [now apply step_refl|]. split; auto. split; auto. intros i Hi. cbn in Hi. lia.
  - apply wp_bind. eapply wp_mono; [apply (readChild_sp O s rho nodes v c (w 0%nat) (f 0%nat) I Hv R); apply (H 0%nat); cbn; lia|].
    intros e s1 (S1 & C1' & T1 & W1 & V1). assert (I1: inv s1) by apply S1. apply wp_bind.
    eapply wp_mono; [apply (IH s1 (fun i => w (S i)) (fun i => f (S i)) I1)|].
    { now rewrite C1'. } { eapply rdok_step; [exact I|exact S1|exact R]. } { intros i Hi. apply (H (S i)). cbn. lia. }
    intros es s2 (S2 & O2 & L2 & V2). apply wp_ret. split; [eapply step_trans; eauto|]. split; auto. split; [cbn; lia|].
    intros [|i] Hi; cbn in Hi.
    + cbn [nthe nth]. split; [eapply tedge_ext; [apply S2|exact T1]|]. split.
      * rewrite <- W1. apply Cw_ext; [apply (sp_ext _ _ _ _ _ _ _ S2)|apply T1].
      * intros p Vp. rewrite <- V1 by auto. eapply de_step; eauto.
    + apply (V2 i). lia.
Qed.

Lemma readNode_sp nq O s rho nodes r f : inv s -> owns (s_cc s) O -> nq <= s_nq s -> rdok s rho nodes -> recok cv good nq k rho r f ->
  wp al0 (readNode N g nb look k nodes r) s (fun q s' => step O s s' /\ owns (s_cc s') O /\
    rdok s' (updZ rho (fr_ix r) (Some (fr_v r, f))) (fst q) /\ tedge (co s') k (fr_v r) (snd q) /\ isnode (co s') k (fr_v r) (ep (snd q)) /\
    Cw (co s') (ew (snd q)) = C1 /\ forall p, vpath k (fr_v r) p -> dn (co s') k (ep (snd q)) p = f p).
Proof.
  intros I Ow Hn R (Hi & Hv & L & w & fs & Hc & U & Hf). unfold readNode. destruct (Z.eqb_spec (fr_ix r) (-1)) as [|_]; [lia|].
  apply wp_bind. eapply wp_mono; [apply (readChildren_sp O (fr_v r) rho nodes ltac:(lia) (fr_es r) s w fs I Ow R)|].
  { intros i Hi'. apply Hc. lia. }
  intros es s1 (S1 & O1 & L1 & V1). assert (I1: inv s1) by apply S1. apply wp_bind.
  assert (Nq: s_nq s1 = s_nq s) by (apply (stp_nq O _ _ S1)). rewrite L in *.
  assert (Te: forall e, In e es -> tedge (co s1) k (fr_v r - 1) e).
  { intros e He. destruct (In_nth es e Enull He) as (i & Hi' & <-). apply V1. lia. }
  eapply wp_mono; [apply (makeDDNode_t k (fr_v r) s1 es O); auto; lia|].
  intros e s2 (S2 & O2 & T2 & Z2 & V2). apply wp_ret. cbn [fst snd]. assert (I2: inv s2) by apply S2. specialize (V2 Ex).
  destruct (canon_unit (co s2) k (fr_v r) e es w) as [W1 N1]; auto; [apply I2|lia| | |].
  { intros i Hi'. destruct (V1 i Hi') as (A & B & D). split; [eapply tedge_ext; [apply S2|exact A]|].
    rewrite <- B. apply Cw_ext; [apply (sp_ext _ _ _ _ _ _ _ S2)|apply A]. }
  { intros i p Hi' Vp. rewrite V2 by auto. symmetry. eapply de_step; eauto. apply V1; auto. }
  assert (Dn: forall p, vpath k (fr_v r) p -> dn (co s2) k (ep e) p = f p).
  { intros p Vp. transitivity (de (co s2) k e p); [unfold Inv.de; rewrite W1; ring|]. destruct p as [|i p]; [destruct Vp as [Vp _]; cbn in Vp; lia|].
    apply vpath_cons in Vp. destruct Vp as [Hi' Vp]. rewrite V2 by auto. rewrite Hf by auto. apply V1; auto. }
  assert (S12: step O s s2) by (eapply step_trans; eauto).
  split; [exact S12|]. split; [exact O2|]. split; [|auto].
  intros i lv h. unfold updZ. cbn [ixFind]. rewrite (Z.eqb_sym i). destruct (Z.eqb (fr_ix r) i); [|apply (rdok_step O s s2); auto].
  intros [= <- <-]. exists (ep e). auto.
Qed.

Lemma readNodes_sp nq O rho rs l f : recsok cv good nq k rho rs l f -> forall s nodes e, inv s -> owns (s_cc s) O -> nq <= s_nq s -> rdok s rho nodes ->
  wp al0 (readNodes N g nb look k nodes e rs) s (fun r s' => step O s s' /\ owns (s_cc s') O /\ tedge (co s') k l r /\ isnode (co s') k l (ep r) /\
    Cw (co s') (ew r) = C1 /\ forall p, vpath k l p -> dn (co s') k (ep r) p = f p).
Proof.
  induction 1 as [rho r f H|rho r f1 rs l f H _ IH]; intros s nodes e I Ow Hn R; cbn [readNodes]; apply wp_bind;
    (eapply wp_mono; [apply (readNode_sp nq O s rho nodes r _ I Ow Hn R H)|]); intros q s1 (S1 & O1 & R1 & T1 & N1 & W1 & V1).
  - apply wp_ret. auto 10.
  - eapply wp_mono; [apply IH; auto; [apply S1|rewrite (stp_nq O _ _ S1); auto]|].
    intros r' s2 (S2 & A). split; [eapply step_trans; eauto|exact A].
Qed.
End Reading.

Lemma rootWeight_sp O s k l v e : ex X -> inv s -> owns (s_cc s) O -> tedge (co s) k l e -> (Cv2 v = C0 -> ep e = PTerm) ->
  wp al0 (rootWeight N g v e) s (fun r s' => step O s s' /\ owns (s_cc s') O /\ tedge (co s') k l r /\ ep r = ep e /\ Cw (co s') (ew r) = (Cv2 v * Cw (co s) (ew e))%C).
Proof.
  intros Ex I Ow T Z0. unfold rootWeight.
  destruct (getCached_sp s v O I Ow) as (a & b & s1 & E1 & O1 & S1 & V1). eapply wp_bind_ok; [exact E1|].
  destruct (owns_nodup _ _ _ _ O1) as (D & D1 & D2). assert (I1: inv s1) by apply S1.
  assert (We: wok (co s1) O (ew e)). { left. eapply wtab_ext; [apply S1|apply T]. }
  destruct (mulInto_sp (g:=g) (X:=X) s1 a b (ew e) (cslot a b)) as (u & E2 & V2); [eapply (wok_ci (g:=g) (X:=X)); eauto|cbn; congruence|].
  eapply wp_bind_ok; [exact E2|]. apply wp_bind.
  assert (S2: step O s1 (setc a b u s1)) by (apply setc_step; auto).
  eapply wp_mono; [apply (lookupC_sp (a :: b :: O)); apply S2|]. intros w s3 (S3 & C3 & W3 & V3).
  assert (O3: owns (s_cc s3) (wslots (cslot a b) ++ O)). { rewrite C3. cbn. now apply owns_ccw. }
  destruct (rel_sp s3 (cslot a b) O) as (s4 & E4 & O4 & Q4 & V4 & S4); auto; [apply S3|eauto|].
  eapply wp_bind_ok; [exact E4|]. apply wp_ret.
  assert (S14: step O s s4).
  { eapply step_trans; [exact S1|]. eapply step_trans; [exact S2|]. eapply step_trans; [|apply (S4 O)]. eapply step_weak; [exact S3|]. intros x Hx; cbn; auto. }
  assert (Vw: Cw (co s4) w = (Cv2 v * Cw (co s) (ew e))%C).
  { rewrite Q4, V3 by auto. rewrite setc_Cv by auto. rewrite V2 by auto.
    replace (Cv s1 (cslot a b)) with (Cv2 v) by (unfold Inv.Cv; now rewrite V1).
    rewrite Cv_Cw; [|exact Ex|eapply wtab_ext; [apply S1|apply T]]. rewrite (Cw_ext (co s) (co s1)); [ring|apply (sp_ext _ _ _ _ _ _ _ S1)|apply T]. }
  split; [exact S14|]. split; [exact O4|]. split; [|split; [reflexivity|exact Vw]]. constructor; cbn [ep ew].
  - eapply etn_ext; [apply S14|apply T].
  - rewrite Q4. exact W3.
  - intros Et. destruct (te_t _ _ _ _ _ _ _ T Et) as [->|Ez]; [auto|]. right. apply (Cw_eq0 (co s4)); auto; [apply S14|rewrite Q4; exact W3|].
    rewrite Vw, Ez, Cw_zero by auto. ring.
  - intros _ Ew0. rewrite Ew0, Cw_zero in Vw by auto. symmetry in Vw. apply Cmul_integral in Vw. destruct Vw as [Vw|Vw]; [auto|].
    apply (Cw_eq0 (co s)) in Vw; auto; [|apply I|apply T]. apply (te_z _ _ _ _ _ _ _ T Ex Vw).
Qed.

Lemma lookV_sp : ex X -> forall O s (x : N * N), inv s -> True -> wp al0 (lookV N g x) s (fun u s' =>
  step O s s' /\ s_cc s' = s_cc s /\ wtab (co s') u /\ Cw (co s') u = Cv2 x).
Proof.
  intros Ex O s x I _. unfold lookV. eapply wp_mono; [apply (lookup_sp O s (fst x) (snd x) I)|].
  intros u s' (A & B & D & E). destruct x. auto.
Qed.
(** deserialize *)
Lemma deserialize_sp O s k fl l f : k <> KD -> ex X -> inv s -> owns (s_cc s) O -> fileok Cv2 (fun _ => True) (s_nq s) k fl l f ->
  wp al0 (deserialize N g nb k fl) s (fun r s' => step O s s' /\ owns (s_cc s') O /\ tedge (co s') k l r /\ forall p, vpath k l p -> de (co s') k r p = f p).
Proof.
  intros Hk Ex I Ow (f1 & H & Wz & Hf). unfold deserialize. apply wp_bind.
  eapply wp_mono; [apply (readNodes_sp Cv2 (fun _ => True) (lookV N g) k Hk Ex (lookV_sp Ex) _ O _ _ _ _ H s [] Ezero I Ow (Z.le_refl _)); intros i lv h; discriminate|].
  intros e s1 (S1 & O1 & T1 & N1 & W1 & V1).
  eapply wp_mono; [apply (rootWeight_sp O s1 k l (fl_w fl) e Ex (sp_inv _ _ _ _ _ _ _ S1) O1 T1); intros Z; contradiction|].
  intros r s2 (S2 & O2 & T2 & Ep & Wr). split; [eapply step_trans; eauto|]. split; auto. split; auto.
  intros p Vp. unfold Inv.de. rewrite Wr, W1, Ep, Hf, <- V1 by auto. replace (dn (co s2) k (ep e) p) with (dn (co s1) k (ep e) p); [ring|].
  symmetry. eapply dn_ext; [apply S1|apply S2|apply N1|exact Vp].
Qed.
Lemma deserialize_none O s k l w : ex X -> inv s -> owns (s_cc s) O -> 
  wp al0 (deserialize N g nb k (FL w [])) s (fun r s' => step O s s' /\ owns (s_cc s') O /\ tedge (co s') k l r /\ r = Ezero).
Proof.
  intros Ex I Ow. unfold deserialize. cbn [fl_rs fl_w readNodes]. apply wp_bind, wp_ret.
  eapply wp_mono; [apply (rootWeight_sp O s k l w Ezero Ex I Ow (tedge_zero _ _ _)); reflexivity|].
  intros r s2 (S2 & O2 & T2 & Ep & Wr). split; auto. split; auto. split; auto.
  cbn [ew Ezero] in Wr. rewrite Cw_zero in Wr by auto. assert (Zr: ew r = Czero).
  { apply (Cw_eq0 (co s2)); auto; [apply S2|apply T2|]. rewrite Wr. ring. }
  destruct r as [p u]. cbn in *. subst. reflexivity.
Qed.

(** The part of transfer that works on the target *)
Definition cvX (x : complex * (N * N)) : C := Cv2 (snd x).
Definition goodX (x : complex * (N * N)) : Prop := (fst x = Czero -> Cv2 (snd x) = C0) /\ (fst x = Cone -> Cv2 (snd x) = C1).
Lemma lookX_sp : ex X -> forall O s (x : complex * (N * N)), inv s -> goodX x -> wp al0 (lookX N g x) s (fun u s' =>
  step O s s' /\ s_cc s' = s_cc s /\ wtab (co s') u /\ Cw (co s') u = cvX x).
Proof.
  intros Ex O s x I [G0 G1]. unfold lookX. destruct (ceqb (fst x) Czero) eqn:E0.
  - apply ceqb_spec in E0. apply wp_ret. split; [now apply step_refl|]. split; auto. split; [apply wtab_zero|]. rewrite Cw_zero by auto. symmetry. now apply G0.
  - destruct (ceqb (fst x) Cone) eqn:E1; [|now apply lookV_sp].
    apply ceqb_spec in E1. apply wp_ret. split; [now apply step_refl|]. split; auto. split; [apply wtab_one|]. rewrite Cw_one by auto. symmetry. now apply G1.
Qed.
Lemma rebuild_sp O s k fl l f : k <> KD -> ex X -> inv s -> owns (s_cc s) O -> fileok cvX goodX (s_nq s) k fl l f ->
  wp al0 (rebuild N g nb k fl) s (fun r s' => step O s s' /\ owns (s_cc s') O /\ tedge (co s') k l r /\ forall p, vpath k l p -> de (co s') k r p = f p).
Proof.
  intros Hk Ex I Ow (f1 & H & Wz & Hf). unfold rebuild. destruct (fl_rs fl) as [|r0 rs] eqn:Er; [inversion H|]. rewrite <- Er in *. apply wp_bind.
  eapply wp_mono; [apply (readNodes_sp cvX goodX (lookX N g) k Hk Ex (lookX_sp Ex) _ O _ _ _ _ H s [] Ezero I Ow (Z.le_refl _)); intros i lv h; discriminate|].
  intros e s1 (S1 & O1 & T1 & N1 & W1 & V1).
  eapply wp_mono; [apply (rootWeight_sp O s1 k l (snd (fl_w fl)) e Ex (sp_inv _ _ _ _ _ _ _ S1) O1 T1); intros Z; contradiction|].
  intros r s2 (S2 & O2 & T2 & Ep & Wr). split; [eapply step_trans; eauto|]. split; auto. split; auto.
  intros p Vp. unfold Inv.de. rewrite Wr, W1, Ep, Hf, <- V1 by auto. replace (dn (co s2) k (ep e) p) with (dn (co s1) k (ep e) p); [unfold cvX; ring|].
  symmetry. eapply dn_ext; [apply S1|apply S2|apply N1|exact Vp].
Qed.
(** A terminal: zero, or a number on its own *)
Lemma rebuild_none O s k l x : ex X -> inv s -> owns (s_cc s) O -> goodX x -> l = -1 \/ cvX x = C0 ->
  wp al0 (rebuild N g nb k (FL x [])) s (fun r s' => step O s s' /\ owns (s_cc s') O /\ tedge (co s') k l r /\ ep r = PTerm /\ Cw (co s') (ew r) = cvX x).
Proof.
  intros Ex I Ow Gx H. unfold rebuild. cbn [fl_rs fl_w]. apply wp_bind. eapply wp_mono; [apply (lookX_sp Ex O s x I Gx)|].
  intros u s' (A & B & D & E). apply wp_ret. split; auto. split; [now rewrite B|]. split; [|auto]. constructor; cbn [ep ew]; auto; [exact Logic.I|].
  intros _. destruct H as [->|H]; [auto|]. right. apply (Cw_eq0 (co s')); auto; [apply A|]. congruence.
Qed.
End SerialL.
