(** Specifications of multiplication. *)
From Coq Require Import ZArith List Bool Lia Arith Reals Lra Permutation.
From Verif Require Import Num Base CTable CTableWf Cx State Pkg Inv InvL PrimL NormL MkL TrL AddL.
Import ListNotations.
Local Open Scope Z_scope.

(** ** The product, index by index *)

Definition pcols (k : kind) : nat := match k with KV => 1 | _ => 2 end.
Definition prow (k : kind) (i : nat) : nat := match k with KV => i | _ => Nat.div i 2 end.
Definition pcol (k : kind) (i : nat) : nat := match k with KV => 0 | _ => Nat.modulo i 2 end.

Fixpoint psum (k : kind) (x y : list nat -> C) (path : list nat) : C :=
  match path with
  | [] => (x [] * y [])%C
  | i :: r =>
      (psum k (fun p => x (2 * prow k i + 0 :: p)%nat) (fun p => y (pcol k i + pcols k * 0 :: p)%nat) r +
       psum k (fun p => x (2 * prow k i + 1 :: p)%nat) (fun p => y (pcol k i + pcols k * 1 :: p)%nat) r)%C
  end.

Lemma psum_ext k : k <> KD -> forall path l x y x' y', vpath k l path ->
  (forall p, vpath KM l p -> x p = x' p) -> (forall p, vpath k l p -> y p = y' p) -> psum k x y path = psum k x' y' path.
Proof.
  intros Hk. induction path as [|i r IH]; intros l x y x' y' V Hx Hy; cbn [psum].
  - assert (V': vpath KM l []) by (destruct V; split; auto). now rewrite Hx, Hy.
  - apply vpath_cons in V. destruct V as [Hi V].
    assert (B: (prow k i < 2 /\ pcol k i < pcols k)%nat).
    { destruct k; simpl in *; [lia| |congruence]. destruct i as [|[|[|[|]]]]; simpl; lia. }
    destruct B as [B1 B2].
    assert (Bx: forall kk, (kk < 2)%nat -> forall p, vpath KM (l - 1) p -> x (2 * prow k i + kk :: p)%nat = x' (2 * prow k i + kk :: p)%nat).
    { intros kk Hk' p Vp. apply Hx. apply vpath_cons. split; auto. simpl arity. lia. }
    assert (By: forall kk, (kk < 2)%nat -> forall p, vpath k (l - 1) p -> y (pcol k i + pcols k * kk :: p)%nat = y' (pcol k i + pcols k * kk :: p)%nat).
    { intros kk Hk' p Vp. apply Hy. apply vpath_cons. split; auto. destruct k; simpl in *; [lia| |congruence]. lia. }
    f_equal; eapply IH; eauto.
Qed.

Lemma psum_scal k a b : forall path x y, psum k (fun p => a * x p)%C (fun p => b * y p)%C path = (a * b * psum k x y path)%C.
Proof. induction path as [|i r IH]; intros x y; cbn [psum]; [ring|]. rewrite !IH. ring. Qed.


Lemma psum_KV : forall rs x y, psum KV x y rs = Csum (fun cs => x (mp rs cs) * y cs)%C (bits (length rs)).
Proof.
  induction rs as [|i r IH]; intros x y.
  - simpl. ring.
  - cbn [psum]. rewrite !IH. cbn [length bits]. rewrite Csum_app, !Csum_map. reflexivity.
Qed.
Lemma psum_KM : forall rs cs x y, length rs = length cs -> Forall (fun i => (i < 2)%nat) cs ->
  psum KM x y (mp rs cs) = Csum (fun ks => x (mp rs ks) * y (mp ks cs))%C (bits (length rs)).
Proof.
  induction rs as [|i r IH]; intros [|c cs] x y L F; try discriminate.
  - simpl. ring.
  - inversion F; subst. injection L as L. cbn [mp psum]. rewrite !IH by auto. cbn [length bits]. rewrite Csum_app, !Csum_map.
    assert (E1: prow KM (2 * i + c) = i). { simpl prow. change (fst (Nat.divmod (i + (i + 0) + c) 1 0 1)) with ((2 * i + c) / 2)%nat.
      rewrite (Nat.mul_comm 2 i), Nat.div_add_l by lia. rewrite Nat.div_small by lia. lia. }
    assert (E2: pcol KM (2 * i + c) = c). { unfold pcol. rewrite (Nat.mul_comm 2 i), Nat.add_comm, Nat.mod_add by lia. now apply Nat.mod_small. }
    rewrite E1, E2. f_equal; apply Csum_ext; intros ks _; cbn [mp pcols].
    + now rewrite (Nat.add_comm c).
    + now rewrite (Nat.add_comm c).
Qed.

Section MulL.
Context {N : num} {g : cfg N} {nb : kind -> Z} {X : numx N (g_ct g)} (G : gok g).
Local Notation cf := (g_ct g).
Local Notation co := (co N).
Local Notation qn := (qn N).
Local Notation linked := (linked N).
Local Notation c_ut := (c_ut N).
Local Notation Cw := (Cw N g X).
Local Notation Cv := (Cv N g X).
Local Notation Cv2 := (Cv2 N g X).
Local Notation dn := (dn N g X).
Local Notation de := (de N g X).
Local Notation dg := (dg N g X).
Local Notation wtab := (wtab N g X).
Local Notation etn := (etn N).
Local Notation isnode := (isnode N).
Local Notation tedge := (tedge N g X).
Local Notation gedge := (gedge N g X).
Local Notation cinv := (cinv N g nb X).
Local Notation uinv := (uinv N g nb X).
Local Notation nodeok := (nodeok N g nb X).
Local Notation inv := (inv N g nb X).
Local Notation step := (step N g nb X).
Local Notation qext := (qext N).
Local Notation owns := (owns N).
Local Notation wok := (wok N g X).
Local Notation wp := (wp N).
Local Notation al0 := (al0 N g X).
Local Notation nnorm := (nnorm N g X).
Local Notation iedge := (iedge (g:=g) (X:=X)).
Local Notation trsp := (trsp (nb:=nb) (X:=X)).
Local Notation unok := (unok N g X).
Local Notation binok := (binok N g X).
Local Notation addok := (addok N g X).
Local Notation tinv := (tinv N g X).
Local Notation vres := (vres N g X).
Local Notation dv := (dv N g X).
Local Notation mkpost := (mkpost (nb:=nb) (X:=X)).
Local Notation mulCached_sp := (mulCached_sp (nb:=nb) (X:=X) G).
Local Notation addCached_sp := (addCached_sp (nb:=nb) (X:=X) G).
Local Notation getCached_sp := (getCached_sp (nb:=nb) (X:=X) G).
Local Notation makeDDNode_sp := (makeDDNode_sp (nb:=nb) (X:=X) G).
Local Notation lookupC_sp := (lookupC_sp (nb:=nb) (X:=X) G).
Local Notation tedge_gedge := (tedge_gedge (nb:=nb) (X:=X)).
Local Notation child_ok := (child_ok (nb:=nb) (X:=X)).
Local Notation dn_ext := (dn_ext (nb:=nb) (X:=X)).
Local Notation Cw_eq0 := (Cw_eq0 (nb:=nb) (X:=X)).
Local Notation addInsert_sp := (addInsert_sp (g:=g) (nb:=nb) (X:=X)).
Local Notation binInsert_sp := (binInsert_sp (g:=g) (nb:=nb) (X:=X)).
Local Notation unInsert_sp := (unInsert_sp (g:=g) (nb:=nb) (X:=X)).
Local Notation addLookup_sp := (addLookup_sp (g:=g) (nb:=nb) (X:=X)).
Local Notation binLookup_sp := (binLookup_sp (g:=g) (nb:=nb) (X:=X)).
Local Notation unLookup_sp := (unLookup_sp (g:=g) (nb:=nb) (X:=X)).
Local Notation cres := (cres (g:=g) (X:=X)).
Local Notation addsp := (addsp (g:=g) (nb:=nb) (X:=X)).
Local Notation rel_sp := (rel_sp (g:=g) (nb:=nb) (X:=X)).
Local Notation relif_sp := (relif_sp (g:=g) (nb:=nb) (X:=X)).
Local Notation mapM_cres := (mapM_cres (g:=g) (nb:=nb) (X:=X)).
Local Notation de_step := (de_step (g:=g) (nb:=nb) (X:=X)).
Local Notation dg_step := (dg_step (g:=g) (nb:=nb) (X:=X)).
Local Notation mulSelf_sp := (mulSelf_sp (g:=g) (nb:=nb) (X:=X)).
Local Notation finish_sp := (finish_sp (g:=g) (nb:=nb) (X:=X) G).
Local Notation add2F_sp := (add2F_sp (g:=g) (nb:=nb) (X:=X) G).
Implicit Types (s : st N).

Definition psem (k : kind) (q : core N) (l : Z) (x y : edge) (r : list nat -> C) : Prop :=
  forall path, vpath k l path -> r path = psum k (de q KM x) (de q k y) path.

Lemma mvsem_psem q l x y r : mvsem N g X q l x y r <-> psem KV q l x y r.
Proof.
  split; intros H p V; specialize (H p V); rewrite H; [symmetry|]; apply psum_KV.
Qed.
Lemma mmsem_psem q l x y r : mmsem N g X q l x y r <-> psem KM q l x y r.
Proof.
  split.
  - intros H p V. destruct (mp_surj _ _ V) as (rs & cs & Vr & Vc & ->). rewrite H by auto. symmetry.
    apply psum_KM; [|apply Vc]. rewrite (vpath_len _ _ _ Vr), (vpath_len _ _ _ Vc). auto.
  - intros H rs cs Vr Vc. rewrite H by (now apply vpath_mp). apply psum_KM; [|apply Vc].
    rewrite (vpath_len _ _ _ Vr), (vpath_len _ _ _ Vc). auto.
Qed.

Lemma binok_mul k q x y r : k <> KD -> binok q (bmul k) x y r <->
  (ew x = Cone /\ ew y = Cone /\ exists l, 0 <= l /\ isnode q KM l (ep x) /\ isnode q k l (ep y) /\ vres q k l r /\
   (ex X -> psem k q l x y (dv q k r))).
Proof.
  intros Hk. destruct k; [| |congruence]; simpl; split; intros (A & B & l & H0 & H1 & H2 & H3 & H4);
    (split; [auto|split; [auto|]]; exists l; repeat (split; [assumption|]); intros Ex; specialize (H4 Ex)).
  - now apply mvsem_psem. - now apply mvsem_psem. - now apply mmsem_psem. - now apply mmsem_psem.
Qed.

Lemma psem_step O s s' k l x y : k <> KD -> inv s -> step O s s' -> tedge (co s) KM l x -> tedge (co s) k l y ->
  forall path, vpath k l path -> psum k (de (co s') KM x) (de (co s') k y) path = psum k (de (co s) KM x) (de (co s) k y) path.
Proof.
  intros Hk I S Tx Ty path V. eapply psum_ext; eauto; intros p Vp; eapply de_step; eauto.
Qed.

Definition multsp (mul : edge -> edge -> M N edge) (k : kind) (l : Z) : Prop := forall s O x y,
  l < s_nq s -> inv s -> owns (s_cc s) O -> tedge (co s) KM l x -> tedge (co s) k l y ->
  wp al0 (mul x y) s (fun r s' => step O s s' /\ cres k l O s' r /\
    (ex X -> forall path, vpath k l path -> dg s' k r path = psum k (de (co s) KM x) (de (co s) k y) path)).

Lemma tedge_node0 s k l x : inv s -> tedge (co s) k l x -> ew x <> Czero -> 0 <= l ->
  exists n, ep x = PNode n /\ linked (co s) k n /\ nv (nod s k n) = l.
Proof.
  intros I T Z Hl. destruct T as [A B D E]. destruct (ep x) as [| |n]; [contradiction| |].
  - destruct (D eq_refl); [lia|contradiction].
  - destruct A. eauto.
Qed.
Lemma mulArg_eq s k l i x n : ep x = PNode n -> nv (nod s k n) = l -> mulArg N k l i x s = Ok (nthe (ne (nod s k n)) i) s.
Proof. intros E V. unfold mulArg, atlvl. rewrite E. simpl. unfold lvl. now rewrite V, Z.eqb_refl. Qed.

Lemma de_node q k x n i p : ep x = PNode n -> de q k x (i :: p) = (Cw q (ew x) * de q k (nthe (ne (qn q k n)) i) p)%C.
Proof. intros E. unfold Inv.de. now rewrite E, dn_cons. Qed.

(** Multiplying the weight of an intermediate result by two stored weights. *)
Lemma scale2_sp s O k l p a b wx wy : inv s -> owns (s_cc s) (a :: b :: O) -> etn (co s) k l p -> (p = PTerm -> l = -1) ->
  wtab (co s) wx -> wtab (co s) wy ->
  wp al0 (mulInto (cslot a b) (cslot a b) wx ;;; mulInto (cslot a b) (cslot a b) wy ;;;
          let* s := get in if wapx0 s (cslot a b) then retCache (cslot a b) ;;; ret Ezero else ret (Ed p (cslot a b))) s
    (fun r s' => step O s s' /\ cres k l O s' r /\
      (ex X -> forall path, vpath k l path -> dg s' k r path = (Cw (co s) wx * Cw (co s) wy * (Cv s (cslot a b) * dn (co s) k p path))%C)).
Proof.
  intros I Ow E T Wx Wy.
  destruct (mulSelf_sp s a b O wx I Ow) as (s1 & E1 & O1 & S1 & V1); [now left|].
  eapply wp_bind_ok; [exact E1|]. assert (I1: inv s1) by apply S1.
  destruct (mulSelf_sp s1 a b O wy I1 O1) as (s2 & E2 & O2 & S2 & V2); [left; eapply wtab_ext; [apply S1|auto]|].
  eapply wp_bind_ok; [exact E2|]. apply wp_bind, wp_get.
  assert (S02: step O s s2) by (eapply step_trans; eauto). assert (I2: inv s2) by apply S2.
  assert (Vv: ex X -> Cv s2 (cslot a b) = (Cw (co s) wx * Cw (co s) wy * Cv s (cslot a b))%C).
  { intros Ex. rewrite V2, V1 by auto. rewrite (Cv_Cw s wx) by auto. rewrite (Cv_Cw s1 wy); [|auto|eapply wtab_ext; [apply S1|auto]].
    rewrite (Cw_ext (co s) (co s1) wy); [ring|apply S1|auto]. }
  destruct (wapx0 s2 (cslot a b)) eqn:Z.
  - destruct (rel_sp s2 (cslot a b) O) as (s3 & E3 & O3 & Q3 & V3 & S3); eauto.
    eapply wp_bind_ok; [exact E3|]. apply wp_ret. split; [eapply step_trans; eauto|]. split; [now apply cres_zero|].
    intros Ex path V. rewrite dg_zero by auto. apply (x_wapx0 (X:=X)) in Z; auto. rewrite Vv in Z by auto.
    transitivity (Cw (co s) wx * Cw (co s) wy * Cv s (cslot a b) * dn (co s) k p path)%C; [rewrite Z; ring|ring].
  - apply wp_ret. split; auto. split.
    + apply cres_slot; auto. eapply etn_ext; [apply S02|auto]. intros Ex H. apply (x_wapx0 (X:=X)) in H; auto. congruence.
    + intros Ex path V. unfold Inv.dg. cbn [ew ep]. rewrite Vv by auto.
      rewrite (dn_ext (co s) (co s2) k) with (l:=l); auto; [ring|apply I|apply S02].
Qed.

Lemma prod_nth k j : k <> KD -> (j < arity k)%nat ->
  nth j (list_prod (seq 0 2) (seq 0 (pcols k))) (0%nat, 0%nat) = (prow k j, pcol k j).
Proof.
  intros Hk Hj. destruct k; [| |congruence]; simpl in Hj.
  - destruct j as [|[|]]; try lia; reflexivity.
  - destruct j as [|[|[|[|]]]]; try lia; reflexivity.
Qed.
Lemma prod_len k : k <> KD -> length (list_prod (seq 0 2) (seq 0 (pcols k))) = arity k.
Proof. intros Hk. destruct k; [reflexivity|reflexivity|congruence]. Qed.

Lemma mult2F_sp k : k <> KD -> forall f l, -1 <= l -> l + 1 < Z.of_nat f -> multsp (fun x y => mult2F N g nb f k x y l 0) k l.
Proof.
  intros Hk. induction f as [|f IH]; intros l Hl Hf; [lia|]. intros s O x y Hq I Ow Tx Ty. cbn [mult2F].
  destruct (isnull (ep x)) eqn:Nx. { apply isnull_spec in Nx. destruct Tx as [A _ _ _]. rewrite Nx in A. contradiction. }
  destruct (isnull (ep y)) eqn:Ny. { apply isnull_spec in Ny. destruct Ty as [A _ _ _]. rewrite Ny in A. contradiction. }
  assert (Sc: forall path, vpath k l path -> psum k (de (co s) KM x) (de (co s) k y) path =
     (Cw (co s) (ew x) * Cw (co s) (ew y) * psum k (dn (co s) KM (ep x)) (dn (co s) k (ep y)) path)%C).
  { intros path V. rewrite <- psum_scal. reflexivity. }
  destruct (wzero (ew x) || wzero (ew y)) eqn:Z.
  { apply wp_ret. split; [now apply step_refl|]. split; [now apply cres_zero|]. intros Ex path V. rewrite dg_zero, Sc by auto.
    apply orb_true_iff in Z. destruct Z as [Z|Z]; apply ceqb_spec in Z; rewrite Z, Cw_zero by auto; ring. }
  apply orb_false_iff in Z. destruct Z as [Zx Zy]. apply ceqb_false in Zx, Zy.
  destruct (l =? 0 - 1) eqn:El.
  { apply Z.eqb_eq in El. assert (l = -1) by lia. subst l.
    destruct (mulCached_sp s O (ew x) (ew y)) as (p & q & s1 & E1 & O1 & S1 & V1); auto; try (left; apply Tx); try (left; apply Ty).
    eapply wp_bind_ok; [exact E1|]. apply wp_ret. split; auto.
    assert (Cx: ex X -> Cv s1 (cslot p q) = (Cw (co s) (ew x) * Cw (co s) (ew y))%C).
    { intros Ex. rewrite V1, !Cv_Cw; auto; [apply Ty|apply Tx]. }
    split.
    - apply cres_slot; simpl; auto. intros Ex. rewrite Cx by auto. apply Cmul_neq; intros Hc; apply Cw_eq0 in Hc; auto; try apply I; [apply Tx|apply Ty].
    - intros Ex path V. rewrite Sc by auto. apply vpath_m1 in V. subst path. unfold Inv.dg. cbn [ew ep psum]. rewrite Cx by auto.
      unfold Inv.dn; simpl. ring. }
  apply Z.eqb_neq in El. assert (Hl0: 0 <= l) by lia. clear El.
  destruct (tedge_node0 _ _ _ _ I Tx Zx Hl0) as (nx & Epx & Lx & Vx).
  destruct (tedge_node0 _ _ _ _ I Ty Zy Hl0) as (ny & Epy & Ly & Vy).
  assert (NX: isnode (co s) KM l (ep x)) by (split; [apply Tx|rewrite Epx; discriminate]).
  assert (NY: isnode (co s) k l (ep y)) by (split; [apply Ty|rewrite Epy; discriminate]).
  cbv zeta.
  destruct (binLookup_sp O s (bmul k) (one_w x) (one_w y) I) as (r & s1 & E1 & S1 & C1' & Q1 & H1).
  eapply wp_bind_ok; [exact E1|]. clear E1. assert (I1: inv s1) by apply S1. rewrite <- C1' in Ow.
  destruct r as [r|].
  - destruct H1 as (x' & y' & B & Ekx & Eky). apply binok_mul in B; auto.
    destruct B as (Wx' & Wy' & l' & Hl' & Nx' & Ny' & Rv & Sem).
    pose proof (edge_eqb_p _ _ _ Ekx) as Px. pose proof (edge_eqb_p _ _ _ Eky) as Py. simpl in Px, Py.
    assert (l' = l). { apply (nptr_etn_lvl (co s) KM l' l (ep x)); [rewrite <- Px; apply Nx'|apply NX|apply NX]. } subst l'.
    assert (Sem': ex X -> forall path, vpath k l path -> dv (co s) k r path = psum k (dn (co s) KM (ep x)) (dn (co s) k (ep y)) path).
    { intros Ex path V. rewrite (Sem Ex path V). eapply psum_ext; eauto; intros p Vp; unfold Inv.de; rewrite ?Wx', ?Wy', ?Px, ?Py, Cw_one by auto; ring. }
    destruct (vapx0 (vw r)) eqn:Zr.
    + apply wp_ret. split; auto. split; [now apply cres_zero|].
      intros Ex path V. rewrite dg_zero by auto. apply (x_vapx0 (X:=X)) in Zr; auto.
      rewrite Sc, <- Sem' by auto. unfold Inv.dv. rewrite Zr. ring.
    + destruct (getCached_sp s1 (vw r) O) as (a & b & s2 & E2 & O2 & S2 & V2); auto.
      eapply wp_bind_ok; [exact E2|]. destruct Rv as (R1 & R2 & R3). rewrite <- Q1 in R1.
      assert (S02: step O s s2) by (eapply step_trans; eauto).
      eapply wp_mono; [apply (scale2_sp s2 O k l (vp r) a b (ew x) (ew y)); auto|].
      * apply S2. * eapply etn_ext; [apply S2|auto]. * intros E. destruct (R2 E); auto. congruence.
      * eapply wtab_ext; [apply S02|apply Tx]. * eapply wtab_ext; [apply S02|apply Ty].
      * intros r2 s3 (S3 & R & V3). split; [eapply step_trans; eauto|]. split; auto.
        intros Ex path V. rewrite V3, Sc, <- Sem' by auto. unfold Inv.dv.
        rewrite (Cw_ext (co s) (co s2) (ew x)), (Cw_ext (co s) (co s2) (ew y)); try apply S02; try apply Tx; try apply Ty.
        replace (Cv s2 (cslot a b)) with (Cv2 (vw r)) by (unfold Inv.Cv; now rewrite V2).
        rewrite (dn_ext (co s1) (co s2) k) with (l:=l); auto; [|apply I1|apply S2]. now rewrite Q1.
  - clear H1. apply wp_bind. change (match k with KV => 1%nat | _ => 2%nat end) with (pcols k).
    assert (Cx: forall i, (i < 4)%nat -> tedge (co s) KM (l - 1) (nthe (ne (nod s KM nx)) i)).
    { intros i Hi. rewrite <- Vx. apply child_ok; auto. apply I. }
    assert (Cy: forall i, (i < arity k)%nat -> tedge (co s) k (l - 1) (nthe (ne (nod s k ny)) i)).
    { intros i Hi. rewrite <- Vy. apply child_ok; auto. apply I. }
    eapply wp_mono; [apply (mapM_cres (0%nat, 0%nat) al0 k (l - 1) _
       (fun ij path => psum k (dn (co s) KM (ep x)) (dn (co s) k (ep y)) (pcols k * fst ij + snd ij :: path)%nat)
       (list_prod (seq 0 2) (seq 0 (pcols k))) s1 O); auto|].
    { intros [i j] s2 O2 Hij I2 S2 Ow2 In2. apply in_prod_iff in Hij. destruct Hij as [Hi Hj]. apply in_seq in Hi, Hj.
      assert (S02: step O s s2) by (eapply step_trans; eauto).
      assert (EX: forall s3 O3, step O3 s2 s3 -> incl O O3 -> forall i0, (i0 < 4)%nat -> mulArg N KM l i0 x s3 = Ok (nthe (ne (nod s KM nx)) i0) s3 /\
          tedge (co s3) KM (l - 1) (nthe (ne (nod s KM nx)) i0)).
      { intros s3 O3 S3 Inc i0 Hi0. assert (S03: step O s s3) by (eapply step_trans; [exact S02|eapply step_weak; eauto]).
        destruct (qe_same _ _ _ _ (sp_ext _ _ _ _ _ _ _ S03) Lx) as (N1 & _ & N2 & _).
        change (Inv.qn N (co s) KM nx) with (nod s KM nx) in *. change (Inv.qn N (co s3) KM nx) with (nod s3 KM nx) in *.
        rewrite (mulArg_eq s3 KM l i0 x nx) by congruence. rewrite <- N1. split; auto. eapply tedge_ext; [apply S03|auto]. }
      assert (EY: forall s3 O3, step O3 s2 s3 -> incl O O3 -> forall i0, (i0 < arity k)%nat -> mulArg N k l i0 y s3 = Ok (nthe (ne (nod s k ny)) i0) s3 /\
          tedge (co s3) k (l - 1) (nthe (ne (nod s k ny)) i0)).
      { intros s3 O3 S3 Inc i0 Hi0. assert (S03: step O s s3) by (eapply step_trans; [exact S02|eapply step_weak; eauto]).
        destruct (qe_same _ _ _ _ (sp_ext _ _ _ _ _ _ _ S03) Ly) as (N1 & _ & N2 & _).
        change (Inv.qn N (co s) k ny) with (nod s k ny) in *. change (Inv.qn N (co s3) k ny) with (nod s3 k ny) in *.
        rewrite (mulArg_eq s3 k l i0 y ny) by congruence. rewrite <- N1. split; auto. eapply tedge_ext; [apply S03|auto]. }
      assert (Hk2: (j + pcols k * 1 < arity k)%nat) by (destruct k; simpl in *; [lia|lia|congruence]).
      assert (NQ: forall s3 O3, step O3 s2 s3 -> incl O O3 -> s_nq s3 = s_nq s).
      { intros s3 O3 S3 Inc. assert (S03: step O s s3) by (eapply step_trans; [exact S02|eapply step_weak; eauto]).
        exact (qe_nq _ _ _ (sp_ext _ _ _ _ _ _ _ S03)). }
      assert (PS: forall s3 O3, step O3 s2 s3 -> incl O O3 -> forall a b, (a < 4)%nat -> (b < arity k)%nat -> forall path, vpath k (l - 1) path ->
          psum k (de (co s3) KM (nthe (ne (nod s KM nx)) a)) (de (co s3) k (nthe (ne (nod s k ny)) b)) path =
          psum k (de (co s) KM (nthe (ne (nod s KM nx)) a)) (de (co s) k (nthe (ne (nod s k ny)) b)) path).
      { intros s3 O3 S3 Inc a b Ha Hb path V. assert (S03: step O s s3) by (eapply step_trans; [exact S02|eapply step_weak; eauto]).
        eapply psem_step; eauto. }
      assert (St2: step O2 s2 s2) by (now apply step_refl).
      cbn [foldM].
      (* first factor *)
      apply wp_bind.
      eapply wp_bind_ok; [apply (EX s2 O2); auto; lia|]. eapply wp_bind_ok; [apply (EY s2 O2); auto; lia|].
      apply wp_bind. eapply wp_mono; [apply (IH (l - 1) ltac:(lia) ltac:(lia) s2 O2)|]; auto.
      { rewrite (NQ s2 O2); auto. lia. } { apply (EX s2 O2); auto; lia. } { apply (EY s2 O2); auto; lia. }
      intros m0 s3 (S3 & R3 & V3). cbn [Nat.eqb orb]. apply wp_ret.
      set (O3 := wslots (ew m0) ++ O2) in *. assert (Inc3: incl O2 O3) by (apply incl_appr, incl_refl).
      assert (I3: inv s3) by apply S3.
      (* second factor *)
      apply wp_bind.
      eapply wp_bind_ok; [apply (EX s3 O2); auto; lia|]. eapply wp_bind_ok; [apply (EY s3 O2); auto; lia|].
      apply wp_bind. eapply wp_mono; [apply (IH (l - 1) ltac:(lia) ltac:(lia) s3 O3)|]; auto.
      { rewrite (NQ s3 O2); auto. lia. } { apply R3. } { apply (EX s3 O2); auto; lia. } { apply (EY s3 O2); auto; lia. }
      intros m1 s4 (S4 & R4 & V4). assert (I4: inv s4) by apply S4.
      assert (S24: step O2 s2 s4) by (eapply step_trans; [exact S3|eapply step_weak; eauto]).
      assert (Vm0: ex X -> forall path, vpath k (l - 1) path -> dg s4 k m0 path =
         psum k (de (co s) KM (nthe (ne (nod s KM nx)) (2 * i + 0))) (de (co s) k (nthe (ne (nod s k ny)) (j + pcols k * 0))) path).
      { intros Ex path V. erewrite dg_step; [|exact I3|exact S4|apply R3|exact V]. rewrite V3 by auto. apply (PS s2 O2); auto; lia. }
      assert (Vm1: ex X -> forall path, vpath k (l - 1) path -> dg s4 k m1 path =
         psum k (de (co s) KM (nthe (ne (nod s KM nx)) (2 * i + 1))) (de (co s) k (nthe (ne (nod s k ny)) (j + pcols k * 1))) path).
      { intros Ex path V. rewrite V4 by auto. apply (PS s3 O2); auto; lia. }
      assert (Tgt: forall path, psum k (dn (co s) KM (ep x)) (dn (co s) k (ep y)) (pcols k * i + j :: path)%nat =
         (psum k (de (co s) KM (nthe (ne (nod s KM nx)) (2 * i + 0))) (de (co s) k (nthe (ne (nod s k ny)) (j + pcols k * 0))) path +
          psum k (de (co s) KM (nthe (ne (nod s KM nx)) (2 * i + 1))) (de (co s) k (nthe (ne (nod s k ny)) (j + pcols k * 1))) path)%C).
      { intros path. cbn [psum]. rewrite Epx, Epy.
        assert (PR: prow k (pcols k * i + j) = i /\ pcol k (pcols k * i + j) = j).
        { destruct k; [| |congruence].
          - simpl in *. lia.
          - unfold prow, pcol, pcols in *. rewrite (Nat.mul_comm 2 i). rewrite Nat.div_add_l by lia. rewrite Nat.div_small by lia.
            rewrite (Nat.add_comm (i * 2) j), Nat.mod_add by lia. rewrite Nat.mod_small by lia. lia. }
        destruct PR as [-> ->]. reflexivity. }
      cbn [fst snd]. cbn [Nat.eqb orb]. destruct (wzero (ew m0)) eqn:Z0.
      - apply ceqb_spec in Z0. apply wp_ret. apply wp_ret. split; auto.
        assert (O3 = O2) by (unfold O3; rewrite Z0; reflexivity). split; [congruence|].
        intros Ex path V. rewrite Tgt, <- Vm0, <- Vm1 by auto. unfold Inv.dg at 2. rewrite Z0, Cv_zero by auto. ring.
      - apply ceqb_false in Z0. destruct (wzero (ew m1)) eqn:Z1; simpl negb; cbv iota.
        + apply ceqb_spec in Z1. apply wp_ret. apply wp_ret. split; auto. split.
          * destruct R3 as [P1 P2 P3]. destruct R4 as [_ _ P4]. rewrite Z1 in P4. simpl in P4. constructor; auto. eapply gedge_step; eauto.
          * intros Ex path V. rewrite Tgt, <- Vm0, <- Vm1 by auto. unfold Inv.dg at 3. rewrite Z1, Cv_zero by auto. ring.
        + apply ceqb_false in Z1. apply wp_bind.
          apply (wp_eq al0 _ (add2F N g nb (fuelof N s4) k m0 m1)); [reflexivity|].
          set (O4 := wslots (ew m1) ++ O3) in *. assert (Inc4: incl O3 O4) by (apply incl_appr, incl_refl).
          eapply wp_mono; [apply (add2F_sp (fuelof N s4) k (l - 1)) with (O:=O4)|]; auto; try lia.
          { unfold fuelof. rewrite (NQ s4 O2); auto. lia. }
          { apply R4. } { eapply gedge_incl; [eapply gedge_step; [exact S4|apply R3]|auto]. } { apply R4. }
          intros r s5 (S5 & R5 & V5). assert (I5: inv s5) by apply S5.
          destruct (rel_sp s5 (ew m0) (wslots (ew r) ++ wslots (ew m1) ++ O2) I5) as (s6 & E6 & Ow6 & Q6 & Cv6 & S6).
          { destruct (cr_s _ _ _ _ _ R3); [contradiction|auto]. }
          { eapply owns_perm; [|apply R5]. unfold O4, O3. apply perm3. }
          eapply wp_bind_ok; [exact E6|].
          destruct (rel_sp s6 (ew m1) (wslots (ew r) ++ O2)) as (s7 & E7 & Ow7 & Q7 & Cv7 & S7); auto.
          { apply (S6 O). }
          { destruct (cr_s _ _ _ _ _ R4); [contradiction|auto]. }
          { eapply owns_perm; [|apply Ow6]. rewrite !app_assoc. apply Permutation_app_tail, Permutation_app_comm. }
          eapply wp_bind_ok; [exact E7|]. apply wp_ret. apply wp_ret.
          assert (Q57: co s7 = co s5) by congruence. assert (C57: cc_val (s_cc s7) = cc_val (s_cc s5)) by congruence.
          split; [|split].
          * eapply step_trans; [exact S24|]. eapply step_trans; [eapply step_weak; [exact S5|eapply incl_tran; eauto]|]. eapply step_trans; eauto.
          * eapply cres_rel; eauto.
          * intros Ex path V. rewrite (dg_rel _ _ _ _ _ Q57 C57). rewrite V5 by auto. rewrite Tgt, Vm0, Vm1 by auto. reflexivity. }
    intros es s2 (S2 & L2 & Ow2 & W2 & V2). rewrite prod_len in L2, V2 by auto.
    assert (S02: step O s s2) by (eapply step_trans; eauto). assert (I2: inv s2) by apply S2.
    apply wp_bind. eapply wp_mono; [apply (makeDDNode_sp s2 k l es true O); auto|].
    { split; auto. rewrite (qe_nq _ _ _ (sp_ext _ _ _ _ _ _ _ S02) : s_nq s2 = s_nq s). exact Hq. }
    intros e s3 P. assert (S3: step O s2 s3) by apply P. pose proof (cres_mk _ _ _ _ _ _ _ Hl0 P) as R3.
    assert (S03: step O s s3) by (eapply step_trans; eauto).
    assert (V3: ex X -> forall path, vpath k l path -> dg s3 k e path = psum k (dn (co s) KM (ep x)) (dn (co s) k (ep y)) path).
    { intros Ex path V. apply vpath_inv in V; auto. destruct V as (i & p & -> & Hi & V).
      destruct P as (_ & _ & _ & P4). destruct (P4 Ex) as [_ P5]. rewrite P5 by auto. rewrite V2 by auto. rewrite prod_nth by auto. cbn [fst snd].
      f_equal. f_equal. destruct k; [simpl; lia| |congruence]. unfold pcols, prow, pcol. symmetry. apply Nat.div_mod. lia. }
    apply wp_bind, wp_get.
    destruct (binInsert_sp O s3 (bmul k) (one_w x) (one_w y) (mkve s3 (ep e) (ew e))) as (s4 & E4 & S4 & C4 & Q4).
    { apply S3. }
    { apply binok_mul; auto. split; auto. split; auto. exists l. split; auto. split; [|split; [|split]].
      - eapply isnode_ext; [apply S03|exact NX]. - eapply isnode_ext; [apply S03|exact NY].
      - destruct (cr_g _ _ _ _ _ R3) as [A B D E]. split; [exact A|]. split.
        + cbn [vp vw mkve]. intros Et. destruct (D Et) as [H|H]; auto. right. rewrite H. rewrite cval_zero. apply (vapx0_zero (X:=X)).
        + cbn [vp vw mkve]. intros Ex H. specialize (E Ex H). now rewrite E.
      - intros Ex path V. specialize (V3 Ex path V). unfold Inv.dg, Inv.dv, Inv.Cv in *. cbn [vp vw mkve].
        rewrite V3. eapply psum_ext; eauto; intros p Vp; unfold Inv.de; cbn [ep ew one_w]; rewrite Cw_one by auto;
          rewrite Cmul_1_l; symmetry; (eapply dn_ext; [apply I|apply S03|eapply te_n; eassumption|exact Vp]). }
    eapply wp_bind_ok; [exact E4|].
    assert (Cv4: cc_val (s_cc s4) = cc_val (s_cc s3)) by now rewrite C4.
    assert (R4: cres k l O s4 e) by (eapply cres_rel; eauto; rewrite C4; apply R3).
    assert (S04: step O s s4) by (eapply step_trans; eauto).
    assert (Ny': wzero (ew y) = false) by (now apply ceqb_false). rewrite Ny'. simpl negb. rewrite orb_true_r, andb_true_r.
    destruct (wzero (ew e)) eqn:Ze; simpl negb; cbv iota.
    + apply ceqb_spec in Ze. apply wp_ret. split; auto. split; auto.
      intros Ex path V. rewrite Sc, <- V3 by auto. unfold Inv.dg. rewrite Ze, !Cv_zero by auto. ring.
    + apply ceqb_false in Ze. destruct (cr_s _ _ _ _ _ R4) as [H|(a & b & Ew)]; [contradiction|].
      change (wone (ew e)) with (wone (ew e)). rewrite Ew. change (wone (cslot a b)) with false. cbv iota.
      assert (TE: ep e = PTerm -> l = -1). { intros Et. destruct (cr_g _ _ _ _ _ R4) as [_ _ D _]. destruct (D Et) as [H|H]; auto. congruence. }
      pose proof (cr_o _ _ _ _ _ R4) as Ow4. rewrite Ew in Ow4. simpl in Ow4.
      assert (A: wp al0 (mulInto (cslot a b) (cslot a b) (ew x) ;;; mulInto (cslot a b) (cslot a b) (ew y) ;;;
          let* s := get in if wapx0 s (cslot a b) then retCache (cslot a b) ;;; ret Ezero else ret (Ed (ep e) (cslot a b))) s4
          (fun r s' => step O s4 s' /\ cres k l O s' r /\
      (ex X -> forall path, vpath k l path -> dg s' k r path = (Cw (co s4) (ew x) * Cw (co s4) (ew y) * (Cv s4 (cslot a b) * dn (co s4) k (ep e) path))%C))).
      { apply scale2_sp; auto. apply S4. apply R4. eapply wtab_ext; [apply S04|apply Tx]. eapply wtab_ext; [apply S04|apply Ty]. }
      assert (B: wp al0 (let* w := (mulInto (cslot a b) (cslot a b) (ew x) ;;; mulInto (cslot a b) (cslot a b) (ew y) ;;; ret (cslot a b)) in
          let* s := get in if wapx0 s w then retCache w ;;; ret Ezero else ret (Ed (ep e) w)) s4
          (fun r s' => step O s4 s' /\ cres k l O s' r /\
      (ex X -> forall path, vpath k l path -> dg s' k r path = (Cw (co s4) (ew x) * Cw (co s4) (ew y) * (Cv s4 (cslot a b) * dn (co s4) k (ep e) path))%C))).
      { unfold Inv.wp, bind in A |- *. destruct (mulInto (cslot a b) (cslot a b) (ew x) s4) as [? t1| |]; auto.
        destruct (mulInto (cslot a b) (cslot a b) (ew y) t1) as [? t2| |]; auto. }
      eapply wp_mono; [exact B|]. intros r s5 (S5 & R5 & V5). split; [eapply step_trans; eauto|]. split; auto.
      intros Ex path V. rewrite V5, Sc, <- V3 by auto. unfold Inv.dg. rewrite Ew, Q4.
      rewrite (Cw_ext (co s) (co s3) (ew x)), (Cw_ext (co s) (co s3) (ew y)); try apply S03; try apply Tx; try apply Ty.
      rewrite (Cv_rel s3 s4); auto.
Qed.

Lemma finish_eq k l O s e : cres k l O s e ->
  (if negb (wzero (ew e)) && negb (wone (ew e)) then
     retCache (ew e) ;;; let* w := cn_lookupC g (ew e) in ret (Ed (ep e) w) else ret e) = finish N g e.
Proof.
  intros R. unfold finish, wzero. destruct (cr_s _ _ _ _ _ R) as [E|(a & b & E)]; rewrite E; reflexivity.
Qed.

Lemma tedge_term s k l x : inv s -> tedge (co s) k l x -> l < 0 -> ep x = PTerm.
Proof.
  intros I T Hl. destruct (ep x) as [| |n] eqn:Ep; auto.
  - destruct T as [A _ _ _]. rewrite Ep in A. contradiction.
  - pose proof (tedge_lvl _ _ _ _ _ (iv_c _ _ _ _ _ I) T Ep). lia.
Qed.

Theorem multiply_sp s O k l x y : k <> KD -> -1 <= l < s_nq s -> inv s -> owns (s_cc s) O ->
  tedge (co s) KM l x -> tedge (co s) k l y ->
  wp al0 (multiply N g nb k x y 0) s (fun r s' => owns (s_cc s') O /\ step O s s' /\ tedge (co s') k l r /\
    (ex X -> psem k (co s) l x y (de (co s') k r))).
Proof.
  intros Hk Hl I Ow Tx Ty. apply balanced_sp; auto. cbv zeta.
  set (v0 := if isT (ep x) then -1 else lvl s KM (ep x)).
  set (var := if negb (isT (ep y)) && (v0 <? lvl s k (ep y)) then lvl s k (ep y) else v0).
  assert (A: wp al0 (mult2F N g nb (fuelof N s) k x y var 0) s (fun r s' => step O s s' /\ cres k l O s' r /\
    (ex X -> forall path, vpath k l path -> dg s' k r path = psum k (de (co s) KM x) (de (co s) k y) path))).
  { destruct (wzero (ew x) || wzero (ew y)) eqn:Z.
    - unfold fuelof. cbn [mult2F].
      destruct (isnull (ep x)) eqn:Nx. { apply isnull_spec in Nx. destruct Tx as [A _ _ _]. rewrite Nx in A. contradiction. }
      destruct (isnull (ep y)) eqn:Ny. { apply isnull_spec in Ny. destruct Ty as [A _ _ _]. rewrite Ny in A. contradiction. }
      rewrite Z. apply wp_ret. split; [now apply step_refl|]. split; [now apply cres_zero|]. intros Ex path V. rewrite dg_zero by auto.
      assert (Sc: psum k (de (co s) KM x) (de (co s) k y) path =
         (Cw (co s) (ew x) * Cw (co s) (ew y) * psum k (dn (co s) KM (ep x)) (dn (co s) k (ep y)) path)%C) by (rewrite <- psum_scal; reflexivity).
      rewrite Sc. apply orb_true_iff in Z. destruct Z as [Z|Z]; apply ceqb_spec in Z; rewrite Z, Cw_zero by auto; ring.
    - apply orb_false_iff in Z. destruct Z as [Zx Zy]. apply ceqb_false in Zx, Zy.
      assert (var = l).
      { unfold var, v0. destruct (Z.eq_dec l (-1)) as [->|Hn].
        - rewrite (tedge_term s KM (-1) x), (tedge_term s k (-1) y) by (auto; lia). reflexivity.
        - destruct (tedge_node0 s KM l x I Tx Zx) as (nx & Epx & Lx & Vx); [lia|].
          destruct (tedge_node0 s k l y I Ty Zy) as (ny & Epy & Ly & Vy); [lia|].
          rewrite Epx, Epy. simpl. unfold lvl. now rewrite Vx, Vy, Z.ltb_irrefl. }
      replace var with l by auto. apply (mult2F_sp k Hk (fuelof N s) l); auto; [lia|unfold fuelof; lia|lia]. }
  match goal with |- wp al0 ?m s ?Q => apply (wp_eq al0 m (let* e := mult2F N g nb (fuelof N s) k x y var 0 in
     if negb (wzero (ew e)) && negb (wone (ew e)) then
       retCache (ew e) ;;; let* w := cn_lookupC g (ew e) in ret (Ed (ep e) w)
     else ret e)); [reflexivity|] end.
  apply wp_bind. eapply wp_mono; [exact A|]. intros r s1 (S1 & R1 & V1). rewrite (finish_eq _ _ _ _ _ R1).
  eapply wp_mono; [apply (finish_sp s1 O k l r); auto; apply S1|].
  intros e s2 (S2 & O2 & T2 & V2). split; auto. split; [eapply step_trans; eauto|]. split; auto.
  intros Ex path V. rewrite V2, V1; auto.
Qed.
End MulL.
