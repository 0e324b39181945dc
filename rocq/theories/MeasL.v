(** Specification of the measurement functions. *)
From Coq Require Import ZArith List Bool Lia Arith Reals Lra Permutation.
From Verif Require Import Num Base CTable CTableWf Cx State Pkg Control Gate Meas Inv InvL PrimL NormL MkL TrL AddL MulL KronL CanonL IdentL StateL GateL DelL.
Import ListNotations.
Local Open Scope Z_scope.

(** The vector [h] projected to the indices with digit [b] at qubit [idx]. *)
Definition proj (idx : Z) (b : nat) (h : list nat -> C) (p : list nat) : C := if Nat.eqb (dig idx p) b then h p else C0.

Lemma proj_top b h i p : proj (Z.of_nat (length p)) b h (i :: p) = if Nat.eqb i b then h (i :: p) else C0.
Proof. unfold proj. rewrite dig_cons by lia. rewrite Z.eqb_refl. reflexivity. Qed.
Lemma proj_below idx b h i p : 0 <= idx < Z.of_nat (length p) -> proj idx b h (i :: p) = proj idx b (fun q => h (i :: q)) p.
Proof. intros H. unfold proj. rewrite dig_cons by lia. destruct (Z.eqb_spec idx (Z.of_nat (length p))); [lia|reflexivity]. Qed.
Lemma proj_scale idx b c h p : proj idx b (fun q => (c * h q)%C) p = (c * proj idx b h p)%C.
Proof. unfold proj. destruct (Nat.eqb _ _); [reflexivity|ring]. Qed.

Lemma bits_len n p : In p (bits n) -> length p = n.
Proof.
  revert p. induction n as [|n IH]; cbn [bits]; intros p H.
  - destruct H as [<-|[]]. reflexivity.
  - apply in_app_or in H. destruct H as [H|H]; apply in_map_iff in H; destruct H as (q & <- & H); cbn [length]; now rewrite IH.
Qed.
Lemma nd_l {A} (a b : list A) : NoDup (a ++ b) -> NoDup a.
Proof.
  induction a as [|x a IH]; cbn [app]; intros H; [constructor|]. inversion H; subst. constructor; auto. intros K. apply H2. apply in_or_app. now left.
Qed.
Lemma nd_r {A} (a b : list A) : NoDup (a ++ b) -> NoDup b.
Proof. induction a as [|x a IH]; cbn [app]; intros H; auto. inversion H; subst. auto. Qed.
Lemma nrm2_ext n f h : (forall p, In p (bits n) -> f p = h p) -> nrm2 n f = nrm2 n h.
Proof. intros H. unfold nrm2. f_equal. apply map_ext_in. intros p Hp. now rewrite H. Qed.
Lemma nrm2_zero n f : (forall p, In p (bits n) -> f p = C0) -> nrm2 n f = 0%R.
Proof. intros H. rewrite (nrm2_scale n C0 f (fun _ => C0)). rewrite Cmag2_0. ring. intros p Hp. rewrite H by auto. ring. Qed.
Lemma nrm2_nonneg n f : (0 <= nrm2 n f)%R.
Proof. unfold nrm2. induction (bits n) as [|p l IH]; cbn; [lra|]. pose proof (Cmag2_nonneg (f p)). lra. Qed.

Section MeasL.
Context {N : num} {g : cfg N} {nb : kind -> Z} {X : numx N (g_ct g)} (G : gok g).
Local Notation cf := (g_ct g).
Local Notation co := (co N).
Local Notation qn := (qn N).
Local Notation linked := (linked N).
Local Notation c_ut := (c_ut N).
Local Notation Cw := (Cw N g X).
Local Notation Cv := (Cv N g X).
Local Notation Cv2 := (Cv2 N g X).
Local Notation dn := (dn N g X).
Local Notation de := (de N g X).
Local Notation dg := (dg N g X).
Local Notation wtab := (wtab N g X).
Local Notation etn := (etn N).
Local Notation isnode := (isnode N).
Local Notation tedge := (tedge N g X).
Local Notation gedge := (gedge N g X).
Local Notation cinv := (cinv N g nb X).
Local Notation uinv := (uinv N g nb X).
Local Notation nodeok := (nodeok N g nb X).
Local Notation inv := (inv N g nb X).
Local Notation step := (step N g nb X).
Local Notation qext := (qext N).
Local Notation owns := (owns N).
Local Notation wok := (wok N g X).
Local Notation wp := (wp N).
Local Notation al0 := (al0 N g X).
Local Notation nnorm := (nnorm N g X).
Local Notation iedge := (iedge (g:=g) (X:=X)).
Local Notation trsp := (trsp (nb:=nb) (X:=X)).
Local Notation unok := (unok N g X).
Local Notation binok := (binok N g X).
Local Notation addok := (addok N g X).
Local Notation tinv := (tinv N g X).
Local Notation vres := (vres N g X).
Local Notation dv := (dv N g X).
Local Notation mkpost := (mkpost (nb:=nb) (X:=X)).
Local Notation mulCached_sp := (mulCached_sp (nb:=nb) (X:=X) G).
Local Notation addCached_sp := (addCached_sp (nb:=nb) (X:=X) G).
Local Notation getCached_sp := (getCached_sp (nb:=nb) (X:=X) G).
Local Notation makeDDNode_sp := (makeDDNode_sp (nb:=nb) (X:=X) G).
Local Notation lookupC_sp := (lookupC_sp (nb:=nb) (X:=X) G).
Local Notation tedge_gedge := (tedge_gedge (nb:=nb) (X:=X)).
Local Notation child_ok := (child_ok (nb:=nb) (X:=X)).
Local Notation dn_ext := (dn_ext (nb:=nb) (X:=X)).
Local Notation Cw_eq0 := (Cw_eq0 (nb:=nb) (X:=X)).
Local Notation addInsert_sp := (addInsert_sp (g:=g) (nb:=nb) (X:=X)).
Local Notation binInsert_sp := (binInsert_sp (g:=g) (nb:=nb) (X:=X)).
Local Notation unInsert_sp := (unInsert_sp (g:=g) (nb:=nb) (X:=X)).
Local Notation addLookup_sp := (addLookup_sp (g:=g) (nb:=nb) (X:=X)).
Local Notation binLookup_sp := (binLookup_sp (g:=g) (nb:=nb) (X:=X)).
Local Notation unLookup_sp := (unLookup_sp (g:=g) (nb:=nb) (X:=X)).
Local Notation cres := (cres (g:=g) (X:=X)).
Local Notation addsp := (addsp (g:=g) (nb:=nb) (X:=X)).
Local Notation rel_sp := (rel_sp (g:=g) (nb:=nb) (X:=X)).
Local Notation relif_sp := (relif_sp (g:=g) (nb:=nb) (X:=X)).
Local Notation mapM_cres := (mapM_cres (g:=g) (nb:=nb) (X:=X)).
Local Notation de_step := (de_step (g:=g) (nb:=nb) (X:=X)).
Local Notation dg_step := (dg_step (g:=g) (nb:=nb) (X:=X)).
Local Notation mulSelf_sp := (mulSelf_sp (g:=g) (nb:=nb) (X:=X)).
Local Notation finish_sp := (finish_sp (g:=g) (nb:=nb) (X:=X) G).
Local Notation add2F_sp := (add2F_sp (g:=g) (nb:=nb) (X:=X) G).
Implicit Types (s : st N).

Local Notation dn_nz := (dn_nz (g:=g) (nb:=nb) (X:=X)).
Local Notation idok := (idok N g X).
Local Notation makeDDNode_t := (makeDDNode_t (nb:=nb) (X:=X) G).
Local Notation mk_weight := (mk_weight (nb:=nb) (X:=X)).

Local Notation dn_unit := (dn_unit (g:=g) (nb:=nb) (X:=X)).
Local Notation nt := (node_or_term (N:=N)).

Section Ex.
Context (Ex : ex X).

(** Squared length of the part of a node's vector with digit [b] at qubit [idx]. *)
Definition wt s (idx : Z) (b : nat) (p : nptr) : R := nrm2 (Z.to_nat (lvl s KV p + 1)) (proj idx b (dn (co s) KV p)).

Lemma toR_w s w : wtab (co s) w -> toR X (wmag2 s w) = Cmag2 (Cw (co s) w).
Proof. intros W. rewrite x_wmag2 by auto. now rewrite Cv_Cw. Qed.

Lemma isnode_lvl' s l p : isnode (co s) KV l p -> lvl s KV p = l.
Proof. intros [H Np]. destruct p as [| |n]; [contradiction|contradiction|]. destruct H as [_ H]. exact H. Qed.

Lemma wt_step s idx b n l : inv s -> linked (co s) KV n -> nv (nod s KV n) = l -> 0 <= idx < l ->
  wt s idx b (PNode n) = (Cmag2 (Cw (co s) (ew (nthe (ne (nod s KV n)) 0))) * wt s idx b (ep (nthe (ne (nod s KV n)) 0))
                        + Cmag2 (Cw (co s) (ew (nthe (ne (nod s KV n)) 1))) * wt s idx b (ep (nthe (ne (nod s KV n)) 1)))%R.
Proof.
  intros I L Nv H.
  assert (Q: forall i, (i < 2)%nat -> nrm2 (Z.to_nat l) (fun p => proj idx b (dn (co s) KV (PNode n)) (i :: p))
     = (Cmag2 (Cw (co s) (ew (nthe (ne (nod s KV n)) i))) * wt s idx b (ep (nthe (ne (nod s KV n)) i)))%R).
  { intros i Hi. set (e := nthe (ne (nod s KV n)) i). 
    assert (T: tedge (co s) KV (l - 1) e). { unfold e. rewrite <- Nv. apply (child_ok (co s) KV n i (iv_c _ _ _ _ _ I) L). cbn; lia. }
    destruct (ceqb (ew e) Czero) eqn:Z.
    - apply ceqb_spec in Z. rewrite Z, Cw_zero, Cmag2_0 by auto. rewrite Rmult_0_l. apply nrm2_zero. intros p Hp.
      rewrite proj_below by (rewrite (bits_len _ _ Hp); lia). unfold proj. destruct (Nat.eqb _ _); auto. rewrite dn_cons. fold e. unfold Inv.de. change (nthe (ne (Inv.qn N (co s) KV n)) i) with e. rewrite Z, Cw_zero by auto. ring.
    - apply ceqb_false in Z. pose proof (tedge_nt (g:=g) (X:=X) _ _ _ _ T Z) as Nt.
      assert (Lv: lvl s KV (ep e) = l - 1). { destruct Nt as [Nt|[E _]]; [now apply isnode_lvl'|lia]. }
      unfold wt. rewrite Lv. replace (l - 1 + 1) with l by lia. apply nrm2_scale. intros p Hp.
      rewrite proj_below by (rewrite (bits_len _ _ Hp); lia). rewrite <- proj_scale. reflexivity. }
  unfold wt at 1. change (lvl s KV (PNode n)) with (nv (nod s KV n)). rewrite Nv. replace (Z.to_nat (l + 1)) with (S (Z.to_nat l)) by lia.
  rewrite nrm2_S, !Q by lia. reflexivity.
Qed.

Lemma wt_at s b n l : inv s -> linked (co s) KV n -> nv (nod s KV n) = l -> (b < 2)%nat ->
  wt s l b (PNode n) = Cmag2 (Cw (co s) (ew (nthe (ne (nod s KV n)) b))).
Proof.
  intros I L Nv Hb.
  destruct (linked_ok (g:=g) (nb:=nb) (X:=X) _ _ _ (iv_c _ _ _ _ _ I) L) as (b' & K & _). pose proof (no_v _ _ _ _ _ _ _ _ _ K) as Hl. change (Inv.qn N (co s) KV n) with (nod s KV n) in Hl. rewrite Nv in Hl.
  assert (Q: forall i, (i < 2)%nat -> nrm2 (Z.to_nat l) (fun p => proj l b (dn (co s) KV (PNode n)) (i :: p))
     = if Nat.eqb i b then Cmag2 (Cw (co s) (ew (nthe (ne (nod s KV n)) i))) else 0%R).
  { intros i Hi. destruct (Nat.eqb i b) eqn:Eb.
    - set (e := nthe (ne (nod s KV n)) i).
      assert (T: tedge (co s) KV (l - 1) e). { unfold e. rewrite <- Nv. apply (child_ok (co s) KV n i (iv_c _ _ _ _ _ I) L). cbn; lia. }
      rewrite (nrm2_scale _ (Cw (co s) (ew e)) _ (dn (co s) KV (ep e))).
      + destruct (ceqb (ew e) Czero) eqn:Z; [apply ceqb_spec in Z; rewrite Z, Cw_zero, Cmag2_0 by auto; ring|]. apply ceqb_false in Z.
        rewrite (dn_unit (co s) Ex (iv_c _ _ _ _ _ I) (Z.to_nat l) (l - 1) (ep e)); [ring|lia|now apply (tedge_nt (g:=g) (X:=X))].
      + intros p Hp. replace l with (Z.of_nat (length p)) by (rewrite (bits_len _ _ Hp); lia). rewrite proj_top, Eb. reflexivity.
    - apply nrm2_zero. intros p Hp. replace l with (Z.of_nat (length p)) by (rewrite (bits_len _ _ Hp); lia). rewrite proj_top, Eb. reflexivity. }
  unfold wt at 1. change (lvl s KV (PNode n)) with (nv (nod s KV n)). rewrite Nv. replace (Z.to_nat (l + 1)) with (S (Z.to_nat l)) by lia.
  rewrite nrm2_S, !Q by lia. destruct b as [|[|b]]; [cbn [Nat.eqb]; ring|cbn [Nat.eqb]; ring|lia].
Qed.

(** ** The search *)

Definition mass (pr : list (nptr * N)) (f : nptr -> R) (l : list nptr) : R := fold_right Rplus 0%R (map (fun p => toR X (pget N pr p) * f p)%R l).

Lemma pget_cons p x pr q : pget N ((p, x) :: pr) q = if nptr_eqb p q then x else pget N pr q.
Proof. unfold pget. cbn [pm_find]. destruct (nptr_eqb p q); reflexivity. Qed.
Lemma mass_out p x pr f l : ~ In p l -> mass ((p, x) :: pr) f l = mass pr f l.
Proof.
  unfold mass. induction l as [|q l IH]; intros H; auto. cbn [map fold_right]. rewrite IH by (intros K; apply H; now right). rewrite pget_cons.
  destruct (nptr_eqb p q) eqn:E; auto. apply nptr_eqb_true in E. exfalso. apply H. now left.
Qed.
Lemma mass_in p x pr f l : NoDup l -> In p l -> mass ((p, x) :: pr) f l = (mass pr f l + (toR X x - toR X (pget N pr p)) * f p)%R.
Proof.
  induction l as [|q l IH]; intros Nd H; [contradiction|]. inversion Nd as [|? ? Nq Nd']; subst.
  destruct (nptr_eqb p q) eqn:E.
  - apply nptr_eqb_true in E. subst q. change (mass ((p, x) :: pr) f (p :: l)) with (toR X (pget N ((p, x) :: pr) p) * f p + mass ((p, x) :: pr) f l)%R.
    change (mass pr f (p :: l)) with (toR X (pget N pr p) * f p + mass pr f l)%R. rewrite mass_out by auto. rewrite pget_cons.
    replace (nptr_eqb p p) with true by (symmetry; now apply nptr_eqb_true). ring.
  - destruct H as [->|H]. { assert (nptr_eqb p p = true) by now apply nptr_eqb_true. congruence. }
    change (mass ((p, x) :: pr) f (q :: l)) with (toR X (pget N ((p, x) :: pr) q) * f q + mass ((p, x) :: pr) f l)%R.
    change (mass pr f (q :: l)) with (toR X (pget N pr q) * f q + mass pr f l)%R. rewrite IH by auto. rewrite pget_cons, E. ring.
Qed.
Lemma mass_app pr f a b : mass pr f (a ++ b) = (mass pr f a + mass pr f b)%R.
Proof. unfold mass. now rewrite map_app, rsum_app. Qed.

Section Bfs.
Context (s : st N) (I : inv s) (root : nptr) (idx : Z) (Hidx : 0 <= idx).

Record bi (L : Z) (A B P : list nptr) (b : bfs N) (tot : nat -> R) : Prop := {
  bi_q : bf_q b = A ++ B;
  bi_nd : NoDup (P ++ A ++ B);
  bi_vis : forall p, In p (bf_vis b) <-> In p (P ++ A ++ B);
  bi_A : forall p, In p A -> isnode (co s) KV L p;
  bi_B : forall p, In p B -> isnode (co s) KV (L - 1) p;
  bi_P : forall p, In p P -> exists l, L <= l /\ isnode (co s) KV l p;
  bi_r : forall p, In p (A ++ B) -> reach s KV root p;
  bi_m : forall d, (d < 2)%nat -> mass (bf_pr b) (wt s idx d) (A ++ B) = tot d }.

Lemma bi_pop L p A B P b tot : bi L (p :: A) B P b tot ->
  bi L A B (p :: P) (BF (bf_pr b) (bf_vis b) (A ++ B)) (fun d => tot d - toR X (pget N (bf_pr b) p) * wt s idx d p)%R.
Proof.
  intros [Hq Hn Hv HA HB HP Hr Hm].
  assert (Pm: Permutation (P ++ (p :: A) ++ B) ((p :: P) ++ A ++ B)) by (cbn [app]; symmetry; apply Permutation_middle).
  constructor; cbn [bf_q bf_vis bf_pr]; auto.
  - eapply Permutation_NoDup; [exact Pm|exact Hn].
  - intros x. rewrite Hv. split; apply Permutation_in; [exact Pm|symmetry; exact Pm].
  - intros x Hx. apply HA. now right.
  - intros x [<-|Hx]; auto. exists L. split; [lia|]. apply HA. now left.
  - intros x Hx. apply Hr. now right.
  - intros d Hd. rewrite <- Hm by auto. change (mass (bf_pr b) (wt s idx d) ((p :: A) ++ B)) with (toR X (pget N (bf_pr b) p) * wt s idx d p + mass (bf_pr b) (wt s idx d) (A ++ B))%R. ring.
Qed.

Lemma isnode_fun l l' p : isnode (co s) KV l p -> isnode (co s) KV l' p -> l = l'.
Proof. intros A B. apply isnode_lvl' in A. apply isnode_lvl' in B. congruence. Qed.

Lemma bfsEdge_sp L A B P b tot prob e : 1 <= L -> bi L A B P b tot -> tedge (co s) KV (L - 1) e -> (ew e <> Czero -> reach s KV root (ep e)) ->
  exists B', bi L A B' P (bfsEdge N s prob e b) (fun d => tot d + toR X prob * Cmag2 (Cw (co s) (ew e)) * wt s idx d (ep e))%R /\
    incl B B' /\ (ew e <> Czero -> B' <> []).
Proof.
  intros HL [Hq Hn Hv HA HB HP Hr Hm] T Re. unfold bfsEdge. destruct (wapx0 s (ew e)) eqn:Z.
  - assert (W: ew e = Czero). { apply (x_wapx0 (g:=g) (X:=X)) in Z; auto. rewrite Cv_Cw in Z by (auto; apply T). apply (Cw_eq0 (co s)) in Z; auto; [apply I|apply T]. }
    exists B. split; [|split; [apply incl_refl|contradiction]]. constructor; auto. intros d Hd. rewrite Hm by auto. rewrite W, Cw_zero, Cmag2_0 by auto. ring.
  - assert (W: ew e <> Czero). { intros W. rewrite W in Z. rewrite wapx0_zero in Z. discriminate. }
    pose proof (tedge_nt (g:=g) (X:=X) _ _ _ _ T W) as Nt. assert (Nn: isnode (co s) KV (L - 1) (ep e)) by (destruct Nt as [Nt|[E _]]; [exact Nt|lia]).
    assert (Tw: forall x, toR X (nadd x (nmul prob (wmag2 s (ew e)))) = (toR X x + toR X prob * Cmag2 (Cw (co s) (ew e)))%R).
    { intros x. rewrite (x_add X Ex), (x_mul X Ex), toR_w by (auto; apply T). reflexivity. }
    assert (Tw0: toR X (nmul prob (wmag2 s (ew e))) = (toR X prob * Cmag2 (Cw (co s) (ew e)))%R).
    { rewrite (x_mul X Ex), toR_w by (auto; apply T). reflexivity. }
    assert (NA: ~ In (ep e) A). { intros H. apply HA in H. pose proof (isnode_fun _ _ _ H Nn). lia. }
    assert (NP: ~ In (ep e) P). { intros H. apply HP in H. destruct H as (l & Hl & H). pose proof (isnode_fun _ _ _ H Nn). lia. }
    assert (NdAB: NoDup (A ++ B)) by (apply nd_r in Hn; exact Hn).
    destruct (pmem (ep e) (bf_vis b)) eqn:Pm.
    + apply (pmem_In (ep e)) in Pm. apply Hv in Pm.
      assert (InB: In (ep e) B). { apply in_app_or in Pm. destruct Pm as [H|H]; [contradiction|]. apply in_app_or in H. destruct H; [contradiction|auto]. }
      exists B. split; [|split; [apply incl_refl|intros _ E; rewrite E in InB; exact InB]].
      constructor; cbn [bf_q bf_vis bf_pr]; auto. intros d Hd. rewrite mass_in by (auto; apply in_or_app; now right). rewrite Hm by auto. rewrite Tw. ring.
    + assert (NV: ~ In (ep e) (P ++ A ++ B)). { intros H. apply Hv in H. apply pmem_In in H. congruence. }
      exists (B ++ [ep e]). split; [|split; [apply incl_appl, incl_refl|intros _ E; apply app_eq_nil in E; destruct E; discriminate]].
      assert (Ea: P ++ A ++ B ++ [ep e] = (P ++ A ++ B) ++ [ep e]) by now rewrite <- !app_assoc.
      constructor; cbn [bf_q bf_vis bf_pr]; auto.
      * rewrite Hq. now rewrite <- app_assoc.
      * rewrite Ea. eapply Permutation_NoDup; [apply Permutation_app_comm|]. cbn [app]. constructor; auto.
      * intros p. rewrite Ea. cbn [In]. rewrite in_app_iff, Hv. cbn [In]. intuition.
      * intros p Hp. apply in_app_or in Hp. destruct Hp as [Hp|[<-|[]]]; auto.
      * intros p Hp. rewrite app_assoc in Hp. apply in_app_or in Hp. destruct Hp as [Hp|[<-|[]]]; auto.
      * intros d Hd. rewrite app_assoc, mass_app. rewrite mass_out by (intros H; apply NV, in_or_app; now right). rewrite Hm by auto.
        unfold mass. cbn [map fold_right]. rewrite pget_cons. replace (nptr_eqb (ep e) (ep e)) with true by (symmetry; now apply nptr_eqb_true). rewrite Tw0. ring.
Qed.

Lemma nodes_bound l : NoDup l -> (forall p, In p l -> exists n, p = PNode n /\ (n < ut_next (s_ut s KV))%nat) -> (length l <= ut_next (s_ut s KV))%nat.
Proof.
  intros Nd H. replace (ut_next (s_ut s KV)) with (length (map PNode (seq 0 (ut_next (s_ut s KV))))) by (now rewrite map_length, seq_length).
  apply NoDup_incl_length; auto. intros p Hp. destruct (H p Hp) as (n & -> & Hn). apply in_map. apply in_seq. lia.
Qed.
Lemma isnode_lt l p : isnode (co s) KV l p -> exists n, p = PNode n /\ (n < ut_next (s_ut s KV))%nat.
Proof.
  intros [H Np]. destruct p as [| |n]; [contradiction|contradiction|]. exists n. split; auto. destruct H as [H _].
  apply (ui_lt _ _ _ _ _ _ (ci_ut _ _ _ _ _ (iv_c _ _ _ _ _ I) KV)). exact H.
Qed.

Lemma bfsF_sp tot : forall fuel L A B P b, bi L A B P b tot -> A <> [] -> idx <= L -> (L = idx -> B = []) -> (ut_next (s_ut s KV) < fuel + length P)%nat ->
  exists A' P' b', bfsF N fuel idx b s = Ok b' s /\ bi idx A' [] P' b' tot.
Proof.
  induction fuel as [|fuel IH]; intros L A B P b Hb Ha HL HB Hf.
  - exfalso. assert (Bd: (length P <= ut_next (s_ut s KV))%nat); [|lia]. apply nodes_bound.
    + pose proof (bi_nd _ _ _ _ _ _ Hb) as Nd. exact (nd_l _ _ Nd).
    + intros p Hp. destruct (bi_P _ _ _ _ _ _ Hb p Hp) as (l & _ & H). eapply isnode_lt; eauto.
  - destruct A as [|p A]; [contradiction|]. clear Ha. cbn [bfsF]. rewrite (bi_q _ _ _ _ _ _ Hb). cbn [app].
    unfold bind at 1, get at 1. assert (Np: isnode (co s) KV L p) by (apply (bi_A _ _ _ _ _ _ Hb); now left).
    destruct (isnode_n (N:=N) _ _ _ _ Np) as (n & -> & Ln & Nv). cbn [isnull]. rewrite (isnode_lvl' _ _ _ Np).
    destruct (Z.eqb_spec L idx) as [->|Ne].
    + rewrite (HB eq_refl) in Hb. exists (PNode n :: A), P, b. split; auto.
    + cbn [succs fst snd]. change (Inv.qn N (co s) KV n) with (nod s KV n) in Nv.
      assert (Ch: forall i, (i < 2)%nat -> tedge (co s) KV (L - 1) (nthe (ne (nod s KV n)) i)). { intros i Hi. rewrite <- Nv. apply (child_ok (co s) KV n i (iv_c _ _ _ _ _ I) Ln). cbn; lia. }
      destruct (linked_ok (g:=g) (nb:=nb) (X:=X) _ _ _ (iv_c _ _ _ _ _ I) Ln) as (b' & K & _).
      assert (Len := no_len _ _ _ _ _ _ _ _ _ K). change (Inv.qn N (co s) KV n) with (nod s KV n) in Len. cbn [arity] in Len.
      assert (Rn: reach s KV root (PNode n)) by (apply (bi_r _ _ _ _ _ _ Hb); now left).
      assert (Rc: forall i, (i < 2)%nat -> reach s KV root (ep (nthe (ne (nod s KV n)) i))).
      { intros i Hi. clear - Rn Len Hi. remember (PNode n) as p. induction Rn as [p|m e p He Rn IHr]; subst; auto.
        - apply rc_step with (e := nthe (ne (nod s KV n)) i); [apply nth_In; lia|constructor].
        - apply rc_step with (e := e); auto. }
      pose proof (bi_pop _ _ _ _ _ _ _ Hb) as H1.
      set (prob := pget N (bf_pr b) (PNode n)) in *.
      set (e0 := nthe (ne (nod s KV n)) 0) in *. set (e1 := nthe (ne (nod s KV n)) 1) in *.
      destruct (bfsEdge_sp L A B (PNode n :: P) _ _ prob e0 ltac:(lia) H1 (Ch 0%nat ltac:(lia)) (fun _ => Rc 0%nat ltac:(lia))) as (B1 & H2 & Inc1 & Nz0).
      destruct (bfsEdge_sp L A B1 (PNode n :: P) _ _ prob e1 ltac:(lia) H2 (Ch 1%nat ltac:(lia)) (fun _ => Rc 1%nat ltac:(lia))) as (B2 & H3 & Inc2 & Nz1).
      clear H1 H2. set (b2 := bfsEdge N s prob e1 _) in *.
      assert (H4: bi L A B2 (PNode n :: P) b2 tot).
      { destruct H3 as [Q1 Q2 Q3 Q4 Q5 Q6 Q7 Q8]. constructor; auto. intros d Hd. rewrite Q8 by auto. cbv beta. unfold prob, e0, e1.
        rewrite (wt_step s idx d n L) by (auto; lia). ring. }
      assert (B2 <> []).
      { destruct (no_norm _ _ _ _ _ _ _ _ _ K Ex) as [[_ W]|[[W _]|(W & _)]]; change (Inv.qn N (co s) KV n) with (nod s KV n) in W.
        - apply Nz1. unfold e1. rewrite W. discriminate.
        - intros E. subst B2. destruct B1 as [|x B1]; [|apply (Inc2 x); now left]. apply Nz0; auto. unfold e0. rewrite W. discriminate.
        - intros E. subst B2. destruct B1 as [|x B1]; [|apply (Inc2 x); now left]. apply Nz0; auto. unfold e0. intros W'. apply W. rewrite W'. now apply Cw_zero. }
      destruct A as [|p A].
      * apply (IH (L - 1) B2 [] (PNode n :: P)); auto; [| |cbn [length]; lia]; [|lia].
        destruct H4 as [Q1 Q2 Q3 Q4 Q5 Q6 Q7 Q8]. cbn [app] in *. constructor; rewrite ?app_nil_r; auto; [intros ? []|].
        intros x Hx. destruct (Q6 x Hx) as (l & Hl & Hx'). exists l. split; [lia|auto].
      * apply (IH L (p :: A) B2 (PNode n :: P)); auto; [discriminate|lia|cbn [length]; lia].
Qed.
End Bfs.

(** ** assignProbabilities *)

Definition mok s (m : list (nptr * N)) : Prop :=
  (forall p x, pm_find m p = Some x -> toR X x = 1%R) /\
  (forall n e, pm_find m (PNode n) <> None -> In e (ne (nod s KV n)) -> pm_find m (ep e) <> None).

Lemma norm1 s n : inv s -> linked (co s) KV n ->
  (Cmag2 (Cw (co s) (ew (nthe (ne (nod s KV n)) 0))) + Cmag2 (Cw (co s) (ew (nthe (ne (nod s KV n)) 1))) = 1)%R.
Proof.
  intros I L. destruct (linked_ok (g:=g) (nb:=nb) (X:=X) _ _ _ (iv_c _ _ _ _ _ I) L) as (b & K & _). 
  pose proof (no_norm _ _ _ _ _ _ _ _ _ K Ex) as Nn. apply (nnormV (g:=g) (X:=X)) in Nn; auto. apply Nn.
Qed.

Lemma assignF_sp s : inv s -> forall f l e m, l + 2 <= Z.of_nat f -> (0 < f)%nat -> tedge (co s) KV l e -> mok s m ->
  exists x m', assignF N f e m s = Ok (x, m') s /\ mok s m' /\ pm_find m' (ep e) <> None /\ (forall p, pm_find m p <> None -> pm_find m' p <> None) /\
    toR X x = Cmag2 (Cw (co s) (ew e)).
Proof.
  intros I. induction f as [|f IH]; intros l e m Hf Hf0 T [M1 M2]; [lia|]. cbn [assignF]. unfold bind at 1, get at 1.
  assert (Tw: forall x, toR X x = 1%R -> toR X (nmul (wmag2 s (ew e)) x) = Cmag2 (Cw (co s) (ew e))).
  { intros x Hx. rewrite (x_mul X Ex), toR_w by apply T. rewrite Hx. ring. }
  destruct (pm_find m (ep e)) as [x|] eqn:Ef.
  - exists (nmul (wmag2 s (ew e)) x), m. split; [reflexivity|]. split; [split; auto|]. split; [rewrite Ef; discriminate|]. split; auto. apply Tw. eapply M1; eauto.
  - destruct (ep e) as [| |n] eqn:Ee.
    + pose proof (te_n _ _ _ _ _ _ _ T) as Tn. rewrite Ee in Tn. contradiction.
    + unfold bind, ret. cbn [fst snd]. eexists. eexists. split; [reflexivity|]. split; [split|].
      * intros p x E. cbn [pm_find] in E. destruct (nptr_eqb PTerm p); [injection E as <-; apply (x_1 X Ex)|]. eapply M1; eauto.
      * intros n e' H1 H2. cbn [pm_find] in *. destruct (nptr_eqb PTerm (ep e')); [discriminate|]. cbn [nptr_eqb] in H1. eapply M2; eauto.
      * split; [cbn [pm_find nptr_eqb]; discriminate|]. split; [|apply Tw; apply (x_1 X Ex)].
        intros p Hp. cbn [pm_find]. destruct (nptr_eqb PTerm p); [discriminate|auto].
    + pose proof (te_n _ _ _ _ _ _ _ T) as Tn. rewrite Ee in Tn. destruct Tn as [L Nv]. change (Inv.qn N (co s) KV n) with (nod s KV n) in Nv.
      destruct (linked_ok (g:=g) (nb:=nb) (X:=X) _ _ _ (iv_c _ _ _ _ _ I) L) as (b & K & _). pose proof (no_v _ _ _ _ _ _ _ _ _ K) as Hl. change (Inv.qn N (co s) KV n) with (nod s KV n) in Hl. rewrite Nv in Hl.
      assert (Ch: forall i, (i < 2)%nat -> tedge (co s) KV (l - 1) (nthe (ne (nod s KV n)) i)). { intros i Hi. rewrite <- Nv. apply (child_ok (co s) KV n i (iv_c _ _ _ _ _ I) L). cbn; lia. }
      assert (Len := no_len _ _ _ _ _ _ _ _ _ K). change (Inv.qn N (co s) KV n) with (nod s KV n) in Len. cbn [arity] in Len.
      destruct (IH (l - 1) (nthe (ne (nod s KV n)) 0) m) as (x0 & m0 & E0 & K0 & F0 & S0 & V0); [lia|lia|apply Ch; lia|split; auto|].
      destruct (IH (l - 1) (nthe (ne (nod s KV n)) 1) m0) as (x1 & m1 & E1 & K1 & F1 & S1 & V1); [lia|lia|apply Ch; lia|auto|].
      unfold bind. rewrite E0. cbn [fst snd]. rewrite E1. unfold ret. cbn [fst snd].
      assert (Vs: toR X (nadd x0 x1) = 1%R). { rewrite (x_add X Ex), V0, V1. now apply norm1. }
      eexists. eexists. split; [reflexivity|]. split; [split|].
      * intros p x E. cbn [pm_find] in E. destruct (nptr_eqb (PNode n) p); [injection E as <-; exact Vs|]. eapply (proj1 K1); eauto.
      * intros n' e' H1 H2. cbn [pm_find] in *. destruct (nptr_eqb (PNode n) (ep e')) eqn:Eq; [discriminate|].
        destruct (nptr_eqb (PNode n) (PNode n')) eqn:En.
        -- apply nptr_eqb_true in En. injection En as <-. destruct (In_nth _ _ Enull H2) as (i & Hi & Ei). rewrite Len in Hi.
           destruct i as [|[|i]]; [| |lia]; unfold nthe in *; rewrite Ei in *; auto.
        -- eapply (proj2 K1); eauto.
      * split; [cbn [pm_find]; replace (nptr_eqb (PNode n) (PNode n)) with true by (symmetry; now apply nptr_eqb_true); discriminate|]. split; [|now apply Tw].
        intros p Hp. cbn [pm_find]. destruct (nptr_eqb (PNode n) p); [discriminate|auto].
Qed.

Lemma mok_reach s m : mok s m -> forall p q, reach s KV p q -> pm_find m p <> None -> pm_find m q <> None.
Proof. intros [_ M2] p q R. induction R as [p|n e p He R IH]; intros H; auto. apply IH. eapply M2; eauto. Qed.

(** ** The sums *)

Definition qterm s (b : bfs N) (pr : option (list (nptr * N))) (p : nptr) (e : edge) : N :=
  match pr with
  | None => nmul (pget N (bf_pr b) p) (wmag2 s (ew e))
  | Some m => nmul (nmul (pget N (bf_pr b) p) (pget N m (ep e))) (wmag2 s (ew e))
  end.
Definition qadd s b pr (p : nptr) (e : edge) (x : N) : N := if wapx0 s (ew e) then x else nadd x (qterm s b pr p e).

Lemma qadd_sp s b pr n idx i x : inv s -> linked (co s) KV n -> nv (nod s KV n) = idx -> (i < 2)%nat ->
  (forall m, pr = Some m -> toR X (pget N m (ep (nthe (ne (nod s KV n)) i))) = 1%R) ->
  toR X (qadd s b pr (PNode n) (nthe (ne (nod s KV n)) i) x) = (toR X x + toR X (pget N (bf_pr b) (PNode n)) * wt s idx i (PNode n))%R.
Proof.
  intros I Ln Nv Hi Hpr. rewrite (wt_at s i n idx) by auto. unfold qadd. set (e := nthe (ne (nod s KV n)) i) in *.
  assert (T: tedge (co s) KV (idx - 1) e). { unfold e. rewrite <- Nv. apply (child_ok (co s) KV n i (iv_c _ _ _ _ _ I) Ln). cbn; lia. }
  destruct (wapx0 s (ew e)) eqn:Z.
  - apply (x_wapx0 (g:=g) (X:=X)) in Z; auto. rewrite Cv_Cw in Z by (auto; apply T). rewrite Z, Cmag2_0. ring.
  - rewrite (x_add X Ex). f_equal. unfold qterm. destruct pr as [m|].
    + rewrite !(x_mul X Ex), toR_w by apply T. rewrite (Hpr m eq_refl). ring.
    + rewrite (x_mul X Ex), toR_w by apply T. reflexivity.
Qed.

Lemma sumQ_fold s b pr idx : inv s -> forall A z, (forall p, In p A -> isnode (co s) KV idx p) ->
  (forall m, pr = Some m -> forall n i, In (PNode n) A -> (i < 2)%nat -> toR X (pget N m (ep (nthe (ne (nod s KV n)) i))) = 1%R) ->
  let r := fold_left (fun z p => (qadd s b pr p (fst (succs N s p)) (fst z), qadd s b pr p (snd (succs N s p)) (snd z))) A z in
  toR X (fst r) = (toR X (fst z) + mass (bf_pr b) (wt s idx 0) A)%R /\ toR X (snd r) = (toR X (snd z) + mass (bf_pr b) (wt s idx 1) A)%R.
Proof.
  intros I. induction A as [|p A IH]; intros z Na Hpr; cbv zeta; [cbn; split; ring|]. cbn [fold_left].
  destruct (isnode_n (N:=N) _ _ _ _ (Na p (or_introl eq_refl))) as (n & -> & Ln & Nv). change (Inv.qn N (co s) KV n) with (nod s KV n) in Nv.
  set (z' := (_, _)). destruct (IH z') as [R0 R1].
  { intros p Hp. apply Na. now right. } { intros m Hm n' i Hp Hi. apply (Hpr m Hm); auto. now right. }
  rewrite R0, R1. unfold z'. cbn [fst snd succs].
  rewrite (qadd_sp s b pr n idx 0), (qadd_sp s b pr n idx 1); auto; try (intros m Hm; apply (Hpr m Hm); auto; now left).
  unfold mass. cbn [map fold_right]. split; ring.
Qed.

Lemma sumQ_sp s idx root A P b tot pr : inv s -> bi s root idx idx A [] P b tot ->
  (forall m, pr = Some m -> forall n i, In (PNode n) A -> (i < 2)%nat -> toR X (pget N m (ep (nthe (ne (nod s KV n)) i))) = 1%R) ->
  toR X (fst (sumQ N s b pr)) = tot 0%nat /\ toR X (snd (sumQ N s b pr)) = tot 1%nat.
Proof.
  intros I Hb Hpr. change (sumQ N s b pr) with (fold_left (fun z p => (qadd s b pr p (fst (succs N s p)) (fst z), qadd s b pr p (snd (succs N s p)) (snd z))) (bf_q b) (n0, n0)).
  rewrite (bi_q _ _ _ _ _ _ _ _ _ Hb), app_nil_r.
  destruct (sumQ_fold s b pr idx I A (n0, n0) (bi_A _ _ _ _ _ _ _ _ _ Hb) Hpr) as [R0 R1]. rewrite R0, R1. cbn [fst snd]. rewrite (x_0 X Ex).
  rewrite <- (bi_m _ _ _ _ _ _ _ _ _ Hb 0%nat), <- (bi_m _ _ _ _ _ _ _ _ _ Hb 1%nat) by lia. rewrite !app_nil_r. split; ring.
Qed.

(** determineMeasurementProbabilities yields the two squared lengths. *)
Theorem measureProbs_sp s l e idx norm : inv s -> tedge (co s) KV l e -> ew e <> Czero -> 0 <= idx <= l ->
  exists x y, measureProbs N e idx norm s = Ok (x, y) s /\
    toR X x = nrm2 (Z.to_nat (l + 1)) (proj idx 0 (de (co s) KV e)) /\ toR X y = nrm2 (Z.to_nat (l + 1)) (proj idx 1 (de (co s) KV e)).
Proof.
  intros I T W Hi. pose proof (tedge_nt (g:=g) (X:=X) _ _ _ _ T W) as Nt. assert (Nn: isnode (co s) KV l (ep e)) by (destruct Nt as [Nt|[E _]]; [exact Nt|lia]).
  set (tot := fun d => nrm2 (Z.to_nat (l + 1)) (proj idx d (de (co s) KV e))).
  assert (Hl: l < s_nq s). { pose proof (isnode_lvl (g:=g) (nb:=nb) (X:=X) _ _ _ _ (iv_c _ _ _ _ _ I) Nn) as H. apply H. }
  destruct (bfsF_sp s I (ep e) idx (proj1 Hi) tot (S (S (ut_next (s_ut s KV)))) l [ep e] [] [] (BF [(ep e, wmag2 s (ew e))] [ep e] [ep e])) as (A & P & b & E & Hb).
  { constructor; cbn [bf_q bf_vis bf_pr app].
    - reflexivity.
    - constructor; [intros []|constructor].
    - reflexivity.
    - intros p [<-|[]]. exact Nn.
    - intros p [].
    - intros p [].
    - intros p [<-|[]]. constructor.
    - intros d Hd. unfold mass. cbn [map fold_right]. rewrite pget_cons. replace (nptr_eqb (ep e) (ep e)) with true by (symmetry; now apply nptr_eqb_true).
      rewrite toR_w by apply T. unfold tot, wt. rewrite (isnode_lvl' _ _ _ Nn).
      rewrite (nrm2_scale _ (Cw (co s) (ew e)) (proj idx d (de (co s) KV e)) (proj idx d (dn (co s) KV (ep e)))); [ring|]. intros p Hp. rewrite <- proj_scale. reflexivity. }
  { discriminate. } { lia. } { reflexivity. } { cbn [length]. lia. }
  unfold measureProbs. unfold bind at 1. rewrite E. destruct norm.
  - destruct (sumQ_sp s idx (ep e) A P b tot None I Hb) as [R0 R1]; [discriminate|].
    exists (fst (sumQ N s b None)), (snd (sumQ N s b None)). split; [unfold ret; now destruct (sumQ N s b None)|]. split; auto.
  - destruct (assignF_sp s I (fuelof N s) l e []) as (x & m & Ea & Mk & F & _ & _).
    { unfold fuelof. lia. } { unfold fuelof. lia. } { exact T. } { split; [discriminate|]. intros n e' H. now cbn in H. }
    destruct (sumQ_sp s idx (ep e) A P b tot (Some m) I Hb) as [R0 R1].
    { intros m' Em n i Hn Hi'. injection Em as <-.
      assert (Rn: reach s KV (ep e) (PNode n)) by (apply (bi_r _ _ _ _ _ _ _ _ _ Hb); rewrite app_nil_r; exact Hn).
      assert (Fn: pm_find m (PNode n) <> None) by (eapply mok_reach; eauto).
      assert (Fc: pm_find m (ep (nthe (ne (nod s KV n)) i)) <> None).
      { apply (proj2 Mk n); auto. destruct (bi_A _ _ _ _ _ _ _ _ _ Hb _ Hn) as [[L _] _].
        destruct (linked_ok (g:=g) (nb:=nb) (X:=X) _ _ _ (iv_c _ _ _ _ _ I) L) as (b' & K & _). apply nth_In. change (nod s KV n) with (Inv.qn N (co s) KV n). rewrite (no_len _ _ _ _ _ _ _ _ _ K). exact Hi'. }
      unfold pget. destruct (pm_find m (ep (nthe (ne (nod s KV n)) i))) as [y|] eqn:Ey; [|congruence]. exact (proj1 Mk _ _ Ey). }
    unfold bind. rewrite Ea. unfold ret. cbn [snd].
    exists (fst (sumQ N s b (Some m))), (snd (sumQ N s b (Some m))). split; [now destruct (sumQ N s b (Some m))|]. split; auto.
Qed.
End Ex.
End MeasL.
