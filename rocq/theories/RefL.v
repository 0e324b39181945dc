(** Reference counts: after any sequence of incRef and decRef calls every count is the
    number of references held by the user plus the number of edges from referenced nodes. *)
From Coq Require Import ZArith List Bool Lia Arith Reals Lra Permutation.
From Verif Require Import Num Base CTable CTableWf Cx State Pkg Inv InvL PrimL NormL MkL TrL AddL MulL KronL CanonL IdentL GcL.
Import ListNotations.
Local Open Scope Z_scope.

(** ** Sums over lists *)
Fixpoint sumZ {A} (f : A -> Z) (l : list A) : Z :=
  match l with [] => 0 | a :: r => f a + sumZ f r end.

Lemma sumZ_ext {A} (f g : A -> Z) l : (forall a, In a l -> f a = g a) -> sumZ f l = sumZ g l.
Proof. induction l as [|a l IH]; cbn; intros H; auto. rewrite (H a), IH; auto. Qed.
Lemma sumZ_app {A} (f : A -> Z) l r : sumZ f (l ++ r) = sumZ f l + sumZ f r.
Proof. induction l as [|a l IH]; cbn; lia. Qed.
Lemma sumZ_perm {A} (f : A -> Z) l r : Permutation l r -> sumZ f l = sumZ f r.
Proof. induction 1; cbn; lia. Qed.
Lemma sumZ_zero {A} (f : A -> Z) l : (forall a, In a l -> f a = 0) -> sumZ f l = 0.
Proof. induction l as [|a l IH]; cbn; intros H; auto. rewrite (H a), IH; auto. Qed.
Lemma sumZ_nonneg {A} (f : A -> Z) l : (forall a, In a l -> 0 <= f a) -> 0 <= sumZ f l.
Proof. induction l as [|a l IH]; cbn; intros H; [lia|]. specialize (H a (or_introl eq_refl)) as Ha. specialize (IH (fun b Hb => H b (or_intror Hb))). lia. Qed.
Lemma sumZ_ge {A} (f : A -> Z) l a : (forall b, In b l -> 0 <= f b) -> In a l -> f a <= sumZ f l.
Proof.
  induction l as [|x l IH]; cbn; intros H []; subst.
  - pose proof (sumZ_nonneg f l (fun b Hb => H b (or_intror Hb))). lia.
  - pose proof (H x (or_introl eq_refl)). specialize (IH (fun b Hb => H b (or_intror Hb)) H0). lia.
Qed.
Lemma sumZ_sub {A} (f : A -> Z) (l r : list A) : NoDup l -> NoDup r -> incl l r -> (forall a, In a r -> ~ In a l -> f a = 0) -> sumZ f r = sumZ f l.
Proof.
  revert r. induction l as [|a l IH]; intros r Nl Nr I Z.
  - cbn. apply sumZ_zero. auto.
  - destruct (in_split a r) as (r1 & r2 & ->); [apply I; now left|].
    rewrite <- (sumZ_perm f (a :: r1 ++ r2)) by apply Permutation_middle. cbn. f_equal. inversion_clear Nl.
    apply NoDup_remove in Nr as Nr'. destruct Nr' as [Nr1 Nr2]. apply IH; auto.
    + intros x Hx. assert (Hx': In x (r1 ++ a :: r2)) by (apply I; now right). apply in_app_or in Hx'. apply in_or_app. destruct Hx' as [|[->|]]; auto. contradiction.
    + intros x Hx Nx. apply Z; [apply in_app_or in Hx; apply in_or_app; cbn; tauto|]. intros [->|Hl]; auto.
Qed.
Lemma sumZ_upd {A} (f h : A -> Z) l a : NoDup l -> In a l -> (forall x, x <> a -> h x = f x) -> sumZ h l = sumZ f l + (h a - f a).
Proof.
  intros N I H. destruct (in_split a l I) as (l1 & l2 & ->). rewrite !sumZ_app. cbn. apply NoDup_remove_2 in N.
  rewrite (sumZ_ext h f l1), (sumZ_ext h f l2); [lia| |]; intros x Hx; apply H; intros ->; apply N, in_or_app; auto.
Qed.

(** Occurrences of a node and of a table entry in an edge. *)
Definition occN (m : nat) (e : edge) : Z := match ep e with PNode n => if Nat.eqb n m then 1 else 0 | _ => 0 end.
Definition occP (a : nat) (p : eptr) : Z := match ep_at p with ATab b => if Nat.eqb b a then 1 else 0 | _ => 0 end.
Definition occA (a : nat) (e : edge) : Z :=
  if ceqb (ew e) Czero || ceqb (ew e) Cone then 0 else occP a (cr (ew e)) + occP a (ci (ew e)).

Lemma occN_range m e : 0 <= occN m e.
Proof. unfold occN. destruct (ep e); try lia. destruct (Nat.eqb _ _); lia. Qed.
Lemma occP_range a p : 0 <= occP a p.
Proof. unfold occP. destruct (ep_at p); try lia. destruct (Nat.eqb _ _); lia. Qed.
Lemma occA_range a e : 0 <= occA a e.
Proof. unfold occA. destruct (_ || _); [lia|]. pose proof (occP_range a (cr (ew e))). pose proof (occP_range a (ci (ew e))). lia. Qed.

Section RefL.
Context {N : num} {g : cfg N} {nb : kind -> Z} {X : numx N (g_ct g)} (G : gok g).
Local Notation cf := (g_ct g).
Local Notation co := (co N).
Local Notation qn := (qn N).
Local Notation linked := (linked N).
Local Notation c_ut := (c_ut N).
Local Notation Cw := (Cw N g X).
Local Notation Cv := (Cv N g X).
Local Notation Cv2 := (Cv2 N g X).
Local Notation dn := (dn N g X).
Local Notation de := (de N g X).
Local Notation dg := (dg N g X).
Local Notation wtab := (wtab N g X).
Local Notation etn := (etn N).
Local Notation isnode := (isnode N).
Local Notation tedge := (tedge N g X).
Local Notation gedge := (gedge N g X).
Local Notation cinv := (cinv N g nb X).
Local Notation uinv := (uinv N g nb X).
Local Notation nodeok := (nodeok N g nb X).
Local Notation inv := (inv N g nb X).
Local Notation step := (step N g nb X).
Local Notation qext := (qext N).
Local Notation owns := (owns N).
Local Notation wok := (wok N g X).
Local Notation wp := (wp N).
Local Notation al0 := (al0 N g X).
Local Notation nnorm := (nnorm N g X).
Local Notation iedge := (iedge (g:=g) (X:=X)).
Local Notation trsp := (trsp (nb:=nb) (X:=X)).
Local Notation unok := (unok N g X).
Local Notation binok := (binok N g X).
Local Notation addok := (addok N g X).
Local Notation tinv := (tinv N g X).
Local Notation vres := (vres N g X).
Local Notation dv := (dv N g X).
Local Notation mkpost := (mkpost (nb:=nb) (X:=X)).
Local Notation mulCached_sp := (mulCached_sp (nb:=nb) (X:=X) G).
Local Notation addCached_sp := (addCached_sp (nb:=nb) (X:=X) G).
Local Notation getCached_sp := (getCached_sp (nb:=nb) (X:=X) G).
Local Notation makeDDNode_sp := (makeDDNode_sp (nb:=nb) (X:=X) G).
Local Notation lookupC_sp := (lookupC_sp (nb:=nb) (X:=X) G).
Local Notation tedge_gedge := (tedge_gedge (nb:=nb) (X:=X)).
Local Notation child_ok := (child_ok (nb:=nb) (X:=X)).
Local Notation dn_ext := (dn_ext (nb:=nb) (X:=X)).
Local Notation Cw_eq0 := (Cw_eq0 (nb:=nb) (X:=X)).
Local Notation addInsert_sp := (addInsert_sp (g:=g) (nb:=nb) (X:=X)).
Local Notation binInsert_sp := (binInsert_sp (g:=g) (nb:=nb) (X:=X)).
Local Notation unInsert_sp := (unInsert_sp (g:=g) (nb:=nb) (X:=X)).
Local Notation addLookup_sp := (addLookup_sp (g:=g) (nb:=nb) (X:=X)).
Local Notation binLookup_sp := (binLookup_sp (g:=g) (nb:=nb) (X:=X)).
Local Notation unLookup_sp := (unLookup_sp (g:=g) (nb:=nb) (X:=X)).
Local Notation cres := (cres (g:=g) (X:=X)).
Local Notation addsp := (addsp (g:=g) (nb:=nb) (X:=X)).
Local Notation rel_sp := (rel_sp (g:=g) (nb:=nb) (X:=X)).
Local Notation relif_sp := (relif_sp (g:=g) (nb:=nb) (X:=X)).
Local Notation mapM_cres := (mapM_cres (g:=g) (nb:=nb) (X:=X)).
Local Notation de_step := (de_step (g:=g) (nb:=nb) (X:=X)).
Local Notation dg_step := (dg_step (g:=g) (nb:=nb) (X:=X)).
Local Notation mulSelf_sp := (mulSelf_sp (g:=g) (nb:=nb) (X:=X)).
Local Notation finish_sp := (finish_sp (g:=g) (nb:=nb) (X:=X) G).
Local Notation add2F_sp := (add2F_sp (g:=g) (nb:=nb) (X:=X) G).
Implicit Types (s : st N).

Local Notation dn_nz := (dn_nz (g:=g) (nb:=nb) (X:=X)).
Local Notation idok := (idok N g X).
Local Notation makeDDNode_t := (makeDDNode_t (nb:=nb) (X:=X) G).
Local Notation mk_weight := (mk_weight (nb:=nb) (X:=X)).

Local Notation ptab := (ptab N g X).
Local Notation rv := (rv N g X).
Local Notation c_ct := (c_ct N).
Local Notation c_nq := (c_nq N).
Local Notation ut_allq := (ut_allq N nb).
Local Notation qsame := (qsame (N:=N)).
Local Notation rcact := (rcact (N:=N)).
Local Notation wprot := (wprot (N:=N)).
Local Notation pact := (pact (N:=N)).

(** ** States that only differ in reference counts *)
Definition nsame (a b : node) : Prop := ne b = ne a /\ nv b = nv a /\ nden b = nden a /\ nsym b = nsym a /\ nid b = nid a.
Record rsame (q q' : core N) : Prop := {
  rs_nq : c_nq q' = c_nq q;
  rs_ctab : ct_tab (c_ct q') = ct_tab (c_ct q);
  rs_val : forall a, ct_value (c_ct q') a = ct_value (c_ct q) a;
  rs_tab : forall k, ut_tab (c_ut q' k) = ut_tab (c_ut q k);
  rs_next : forall k, ut_next (c_ut q' k) = ut_next (c_ut q k);
  rs_av : forall k, ut_avail (c_ut q' k) = ut_avail (c_ut q k);
  rs_cnt : forall k, ut_count (c_ut q' k) = ut_count (c_ut q k);
  rs_pk : forall k, ut_peak (c_ut q' k) = ut_peak (c_ut q k);
  rs_node : forall k n, nsame (qn q k n) (qn q' k n);
  rs_un : forall k n, ~ linked q k n -> nref (qn q' k n) = nref (qn q k n) }.

Lemma rsame_refl q : rsame q q.
Proof. constructor; auto. intros; repeat split. Qed.
Lemma rs_linked q q' k n : rsame q q' -> linked q' k n <-> linked q k n.
Proof. intros S. unfold Inv.linked. rewrite (rs_tab _ _ S). tauto. Qed.
Lemma rsame_trans q1 q2 q3 : rsame q1 q2 -> rsame q2 q3 -> rsame q1 q3.
Proof.
  intros A B. destruct A as [A1 A2 A3 A4 A5 A6 A7 A8 A9 A10] eqn:EA. destruct B as [B1 B2 B3 B4 B5 B6 B7 B8 B9 B10].
  constructor; try (intros; congruence).
  - intros k n. destruct (A9 k n) as (P1 & P2 & P3 & P4 & P5). destruct (B9 k n) as (Q1 & Q2 & Q3 & Q4 & Q5). repeat split; congruence.
  - intros k n L. rewrite B10; auto. now rewrite (rs_linked _ _ _ _ A).
Qed.

Section R.
Context (q q' : core N) (S : rsame q q').
Lemma rs_rv p : rv q' p = rv q p.
Proof. unfold Inv.rv, xaddr. destruct (ep_at p); auto. now rewrite (rs_val _ _ S). Qed.
Lemma rs_qval p : qval N g X q' p = qval N g X q p.
Proof. unfold Inv.qval, xaddr. destruct (ep_at p); auto. now rewrite (rs_val _ _ S). Qed.
Lemma rs_Cw w : Cw q' w = Cw q w.
Proof. unfold Inv.Cw. now rewrite !rs_rv. Qed.
Lemma rs_ne k n : ne (qn q' k n) = ne (qn q k n).
Proof. apply (rs_node _ _ S). Qed.
Lemma rs_nv k n : nv (qn q' k n) = nv (qn q k n).
Proof. apply (rs_node _ _ S). Qed.
Lemma rs_dn k : forall path p, dn q' k p path = dn q k p path.
Proof. induction path as [|i path IH]; intros p; [reflexivity|]. destruct p; try reflexivity. cbn [Inv.dn]. rewrite rs_ne, rs_Cw, IH. reflexivity. Qed.
Lemma rs_de k e path : de q' k e path = de q k e path.
Proof. unfold Inv.de. now rewrite rs_Cw, rs_dn. Qed.
Lemma rs_dv k r path : dv q' k r path = dv q k r path.
Proof. unfold Inv.dv. now rewrite rs_dn. Qed.
Lemma rs_alive a : alive (c_ct q) a -> alive (c_ct q') a.
Proof. destruct a; cbn; auto. unfold ctlive. now rewrite (rs_ctab _ _ S). Qed.
Lemma rs_wtab w : wtab q w -> wtab q' w.
Proof. intros [[P1 P2] [Q1 Q2]]. split; split; auto using rs_alive. Qed.
Lemma rs_etn k l p : etn q k l p -> etn q' k l p.
Proof. destruct p; cbn; auto. intros [L V]. rewrite rs_nv. split; auto. now apply (rs_linked _ _ _ _ S). Qed.
Lemma rs_isnode k l p : isnode q k l p -> isnode q' k l p.
Proof. intros [P1 P2]. split; auto. now apply rs_etn. Qed.
Lemma rs_tedge k l e : tedge q k l e -> tedge q' k l e.
Proof. intros [P1 P2 P3 P4]. constructor; auto using rs_etn, rs_wtab. Qed.
Lemma rs_vres k l r : vres q k l r -> vres q' k l r.
Proof. intros (V1 & V2 & V3). split; [now apply rs_etn|auto]. Qed.
Lemma rs_addok k x y r : addok q k x y r -> addok q' k x y r.
Proof.
  intros (l & Hl & P1 & P2 & V & H). exists l. split; auto. split; [now apply rs_isnode|]. split; [now apply rs_isnode|].
  split; [now apply rs_vres|]. intros Ex path Vp. rewrite !rs_dv. auto.
Qed.
Lemma rs_kgood : forall n e, kgood N g X q' n e -> kgood N g X q n e.
Proof.
  induction n as [|n IH]; intros e; cbn [kgood]; auto. intros [H1 H2]. split.
  - intros H. apply H1. intros path V. rewrite rs_dn. auto.
  - destruct (ep e); auto. intros i Hi. apply IH. specialize (H2 i Hi). now rewrite rs_ne in H2.
Qed.
Lemma rs_binok b x y r : binok q b x y r -> binok q' b x y r.
Proof.
  destruct b; cbn [Inv.binok].
  - intros (W1 & W2 & l & Hl & P1 & P2 & V & H). split; auto. split; auto. exists l. split; auto.
    split; [now apply rs_isnode|]. split; [now apply rs_isnode|]. split; [now apply rs_vres|].
    intros Ex rs Vr. rewrite rs_dv. rewrite (H Ex rs Vr). apply Csum_ext. intros cs _. now rewrite !rs_de.
  - intros (W1 & W2 & l & Hl & P1 & P2 & V & H). split; auto. split; auto. exists l. split; auto.
    split; [now apply rs_isnode|]. split; [now apply rs_isnode|]. split; [now apply rs_vres|].
    intros Ex rs cs Vr Vc. rewrite rs_dv. rewrite (H Ex rs cs Vr Vc). apply Csum_ext. intros ks _. now rewrite !rs_de.
  - intros (W1 & W2 & l & Hl & P1 & P2 & V & H). split; auto. split; auto. exists l. split; auto.
    split; [now apply rs_isnode|]. split; [now apply rs_isnode|]. split; auto.
    intros Ex. rewrite (H Ex). unfold ipsem. apply Csum_ext. intros cs _. now rewrite !rs_de.
  - intros (lx & ly & Hl & P1 & W & T & Hy & Ty & V & Z & H). exists lx, ly. split; auto.
    split; [now apply rs_isnode|]. split; [now apply rs_wtab|]. split; [now apply rs_tedge|].
    split; auto. split; auto. split; [now apply rs_vres|]. split; auto.
    intros Ex Kg p1 p2 V1 V2. rewrite rs_dv, !rs_de. apply H; auto. discriminate.
  - intros (lx & ly & Hl & P1 & W & T & Hy & Ty & V & Z & H). exists lx, ly. split; auto.
    split; [now apply rs_isnode|]. split; [now apply rs_wtab|]. split; [now apply rs_tedge|].
    split; auto. split; auto. split; [now apply rs_vres|]. split; auto.
    intros Ex Kg p1 p2 V1 V2. rewrite rs_dv, !rs_de. apply H; auto. intros E. apply rs_kgood. auto.
  - intros (W1 & W2 & l & a & b & Hl & Ea & Eb & P1 & P2 & V & H). split; auto. split; auto. exists l, a, b.
    assert (Hn: forall p, hnode N q l p -> hnode N q' l p) by (intros [p|p]; cbn [hnode]; apply rs_isnode).
    assert (Hv: forall p path, hn N g X q' p path = hn N g X q p path) by (intros [p|p] path; cbn [hn]; apply rs_dn).
    split; [auto|]. split; [auto|]. split; [auto|]. split; [auto|]. split; [auto|]. split; [now apply rs_vres|].
    intros Ex rs cs Vr Vc. rewrite rs_dv. rewrite (H Ex rs cs Vr Vc). apply Csum_ext. intros ks _. now rewrite !Hv.
Qed.
Lemma rs_unok u a r : unok q u a r -> unok q' u a r.
Proof.
  intros (l & Hl & P & W & T & H). exists l. split; auto. split; [now apply rs_isnode|]. split; [now apply rs_wtab|].
  split; [now apply rs_tedge|]. intros Ex path V. specialize (H Ex path V). now rewrite !rs_de.
Qed.
Lemma rs_idok i e : idok q i e -> idok q' i e.
Proof.
  intros H P. destruct (H P) as (B1 & T & B3 & B4). rewrite (rs_nq _ _ S). split; auto. split; [now apply rs_tedge|].
  split; auto. intros Ex. destruct (B4 Ex) as (C1 & C2 & C3). split; [now apply rs_isnode|]. split; auto. intros path V. rewrite rs_dn. auto.
Qed.
Lemma rs_tinv s s' : s_add s' = s_add s -> s_bin s' = s_bin s -> s_un s' = s_un s -> s_id s' = s_id s -> tinv q s -> tinv q' s'.
Proof.
  intros E1 E2 E3 E4 [T1 T2 T3 T4 T5]. constructor; rewrite ?E1, ?E2, ?E3, ?E4.
  - intros. apply rs_addok. eapply T1; eauto.
  - intros. apply rs_binok. eapply T2; eauto.
  - intros. apply rs_unok. eapply T3; eauto.
  - intros. apply rs_idok. auto.
  - unfold tcnt in *. now rewrite E1, E2, E3.
Qed.

Lemma rs_allq k : ut_allq q' k = ut_allq q k.
Proof. unfold Inv.ut_allq. now rewrite (rs_nq _ _ S), (rs_tab _ _ S). Qed.

Lemma rs_nodeok k v b n : 0 <= nref (qn q' k n) <= RCMAX -> nodeok q k v b n -> nodeok q' k v b n.
Proof.
  intros Hr [K1 K2 K3 K4 K5 K6 K7 K8 K9]. constructor; rewrite ?rs_ne, ?rs_nv; auto.
  - rewrite (rs_nq _ _ S). auto.
  - intros e He. apply rs_tedge. auto.
  - intros Ex. specialize (K7 Ex). unfold Inv.nnorm in *. destruct k.
    + rewrite !rs_Cw. exact K7.
    + destruct K7 as (am & Q1 & Q2 & Q3 & Q4). exists am. split; auto. split; auto. split; intros i Hi; rewrite rs_Cw; auto.
    + destruct K7 as (am & Q1 & Q2 & Q3 & Q4). exists am. split; auto. split; auto. split; intros i Hi; rewrite rs_Cw; auto.
  - intros Ex Hk Hs path V. rewrite !rs_dn. destruct (rs_node _ _ S k n) as (_ & _ & _ & F & _). rewrite F in Hs. auto.
  - intros Ex Hk Hs path V. rewrite !rs_dn. destruct (rs_node _ _ S k n) as (_ & _ & _ & _ & F). rewrite F in Hs. auto.
Qed.

Lemma rs_cinv : cinv q -> ctwf cf (c_ct q') -> (ex X -> xct X (c_ct q')) ->
  (forall k n, linked q k n -> 0 <= nref (qn q' k n) <= RCMAX) -> cinv q'.
Proof.
  intros I W Hx Hr. constructor; auto. { rewrite (rs_nq _ _ S). apply I. }
  intros k. destruct (ci_ut _ _ _ _ _ I k) as [U1 U2 U3 U4 U5 U6 U7 U8 U9 U10]. constructor; rewrite ?(rs_tab _ _ S), ?(rs_next _ _ S), ?(rs_av _ _ S), ?(rs_cnt _ _ S), ?(rs_pk _ _ S); auto.
  - intros v b n H. apply rs_nodeok; auto. apply Hr. now exists v, b.
  - intros n L. apply U4. now apply (rs_linked _ _ _ _ S).
  - intros n Hn. destruct (U6 n Hn). split; auto. now rewrite (rs_linked _ _ _ _ S).
  - intros n Hn. rewrite (rs_un _ _ S); auto. intros L. apply U4 in L. lia.
  - intros v b n m Hn Hm. rewrite !rs_ne. destruct (rs_node _ _ S k n) as (_ & _ & -> & _). destruct (rs_node _ _ S k m) as (_ & _ & -> & _). rewrite (qes_eq q q'); [apply (U8 v b); auto|]. intros e _. now rewrite !rs_qval.
  - rewrite rs_allq. auto.
Qed.
End R.

(** ** The counting invariant *)

(** Edges leading out of a node that has references. *)
Definition outs (q : core N) (k : kind) (n : nat) : list edge := if nref (qn q k n) =? 0 then [] else ne (qn q k n).
Definition SN (q : core N) (k : kind) (m : nat) : Z := sumZ (fun n => sumZ (occN m) (outs q k n)) (ut_allq q k).
Definition SA1 (q : core N) (k : kind) (a : nat) : Z := sumZ (fun n => sumZ (occA a) (outs q k n)) (ut_allq q k).
Definition SA (q : core N) (a : nat) : Z := SA1 q KV a + SA1 q KM a + SA1 q KD a.
(** Number of referenced nodes on a level. *)
Definition nact (q : core N) (k : kind) (n : nat) : Z := if nref (qn q k n) =? 0 then 0 else 1.
Definition AC (q : core N) (k : kind) (v : Z) : Z := sumZ (fun n => if nv (qn q k n) =? v then nact q k n else 0) (ut_allq q k).
Definition ACall (q : core N) (k : kind) : Z := sumZ (nact q k) (ut_allq q k).

(** [UW], [UN]: references held from outside; [UA]: levels still to be updated. *)
Record rcinv (q : core N) (UW : nat -> Z) (UN : kind -> nat -> Z) (UA : kind -> Z -> Z) (UC : kind -> Z) : Prop := {
  rc_n : forall k m, linked q k m -> nref (qn q k m) = RCMAX \/ nref (qn q k m) = UN k m + SN q k m;
  rc_nl : forall k m, ~ linked q k m -> UN k m = 0;
  rc_a : forall a, ctlive (c_ct q) a -> ce_rc (ct_heap (c_ct q) a) = RCMAX \/ ce_rc (ct_heap (c_ct q) a) = UW a + SA q a;
  rc_al : forall a, ~ ctlive (c_ct q) a -> UW a = 0;
  rc_act : forall k v, ut_active (c_ut q k) v = UA k v + AC q k v;
  rc_tot : forall k, ut_actcount (c_ut q k) = UC k + ACall q k }.

Lemma SN_nonneg q k m : 0 <= SN q k m.
Proof. apply sumZ_nonneg. intros n _. apply sumZ_nonneg. intros e _. apply occN_range. Qed.
Lemma SA1_nonneg q k a : 0 <= SA1 q k a.
Proof. apply sumZ_nonneg. intros n _. apply sumZ_nonneg. intros e _. apply occA_range. Qed.
Lemma SA_nonneg q a : 0 <= SA q a.
Proof. unfold SA. pose proof (SA1_nonneg q KV a). pose proof (SA1_nonneg q KM a). pose proof (SA1_nonneg q KD a). lia. Qed.

Lemma rcinv_rcact q UW UN UA UC : cinv q -> rcinv q UW UN UA UC -> (forall a, 0 <= UW a) -> (forall k m, 0 <= UN k m) -> rcact q.
Proof.
  intros I [R1 R2 R3 R4 R5 R6] PW PN k n L Hn e He.
  assert (On: outs q k n = ne (qn q k n)). { unfold outs. destruct (Z.eqb_spec (nref (qn q k n)) 0); [contradiction|reflexivity]. }
  assert (Hall: In n (ut_allq q k)) by now apply (allq_In (g:=g) (X:=X)).
  destruct (linked_ok _ _ _ I L) as (b & K & _). pose proof (no_es _ _ _ _ _ _ _ _ _ K e He) as Te. split.
  - destruct (ep e) as [| |m] eqn:E; cbn; auto.
    pose proof (te_n _ _ _ _ _ _ _ Te) as Tn. rewrite E in Tn. destruct Tn as [Lm _].
    assert (1 <= SN q k m).
    { unfold SN. eapply Z.le_trans; [|apply (sumZ_ge (fun n => sumZ (occN m) (outs q k n)) (ut_allq q k) n); auto].
      - cbn. rewrite On. eapply Z.le_trans; [|apply (sumZ_ge (occN m) _ e); auto; intros; apply occN_range]. unfold occN. rewrite E, Nat.eqb_refl. lia.
      - intros x _. apply sumZ_nonneg. intros y _. apply occN_range. }
    destruct (R1 k m Lm) as [->| ->]; [unfold RCMAX; lia|]. specialize (PN k m). lia.
  - intros a Ha. assert (La: ctlive (c_ct q) a).
    { destruct (te_w _ _ _ _ _ _ _ Te) as [[W1 _] [W2 _]]. destruct Ha as [Ha|Ha]; rewrite Ha in *; auto. }
    assert (1 <= occA a e).
    { unfold occA. destruct (ceqb (ew e) Czero) eqn:Ez; [apply ceqb_spec in Ez; rewrite Ez in Ha; cbn in Ha; destruct Ha; discriminate|].
      destruct (ceqb (ew e) Cone) eqn:Eo; [apply ceqb_spec in Eo; rewrite Eo in Ha; cbn in Ha; destruct Ha; discriminate|]. cbn.
      pose proof (occP_range a (cr (ew e))). pose proof (occP_range a (ci (ew e))).
      destruct Ha as [Ha|Ha]; unfold occP in *; rewrite Ha in *; rewrite Nat.eqb_refl in *; lia. }
    assert (1 <= SA1 q k a).
    { unfold SA1. eapply Z.le_trans; [|apply (sumZ_ge (fun n => sumZ (occA a) (outs q k n)) (ut_allq q k) n); auto].
      - cbn. rewrite On. eapply Z.le_trans; [|apply (sumZ_ge (occA a) _ e); auto; intros; apply occA_range]. lia.
      - intros x _. apply sumZ_nonneg. intros y _. apply occA_range. }
    assert (1 <= SA q a). { unfold SA. pose proof (SA1_nonneg q KV a). pose proof (SA1_nonneg q KM a). pose proof (SA1_nonneg q KD a). destruct k; lia. }
    destruct (R3 a La) as [->| ->]; [unfold RCMAX; lia|]. specialize (PW a). lia.
Qed.

Lemma rcinv_eq q UW UN UA UC UW' UN' UA' UC' : rcinv q UW UN UA UC ->
  (forall a, UW' a = UW a) -> (forall k m, UN' k m = UN k m) -> (forall k v, UA' k v = UA k v) -> (forall k, UC' k = UC k) ->
  rcinv q UW' UN' UA' UC'.
Proof.
  intros [R1 R2 R3 R4 R5 R6] E1 E2 E3 E4. constructor; intros; rewrite ?E1, ?E2, ?E3, ?E4; auto.
Qed.

(** Nodes and entries that do not exist occur nowhere. *)
Lemma occ_unl q k n m : cinv q -> linked q k n -> ~ linked q k m -> sumZ (occN m) (ne (qn q k n)) = 0.
Proof.
  intros I L H. apply sumZ_zero. intros e He. destruct (linked_ok _ _ _ I L) as (b & K & _).
  pose proof (te_n _ _ _ _ _ _ _ (no_es _ _ _ _ _ _ _ _ _ K e He)) as Tn. unfold occN. destruct (ep e) as [| |j]; auto.
  destruct (Nat.eqb_spec j m); auto. subst. destruct Tn. contradiction.
Qed.
Lemma occA_unl q w a : wtab q w -> ~ ctlive (c_ct q) a -> occP a (cr w) = 0 /\ occP a (ci w) = 0.
Proof.
  intros [[W1 _] [W2 _]] H. unfold occP. split.
  - destruct (ep_at (cr w)); auto. destruct (Nat.eqb_spec n a); auto. subst. contradiction.
  - destruct (ep_at (ci w)); auto. destruct (Nat.eqb_spec n a); auto. subst. contradiction.
Qed.
Lemma occ_nal q k n a : cinv q -> linked q k n -> ~ ctlive (c_ct q) a -> sumZ (occA a) (ne (qn q k n)) = 0.
Proof.
  intros I L H. apply sumZ_zero. intros e He. destruct (linked_ok _ _ _ I L) as (b & K & _).
  destruct (occA_unl _ _ _ (te_w _ _ _ _ _ _ _ (no_es _ _ _ _ _ _ _ _ _ K e He)) H) as [O1 O2]. unfold occA. destruct (_ || _); lia.
Qed.
Lemma outs_unl q k n m : cinv q -> linked q k n -> ~ linked q k m -> sumZ (occN m) (outs q k n) = 0.
Proof. intros. unfold outs. destruct (_ =? 0); auto. now apply occ_unl. Qed.
Lemma outs_nal q k n a : cinv q -> linked q k n -> ~ ctlive (c_ct q) a -> sumZ (occA a) (outs q k n) = 0.
Proof. intros. unfold outs. destruct (_ =? 0); auto. now apply occ_nal. Qed.
Lemma SN_unl q k m : cinv q -> ~ linked q k m -> SN q k m = 0.
Proof. intros I H. apply sumZ_zero. intros n Hn. apply outs_unl; auto. now apply (allq_In (g:=g) (X:=X)) in Hn. Qed.
Lemma SA_nal q a : cinv q -> ~ ctlive (c_ct q) a -> SA q a = 0.
Proof.
  intros I H. assert (Z: forall k, SA1 q k a = 0) by (intros k; apply sumZ_zero; intros n Hn; apply outs_nal; auto; now apply (allq_In (g:=g) (X:=X)) in Hn).
  unfold SA. rewrite !Z. lia.
Qed.

(** ** Operations that do not touch reference counts *)
Lemma ext_sum q q' k (f f' : nat -> Z) : cinv q -> cinv q' -> qext q q' ->
  (forall n, linked q k n -> f' n = f n) -> (forall n, nref (qn q' k n) = 0 -> f' n = 0) ->
  sumZ f' (ut_allq q' k) = sumZ f (ut_allq q k).
Proof.
  intros I I' Ext H1 H2. rewrite (sumZ_sub f' (ut_allq q k) (ut_allq q' k)).
  - apply sumZ_ext. intros n Hn. apply H1. now apply (allq_In (g:=g) (X:=X)) in Hn.
  - now apply (allq_NoDup (g:=g) (X:=X)).
  - now apply (allq_NoDup (g:=g) (X:=X)).
  - intros n Hn. apply (allq_In (g:=g) (X:=X)) in Hn; auto. apply (allq_In (g:=g) (X:=X)); auto. eapply qe_linked; eauto.
  - intros n Hn Nn. apply (allq_In (g:=g) (X:=X)) in Hn; auto. apply H2. destruct (qe_ref _ _ _ Ext k n Hn); auto.
    exfalso. apply Nn. now apply (allq_In (g:=g) (X:=X)).
Qed.

Lemma rcinv_ext q q' UW UN UA UC : cinv q -> cinv q' -> qext q q' -> rcinv q UW UN UA UC -> rcinv q' UW UN UA UC.
Proof.
  intros I I' Ext [R1 R2 R3 R4 R5 R6].
  assert (HSN: forall k m, SN q' k m = SN q k m).
  { intros k m. apply ext_sum; auto.
    - intros n L. destruct (qe_same _ _ _ _ Ext L) as (E1 & E2 & E3 & E4). unfold outs. now rewrite <- E1, <- E2.
    - intros n Z. unfold outs. rewrite Z. reflexivity. }
  assert (HSA: forall k m, SA1 q' k m = SA1 q k m).
  { intros k m. apply ext_sum; auto.
    - intros n L. destruct (qe_same _ _ _ _ Ext L) as (E1 & E2 & E3 & E4). unfold outs. now rewrite <- E1, <- E2.
    - intros n Z. unfold outs. rewrite Z. reflexivity. }
  constructor.
  - intros k m L. rewrite HSN. destruct (Z.eq_dec (nref (qn q' k m)) (UN k m + SN q k m)) as [|Ne]; auto. left.
    destruct (Z.eq_dec (nref (qn q' k m)) RCMAX) as [|Ne2]; auto. exfalso.
    assert (NL: ~ linked q k m).
    { intros Lq. destruct (qe_same _ _ _ _ Ext Lq) as (_ & E & _). rewrite <- E in Ne, Ne2. destruct (R1 k m Lq); auto. }
    destruct (qe_ref _ _ _ Ext k m L) as [|Z]; auto. rewrite (R2 k m NL), (SN_unl q k m I NL) in Ne. lia.
  - intros k m L. apply R2. intros Lq. apply L. eapply qe_linked; eauto.
  - intros a L. unfold SA. rewrite !HSA. fold (SA q a). destruct (Z.eq_dec (ce_rc (ct_heap (c_ct q') a)) (UW a + SA q a)) as [|Ne]; auto. left.
    destruct (Z.eq_dec (ce_rc (ct_heap (c_ct q') a)) RCMAX) as [|Ne2]; auto. exfalso.
    assert (NL: ~ ctlive (c_ct q) a).
    { intros Lq. pose proof Lq as (ik & Hk). destruct (qe_ct _ _ _ Ext ik a Hk) as (_ & E). rewrite E in Ne, Ne2. destruct (R3 a Lq); auto. }
    destruct (qe_rc _ _ _ Ext a L) as [|Z]; auto. rewrite (R4 a NL), (SA_nal q a I NL) in Ne. lia.
  - intros a L. apply R4. intros Lq. apply L. apply (ctext_live _ _ _ (qe_ct _ _ _ Ext) Lq).
  - intros k v. destruct (qe_act _ _ _ Ext k) as (-> & _). rewrite R5. f_equal. symmetry. apply ext_sum; auto.
    + intros n L. destruct (qe_same _ _ _ _ Ext L) as (E1 & E2 & E3 & E4). unfold nact. now rewrite <- E3, <- E2.
    + intros n Z. unfold nact. rewrite Z. destruct (_ =? v); reflexivity.
  - intros k. destruct (qe_act _ _ _ Ext k) as (_ & -> & _). rewrite R6. f_equal. symmetry. apply ext_sum; auto.
    + intros n L. destruct (qe_same _ _ _ _ Ext L) as (E1 & E2 & E3 & E4). unfold nact. now rewrite <- E2.
    + intros n Z. unfold nact. rewrite Z. reflexivity.
Qed.

(** ** Garbage collection *)
Lemma gc_sum s s' k (f f' : nat -> Z) : inv s -> gcsafe (nb:=nb) (X:=X) s s' ->
  (forall n, f' n = f n) -> (forall n, nref (nod s k n) = 0 -> f n = 0) ->
  sumZ f' (ut_allq (co s') k) = sumZ f (ut_allq (co s) k).
Proof.
  intros [I _] GS H1 H2. destruct (gs_inv _ _ GS) as [I' _]. rewrite (sumZ_ext f' f) by auto. symmetry. apply sumZ_sub.
  - now apply (allq_NoDup (g:=g) (X:=X)).
  - now apply (allq_NoDup (g:=g) (X:=X)).
  - intros n Hn. apply (allq_In (g:=g) (X:=X)) in Hn; auto. apply (allq_In (g:=g) (X:=X)); auto. now apply (gs_lk _ _ GS).
  - intros n Hn Nn. apply (allq_In (g:=g) (X:=X)) in Hn; auto. apply H2. destruct (Z.eq_dec (nref (nod s k n)) 0); auto.
    exfalso. apply Nn. apply (allq_In (g:=g) (X:=X)); auto. now apply (gs_keepn _ _ GS).
Qed.

Lemma rcinv_gc s s' UW UN UA UC : inv s -> gcsafe (nb:=nb) (X:=X) s s' -> (forall a, 0 <= UW a) -> (forall k m, 0 <= UN k m) ->
  rcinv (co s) UW UN UA UC -> rcinv (co s') UW UN UA UC.
Proof.
  intros I GS PW PN [R1 R2 R3 R4 R5 R6]. pose proof (gs_same _ _ GS) as Sm.
  assert (HSN: forall k m, SN (co s') k m = SN (co s) k m).
  { intros k m. apply (gc_sum s s'); auto.
    - intros n. unfold outs. now rewrite (qs_qn _ _ _ _ Sm).
    - intros n Z. unfold outs. change (qn (co s) k n) with (nod s k n). rewrite Z. reflexivity. }
  assert (HSA: forall k m, SA1 (co s') k m = SA1 (co s) k m).
  { intros k m. apply (gc_sum s s'); auto.
    - intros n. unfold outs. now rewrite (qs_qn _ _ _ _ Sm).
    - intros n Z. unfold outs. change (qn (co s) k n) with (nod s k n). rewrite Z. reflexivity. }
  destruct Sm as (Sq & Sh & Su).
  constructor.
  - intros k m L. rewrite HSN. rewrite (qs_qn _ _ _ _ (gs_same _ _ GS)). apply R1. now apply (gs_lk _ _ GS).
  - intros k m L. destruct (Z.eq_dec (UN k m) 0) as [|Ne]; auto. exfalso.
    assert (NL: ~ linked (co s) k m).
    { intros Lq. apply L. apply (gs_keepn _ _ GS); auto. change (nod s k m) with (qn (co s) k m). destruct (R1 k m Lq) as [->| ->]; [unfold RCMAX; lia|].
      pose proof (SN_nonneg (co s) k m). specialize (PN k m). lia. }
    apply Ne. auto.
  - intros a L. unfold SA. rewrite !HSA, Sh. apply R3. now apply (gs_live _ _ GS).
  - intros a L. destruct (Z.eq_dec (UW a) 0) as [|Ne]; auto. exfalso.
    assert (NL: ~ ctlive (s_ct s) a).
    { intros Lq. apply L. apply (gs_keepa _ _ GS); auto. destruct (R3 a Lq) as [E|E]; cbn in E; rewrite E; [unfold RCMAX; lia|].
      pose proof (SA_nonneg (co s) a). specialize (PW a). lia. }
    apply Ne. apply R4. exact NL.
  - intros k v. destruct (gs_st _ _ GS k) as (E & _). cbn in *. rewrite E, R5. f_equal. symmetry. apply (gc_sum s s'); auto.
    + intros n. unfold nact. now rewrite (qs_qn _ _ _ _ (gs_same _ _ GS)).
    + intros n Z. unfold nact. change (qn (co s) k n) with (nod s k n). rewrite Z. destruct (_ =? v); reflexivity.
  - intros k. destruct (gs_st _ _ GS k) as (_ & E & _). cbn in *. rewrite E, R6. f_equal. symmetry. apply (gc_sum s s'); auto.
    + intros n. unfold nact. now rewrite (qs_qn _ _ _ _ (gs_same _ _ GS)).
    + intros n Z. unfold nact. change (qn (co s) k n) with (nod s k n). rewrite Z. reflexivity.
Qed.

(** ** Changing one count *)
Definition sct (q : core N) c : core N := Co N (c_nq q) c (c_ut q).
Lemma sct_same q c : ct_tab c = ct_tab (c_ct q) -> (forall a, ct_value c a = ct_value (c_ct q) a) -> rsame q (sct q c).
Proof. intros H1 H2. constructor; auto. intros; repeat split. Qed.

Lemma upd_val h a (x : centry N) b : ce_val x = ce_val (h a) -> ce_val (upd h a x b) = ce_val (h b).
Proof. intros H. destruct (upd_cases h a x b) as [[-> ->]|[_ ->]]; auto. Qed.

Lemma inc1 q UW UN UA UC p : cinv q -> alive (c_ct q) (ep_at p) -> rcinv q UW UN UA UC ->
  let q' := sct q (ct_incRef (c_ct q) p) in
  rsame q q' /\ cinv q' /\ rcinv q' (fun a => UW a + occP a p) UN UA UC.
Proof.
  intros I L R q'. destruct G as (Hcf & _).
  assert (Sm: rsame q q').
  { apply sct_same; unfold ct_incRef; destruct (ep_at p); auto. intros a. unfold ct_value. cbn. apply upd_val. reflexivity. }
  split; auto. split.
  - apply (rs_cinv q q' Sm I).
    + apply ct_incRef_wf; auto. apply I.
    + intros Ex. apply (x_inc X Ex); auto; [apply I|apply (ci_x _ _ _ _ _ I Ex)].
    + intros k n Ln. destruct (linked_ok _ _ _ I Ln) as (b & K & _). apply (no_ref _ _ _ _ _ _ _ _ _ K).
  - destruct R as [R1 R2 R3 R4 R5 R6]. constructor; auto.
    + intros a La. change (SA q' a) with (SA q a). assert (La': ctlive (c_ct q) a).
      { destruct La as (i & La). exists i. cbn in La. unfold ct_incRef in La. now destruct (ep_at p). }
      specialize (R3 a La'). cbn. unfold ct_incRef, occP. destruct (ep_at p) as [| | |b|b]; try (now rewrite Z.add_0_r).
      cbn. destruct (Nat.eqb_spec b a) as [->|Nb].
      * rewrite upd_eq. cbn. unfold rc_inc. destruct (Z.eqb_spec (ce_rc (ct_heap (c_ct q) a)) RCMAX); auto. lia.
      * rewrite upd_neq by auto. now rewrite Z.add_0_r.
    + intros a La. assert (La': ~ ctlive (c_ct q) a).
      { intros (i & H). apply La. exists i. cbn. unfold ct_incRef. now destruct (ep_at p). }
      rewrite R4; auto. unfold occP. destruct (ep_at p) as [| | |b|b]; auto. destruct (Nat.eqb_spec b a); auto. subst. contradiction.
Qed.

Lemma dec1 q UW UN UA UC p : cinv q -> alive (c_ct q) (ep_at p) -> rcinv q (fun a => UW a + occP a p) UN UA UC ->
  (forall a, 0 <= UW a) ->
  exists c', ct_decRef (c_ct q) p = Some c' /\ let q' := sct q c' in
  rsame q q' /\ cinv q' /\ rcinv q' UW UN UA UC.
Proof.
  intros I L R PW. destruct G as (Hcf & _).
  assert (Ex: exists c', ct_decRef (c_ct q) p = Some c').
  { unfold ct_decRef. destruct (ep_at p) as [| | |a|a] eqn:E; eauto. unfold rc_dec. destruct (Z.eqb_spec (ce_rc (ct_heap (c_ct q) a)) RCMAX); eauto.
    destruct (Z.eqb_spec (ce_rc (ct_heap (c_ct q) a)) 0) as [E0|]; eauto. exfalso. destruct (rc_a _ _ _ _ _ R a L) as [H|H]; [lia|].
    unfold occP in H. rewrite E, Nat.eqb_refl in H. pose proof (SA_nonneg q a). specialize (PW a). lia. }
  destruct Ex as (c' & Ec). exists c'. split; auto. intros q'.
  assert (Sm: rsame q q').
  { apply sct_same; unfold ct_decRef in Ec; destruct (ep_at p); try (injection Ec as <-; auto; fail); destruct (rc_dec _); try discriminate; injection Ec as <-; auto.
    intros a. unfold ct_value. cbn. apply upd_val. reflexivity. }
  split; auto. split.
  - apply (rs_cinv q q' Sm I).
    + eapply ct_decRef_wf; eauto. apply I.
    + intros Hx. eapply (x_dec X Hx); eauto; [apply I|apply (ci_x _ _ _ _ _ I Hx)].
    + intros k n Ln. destruct (linked_ok _ _ _ I Ln) as (b & K & _). apply (no_ref _ _ _ _ _ _ _ _ _ K).
  - destruct R as [R1 R2 R3 R4 R5 R6]. constructor; auto.
    + intros a La. change (SA q' a) with (SA q a). assert (La': ctlive (c_ct q) a).
      { destruct La as (i & La). exists i. now rewrite <- (rs_ctab _ _ Sm). }
      specialize (R3 a La'). cbn. unfold ct_decRef, occP in *. destruct (ep_at p) as [| | |b|b]; try (injection Ec as <-; now rewrite Z.add_0_r in R3).
      destruct (rc_dec _) as [r|] eqn:Er; [|discriminate]. injection Ec as <-. cbn. destruct (Nat.eqb_spec b a) as [->|Nb].
      * rewrite upd_eq. cbn. unfold rc_dec in Er. destruct (Z.eqb_spec (ce_rc (ct_heap (c_ct q) a)) RCMAX); [injection Er as <-; auto|].
        destruct (_ =? 0); [discriminate|]. injection Er as <-. lia.
      * rewrite upd_neq by auto. now rewrite Z.add_0_r in R3.
    + intros a La. assert (La': ~ ctlive (c_ct q) a).
      { intros (i & H). apply La. exists i. now rewrite (rs_ctab _ _ Sm). }
      specialize (R4 a La'). pose proof (occP_range a p). specialize (PW a). lia.
Qed.

(** setNodeRef *)
Definition snr (q : core N) k n r : core N :=
  Co N (c_nq q) (c_ct q) (fun k' => if kind_eqb k' k then ut_hs (c_ut q k) (upd (ut_heap (c_ut q k)) n (set_ref (ut_heap (c_ut q k) n) r)) else c_ut q k').
Lemma snr_qn q k n r k' m : qn (snr q k n r) k' m = if kind_eqb k' k && Nat.eqb m n then set_ref (qn q k n) r else qn q k' m.
Proof.
  unfold Inv.qn, snr. cbn. destruct (kind_eqb k' k) eqn:E; auto. apply kind_eqb_spec in E. subst k'. cbn.
  destruct (Nat.eqb_spec m n) as [->|Ne]; [now rewrite upd_eq|now rewrite upd_neq].
Qed.
Lemma snr_same q k n r : linked q k n -> rsame q (snr q k n r).
Proof.
  intros L. constructor; auto; try (intros k'; cbn; destruct (kind_eqb k' k) eqn:E; auto; apply kind_eqb_spec in E; now subst).
  - intros k' m. rewrite snr_qn. destruct (kind_eqb k' k) eqn:E; [|repeat split]. apply kind_eqb_spec in E. subst k'.
    destruct (Nat.eqb_spec m n) as [->|Ne]; repeat split.
  - intros k' m H. rewrite snr_qn. destruct (kind_eqb k' k) eqn:E; auto. apply kind_eqb_spec in E. subst k'.
    destruct (Nat.eqb_spec m n) as [->|Ne]; auto. contradiction.
Qed.
Lemma snr_cinv q k n r : cinv q -> linked q k n -> 0 <= r <= RCMAX -> cinv (snr q k n r).
Proof.
  intros I L Hr. apply (rs_cinv q _ (snr_same q k n r L) I); try apply I.
  intros k' m Lm. rewrite snr_qn. destruct (_ && _); auto. destruct (linked_ok _ _ _ I Lm) as (b & K & _). apply (no_ref _ _ _ _ _ _ _ _ _ K).
Qed.

Lemma snr_sum q k n r k' (f f' : nat -> Z) : cinv q -> linked q k n ->
  (forall m, (k' = k -> m <> n) -> f' m = f m) ->
  sumZ f' (ut_allq (snr q k n r) k') = sumZ f (ut_allq q k') + (if kind_eqb k' k then f' n - f n else 0).
Proof.
  intros I L H. rewrite (rs_allq _ _ (snr_same q k n r L)). destruct (kind_eqb k' k) eqn:E.
  - apply kind_eqb_spec in E. subst k'. apply sumZ_upd; auto.
    + now apply (allq_NoDup (g:=g) (X:=X)).
    + now apply (allq_In (g:=g) (X:=X)).
  - rewrite Z.add_0_r. apply sumZ_ext. intros m _. apply H. intros ->. now rewrite kind_eqb_refl in E.
Qed.

Lemma snr_rc q k n r UW UN UA UC : cinv q -> linked q k n -> nref (qn q k n) <> RCMAX -> 0 <= r <= RCMAX ->
  rcinv q UW UN UA UC ->
  let q' := snr q k n r in
  rcinv q' (fun a => UW a - (sumZ (occA a) (outs q' k n) - sumZ (occA a) (outs q k n)))
    (fun k' m => UN k' m + (if kind_eqb k' k then (if Nat.eqb m n then r - nref (qn q k n) else 0) - (sumZ (occN m) (outs q' k n) - sumZ (occN m) (outs q k n)) else 0))
    (fun k' v => UA k' v - (if kind_eqb k' k then if nv (qn q k n) =? v then nact q' k n - nact q k n else 0 else 0))
    (fun k' => UC k' - (if kind_eqb k' k then nact q' k n - nact q k n else 0)).
Proof.
  intros I L Hm Hr [R1 R2 R3 R4 R5 R6] q'. pose proof (snr_same q k n r L) as Sm. fold q' in Sm.
  pose proof (snr_cinv q k n r I L Hr) as I'. fold q' in I'. assert (L': linked q' k n) by now apply (rs_linked _ _ _ _ Sm).
  assert (Oth: forall k' m, (k' = k -> m <> n) -> qn q' k' m = qn q k' m).
  { intros k' m H. unfold q'. rewrite snr_qn. destruct (kind_eqb k' k) eqn:E; auto. apply kind_eqb_spec in E. destruct (Nat.eqb_spec m n); auto. exfalso. now apply H. }
  assert (HSN: forall k' m, SN q' k' m = SN q k' m + (if kind_eqb k' k then sumZ (occN m) (outs q' k n) - sumZ (occN m) (outs q k n) else 0)).
  { intros k' m. unfold SN. unfold q' at 2. rewrite (snr_sum q k n r k' (fun n => sumZ (occN m) (outs q k' n))); auto.
    - destruct (kind_eqb k' k) eqn:E; auto. apply kind_eqb_spec in E. now subst k'.
    - intros x Hx. unfold outs. now rewrite (Oth k' x Hx). }
  assert (HSA1: forall k' m, SA1 q' k' m = SA1 q k' m + (if kind_eqb k' k then sumZ (occA m) (outs q' k n) - sumZ (occA m) (outs q k n) else 0)).
  { intros k' m. unfold SA1. unfold q' at 2. rewrite (snr_sum q k n r k' (fun n => sumZ (occA m) (outs q k' n))); auto.
    - destruct (kind_eqb k' k) eqn:E; auto. apply kind_eqb_spec in E. now subst k'.
    - intros x Hx. unfold outs. now rewrite (Oth k' x Hx). }
  assert (HSA: forall a, SA q' a = SA q a + (sumZ (occA a) (outs q' k n) - sumZ (occA a) (outs q k n))).
  { intros a. unfold SA. rewrite !HSA1. destruct k; cbn [kind_eqb]; lia. }
  constructor.
  - intros k' m Lm. apply (rs_linked _ _ _ _ Sm) in Lm. rewrite HSN. specialize (R1 k' m Lm).
    unfold q' at 1 2. rewrite snr_qn. destruct (kind_eqb k' k) eqn:E; cbn [andb]; [|now rewrite !Z.add_0_r].
    apply kind_eqb_spec in E. subst k'. destruct (Nat.eqb_spec m n) as [->|Ne]; cbn [set_ref nref]; lia.
  - intros k' m Lm. rewrite (rs_linked _ _ _ _ Sm) in Lm. rewrite (R2 k' m Lm). destruct (kind_eqb k' k) eqn:E; auto. apply kind_eqb_spec in E. subst k'.
    destruct (Nat.eqb_spec m n) as [->|Ne]; [contradiction|]. rewrite (outs_unl q k n m), (outs_unl q' k n m); auto. now rewrite (rs_linked _ _ _ _ Sm).
  - intros a La. rewrite HSA. specialize (R3 a La). change (ct_heap (c_ct q') a) with (ct_heap (c_ct q) a). lia.
  - intros a La. change (c_ct q') with (c_ct q) in La. rewrite (R4 a La), (outs_nal q k n a), (outs_nal q' k n a); auto.
  - intros k' v. assert (E1: ut_active (c_ut q' k') = ut_active (c_ut q k')).
    { unfold q', snr. cbn. destruct (kind_eqb k' k) eqn:E; auto. apply kind_eqb_spec in E. now subst k'. }
    rewrite E1, R5. unfold AC at 2. unfold q' at 4.
    rewrite (snr_sum q k n r k' (fun n => if nv (qn q k' n) =? v then nact q k' n else 0)); auto.
    + fold (AC q k' v). destruct (kind_eqb k' k) eqn:E; [|lia]. apply kind_eqb_spec in E. subst k'. rewrite (rs_nv _ _ Sm). destruct (_ =? v); lia.
    + intros x Hx. unfold nact. now rewrite (Oth k' x Hx).
  - intros k'. assert (E1: ut_actcount (c_ut q' k') = ut_actcount (c_ut q k')).
    { unfold q', snr. cbn. destruct (kind_eqb k' k) eqn:E; auto. apply kind_eqb_spec in E. now subst k'. }
    rewrite E1, R6. unfold ACall at 2. unfold q' at 3. rewrite (snr_sum q k n r k' (nact q k')).
    + fold (ACall q k'). destruct (kind_eqb k' k) eqn:E; [|lia]. apply kind_eqb_spec in E. subst k'. lia.
    + auto.
    + auto.
    + intros x Hx. unfold nact. now rewrite (Oth k' x Hx).
Qed.

(** ** incRef and decRef *)
Record rst (s s' : st N) : Prop := {
  rt_same : rsame (co s) (co s');
  rt_inv : inv s';
  rt_cc : s_cc s' = s_cc s;
  rt_add : s_add s' = s_add s; rt_bin : s_bin s' = s_bin s; rt_un : s_un s' = s_un s; rt_id : s_id s' = s_id s }.
Lemma rst_refl s : inv s -> rst s s.
Proof. intros I. constructor; auto. apply rsame_refl. Qed.
Lemma rst_trans s1 s2 s3 : rst s1 s2 -> rst s2 s3 -> rst s1 s3.
Proof. intros [A1 A2 A3 A4 A5 A6 A7] [B1 B2 B3 B4 B5 B6 B7]. constructor; try congruence. eapply rsame_trans; eauto. Qed.
Lemma rst_mk s s' : inv s -> rsame (co s) (co s') -> cinv (co s') -> s_cc s' = s_cc s ->
  s_add s' = s_add s -> s_bin s' = s_bin s -> s_un s' = s_un s -> s_id s' = s_id s -> rst s s'.
Proof. intros I S C. intros. constructor; auto. constructor; auto. eapply rs_tinv; eauto. apply I. Qed.

Lemma cn_incRef_sp s e UW UN UA UC : inv s -> wtab (co s) (ew e) -> rcinv (co s) UW UN UA UC ->
  exists s', cn_incRef N (ew e) s = Ok tt s' /\ rst s s' /\ rcinv (co s') (fun a => UW a + occA a e) UN UA UC.
Proof.
  intros I [[W1 _] [W2 _]] R. unfold cn_incRef, occA. destruct (ceqb (ew e) Czero || ceqb (ew e) Cone).
  - exists s. split; auto. split; [now apply rst_refl|]. eapply rcinv_eq; eauto. intros; lia.
  - eexists. split; [reflexivity|]. destruct (inc1 _ _ _ _ _ _ (iv_c _ _ _ _ _ I) W1 R) as (S1 & C1 & R1).
    assert (W2': alive (c_ct (sct (co s) (ct_incRef (c_ct (co s)) (cr (ew e))))) (ep_at (ci (ew e)))) by now apply (rs_alive _ _ S1).
    destruct (inc1 _ _ _ _ _ _ C1 W2' R1) as (S2 & C2 & R2). split.
    + apply rst_mk; auto. eapply rsame_trans; eauto.
    + eapply rcinv_eq; eauto. intros; cbn; lia.
Qed.

Lemma cn_decRef_sp s e UW UN UA UC : inv s -> wtab (co s) (ew e) -> rcinv (co s) (fun a => UW a + occA a e) UN UA UC -> (forall a, 0 <= UW a) ->
  exists s', cn_decRef N (ew e) s = Ok tt s' /\ rst s s' /\ rcinv (co s') UW UN UA UC.
Proof.
  intros I [[W1 _] [W2 _]] R PW. unfold cn_decRef, occA in *. destruct (ceqb (ew e) Czero || ceqb (ew e) Cone).
  - exists s. split; auto. split; [now apply rst_refl|]. eapply rcinv_eq; eauto. intros; cbn; lia.
  - assert (R': rcinv (co s) (fun a => (UW a + occP a (ci (ew e))) + occP a (cr (ew e))) UN UA UC) by (eapply rcinv_eq; eauto; intros; cbn; lia).
    destruct (dec1 _ (fun a => UW a + occP a (ci (ew e))) _ _ _ _ (iv_c _ _ _ _ _ I) W1 R') as (c1 & E1 & S1 & C1 & R1).
    { intros a. pose proof (occP_range a (ci (ew e))). specialize (PW a). lia. }
    assert (W2': alive (c_ct (sct (co s) c1)) (ep_at (ci (ew e)))) by now apply (rs_alive _ _ S1).
    destruct (dec1 _ UW _ _ _ _ C1 W2' R1 PW) as (c2 & E2 & S2 & C2 & R2). cbn in E1, E2. rewrite E1, E2.
    eexists. split; [reflexivity|]. split; auto. apply rst_mk; auto. eapply rsame_trans; eauto.
Qed.

(** actUpd *)
Lemma actUpd_sp s k v d UW UN UA UC : inv s -> 0 <= v < s_nq s -> rcinv (co s) UW UN UA UC ->
  exists s', actUpd N k v d s = Ok tt s' /\ rst s s' /\
    rcinv (co s') UW UN (fun k' v' => UA k' v' + if kind_eqb k' k && (v' =? v) then d else 0) (fun k' => UC k' + if kind_eqb k' k then d else 0).
Proof.
  intros I Hv [R1 R2 R3 R4 R5 R6]. unfold actUpd. destruct (Z.ltb_spec v 0); [lia|]. destruct (Z.leb_spec (s_nq s) v); [lia|]. cbn [orb].
  eexists. split; [reflexivity|].
  match goal with |- rst s ?S /\ _ => set (s' := S) end.
  assert (Q: forall k' n, qn (co s') k' n = qn (co s) k' n).
  { intros k' n. unfold Inv.qn. cbn. destruct (kind_eqb k' k) eqn:E; auto. apply kind_eqb_spec in E. now subst. }
  assert (Sm: rsame (co s) (co s')).
  { constructor; auto; try (intros k'; cbn; destruct (kind_eqb k' k) eqn:E; auto; apply kind_eqb_spec in E; now subst).
    - intros k' n. rewrite Q. repeat split.
    - intros k' n _. now rewrite Q. }
  assert (A: forall k', ut_allq (co s') k' = ut_allq (co s) k') by (apply (rs_allq _ _ Sm)).
  split.
  - apply rst_mk; auto. apply (rs_cinv _ _ Sm); try apply I. intros k' n L. rewrite Q.
    destruct (linked_ok _ _ _ (iv_c _ _ _ _ _ I) L) as (b & K & _). apply (no_ref _ _ _ _ _ _ _ _ _ K).
  - assert (HN: forall k' m, SN (co s') k' m = SN (co s) k' m) by (intros; unfold SN; rewrite A; apply sumZ_ext; intros; unfold outs; now rewrite Q).
    assert (HA: forall k' m, SA1 (co s') k' m = SA1 (co s) k' m) by (intros; unfold SA1; rewrite A; apply sumZ_ext; intros; unfold outs; now rewrite Q).
    constructor.
    + intros k' m L. rewrite (rs_linked _ _ _ _ Sm) in L. rewrite Q, HN. auto.
    + intros k' m L. rewrite (rs_linked _ _ _ _ Sm) in L. auto.
    + intros a L. unfold SA. rewrite !HA. apply R3. exact L.
    + intros a L. apply R4. exact L.
    + intros k' v'. assert (E: AC (co s') k' v' = AC (co s) k' v') by (unfold AC; rewrite A; apply sumZ_ext; intros; unfold nact; now rewrite Q).
      rewrite E. cbn. destruct (kind_eqb k' k) eqn:Ek; cbn [andb]; [|specialize (R5 k' v'); cbn in R5; lia]. apply kind_eqb_spec in Ek. subst k'. cbn.
      unfold updZ. specialize (R5 k v'). cbn in R5. destruct (Z.eqb_spec v' v); [subst v'|]; lia.
    + intros k'. assert (E: ACall (co s') k' = ACall (co s) k') by (unfold ACall; rewrite A; apply sumZ_ext; intros; unfold nact; now rewrite Q).
      rewrite E. cbn. specialize (R6 k'). cbn in R6. destruct (kind_eqb k' k) eqn:Ek; [|lia]. apply kind_eqb_spec in Ek. subst k'. cbn. lia.
Qed.

Lemma setNodeRef_co s k n r : co (set_ut s k (ut_hs (s_ut s k) (upd (ut_heap (s_ut s k)) n (set_ref (ut_heap (s_ut s k) n) r)))) = snr (co s) k n r.
Proof. reflexivity. Qed.

Definition kN (k : kind) (e : edge) (k' : kind) (m : nat) : Z := if kind_eqb k' k then occN m e else 0.
Definition kNs (k : kind) (es : list edge) (k' : kind) (m : nat) : Z := if kind_eqb k' k then sumZ (occN m) es else 0.

Lemma etn_lvl q k l p : cinv q -> etn q k l p -> p <> PTerm -> 0 <= l < c_nq q.
Proof.
  intros I. destruct p as [| |n]; cbn; try tauto. intros [L <-] _. destruct (linked_ok _ _ _ I L) as (b & K & _). apply (no_v _ _ _ _ _ _ _ _ _ K).
Qed.

Lemma incRefF_sp : forall f k l e s UW UN UA UC, inv s -> etn (co s) k l (ep e) -> wtab (co s) (ew e) -> l + 2 <= Z.of_nat f -> (0 < f)%nat ->
  rcinv (co s) UW UN UA UC ->
  exists s', incRefF N f k e s = Ok tt s' /\ rst s s' /\
    rcinv (co s') (fun a => UW a + occA a e) (fun k' m => UN k' m + kN k e k' m) UA UC.
Proof.
  induction f as [|f IH]; intros k l e s UW UN UA UC I Te We Hf Hf0 R; [lia|]. cbn [incRefF].
  destruct (cn_incRef_sp s e UW UN UA UC I We R) as (s1 & E1 & T1 & R1). unfold bind at 1. rewrite E1.
  pose proof (rt_inv _ _ T1) as I1.
  destruct (ep e) as [| |n] eqn:Ep; [destruct Te| |].
  { exists s1. split; auto. split; auto. eapply rcinv_eq; eauto. intros k' m. unfold kN, occN. rewrite Ep. destruct (kind_eqb k' k); lia. }
  pose proof (rs_etn _ _ (rt_same _ _ T1) _ _ _ Te) as Te1. pose proof (etn_lvl _ _ _ _ (iv_c _ _ _ _ _ I1) Te1 ltac:(discriminate)) as Hl. destruct Te1 as [L1 V1].
  destruct (linked_ok _ _ _ (iv_c _ _ _ _ _ I1) L1) as (b & K & _).
  assert (Oe: forall m, occN m e = if Nat.eqb n m then 1 else 0) by (intros m; unfold occN; now rewrite Ep).
  unfold bind at 1. cbv beta delta [get]; cbv iota. change (nod s1 k n) with (qn (co s1) k n).
  destruct (Z.eqb_spec (nref (qn (co s1) k n)) RCMAX) as [Emax|Nmax].
  { exists s1. split; [reflexivity|]. split; auto. destruct R1 as [P1 P2 P3 P4 P5 P6]. constructor; auto.
    - intros k' m Lm. unfold kN. destruct (kind_eqb k' k) eqn:Ek; [|rewrite Z.add_0_r; auto]. apply kind_eqb_spec in Ek. subst k'.
      unfold occN. rewrite Ep. destruct (Nat.eqb_spec n m); [subst m; auto|]. rewrite Z.add_0_r. auto.
    - intros k' m Lm. rewrite (P2 k' m Lm). unfold kN. destruct (kind_eqb k' k) eqn:Ek; auto. apply kind_eqb_spec in Ek. subst k'.
      unfold occN. rewrite Ep. destruct (Nat.eqb_spec n m); auto. subst m. contradiction. }
  pose proof (no_ref _ _ _ _ _ _ _ _ _ K) as Hr. set (r := nref (qn (co s1) k n)) in *.
  unfold bind at 1. unfold setNodeRef. cbv beta iota.
  set (s2 := set_ut s1 k _).
  assert (C2: co s2 = snr (co s1) k n (r + 1)) by reflexivity.
  assert (T2: rst s1 s2).
  { apply rst_mk; auto; rewrite C2; [now apply snr_same|apply snr_cinv; auto; [apply I1|lia]]. }
  assert (R2: rcinv (co s2) _ _ _ _) by (rewrite C2; apply (snr_rc (co s1) k n (r + 1) _ _ _ _ (iv_c _ _ _ _ _ I1) L1 Nmax ltac:(lia) R1)).
  fold r in R2. destruct (Z.eqb_spec (r + 1) 1) as [Ea|Na].
  - (* the node becomes active *)
    assert (Er: r = 0) by lia.
    assert (Oo: outs (co s1) k n = []). { unfold outs. fold r. rewrite Er. reflexivity. }
    assert (On: outs (snr (co s1) k n (r + 1)) k n = ne (qn (co s1) k n)).
    { unfold outs. rewrite snr_qn, kind_eqb_refl, Nat.eqb_refl. cbn [andb set_ref nref ne]. rewrite Er. reflexivity. }
    assert (Nn: nact (snr (co s1) k n (r + 1)) k n - nact (co s1) k n = 1).
    { unfold nact. rewrite snr_qn, kind_eqb_refl, Nat.eqb_refl. cbn [andb set_ref nref]. fold r. rewrite Er. reflexivity. }
    (* children *)
    assert (Loop: forall es sx UW' UN' UA' UC', rst s2 sx -> (forall e', In e' es -> tedge (co s2) k (l - 1) e') -> rcinv (co sx) UW' UN' UA' UC' ->
      exists s', iterM N (fun e => if isnull (ep e) then ret tt else incRefF N f k e) es sx = Ok tt s' /\ rst sx s' /\
        rcinv (co s') (fun a => UW' a + sumZ (occA a) es) (fun k' m => UN' k' m + kNs k es k' m) UA' UC').
    { induction es as [|e' es IHes]; intros sx UW' UN' UA' UC' Tx Hes Rx.
      - exists sx. split; [reflexivity|]. split; [apply rst_refl, Tx|]. eapply rcinv_eq; eauto; intros; cbn; unfold kNs; cbn; try destruct (kind_eqb k0 k); lia.
      - cbn [iterM]. pose proof (rs_tedge _ _ (rt_same _ _ Tx) _ _ _ (Hes e' (or_introl eq_refl))) as [Tn Tw _ _].
        assert (Nl: isnull (ep e') = false) by (destruct (ep e'); auto; destruct Tn). rewrite Nl.
        destruct (IH k (l - 1) e' sx UW' UN' UA' UC' (rt_inv _ _ Tx) Tn Tw ltac:(lia) ltac:(lia) Rx) as (sy & Ey & Ty & Ry).
        unfold bind at 1. rewrite Ey.
        destruct (IHes sy _ _ _ _ (rst_trans _ _ _ Tx Ty) (fun e0 H => Hes e0 (or_intror H)) Ry) as (sz & Ez & Tz & Rz).
        exists sz. split; auto. split; [eapply rst_trans; eauto|]. eapply rcinv_eq; eauto; intros; cbn [sumZ]; try lia.
        unfold kNs, kN. destruct (kind_eqb k0 k); cbn [sumZ]; lia. }
    assert (Hes: forall e', In e' (ne (qn (co s1) k n)) -> tedge (co s2) k (l - 1) e').
    { intros e' He. apply (rs_tedge _ _ (rt_same _ _ T2)). rewrite <- V1. apply (no_es _ _ _ _ _ _ _ _ _ K e' He). }
    destruct (Loop _ s2 _ _ _ _ (rst_refl _ (rt_inv _ _ T2)) Hes R2) as (s3 & E3 & T3 & R3).
    unfold bind at 1. rewrite E3.
    assert (Hv: 0 <= nv (qn (co s1) k n) < s_nq s3).
    { rewrite V1. rewrite <- (rs_nq _ _ (rt_same _ _ T2)), <- (rs_nq _ _ (rt_same _ _ T3)) in Hl. exact Hl. }
    destruct (actUpd_sp s3 k (nv (qn (co s1) k n)) 1 _ _ _ _ (rt_inv _ _ T3) Hv R3) as (s4 & E4 & T4 & R4).
    exists s4. split; auto. split; [eapply rst_trans; [exact T1|]; eapply rst_trans; [exact T2|]; eapply rst_trans; eauto|].
    eapply rcinv_eq; [exact R4|..].
    + intros a. cbn beta. rewrite Oo, On. cbn [sumZ]. lia.
    + intros k' m. cbn beta. rewrite Oo, On. unfold kNs, kN. rewrite Oe. destruct (kind_eqb k' k); cbn [sumZ]; rewrite ?(Nat.eqb_sym m n); destruct (Nat.eqb n m); lia.
    + intros k' v. cbn beta. rewrite Nn. destruct (kind_eqb k' k); cbn [andb]; [|lia]. rewrite (Z.eqb_sym v). destruct (_ =? v); lia.
    + intros k'. cbn beta. rewrite Nn. destruct (kind_eqb k' k); lia.
  - exists s2. split; [reflexivity|]. split; [eapply rst_trans; eauto|].
    assert (Oo: outs (snr (co s1) k n (r + 1)) k n = outs (co s1) k n).
    { unfold outs. rewrite snr_qn, kind_eqb_refl, Nat.eqb_refl. cbn [andb set_ref nref ne]. fold r. destruct (Z.eqb_spec (r + 1) 0), (Z.eqb_spec r 0); auto; lia. }
    assert (Nn: nact (snr (co s1) k n (r + 1)) k n = nact (co s1) k n).
    { unfold nact. rewrite snr_qn, kind_eqb_refl, Nat.eqb_refl. cbn [andb set_ref nref]. fold r. destruct (Z.eqb_spec (r + 1) 0), (Z.eqb_spec r 0); auto; lia. }
    eapply rcinv_eq; [exact R2|..].
    + intros a. cbn beta. rewrite Oo. lia.
    + intros k' m. cbn beta. rewrite Oo. unfold kN. rewrite Oe. destruct (kind_eqb k' k); rewrite ?(Nat.eqb_sym m n); destruct (Nat.eqb n m); lia.
    + intros k' v. cbn beta. rewrite Nn. destruct (kind_eqb k' k); [destruct (_ =? v)|]; lia.
    + intros k'. cbn beta. rewrite Nn. destruct (kind_eqb k' k); lia.
Qed.

Lemma decRefF_sp : forall f k l e s UW UN UA UC, inv s -> etn (co s) k l (ep e) -> wtab (co s) (ew e) -> l + 2 <= Z.of_nat f -> (0 < f)%nat ->
  (forall a, 0 <= UW a) -> (forall k m, 0 <= UN k m) ->
  rcinv (co s) (fun a => UW a + occA a e) (fun k' m => UN k' m + kN k e k' m) UA UC ->
  exists s', decRefF N f k e s = Ok tt s' /\ rst s s' /\ rcinv (co s') UW UN UA UC.
Proof.
  induction f as [|f IH]; intros k l e s UW UN UA UC I Te We Hf Hf0 PW PN R; [lia|]. cbn [decRefF].
  destruct (cn_decRef_sp s e UW _ UA UC I We R PW) as (s1 & E1 & T1 & R1). unfold bind at 1. rewrite E1.
  pose proof (rt_inv _ _ T1) as I1.
  destruct (ep e) as [| |n] eqn:Ep; [destruct Te| |].
  { exists s1. split; auto. split; auto. eapply rcinv_eq; eauto. intros k' m. unfold kN, occN. rewrite Ep. destruct (kind_eqb k' k); lia. }
  pose proof (rs_etn _ _ (rt_same _ _ T1) _ _ _ Te) as Te1. pose proof (etn_lvl _ _ _ _ (iv_c _ _ _ _ _ I1) Te1 ltac:(discriminate)) as Hl. destruct Te1 as [L1 V1].
  destruct (linked_ok _ _ _ (iv_c _ _ _ _ _ I1) L1) as (b & K & _).
  assert (Oe: forall m, occN m e = if Nat.eqb n m then 1 else 0) by (intros m; unfold occN; now rewrite Ep).
  unfold bind at 1. cbv beta delta [get]; cbv iota. change (nod s1 k n) with (qn (co s1) k n).
  destruct (Z.eqb_spec (nref (qn (co s1) k n)) RCMAX) as [Emax|Nmax].
  { exists s1. split; [reflexivity|]. split; auto. destruct R1 as [P1 P2 P3 P4 P5 P6]. constructor; auto.
    - intros k' m Lm. specialize (P1 k' m Lm). unfold kN in P1. destruct (kind_eqb k' k) eqn:Ek; [|rewrite Z.add_0_r in P1; auto]. apply kind_eqb_spec in Ek. subst k'.
      rewrite Oe in P1. destruct (Nat.eqb_spec n m); [subst m; auto|]. rewrite Z.add_0_r in P1. auto.
    - intros k' m Lm. specialize (P2 k' m Lm). pose proof (occN_range m e). specialize (PN k' m). unfold kN in P2. destruct (kind_eqb k' k); lia. }
  pose proof (no_ref _ _ _ _ _ _ _ _ _ K) as Hr. set (r := nref (qn (co s1) k n)) in *.
  destruct (Z.eqb_spec r 0) as [E0|N0].
  { exfalso. destruct (rc_n _ _ _ _ _ R1 k n L1) as [H|H]; fold r in H; [lia|]. unfold kN in H. rewrite kind_eqb_refl, Oe, Nat.eqb_refl in H.
    pose proof (SN_nonneg (co s1) k n). specialize (PN k n). lia. }
  unfold bind at 1. unfold setNodeRef. cbv beta iota.
  set (s2 := set_ut s1 k _).
  assert (C2: co s2 = snr (co s1) k n (r - 1)) by reflexivity.
  assert (T2: rst s1 s2).
  { apply rst_mk; auto; rewrite C2; [now apply snr_same|apply snr_cinv; auto; [apply I1|lia]]. }
  assert (R2: rcinv (co s2) _ _ _ _) by (rewrite C2; apply (snr_rc (co s1) k n (r - 1) _ _ _ _ (iv_c _ _ _ _ _ I1) L1 Nmax ltac:(lia) R1)).
  fold r in R2. destruct (Z.eqb_spec (r - 1) 0) as [Ea|Na].
  - (* the node becomes inactive *)
    assert (Oo: outs (co s1) k n = ne (qn (co s1) k n)). { unfold outs. fold r. destruct (Z.eqb_spec r 0); [contradiction|reflexivity]. }
    assert (On: outs (snr (co s1) k n (r - 1)) k n = []).
    { unfold outs. rewrite snr_qn, kind_eqb_refl, Nat.eqb_refl. cbn [andb set_ref nref ne]. rewrite Ea. reflexivity. }
    assert (Nn: nact (snr (co s1) k n (r - 1)) k n - nact (co s1) k n = -1).
    { unfold nact. rewrite snr_qn, kind_eqb_refl, Nat.eqb_refl. cbn [andb set_ref nref]. fold r. rewrite Ea. destruct (Z.eqb_spec r 0); [contradiction|reflexivity]. }
    assert (Loop: forall es sx UW' UN' UA' UC', rst s2 sx -> (forall e', In e' es -> tedge (co s2) k (l - 1) e') ->
      (forall a, 0 <= UW' a) -> (forall k m, 0 <= UN' k m) ->
      rcinv (co sx) (fun a => UW' a + sumZ (occA a) es) (fun k' m => UN' k' m + kNs k es k' m) UA' UC' ->
      exists s', iterM N (fun e => if isnull (ep e) then ret tt else decRefF N f k e) es sx = Ok tt s' /\ rst sx s' /\
        rcinv (co s') UW' UN' UA' UC').
    { induction es as [|e' es IHes]; intros sx UW' UN' UA' UC' Tx Hes PW' PN' Rx.
      - exists sx. split; [reflexivity|]. split; [apply rst_refl, Tx|]. eapply rcinv_eq; eauto; intros; cbn; unfold kNs; cbn; try destruct (kind_eqb k0 k); lia.
      - cbn [iterM]. pose proof (rs_tedge _ _ (rt_same _ _ Tx) _ _ _ (Hes e' (or_introl eq_refl))) as [Tn Tw _ _].
        assert (Nl: isnull (ep e') = false) by (destruct (ep e'); auto; destruct Tn). rewrite Nl.
        assert (Rx': rcinv (co sx) (fun a => (UW' a + sumZ (occA a) es) + occA a e') (fun k' m => (UN' k' m + kNs k es k' m) + kN k e' k' m) UA' UC').
        { eapply rcinv_eq; eauto; intros; cbn beta; cbn [sumZ]; try lia. unfold kNs, kN. destruct (kind_eqb k0 k); cbn [sumZ]; lia. }
        destruct (IH k (l - 1) e' sx (fun a => UW' a + sumZ (occA a) es) (fun k' m => UN' k' m + kNs k es k' m) UA' UC' (rt_inv _ _ Tx) Tn Tw ltac:(lia) ltac:(lia)) as (sy & Ey & Ty & Ry); auto.
        { intros a. pose proof (sumZ_nonneg (occA a) es (fun b _ => occA_range a b)). specialize (PW' a). lia. }
        { intros k' m. pose proof (sumZ_nonneg (occN m) es (fun b _ => occN_range m b)). specialize (PN' k' m). unfold kNs. destruct (kind_eqb k' k); lia. }
        unfold bind at 1. rewrite Ey.
        destruct (IHes sy UW' UN' UA' UC' (rst_trans _ _ _ Tx Ty) (fun e0 H => Hes e0 (or_intror H)) PW' PN' Ry) as (sz & Ez & Tz & Rz).
        exists sz. split; auto. split; [eapply rst_trans; eauto|]. auto. }
    assert (Hes: forall e', In e' (ne (qn (co s1) k n)) -> tedge (co s2) k (l - 1) e').
    { intros e' He. apply (rs_tedge _ _ (rt_same _ _ T2)). rewrite <- V1. apply (no_es _ _ _ _ _ _ _ _ _ K e' He). }
    destruct (Loop (ne (qn (co s1) k n)) s2 UW UN (fun k' v => UA k' v + if kind_eqb k' k && (v =? l) then 1 else 0) (fun k' => UC k' + if kind_eqb k' k then 1 else 0)
                (rst_refl _ (rt_inv _ _ T2)) Hes PW PN) as (s3 & E3 & T3 & R3).
    { eapply rcinv_eq; [exact R2|..].
      + intros a. cbn beta. rewrite Oo, On. cbn [sumZ]. lia.
      + intros k' m. cbn beta. rewrite Oo, On. unfold kNs, kN. rewrite Oe. destruct (kind_eqb k' k); cbn [sumZ]; rewrite ?(Nat.eqb_sym m n); destruct (Nat.eqb n m); lia.
      + intros k' v. cbn beta. rewrite Nn, V1. destruct (kind_eqb k' k); cbn [andb]; [|lia]. rewrite (Z.eqb_sym v). destruct (_ =? v); lia.
      + intros k'. cbn beta. rewrite Nn. destruct (kind_eqb k' k); lia. }
    unfold bind at 1. rewrite E3.
    assert (Hv: 0 <= nv (qn (co s1) k n) < s_nq s3).
    { rewrite V1. rewrite <- (rs_nq _ _ (rt_same _ _ T2)), <- (rs_nq _ _ (rt_same _ _ T3)) in Hl. exact Hl. }
    destruct (actUpd_sp s3 k (nv (qn (co s1) k n)) (-1) _ _ _ _ (rt_inv _ _ T3) Hv R3) as (s4 & E4 & T4 & R4).
    exists s4. split; auto. split; [eapply rst_trans; [exact T1|]; eapply rst_trans; [exact T2|]; eapply rst_trans; eauto|].
    eapply rcinv_eq; [exact R4|..]; auto.
    + intros k' v. cbn beta. rewrite V1. destruct (_ && _); lia.
    + intros k'. cbn beta. destruct (kind_eqb k' k); lia.
  - exists s2. split; [reflexivity|]. split; [eapply rst_trans; eauto|].
    assert (Oo: outs (snr (co s1) k n (r - 1)) k n = outs (co s1) k n).
    { unfold outs. rewrite snr_qn, kind_eqb_refl, Nat.eqb_refl. cbn [andb set_ref nref ne]. fold r. destruct (Z.eqb_spec (r - 1) 0), (Z.eqb_spec r 0); auto; lia. }
    assert (Nn: nact (snr (co s1) k n (r - 1)) k n = nact (co s1) k n).
    { unfold nact. rewrite snr_qn, kind_eqb_refl, Nat.eqb_refl. cbn [andb set_ref nref]. fold r. destruct (Z.eqb_spec (r - 1) 0), (Z.eqb_spec r 0); auto; lia. }
    eapply rcinv_eq; [exact R2|..].
    + intros a. cbn beta. rewrite Oo. lia.
    + intros k' m. cbn beta. rewrite Oo. unfold kN. rewrite Oe. destruct (kind_eqb k' k); rewrite ?(Nat.eqb_sym m n); destruct (Nat.eqb n m); lia.
    + intros k' v. cbn beta. rewrite Nn. destruct (kind_eqb k' k); [destruct (_ =? v)|]; lia.
    + intros k'. cbn beta. rewrite Nn. destruct (kind_eqb k' k); lia.
Qed.

(** ** References held by the user *)
Definition uw (pin : nat -> Z) (R : list (kind * edge)) (a : nat) : Z := pin a + sumZ (fun x => occA a (snd x)) R.
Definition un (R : list (kind * edge)) (k : kind) (m : nat) : Z := sumZ (fun x => kN (fst x) (snd x) k m) R.
(** All counts are right when the user holds the references [R] and the table pins [pin]. *)
Definition rcok (s : st N) (pin : nat -> Z) (R : list (kind * edge)) : Prop :=
  (forall a, 0 <= pin a) /\ rcinv (co s) (uw pin R) (un R) (fun _ _ => 0) (fun _ => 0).

Lemma kN_range k e k' m : 0 <= kN k e k' m.
Proof. unfold kN. destruct (kind_eqb k' k); [apply occN_range|lia]. Qed.
Lemma uw_nonneg pin R a : (forall a, 0 <= pin a) -> 0 <= uw pin R a.
Proof. intros H. unfold uw. pose proof (sumZ_nonneg (fun x => occA a (snd x)) R (fun x _ => occA_range a (snd x))). specialize (H a). lia. Qed.
Lemma un_nonneg R k m : 0 <= un R k m.
Proof. apply sumZ_nonneg. intros x _. apply kN_range. Qed.

Lemma rcok_rcact s pin R : inv s -> rcok s pin R -> rcact (co s).
Proof. intros [I _] [P H]. eapply rcinv_rcact; eauto using un_nonneg. intros a. now apply uw_nonneg. Qed.
Lemma rcok_step O s s' pin R : inv s -> step O s s' -> rcok s pin R -> rcok s' pin R.
Proof. intros [I _] S [P H]. split; auto. eapply rcinv_ext; eauto; [apply (sp_inv _ _ _ _ _ _ _ S)|apply (sp_ext _ _ _ _ _ _ _ S)]. Qed.
Lemma rcok_gc s s' pin R : inv s -> gcsafe (nb:=nb) (X:=X) s s' -> rcok s pin R -> rcok s' pin R.
Proof. intros I GS [P H]. split; auto. eapply rcinv_gc; eauto using un_nonneg. intros a. now apply uw_nonneg. Qed.
Lemma rcok_perm s pin R R' : Permutation R R' -> rcok s pin R -> rcok s pin R'.
Proof.
  intros Pm [P H]. split; auto. eapply rcinv_eq; eauto.
  - intros a. unfold uw. f_equal. apply sumZ_perm. now symmetry.
  - intros k m. unfold un. apply sumZ_perm. now symmetry.
Qed.

Lemma fuelof_ok s k l p : inv s -> etn (co s) k l p -> p <> PTerm -> l + 2 <= Z.of_nat (fuelof N s).
Proof. intros [I _] T NT. pose proof (etn_lvl _ _ _ _ I T NT) as H. unfold fuelof. cbn [Inv.c_nq Inv.co] in H. lia. Qed.

(** An edge whose root is the terminal has no level; level -1 is as good as any. *)
Lemma etn_m1 q k l p : etn q k l p -> etn q k (if isT p then -1 else l) p.
Proof. destruct p; cbn; auto. Qed.
Lemma fuelof_ok' s k l p : inv s -> etn (co s) k l p -> (if isT p then -1 else l) + 2 <= Z.of_nat (fuelof N s).
Proof.
  intros I T. destruct (isT p) eqn:E.
  - unfold fuelof. lia.
  - eapply fuelof_ok; eauto. intros ->. discriminate.
Qed.

Lemma incRef_sp s k l e pin R : inv s -> tedge (co s) k l e -> rcok s pin R ->
  exists s', incRef N k e s = Ok tt s' /\ rst s s' /\ rcok s' pin ((k, e) :: R).
Proof.
  intros I [T1 T2 _ _] [P H].
  destruct (incRefF_sp (fuelof N s) k _ e s _ _ _ _ I (etn_m1 _ _ _ _ T1) T2 (fuelof_ok' _ _ _ _ I T1) ltac:(unfold fuelof; lia) H) as (s' & E & Ts & Rs).
  exists s'. split; auto. split; auto. split; auto. eapply rcinv_eq; eauto.
  - intros a. unfold uw. cbn. lia.
  - intros k' m. unfold un. cbn. lia.
Qed.

Lemma decRef_sp s k l e pin R : inv s -> tedge (co s) k l e -> rcok s pin ((k, e) :: R) ->
  exists s', decRef N k e s = Ok tt s' /\ rst s s' /\ rcok s' pin R.
Proof.
  intros I [T1 T2 _ _] [P H].
  destruct (decRefF_sp (fuelof N s) k _ e s (uw pin R) (un R) (fun _ _ => 0) (fun _ => 0) I (etn_m1 _ _ _ _ T1) T2 (fuelof_ok' _ _ _ _ I T1) ltac:(unfold fuelof; lia)) as (s' & E & Ts & Rs).
  - intros a. now apply uw_nonneg.
  - intros k' m. apply un_nonneg.
  - eapply rcinv_eq; eauto.
    + intros a. unfold uw. cbn. lia.
    + intros k' m. unfold un. cbn. lia.
  - exists s'. split; auto. split; auto. split; auto.
Qed.

(** An edge to which a reference is held survives garbage collection. *)
Lemma rcok_prot s pin R k l e : inv s -> rcok s pin R -> In (k, e) R -> tedge (co s) k l e -> pact (co s) k (ep e) /\ wprot (co s) (ew e).
Proof.
  intros I [P [R1 R2 R3 R4 R5 R6]] Hin [T1 T2 _ _]. split.
  - destruct (ep e) as [| |n] eqn:E; cbn; auto. destruct T1 as [L _].
    assert (1 <= un R k n).
    { unfold un. eapply Z.le_trans; [|apply (sumZ_ge (fun x => kN (fst x) (snd x) k n) R (k, e)); auto; intros; apply kN_range].
      cbn. unfold kN, occN. rewrite kind_eqb_refl, E, Nat.eqb_refl. lia. }
    destruct (R1 k n L) as [->| ->]; [unfold RCMAX; lia|]. pose proof (SN_nonneg (co s) k n). lia.
  - intros a Ha. assert (La: ctlive (c_ct (co s)) a).
    { destruct T2 as [[W1 _] [W2 _]]. destruct Ha as [Ha|Ha]; rewrite Ha in *; auto. }
    assert (1 <= occA a e).
    { unfold occA. destruct (ceqb (ew e) Czero) eqn:Ez; [apply ceqb_spec in Ez; rewrite Ez in Ha; cbn in Ha; destruct Ha; discriminate|].
      destruct (ceqb (ew e) Cone) eqn:Eo; [apply ceqb_spec in Eo; rewrite Eo in Ha; cbn in Ha; destruct Ha; discriminate|]. cbn.
      pose proof (occP_range a (cr (ew e))). pose proof (occP_range a (ci (ew e))).
      destruct Ha as [Ha|Ha]; unfold occP in *; rewrite Ha in *; rewrite Nat.eqb_refl in *; lia. }
    assert (1 <= uw pin R a).
    { unfold uw. specialize (P a). assert (occA a e <= sumZ (fun x => occA a (snd x)) R); [|lia].
      apply (sumZ_ge (fun x => occA a (snd x)) R (k, e)); auto. intros; apply occA_range. }
    destruct (R3 a La) as [->| ->]; [unfold RCMAX; lia|]. pose proof (SA_nonneg (co s) a). lia.
Qed.

(** ** Construction and reset *)
Definition ctpin (c : ctab N) (a : nat) : Z :=
  if existsb (fun i => existsb (Nat.eqb a) (ct_tab c i)) (ct_keys cf) then ce_rc (ct_heap c a) else 0.

Lemma ctpin_live c a : ctwf cf c -> ctlive c a -> ctpin c a = ce_rc (ct_heap c a).
Proof.
  intros W (i & H). unfold ctpin. replace (existsb _ _) with true; auto. symmetry. apply existsb_exists. exists i. split.
  - apply ct_keys_In. pose proof (wf_range _ _ W _ _ H) as Hr. unfold ct_mask in Hr. lia.
  - apply existsb_exists. exists a. split; auto. apply Nat.eqb_refl.
Qed.
Lemma ctpin_dead c a : ~ ctlive c a -> ctpin c a = 0.
Proof.
  intros H. unfold ctpin. destruct (existsb _ _) eqn:E; auto. exfalso. apply existsb_exists in E. destruct E as (i & _ & E).
  apply existsb_exists in E. destruct E as (b & Hb & E). apply Nat.eqb_eq in E. subst b. apply H. now exists i.
Qed.

Lemma allq_empty q k : (forall v b, ut_tab (c_ut q k) v b = []) -> ut_allq q k = [].
Proof.
  intros H. unfold Inv.ut_allq. set (l := map Z.of_nat _). clearbody l. induction l as [|v l IH]; cbn; auto. rewrite IH, app_nil_r.
  set (l' := ut_keys nb k). clearbody l'. induction l' as [|b l' IH']; cbn; auto. now rewrite H.
Qed.

(** A state without nodes. *)
Lemma fresh_ok s : 0 <= s_nq s -> (forall k, 0 < nb k) -> ctwf cf (s_ct s) -> (ex X -> xct X (s_ct s)) ->
  (forall k, (forall v b, ut_tab (s_ut s k) v b = []) /\ ut_avail (s_ut s k) = [] /\ ut_next (s_ut s k) = 0%nat /\
     ut_count (s_ut s k) = 0 /\ ut_peak (s_ut s k) = 0 /\ (forall v, ut_active (s_ut s k) v = 0) /\ ut_actcount (s_ut s k) = 0 /\
     forall n, nref (nod s k n) = 0) ->
  (forall k h, tb_ent (s_add s k) h = None) -> (forall b h, tb_ent (s_bin s b) h = None) -> (forall u h, tb_ent (s_un s u) h = None) ->
  (forall i, ep (s_id s i) = PNull) -> tcnt N s ->
  inv s /\ rcok s (ctpin (s_ct s)) [].
Proof.
  intros Hq Hnb W Hx Hu A1 A2 A3 A4 A5.
  assert (Nl: forall k n, ~ linked (co s) k n). { intros k n (v & b & H). cbn in H. destruct (Hu k) as (E & _). rewrite E in H. destruct H. }
  assert (Al: forall k, ut_allq (co s) k = []). { intros k. apply allq_empty. apply (Hu k). }
  split.
  - constructor.
    + constructor; auto. intros k. destruct (Hu k) as (E1 & E2 & E3 & E4 & E5 & E6 & E7 & E8). constructor; cbn; auto.
      * intros v b n H. rewrite E1 in H. destruct H.
      * intros v b. rewrite E1. constructor.
      * intros n H. exfalso. now apply (Nl k n).
      * rewrite E2. constructor.
      * rewrite E2. intros n [].
      * intros n _. apply E8.
      * intros v b n m H. rewrite E1 in H. destruct H.
      * rewrite (Al k), E4. reflexivity.
      * lia.
    + constructor; auto.
      * intros k h x y r H. rewrite A1 in H. discriminate.
      * intros k h x y r H. rewrite A2 in H. discriminate.
      * intros k h x y H. rewrite A3 in H. discriminate.
      * intros i H. now rewrite A4 in H.
  - split.
    + intros a. unfold ctpin. destruct (existsb _ _); [|lia]. apply (wf_rc _ _ W).
    + assert (Z: forall a, SA (co s) a = 0). { intros a. unfold SA, SA1. rewrite !Al. reflexivity. }
      constructor.
      * intros k m L. exfalso. now apply (Nl k m).
      * auto.
      * intros a L. right. rewrite Z. unfold uw. cbn. rewrite ctpin_live; auto. lia.
      * intros a L. unfold uw. cbn. rewrite ctpin_dead; auto.
      * intros k v. unfold AC. rewrite Al. cbn. apply (Hu k).
      * intros k. unfold ACall. rewrite Al. cbn. apply (Hu k).
Qed.

Lemma owns_fresh c : 1 <= g_ccgrow g -> 2 <= g_ccinit g -> Z.Even (g_ccinit g) ->
  cc_avail c = [] -> cc_next c = 0%nat -> cc_allocs c = g_ccinit g -> cc_allocsz c = g_ccinit g * g_ccgrow g -> cc_count c = 0 -> owns c [].
Proof.
  intros G1 G2 G3 E1 E2 E3 E4 E5. constructor; rewrite ?E1, ?E2, ?E3, ?E4, ?E5; cbn.
  - constructor.
  - constructor.
  - intros a [].
  - intros a. split; [intros []|intros [H _]; lia].
  - now exists 0%nat.
  - now exists 0%nat.
  - lia.
  - auto.
  - split; [nia|]. destruct G3 as (z & ->). exists (z * g_ccgrow g). lia.
  - reflexivity.
Qed.

Lemma init_sp nq : 0 <= nq -> (forall k, 0 < nb k) ->
  inv (pkg_init N g nq) /\ owns (s_cc (pkg_init N g nq)) [] /\ rcok (pkg_init N g nq) (ctpin (ct_init cf)) [].
Proof.
  intros Hq Hnb. destruct G as (Hcf & G1 & G2 & G3).
  assert (T: tcnt N (pkg_init N g nq)) by (split; [|split]; intros; split; cbn; auto; lia).
  destruct (fresh_ok (pkg_init N g nq)) as [I R]; cbn; auto.
  - now apply ct_init_wf.
  - intros Ex. apply (x_init X Ex).
  - intros k. repeat split; auto.
  - split; auto. split; auto. now apply owns_fresh.
Qed.

(** reset leaves a state like a new one, except that no number is pinned. *)
Lemma reset_sp s : inv s -> exists s', pkg_reset N g s = Ok tt s' /\ s_nq s' = s_nq s /\ inv s' /\ owns (s_cc s') [] /\ rcok s' (fun _ => 0) [].
Proof.
  intros [I T]. destruct G as (Hcf & G1 & G2 & G3). eexists. split; [reflexivity|]. split; auto.
  match goal with |- inv ?S /\ _ => set (s' := S) end.
  destruct T as [T1 T2 T3 T4 (K1 & K2 & K3)].
  destruct (fresh_ok s') as [I' R']; cbn; auto.
  - apply I.
  - intros k. apply (ui_nb _ _ _ _ _ _ (ci_ut _ _ _ _ _ I k)).
  - now apply ct_clear_wf.
  - intros Ex. apply (x_clear X Ex); [apply I|apply (ci_x _ _ _ _ _ I Ex)].
  - intros k. repeat split; auto.
  - intros k h. apply (tb_clear_none false (s_add s k) h); auto.
  - intros b h. apply (tb_clear_none false (s_bin s b) h); auto.
  - intros u h. apply (tb_clear_none true (s_un s u) h); auto.
  - split; [|split]; intros; apply tb_clear_tok; auto.
  - split; auto. split.
    + now apply owns_fresh.
    + destruct R' as [P R']. split; [intros; lia|]. eapply rcinv_eq; eauto. intros a. unfold uw. cbn. rewrite ctpin_dead; auto.
      intros (i & H). destruct H.
Qed.
End RefL.
