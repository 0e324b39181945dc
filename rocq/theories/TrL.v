(** Specifications of the operation caches, transpose, conjugate transpose and the
    instances of makeDDNode. *)
From Coq Require Import ZArith List Bool Lia Arith Reals Lra Permutation.
From Verif Require Import Num Base CTable CTableWf Cx State Pkg Inv InvL PrimL NormL MkL.
Import ListNotations.
Local Open Scope Z_scope.

Section TrL.
Context {N : num} {g : cfg N} {nb : kind -> Z} {X : numx N (g_ct g)} (G : gok g).
Local Notation cf := (g_ct g).
Local Notation co := (co N).
Local Notation qn := (qn N).
Local Notation linked := (linked N).
Local Notation c_ut := (c_ut N).
Local Notation Cw := (Cw N g X).
Local Notation Cv := (Cv N g X).
Local Notation Cv2 := (Cv2 N g X).
Local Notation dn := (dn N g X).
Local Notation de := (de N g X).
Local Notation dg := (dg N g X).
Local Notation wtab := (wtab N g X).
Local Notation etn := (etn N).
Local Notation isnode := (isnode N).
Local Notation tedge := (tedge N g X).
Local Notation gedge := (gedge N g X).
Local Notation cinv := (cinv N g nb X).
Local Notation uinv := (uinv N g nb X).
Local Notation nodeok := (nodeok N g nb X).
Local Notation inv := (inv N g nb X).
Local Notation step := (step N g nb X).
Local Notation qext := (qext N).
Local Notation owns := (owns N).
Local Notation wok := (wok N g X).
Local Notation wp := (wp N).
Local Notation al0 := (al0 N g X).
Local Notation nnorm := (nnorm N g X).
Local Notation iedge := (iedge (g:=g) (X:=X)).
Implicit Types (s : st N).

Local Notation trsp := (trsp (nb:=nb) (X:=X)).
Local Notation unok := (unok N g X).
Local Notation binok := (binok N g X).
Local Notation addok := (addok N g X).
Local Notation tinv := (tinv N g X).

(** ** Caches *)

Lemma step_tb O s s' : inv s -> co s' = co s -> s_cc s' = s_cc s -> tinv (co s) s' -> step O s s'.
Proof.
  intros [I T] E C T'. constructor.
  - constructor; rewrite E; auto.
  - rewrite E. apply qext_refl.
  - intros a _. now rewrite C.
Qed.

Lemma tb_lookup_ent {K R} (eq : K -> bool) (t : tbl K R) h : tb_ent (snd (tb_lookup eq t h)) = tb_ent t.
Proof. unfold tb_lookup. destruct (tb_ent t h) as [[k r]|]; auto. destruct (eq k); auto. Qed.
Lemma tb_lookup_res {K R} (eq : K -> bool) (t : tbl K R) h r : fst (tb_lookup eq t h) = Some r ->
  exists k, tb_ent t h = Some (k, r) /\ eq k = true.
Proof.
  unfold tb_lookup. destruct (tb_ent t h) as [[k x]|]; try discriminate. destruct (eq k) eqn:E; try discriminate.
  intros H. injection H as ->. eauto.
Qed.
Lemma tb_insert_ent {K R} isn (t : tbl K R) h k r h' x : tb_ent (tb_insert isn t h k r) h' = Some x ->
  x = (k, r) \/ tb_ent t h' = Some x.
Proof.
  simpl. destruct (Z.eq_dec h' h) as [->|H].
  - rewrite updZ_eq. destruct (isn r); intros E; [discriminate|]. injection E as <-. auto.
  - rewrite updZ_neq by auto. auto.
Qed.

Lemma tb_lookup_tok {K R} (eq : K -> bool) (t : tbl K R) h : tok t -> tok (snd (tb_lookup eq t h)).
Proof. unfold tok, tb_lookup. intros [A B]. destruct (tb_ent t h) as [[k r]|]; [destruct (eq k)|]; auto. Qed.
Lemma tb_insert_tok {K R} isn (t : tbl K R) h k r : tok t -> tok (tb_insert isn t h k r).
Proof. unfold tok. intros [A B]. cbn [tb_insert tb_count]. split; [lia|]. intros E. lia. Qed.
Lemma tcnt_add s k t : tcnt N s -> tok t -> tcnt N (set_add s k t).
Proof. intros (A & B & D) H. split; [|auto]. intros k'. cbn [s_add set_add]. destruct (kind_eqb k' k); auto. Qed.
Lemma tcnt_bin s k t : tcnt N s -> tok t -> tcnt N (set_bin s k t).
Proof. intros (A & B & D) H. split; [auto|split; [|auto]]. intros k'. cbn [s_bin set_bin]. destruct (bop_eqb k' k); auto. Qed.
Lemma tcnt_un s k t : tcnt N s -> tok t -> tcnt N (set_un s k t).
Proof. intros (A & B & D) H. split; [auto|split; [auto|]]. intros k'. cbn [s_un set_un]. destruct (uop_eqb k' k); auto. Qed.

Lemma unLookup_sp O s u x : inv s -> exists r s', unLookup g u x s = Ok r s' /\ step O s s' /\ s_cc s' = s_cc s /\ co s' = co s /\
  match r with None => True | Some r => exists a, unok (co s) u a r /\ edge_eqb s a x = true end.
Proof.
  intros I. unfold unLookup. pose proof (tb_lookup_ent (fun q => edge_eqb s q x) (s_un s u) (g_hun g u x)) as E.
  pose proof (tb_lookup_res (fun q => edge_eqb s q x) (s_un s u) (g_hun g u x)) as R.
  pose proof (tb_lookup_tok (fun q => edge_eqb s q x) (s_un s u) (g_hun g u x)) as K.
  destruct (tb_lookup _ _ _) as [r t]. simpl in *. destruct (iv_t _ _ _ _ _ I) as [T1 T2 T3 T4 T5].
  eexists r, _. split; [reflexivity|]. split; [|split; [auto|split; [auto|]]].
  - apply step_tb; auto. constructor; auto; [|apply tcnt_un; auto; apply K, T5]. intros u' h a r'. simpl. destruct (uop_eqb u' u) eqn:Q; [|apply T3].
    apply uop_eqb_spec in Q. subst. rewrite E. apply T3.
  - destruct r as [r|]; auto. destruct (R r eq_refl) as (a & Ha & Ea). exists a. split; auto. eapply T3; eauto.
Qed.
Lemma unInsert_sp O s u x r : inv s -> unok (co s) u x r -> exists s', unInsert g u x r s = Ok tt s' /\ step O s s' /\ s_cc s' = s_cc s /\ co s' = co s.
Proof.
  intros I U. destruct (iv_t _ _ _ _ _ I) as [T1 T2 T3 T4 T5].
  eexists. split; [reflexivity|]. split; [|auto]. apply step_tb; auto. constructor; auto; [|apply tcnt_un; auto; apply tb_insert_tok, T5].
  intros u' h a r'. simpl s_un. destruct (uop_eqb u' u) eqn:Q; [|apply T3]. apply uop_eqb_spec in Q. subst.
  intros H. apply tb_insert_ent in H. destruct H as [H|H]; [|eapply T3; eauto]. injection H as -> ->. auto.
Qed.

Lemma binLookup_sp O s b x y : inv s -> exists r s', binLookup g b x y s = Ok r s' /\ step O s s' /\ s_cc s' = s_cc s /\ co s' = co s /\
  match r with None => True | Some r => exists x' y', binok (co s) b x' y' r /\ edge_eqb s x' x = true /\ edge_eqb s y' y = true end.
Proof.
  intros I. unfold binLookup. set (eq := fun q : edge * edge => edge_eqb s (fst q) x && edge_eqb s (snd q) y). pose proof (tb_lookup_ent eq (s_bin s b) (g_hbin g b x y)) as E.
  pose proof (tb_lookup_res eq (s_bin s b) (g_hbin g b x y)) as R.
  pose proof (tb_lookup_tok eq (s_bin s b) (g_hbin g b x y)) as K.
  destruct (tb_lookup _ _ _) as [r t]. simpl in *. destruct (iv_t _ _ _ _ _ I) as [T1 T2 T3 T4 T5].
  eexists r, _. split; [reflexivity|]. split; [|split; [auto|split; [auto|]]].
  - apply step_tb; auto. constructor; auto; [|apply tcnt_bin; auto; apply K, T5]. intros b' h a c r'. simpl. destruct (bop_eqb b' b) eqn:Q; [|apply T2].
    apply bop_eqb_spec in Q. subst. rewrite E. apply T2.
  - destruct r as [r|]; auto. destruct (R r eq_refl) as ([x' y'] & Ha & Ea). unfold eq in Ea. simpl in Ea.
    apply andb_true_iff in Ea. destruct Ea. exists x', y'. split; auto. eapply T2; eauto.
Qed.
Lemma binInsert_sp O s b x y r : inv s -> binok (co s) b x y r -> exists s', binInsert g b x y r s = Ok tt s' /\ step O s s' /\ s_cc s' = s_cc s /\ co s' = co s.
Proof.
  intros I U. destruct (iv_t _ _ _ _ _ I) as [T1 T2 T3 T4 T5].
  eexists. split; [reflexivity|]. split; [|auto]. apply step_tb; auto. constructor; auto; [|apply tcnt_bin; auto; apply tb_insert_tok, T5].
  intros b' h a c r'. simpl s_bin. destruct (bop_eqb b' b) eqn:Q; [|apply T2]. apply bop_eqb_spec in Q. subst.
  intros H. apply tb_insert_ent in H. destruct H as [H|H]; [|eapply T2; eauto]. injection H as -> -> ->. auto.
Qed.
Lemma addLookup_sp O s k x y : inv s -> exists r s', addLookup g k x y s = Ok r s' /\ step O s s' /\ s_cc s' = s_cc s /\ co s' = co s /\
  match r with None => True | Some r => exists x' y', addok (co s) k x' y' r /\ vedge_eqb x' x = true /\ vedge_eqb y' y = true end.
Proof.
  intros I. unfold addLookup. set (eq := fun q : vedge N * vedge N => vedge_eqb (fst q) x && vedge_eqb (snd q) y). pose proof (tb_lookup_ent eq (s_add s k) (g_hadd g k x y)) as E.
  pose proof (tb_lookup_res eq (s_add s k) (g_hadd g k x y)) as R.
  pose proof (tb_lookup_tok eq (s_add s k) (g_hadd g k x y)) as K.
  destruct (tb_lookup _ _ _) as [r t]. simpl in *. destruct (iv_t _ _ _ _ _ I) as [T1 T2 T3 T4 T5].
  eexists r, _. split; [reflexivity|]. split; [|split; [auto|split; [auto|]]].
  - apply step_tb; auto. constructor; auto; [|apply tcnt_add; auto; apply K, T5]. intros b' h a c r'. simpl. destruct (kind_eqb b' k) eqn:Q; [|apply T1].
    apply kind_eqb_spec in Q. subst. rewrite E. apply T1.
  - destruct r as [r|]; auto. destruct (R r eq_refl) as ([x' y'] & Ha & Ea). unfold eq in Ea. simpl in Ea.
    apply andb_true_iff in Ea. destruct Ea. exists x', y'. split; auto. eapply T1; eauto.
Qed.
Lemma addInsert_sp O s k x y r : inv s -> addok (co s) k x y r -> exists s', addInsert g k x y r s = Ok tt s' /\ step O s s' /\ s_cc s' = s_cc s /\ co s' = co s.
Proof.
  intros I U. destruct (iv_t _ _ _ _ _ I) as [T1 T2 T3 T4 T5].
  eexists. split; [reflexivity|]. split; [|auto]. apply step_tb; auto. constructor; auto; [|apply tcnt_add; auto; apply tb_insert_tok, T5].
  intros b' h a c r'. simpl s_add. destruct (kind_eqb b' k) eqn:Q; [|apply T1]. apply kind_eqb_spec in Q. subst.
  intros H. apply tb_insert_ent in H. destruct H as [H|H]; [|eapply T1; eauto]. injection H as -> -> ->. auto.
Qed.

(** ** transpose *)

Lemma tedge_iedge s k l e : tedge (co s) k l e -> iedge s false k l e.
Proof. intros [A B D F]. constructor; auto. Qed.
Lemma tedges_slots q k l es : (forall e, In e es -> tedge q k l e) -> slots es = [].
Proof.
  induction es as [|e es IH]; intros H; auto. rewrite slots_cons, IH by (intros; apply H; now right).
  erewrite wslots_tab; [reflexivity|]. apply (te_w _ _ _ _ _ _ _ (H e (or_introl eq_refl))).
Qed.
Lemma tedge_wok q O k l e : tedge q k l e -> wok q O (ew e).
Proof. intros T. left. apply T. Qed.
Lemma tedge_node q k l n w : tedge q k l (Ed (PNode n) w) -> linked q k n /\ nv (qn q k n) = l.
Proof. intros [[A B] _ _ _]. auto. Qed.
Lemma tedge_lvl q k l e n : cinv q -> tedge q k l e -> ep e = PNode n -> 0 <= l < c_nq N q.
Proof. intros I [A _ _ _] E. rewrite E in A. eapply isnode_lvl; eauto. split; [exact A|discriminate]. Qed.

(** Creating a node from stored edges. *)
Lemma mkt_sp tr s k var es den O : (k = KM -> trsp tr (var - 1)) -> inv s -> owns (s_cc s) O ->
  length es = arity k -> 0 <= var < s_nq s -> (forall e, In e es -> tedge (co s) k (var - 1) e) ->
  wp al0 (mk N g nb tr k var es false den) s (fun r s' => step O s s' /\ owns (s_cc s') O /\ tedge (co s') k var r /\
    (ep r = PTerm -> r = Ezero) /\
    (ex X -> forall i path, (i < arity k)%nat -> vpath k (var - 1) path -> de (co s') k r (i :: path) = de (co s) k (nthe es i) path)).
Proof.
  intros TR I Ow Hl Hv T. eapply wp_mono; [apply (mk_sp (nb:=nb) (X:=X) G tr s k var es false den O)|]; auto.
  - rewrite (tedges_slots _ _ _ _ T). exact Ow.
  - intros; apply tedge_iedge; auto.
  - intros r s' P. split; [apply P|]. split; [eapply mkpost_owns; eauto|]. split; [eapply mkpost_tedge; eauto|].
    split; [|intros; eapply mkpost_de; eauto].
    destruct P as (_ & _ & [->|(A & _)] & _); auto. intros E. destruct A. contradiction.
Qed.


Lemma de_step O s s' k l e path : inv s -> step O s s' -> tedge (co s) k l e -> vpath k l path ->
  de (co s') k e path = de (co s) k e path.
Proof. intros I S T V. eapply de_ext; eauto; [apply I|apply S]. Qed.

Definition uval (u : uop) (z : C) : C := match u with UTr => z | UCt => Cconj z end.
Definition uwt (u : uop) (w : complex) : complex := match u with UTr => w | UCt => wconj w end.
Definition usp (u : uop) (tr : edge -> M N edge) (l : Z) : Prop := forall s O e,
  inv s -> owns (s_cc s) O -> tedge (co s) KM l e ->
  wp al0 (tr e) s (fun t s' => step O s s' /\ owns (s_cc s') O /\ tedge (co s') KM l t /\
    (ex X -> forall path, vpath KM l path -> de (co s') KM t (map tr4 path) = uval u (de (co s) KM e path))).
Definition mksp (mkf : kind -> Z -> list edge -> M N edge) (k : kind) (var : Z) : Prop := forall s es O,
  inv s -> owns (s_cc s) O -> length es = arity k -> 0 <= var < s_nq s -> (forall e, In e es -> tedge (co s) k (var - 1) e) ->
  wp al0 (mkf k var es) s (fun r s' => step O s s' /\ owns (s_cc s') O /\ tedge (co s') k var r /\
    (ep r = PTerm -> r = Ezero) /\
    (ex X -> forall i path, (i < arity k)%nat -> vpath k (var - 1) path -> de (co s') k r (i :: path) = de (co s) k (nthe es i) path)).

Lemma wconj_tab q w : wtab q w -> wtab q (wconj w).
Proof.
  intros [A B]. split; auto. unfold wconj. simpl. destruct w as [p [n a]]. simpl in *. unfold ep_flip.
  destruct B as [B1 B2]. simpl in *. destruct (eptr_eqb (EP n a) (EP false AZero)) eqn:E.
  { split; auto. }
  split; simpl; auto. intros _ H. injection H as H1 H2. destruct n; [discriminate|]. subst a. discriminate.
Qed.
Lemma wconj_Cw q w : ex X -> wtab q w -> Cw q (wconj w) = Cconj (Cw q w).
Proof.
  intros Ex [A B]. unfold Inv.Cw, Cconj, wconj. simpl. f_equal. destruct w as [p [n a]]. simpl in *. unfold ep_flip.
  destruct (eptr_eqb (EP n a) (EP false AZero)) eqn:E.
  - apply eptr_eqb_spec in E. rewrite E. rewrite rv_zero by auto. lra.
  - unfold Inv.rv. simpl. destruct n; simpl; lra.
Qed.
Lemma uwt_tab q u w : wtab q w -> wtab q (uwt u w).
Proof. destruct u; auto using wconj_tab. Qed.
Lemma uwt_Cw q u w : ex X -> wtab q w -> Cw q (uwt u w) = uval u (Cw q w).
Proof. destruct u; auto using wconj_Cw. Qed.
Lemma uval_mul u a b : uval u (a * b)%C = (uval u a * uval u b)%C.
Proof. destruct u; auto. simpl. apply Cconj_mul. Qed.

Lemma ubody_sp u rec mkf s O a n l : usp u rec (l - 1) -> mksp mkf KM l -> inv s -> owns (s_cc s) O ->
  tedge (co s) KM l a -> ep a = PNode n ->
  wp al0 (let* s := get in
             let es := ne (nod s KM n) in
             let* e0 := rec (nthe es 0) in
             let* e1 := rec (nthe es 2) in
             let* e2 := rec (nthe es 1) in
             let* e3 := rec (nthe es 3) in
             let* r := mkf KM (nv (nod s KM n)) [e0; e1; e2; e3] in
             let* c := getTemp g in
             mulInto c (ew r) (uwt u (ew a)) ;;;
             let* w := cn_lookupC g c in
             let r := Ed (ep r) w in
             unInsert g u a r ;;; ret r) s
   (fun t s' => step O s s' /\ owns (s_cc s') O /\ tedge (co s') KM l t /\
    (ex X -> forall path, vpath KM l path -> de (co s') KM t (map tr4 path) = uval u (de (co s) KM a path))).
Proof.
  intros R MK I Ow T Ea. apply wp_bind, wp_get. cbv zeta.
  pose proof (tedge_lvl _ _ _ _ _ (iv_c _ _ _ _ _ I) T Ea) as Hlv.
  assert (Tn: linked (co s) KM n /\ nv (nod s KM n) = l). { destruct T as [A _ _ _]. rewrite Ea in A. exact A. }
  destruct Tn as [Ln Nv]. rewrite Nv.
  assert (Ch: forall i, (i < 4)%nat -> tedge (co s) KM (l - 1) (nthe (ne (nod s KM n)) i)).
  { intros i Hi. rewrite <- Nv. apply (child_ok (nb:=nb)); auto. apply I. }
  apply wp_bind. eapply wp_mono; [apply (R s O); auto; apply Ch; lia|]. intros e0 s1 (S1 & O1 & T0 & V0).
  apply wp_bind. eapply wp_mono; [apply (R s1 O); auto; [apply S1|eapply tedge_ext; [apply S1|apply Ch; lia]]|]. intros e1 s2 (S2 & O2 & T1 & V1).
  assert (S12: step O s s2) by (eapply step_trans; eauto).
  apply wp_bind. eapply wp_mono; [apply (R s2 O); auto; [apply S2|eapply tedge_ext; [apply S12|apply Ch; lia]]|]. intros e2 s3 (S3 & O3 & T2 & V2).
  assert (S13: step O s s3) by (eapply step_trans; eauto).
  apply wp_bind. eapply wp_mono; [apply (R s3 O); auto; [apply S3|eapply tedge_ext; [apply S13|apply Ch; lia]]|]. intros e3 s4 (S4 & O4 & T3 & V3).
  assert (S14: step O s s4) by (eapply step_trans; eauto).
  assert (T0': tedge (co s4) KM (l - 1) e0). { eapply tedge_ext; [apply S4|]. eapply tedge_ext; [apply S3|]. eapply tedge_ext; [apply S2|auto]. }
  assert (T1': tedge (co s4) KM (l - 1) e1). { eapply tedge_ext; [apply S4|]. eapply tedge_ext; [apply S3|auto]. }
  assert (T2': tedge (co s4) KM (l - 1) e2). { eapply tedge_ext; [apply S4|auto]. }
  apply wp_bind. eapply wp_mono; [apply (MK s4 [e0; e1; e2; e3] O); auto; [apply S4| |]|].
  { rewrite <- (qe_nq _ _ _ (sp_ext _ _ _ _ _ _ _ S14)) in Hlv. exact Hlv. }
  { simpl. intros e [<-|[<-|[<-|[<-|[]]]]]; auto. }
  intros r s5 (S5 & O5 & Tr & Zr & Vr).
  assert (S15: step O s s5) by (eapply step_trans; eauto).
  assert (Wa: wtab (co s5) (ew a)) by (eapply wtab_ext; [apply S15|apply T]).
  apply (wp_tmul (nb:=nb) (X:=X) G al0 O); auto; [intros b; auto|apply S5|left; left; apply Tr|left; left; now apply uwt_tab|].
  intros w s6 S6 O6 Ww Vw Zw.
  assert (S16: step O s s6) by (eapply step_trans; eauto).
  assert (Vr': ex X -> forall i path, (i < 4)%nat -> vpath KM (l - 1) path ->
     de (co s6) KM r (tr4 i :: map tr4 path) = uval u (de (co s) KM (nthe (ne (nod s KM n)) i) path)).
  { intros Ex i path Hi V. pose proof (vpath_tr4 _ _ V) as V'.
    rewrite (de_step O s5 s6 KM l); auto; [|apply S5|].
    2:{ apply vpath_cons. split; auto. now apply tr4_lt. }
    rewrite Vr; auto; [|now apply tr4_lt].
    destruct i as [|[|[|[|]]]]; try lia; cbn [tr4 nthe nth].
    - rewrite (de_step O s3 s4 KM (l - 1)); auto; [|apply S3|eapply tedge_ext; [apply S3|eapply tedge_ext; [apply S2|auto]]].
      rewrite (de_step O s2 s3 KM (l - 1)); auto; [|apply S2|eapply tedge_ext; [apply S2|auto]].
      rewrite (de_step O s1 s2 KM (l - 1)); auto. apply S1.
    - rewrite (de_step O s3 s4 KM (l - 1)); auto; [|apply S3].
      rewrite V2; auto. f_equal. eapply de_step; eauto; apply Ch; lia.
    - rewrite (de_step O s3 s4 KM (l - 1)); auto; [|apply S3|eapply tedge_ext; [apply S3|auto]].
      rewrite (de_step O s2 s3 KM (l - 1)); auto; [|apply S2].
      rewrite V1; auto. f_equal. eapply de_step; eauto; apply Ch; lia.
    - rewrite V3; auto. f_equal. eapply de_step; eauto; apply Ch; lia. }
  assert (Vw': ex X -> Cw (co s6) w = (Cw (co s6) (ew r) * uval u (Cw (co s) (ew a)))%C).
  { intros Ex. rewrite Vw by auto. rewrite !Cv_Cw; auto; [|now apply uwt_tab|apply Tr]. rewrite uwt_Cw by auto.
    rewrite (Cw_ext (co s5) (co s6) (ew r)); [|apply S6|apply Tr]. rewrite (Cw_ext (co s) (co s5) (ew a)); [auto|apply S15|apply T]. }
  assert (Tw: tedge (co s6) KM l (Ed (ep r) w)).
  { constructor; simpl; auto.
    - eapply etn_ext; [apply S6|apply Tr].
    - intros E. right. apply Zw. left. now rewrite (Zr E).
    - intros Ex E. subst w. specialize (Vw' Ex). rewrite Cw_zero in Vw' by auto. symmetry in Vw'. apply Cmul_integral in Vw'.
      destruct Vw' as [Z|Z].
      + apply (Cw_eq0 (nb:=nb)) in Z; auto; [|apply S6|eapply wtab_ext; [apply S6|apply Tr]]. now apply Tr.
      + exfalso. assert (Z': Cw (co s) (ew a) = C0).
        { destruct u; auto. simpl in Z. rewrite <- (Cconj_conj (Cw (co s) (ew a))), Z. apply Cconj_0. }
        apply (Cw_eq0 (nb:=nb)) in Z'; auto; [|apply I|apply T]. apply T in Z'; auto. congruence. }
  assert (Sm: ex X -> forall path, vpath KM l path -> de (co s6) KM (Ed (ep r) w) (map tr4 path) = uval u (de (co s) KM a path)).
  { intros Ex path V. apply vpath_inv in V; [|lia]. destruct V as (i & p & -> & Hi & V). simpl in Hi.
    specialize (Vr' Ex i p Hi V). cbn [map].
    unfold Inv.de in Vr' |- *. cbn [ep ew]. rewrite Vw' by auto. rewrite Ea, dn_cons, uval_mul.
    change (Inv.qn N (co s) KM n) with (nod s KM n). unfold Inv.de. rewrite <- Vr'. ring. }
  destruct (unInsert_sp O s6 u a (Ed (ep r) w)) as (s7 & E7 & S7 & C7 & Q7); [apply S6| |].
  { exists l. split; [lia|]. split; [|split; [|split; auto]].
    - split; [|rewrite Ea; discriminate]. eapply etn_ext; [apply S16|apply T].
    - eapply wtab_ext; [apply S16|apply T].
    - intros Ex path V. rewrite Sm by auto. rewrite (de_step O s s6 KM l); auto. }
  eapply wp_bind_ok; [exact E7|]. apply wp_ret. split; [eapply step_trans; eauto|]. rewrite C7, Q7. auto.
Qed.

Lemma uhit_sp u s O a n l a' r : inv s -> owns (s_cc s) O -> tedge (co s) KM l a -> ep a = PNode n ->
  unok (co s) u a' r -> edge_eqb s a' a = true ->
  tedge (co s) KM l r /\ (ex X -> forall path, vpath KM l path -> de (co s) KM r (map tr4 path) = uval u (de (co s) KM a path)).
Proof.
  intros I Ow T Ea (l' & Hl' & Na & Wa & Tr & V) Q.
  assert (l' = l). { apply edge_eqb_p in Q. apply (nptr_etn_lvl (co s) KM l' l (ep a)); [rewrite <- Q; apply Na|apply T|rewrite Ea; discriminate]. }
  subst l'. split; auto. intros Ex path Vp. apply (edge_eqb_x (nb:=nb) (X:=X)) in Q; auto; [|apply T]. subst a'.
  rewrite V by auto. destruct u; auto.
Qed.

Lemma transposeF_sp : forall f l, -1 <= l -> l + 1 < Z.of_nat f -> trsp (transposeF N g nb f) l.
Proof.
  induction f as [|f IH]; intros l Hl Hf; [lia|]. intros s O a I Ow T. cbn [transposeF].
  destruct (ep a) as [| |n] eqn:Ea.
  - destruct T as [A _ _ _]. rewrite Ea in A. contradiction.
  - apply wp_ret. split; [now apply step_refl|]. split; auto. split; auto.
    intros Ex path V. unfold Inv.de. now rewrite Ea, !dn_term.
  - pose proof (tedge_lvl _ _ _ _ _ (iv_c _ _ _ _ _ I) T Ea) as Hlv.
    assert (Tn: linked (co s) KM n /\ nv (nod s KM n) = l). { destruct T as [A _ _ _]. rewrite Ea in A. exact A. }
    destruct Tn as [Ln Nv]. destruct (linked_ok _ _ _ (iv_c _ _ _ _ _ I) Ln) as (b & K & _).
    change (Inv.qn N (co s) KM n) with (nod s KM n) in K. rewrite Nv in K.
    unfold Inv.wp. destruct (nsym (nod s KM n)) eqn:Sy.
    + split; [now apply step_refl|]. split; auto. split; auto. intros Ex path V. unfold Inv.de. rewrite Ea.
      rewrite (no_sym _ _ _ _ _ _ _ _ _ K); auto.
    + match goal with |- match ?m s with _ => _ end => change (wp al0 m s (fun t s' => step O s s' /\ owns (s_cc s') O /\ tedge (co s') KM l t /\
        (ex X -> forall path, vpath KM l path -> de (co s') KM t (map tr4 path) = de (co s) KM a path))) end.
      destruct (unLookup_sp O s UTr a I) as (r & s1 & E1 & S1 & C1 & Q1 & H1).
      eapply wp_bind_ok; [exact E1|]. destruct r as [r|].
      * destruct H1 as (a' & U & Q). apply wp_ret. split; auto. rewrite C1, Q1. split; auto. eapply (uhit_sp UTr); eauto.
      * rewrite <- Q1 in T |- *. rewrite <- C1 in Ow.
        eapply wp_mono; [apply (ubody_sp UTr (transposeF N g nb f) (fun k v es => mk N g nb (transposeF N g nb f) k v es false false) s1 O a n l)|]; auto.
        -- apply (IH (l - 1)); lia.
        -- intros s2 es O2 I2 Ow2 Len Hv Te. apply mkt_sp; auto. intros _. apply IH; lia.
        -- apply S1.
        -- intros t s2 (S2 & H). split; auto. eapply step_trans; eauto.
Qed.

Lemma tr_fuel s l : l < s_nq s -> -1 <= l -> trsp (transposeF N g nb (fuelof N s)) l.
Proof. intros H H'. apply transposeF_sp; auto. unfold fuelof. lia. Qed.

Theorem transpose_sp l : -1 <= l -> usp UTr (transpose N g nb) l.
Proof.
  intros Hl s O a I Ow T. unfold transpose, Inv.wp.
  destruct (ep a) as [| |n] eqn:Ea.
  - destruct T as [A _ _ _]. rewrite Ea in A. contradiction.
  - unfold fuelof. cbn [transposeF]. rewrite Ea. cbn [ret].
    split; [now apply step_refl|]. split; auto. split; auto.
    intros Ex path V. unfold Inv.de. now rewrite Ea, !dn_term.
  - pose proof (tedge_lvl _ _ _ _ _ (iv_c _ _ _ _ _ I) T Ea) as Hlv. apply (tr_fuel s l); auto. apply Hlv.
Qed.

Lemma wp_eq {A} al (m m' : M N A) s Q : m s = m' s -> wp al m' s Q -> wp al m s Q.
Proof. unfold Inv.wp. now intros ->. Qed.

Lemma makeDDNode_t k var : mksp (fun k v es => makeDDNode N g nb k v es false) k var.
Proof.
  intros s es O I Ow Len Hv T. apply (wp_eq al0 _ (mk N g nb (transposeF N g nb (fuelof N s)) k var es false false)); [reflexivity|]. apply mkt_sp; auto. intros _. apply tr_fuel; lia.
Qed.

(** makeDDNode with temporaries for the weights of the children *)
Lemma makeDDNode_sp s k var es cached O : inv s -> owns (s_cc s) (slots es ++ O) -> length es = arity k -> 0 <= var < s_nq s ->
  (forall e, In e es -> iedge s cached k (var - 1) e) ->
  wp al0 (makeDDNode N g nb k var es cached) s (mkpost (nb:=nb) (X:=X) k var cached es O s).
Proof. intros I Ow Len Hv T. apply (wp_eq al0 _ (mk N g nb (transposeF N g nb (fuelof N s)) k var es cached false)); [reflexivity|]. apply mk_sp; auto. intros _. apply tr_fuel; lia. Qed.

(** ** conjugateTranspose *)
Lemma conjTrans_term f s O a l : inv s -> owns (s_cc s) O -> tedge (co s) KM l a -> ep a = PTerm ->
  wp al0 (conjTransF N g nb (S f) a) s (fun t s' => step O s s' /\ owns (s_cc s') O /\ tedge (co s') KM l t /\
    (ex X -> forall path, vpath KM l path -> de (co s') KM t (map tr4 path) = Cconj (de (co s) KM a path))).
Proof.
  intros I Ow T Ea. cbn [conjTransF]. rewrite Ea.
  apply wp_ret. split; [now apply step_refl|]. split; auto. split.
  - constructor; cbn [ep ew]; auto.
    + exact Logic.I.
    + apply wconj_tab. apply T.
    + intros _. destruct (te_t _ _ _ _ _ _ _ T Ea) as [H|H]; auto. right. now rewrite H.
  - intros Ex path V. unfold Inv.de. cbn [ep ew]. rewrite Ea, !dn_term. rewrite wconj_Cw; auto; [|apply T].
    rewrite Cconj_mul, Cconj_1. auto.
Qed.

Lemma conjTransF_sp : forall f l, -1 <= l -> l + 1 < Z.of_nat f -> usp UCt (conjTransF N g nb f) l.
Proof.
  induction f as [|f IH]; intros l Hl Hf; [lia|]. intros s O a I Ow T.
  destruct (ep a) as [| |n] eqn:Ea.
  - destruct T as [A _ _ _]. rewrite Ea in A. contradiction.
  - now apply conjTrans_term.
  - cbn [conjTransF]. rewrite Ea. pose proof (tedge_lvl _ _ _ _ _ (iv_c _ _ _ _ _ I) T Ea) as Hlv.
    destruct (unLookup_sp O s UCt a I) as (r & s1 & E1 & S1 & C1 & Q1 & H1).
    eapply wp_bind_ok; [exact E1|]. destruct r as [r|].
    * destruct H1 as (a' & U & Q). apply wp_ret. split; auto. rewrite C1, Q1. split; auto. eapply (uhit_sp UCt); eauto.
    * rewrite <- Q1 in T |- *. rewrite <- C1 in Ow.
      eapply wp_mono; [apply (ubody_sp UCt (conjTransF N g nb f) (fun k v es => makeDDNode N g nb k v es false) s1 O a n l)|]; auto.
      -- apply (IH (l - 1)); lia.
      -- apply makeDDNode_t.
      -- apply S1.
      -- intros t s2 (S2 & H). split; auto. eapply step_trans; eauto.
Qed.

Theorem conjTrans_sp l : -1 <= l -> usp UCt (conjugateTranspose N g nb) l.
Proof.
  intros Hl s O a I Ow T. unfold conjugateTranspose, Inv.wp.
  destruct (ep a) as [| |n] eqn:Ea.
  - destruct T as [A _ _ _]. rewrite Ea in A. contradiction.
  - unfold fuelof. now apply conjTrans_term.
  - pose proof (tedge_lvl _ _ _ _ _ (iv_c _ _ _ _ _ I) T Ea) as Hlv. apply (conjTransF_sp (fuelof N s) l); auto.
    unfold fuelof. simpl in Hlv. lia.
Qed.
End TrL.
