(** The order in which nodes are written and copied, and what is written. *)
From Coq Require Import ZArith List Bool Lia Arith Reals Lra.
From Verif Require Import Num Base CTable CTableWf Cx State Pkg Serial Inv InvL PrimL NormL MkL TrL AddL MulL KronL CanonL IdentL StateL SerialL.
Import ListNotations.
Local Open Scope Z_scope.

Section SerialW.
Context {N : num} {g : cfg N} {nb : kind -> Z} {X : numx N (g_ct g)} (G : gok g).
Local Notation cf := (g_ct g).
Local Notation co := (co N).
Local Notation qn := (qn N).
Local Notation linked := (linked N).
Local Notation c_ut := (c_ut N).
Local Notation Cw := (Cw N g X).
Local Notation Cv := (Cv N g X).
Local Notation Cv2 := (Cv2 N g X).
Local Notation dn := (dn N g X).
Local Notation de := (de N g X).
Local Notation dg := (dg N g X).
Local Notation wtab := (wtab N g X).
Local Notation etn := (etn N).
Local Notation isnode := (isnode N).
Local Notation tedge := (tedge N g X).
Local Notation gedge := (gedge N g X).
Local Notation cinv := (cinv N g nb X).
Local Notation uinv := (uinv N g nb X).
Local Notation nodeok := (nodeok N g nb X).
Local Notation inv := (inv N g nb X).
Local Notation step := (step N g nb X).
Local Notation qext := (qext N).
Local Notation owns := (owns N).
Local Notation wok := (wok N g X).
Local Notation wp := (wp N).
Local Notation al0 := (al0 N g X).
Local Notation nnorm := (nnorm N g X).
Local Notation iedge := (iedge (g:=g) (X:=X)).
Local Notation trsp := (trsp (nb:=nb) (X:=X)).
Local Notation unok := (unok N g X).
Local Notation binok := (binok N g X).
Local Notation addok := (addok N g X).
Local Notation tinv := (tinv N g X).
Local Notation vres := (vres N g X).
Local Notation dv := (dv N g X).
Local Notation mkpost := (mkpost (nb:=nb) (X:=X)).
Local Notation mulCached_sp := (mulCached_sp (nb:=nb) (X:=X) G).
Local Notation addCached_sp := (addCached_sp (nb:=nb) (X:=X) G).
Local Notation getCached_sp := (getCached_sp (nb:=nb) (X:=X) G).
Local Notation makeDDNode_sp := (makeDDNode_sp (nb:=nb) (X:=X) G).
Local Notation lookupC_sp := (lookupC_sp (nb:=nb) (X:=X) G).
Local Notation tedge_gedge := (tedge_gedge (nb:=nb) (X:=X)).
Local Notation child_ok := (child_ok (nb:=nb) (X:=X)).
Local Notation dn_ext := (dn_ext (nb:=nb) (X:=X)).
Local Notation Cw_eq0 := (Cw_eq0 (nb:=nb) (X:=X)).
Local Notation addInsert_sp := (addInsert_sp (g:=g) (nb:=nb) (X:=X)).
Local Notation binInsert_sp := (binInsert_sp (g:=g) (nb:=nb) (X:=X)).
Local Notation unInsert_sp := (unInsert_sp (g:=g) (nb:=nb) (X:=X)).
Local Notation addLookup_sp := (addLookup_sp (g:=g) (nb:=nb) (X:=X)).
Local Notation binLookup_sp := (binLookup_sp (g:=g) (nb:=nb) (X:=X)).
Local Notation unLookup_sp := (unLookup_sp (g:=g) (nb:=nb) (X:=X)).
Local Notation cres := (cres (g:=g) (X:=X)).
Local Notation addsp := (addsp (g:=g) (nb:=nb) (X:=X)).
Local Notation rel_sp := (rel_sp (g:=g) (nb:=nb) (X:=X)).
Local Notation relif_sp := (relif_sp (g:=g) (nb:=nb) (X:=X)).
Local Notation mapM_cres := (mapM_cres (g:=g) (nb:=nb) (X:=X)).
Local Notation de_step := (de_step (g:=g) (nb:=nb) (X:=X)).
Local Notation dg_step := (dg_step (g:=g) (nb:=nb) (X:=X)).
Local Notation mulSelf_sp := (mulSelf_sp (g:=g) (nb:=nb) (X:=X)).
Local Notation finish_sp := (finish_sp (g:=g) (nb:=nb) (X:=X) G).
Local Notation add2F_sp := (add2F_sp (g:=g) (nb:=nb) (X:=X) G).
Implicit Types (s : st N).

Local Notation dn_nz := (dn_nz (g:=g) (nb:=nb) (X:=X)).
Local Notation idok := (idok N g X).
Local Notation makeDDNode_t := (makeDDNode_t (nb:=nb) (X:=X) G).
Local Notation mk_weight := (mk_weight (nb:=nb) (X:=X)).

(** ** The source package *)
Section Source.
Variables (a : st N) (k : kind).
Hypothesis Ia : inv a.
Hypothesis Ex : ex X.
Local Notation q := (co a).
Local Notation ch n := (ne (nod a k n)).

Lemma zero_w w : wtab q w -> wapx0 a w = true <-> w = Czero.
Proof.
  intros T. rewrite (x_wapx0 (X:=X)) by auto. rewrite Cv_Cw by auto. split.
  - intros E. apply (Cw_eq0 q) in E; auto. apply Ia.
  - intros ->. now apply Cw_zero.
Qed.

(** Nodes in the table, each after its successors *)
Definition topo (o : list nat) : Prop := forall pre n r, o = pre ++ n :: r ->
  linked q k n /\ ~ In n pre /\ forall c, In c (ch n) -> ep c = PTerm \/ exists m, ep c = PNode m /\ In m pre.

Lemma topo_nil : topo [].
Proof. intros pre n r E. destruct pre; discriminate. Qed.
Lemma topo_in o n : topo o -> In n o -> linked q k n /\ forall c, In c (ch n) -> ep c = PTerm \/ exists m, ep c = PNode m /\ In m o.
Proof.
  intros H Hn. destruct (in_split _ _ Hn) as (pre & r & ->). destruct (H pre n r eq_refl) as (A & B & D). split; auto.
  intros c Hc. destruct (D c Hc) as [E|(m & E & M)]; [auto|]. right. exists m. split; auto. apply in_or_app. auto.
Qed.
Lemma topo_snoc o n : topo o -> linked q k n -> ~ In n o -> (forall c, In c (ch n) -> ep c = PTerm \/ exists m, ep c = PNode m /\ In m o) -> topo (o ++ [n]).
Proof.
  intros H L Nn D pre m r E. destruct r as [|r0 r] using rev_ind.
  - apply app_inj_tail in E. destruct E as [-> ->]. auto.
  - change (pre ++ m :: r ++ [r0]) with (pre ++ (m :: r) ++ [r0]) in E. rewrite app_assoc in E. apply app_inj_tail in E. destruct E as [-> ->]. apply (H pre m r eq_refl).
Qed.
Lemma topo_pre o o' : topo (o ++ o') -> topo o.
Proof. intros H pre m r E. apply (H pre m (r ++ o')). rewrite E, <- app_assoc. reflexivity. Qed.
Lemma nodup_snoc (o : list nat) n : NoDup o -> ~ In n o -> NoDup (o ++ [n]).
Proof.
  induction 1 as [|m o Hm Ho IH]; intros Nn; cbn; [constructor; auto; constructor|].
  constructor; [|apply IH; intros Z; apply Nn; now right]. intros Z. apply in_app_or in Z. destruct Z as [Z|[->|[]]]; [auto|]. apply Nn. now left.
Qed.
Lemma topo_nodup o : topo o -> NoDup o.
Proof.
  induction o as [|n o IH] using rev_ind; intros H; [constructor|].
  destruct (H o n [] eq_refl) as (_ & Nn & _). apply nodup_snoc; auto. apply IH. eapply topo_pre; eauto.
Qed.
Lemma firsts_nodup o : NoDup o -> firsts o = o.
Proof.
  intros H. unfold firsts. rewrite nodup_fixed_point; [apply rev_involutive|]. now apply NoDup_rev.
Qed.

(** *** The traversal with one stack, for vectors *)
Section Stack.
Hypothesis Kv : k = KV.
Variable guard : bool.

Definition popF (f : nat) (stk1 : list edge) (done : list nat) : M N (list nat) :=
    match stk1 with
    | [] => fail BadIndex
    | e :: rest =>
      match ep e with
      | PNode n =>
          let* a := get in
          let* h := hasChild N a guard done (tl (ne (nod a k n))) rest in
          if h then
            match rest with
            | t :: rest' => orderF N f k guard (Some t) (e :: rest') done
            | [] => fail BadIndex
            end
          else
            let done' := if memb n done then done else done ++ [n] in
            match rest with [] => ret done' | _ => orderF N f k guard None rest done' end
      | _ => fail BadNull
      end
    end.
Definition contF (f : nat) (stk : list edge) (done : list nat) : M N (list nat) :=
  match stk with [] => ret done | _ => orderF N f k guard None stk done end.
Lemma orderF_some f e stk done : orderF N (S f) k guard (Some e) stk done = bind (down N (S f) k done e stk) (fun st1 => popF f st1 done).
Proof. reflexivity. Qed.
Lemma orderF_none f stk done s : orderF N (S f) k guard None stk done s = popF f stk done s.
Proof. reflexivity. Qed.

Definition onnode (t : edge) : Prop := exists m, ep t = PNode m.

Lemma ch2 n : linked q k n -> exists e0 e1, ch n = [e0; e1] /\ tedge q k (nv (nod a k n) - 1) e0 /\ tedge q k (nv (nod a k n) - 1) e1 /\ 0 <= nv (nod a k n) < s_nq a.
Proof.
  intros L. assert (Ic: cinv q) by apply Ia. destruct (linked_ok (nb:=nb) (X:=X) _ _ _ Ic L) as (b & K & _). pose proof (no_len _ _ _ _ _ _ _ _ _ K) as Le.
  pose proof (no_es _ _ _ _ _ _ _ _ _ K) as Es. pose proof (no_v _ _ _ _ _ _ _ _ _ K) as Hv. rewrite Kv in Le. cbn in Le. rewrite <- Kv in Le.
  change (qn q k n) with (nod a k n) in *. destruct (ch n) as [|e0 [|e1 [|? ?]]]; try discriminate. exists e0, e1.
  split; auto. split; [apply Es; cbn; auto|]. split; [apply Es; cbn; auto|exact Hv].
Qed.

Lemma noChild done c rest : wtab q (ew c) -> Forall onnode rest -> (rest = [] -> ep c = PTerm -> ew c <> Czero -> guard = true) ->
  ep c = PTerm \/ (exists m, ep c = PNode m /\ In m done) -> hasChild N a guard done [c] rest a = Ok false a.
Proof.
  intros T Fr Gd H. cbn [hasChild]. destruct (wapx0 a (ew c)) eqn:Z; [reflexivity|]. cbn [orb].
  destruct H as [E|(m & E & Hm)]; rewrite E in *.
  - destruct rest as [|t r].
    + rewrite Gd; auto. intros Z'. apply zero_w in Z'; auto. congruence.
    + inversion Fr as [|? ? [m Em] _ ]; subst. rewrite Em. reflexivity.
  - apply memb_In in Hm. rewrite Hm. reflexivity.
Qed.
Lemma yesChild done c t rest m : wtab q (ew c) -> ew c <> Czero -> ep c = PNode m -> ~ In m done -> ep t = ep c -> hasChild N a guard done [c] (t :: rest) a = Ok true a.
Proof.
  intros T Wz E Nm Et. cbn [hasChild]. destruct (wapx0 a (ew c)) eqn:Z; [apply zero_w in Z; auto; contradiction|]. cbn [orb].
  rewrite Et, E. destruct (memb m done) eqn:Em; [apply memb_In in Em; contradiction|]. cbn [nptr_eqb]. rewrite Nat.eqb_refl. reflexivity.
Qed.

Lemma pop_emit f e n rest done done' : ep e = PNode n -> hasChild N a guard done (tl (ch n)) rest a = Ok false a ->
  done' = (if memb n done then done else done ++ [n]) -> popF f (e :: rest) done a = contF f rest done' a.
Proof.
  intros E H ->. unfold popF, contF. rewrite E. unfold bind at 1, get. unfold bind. rewrite H. destruct rest; reflexivity.
Qed.
Lemma pop_child f e n t rest done : ep e = PNode n -> hasChild N a guard done (tl (ch n)) (t :: rest) a = Ok true a ->
  popF f (e :: t :: rest) done a = orderF N f k guard (Some t) (e :: rest) done a.
Proof. intros E H. unfold popF. rewrite E. unfold bind at 1, get. unfold bind. rewrite H. reflexivity. Qed.

(** The function that does not check whether the stack is empty looks at the top of an empty stack exactly if the root is one of these. *)
Definition unsafe (n : nat) : Prop :=
  (nv (nod a k n) = 0 /\ ew (nthe (ch n) 1) <> Czero) \/
  (nv (nod a k n) = 1 /\ exists m, ep (nthe (ch n) 0) = PNode m /\ ep (nthe (ch n) 1) = PNode m /\ ew (nthe (ch m) 1) <> Czero).
Lemma lev_of l e m : tedge q k l e -> ep e = PNode m -> nv (nod a k m) = l.
Proof. intros T E. pose proof (te_n _ _ _ _ _ _ _ T) as Q. rewrite E in Q. apply Q. Qed.

Lemma walk_sp L : L = Z.to_nat (s_nq a + 2) -> forall j l e stk done, Z.of_nat j = l + 1 -> tedge q k l e -> topo done -> Forall onnode stk ->
  (stk <> [] \/ onnode e) -> (guard = true \/ stk <> [] \/ (done = [] /\ forall n, ep e = PNode n -> ~ unsafe n)) ->
  exists d done', topo done' /\ (exists ext, done' = done ++ ext) /\ (forall m, In m done' -> In m done \/ nv (nod a k m) < l \/ ep e = PNode m) /\
    match ep e with
    | PNode n => (In n done -> done' = done) /\ (~ In n done -> exists ext, done' = done ++ ext ++ [n])
    | _ => done' = done
    end /\
    forall f F, (L <= f)%nat -> (Z.to_nat (l + 2) <= F)%nat -> bind (down N F k done e stk) (fun st1 => popF (d + f) st1 done) a = contF (S f) stk done' a.
Proof.
  intros EL. induction j as [|j IH]; intros l e stk done Hj T Tp Fs Hs Hg.
  - assert (Et: ep e = PTerm).
    { destruct (ep e) as [| |n] eqn:E; [|auto|].
      - pose proof (te_n _ _ _ _ _ _ _ T) as Q. rewrite E in Q. contradiction.
      - pose proof (te_n _ _ _ _ _ _ _ T) as Q. rewrite E in Q. destruct Q as [Q V]. destruct (ch2 n Q) as (_ & _ & _ & _ & _ & B). change (qn q k n) with (nod a k n) in V. lia. }
    rewrite Et. exists 0%nat, done. split; auto. split; [exists []; now rewrite app_nil_r|]. split; [auto|]. split; auto.
    intros f F Lf LF. destruct F as [|F]; [lia|]. unfold bind. cbn [down]. rewrite Et. cbn [ret]. destruct Hs as [Hs|[m Hm]]; [|congruence].
    destruct stk; [contradiction|]. reflexivity.
  - destruct (ep e) as [| |n] eqn:E.
    + pose proof (te_n _ _ _ _ _ _ _ T) as Q. rewrite E in Q. contradiction.
    + exists 0%nat, done. split; auto. split; [exists []; now rewrite app_nil_r|]. split; [auto|]. split; auto.
      intros f F Lf LF. destruct F as [|F]; [lia|]. unfold bind. cbn [down]. rewrite E. cbn [ret]. destruct Hs as [Hs|[m Hm]]; [|congruence].
      destruct stk; [contradiction|]. reflexivity.
    + pose proof (te_n _ _ _ _ _ _ _ T) as Q. rewrite E in Q. destruct Q as [Ln Lv]. change (qn q k n) with (nod a k n) in Lv.
      destruct (ch2 n Ln) as (e0 & e1 & Ec & T0 & T1 & Hv). rewrite Lv in *.
      set (pu := filter (wanted N a done) [e1]).
      assert (Fp: Forall onnode (e :: pu ++ stk)).
      { constructor; [exists n; auto|]. apply Forall_app. split; auto. unfold pu. cbn [filter]. destruct (wanted N a done e1) eqn:Wa; constructor; [|constructor].
        unfold wanted in Wa. unfold onnode. destruct (ep e1) eqn:E1; [|discriminate|eauto]. pose proof (te_n _ _ _ _ _ _ _ T1) as Q. rewrite E1 in Q. contradiction. }
      destruct (IH (l - 1) e0 (e :: pu ++ stk) done) as (d0 & done0 & Tp0 & (x0 & X0) & Ls0 & P0 & R0); auto; [lia|left; discriminate|right; left; discriminate|].
      assert (Lv0: forall m, In m done0 -> In m done \/ nv (nod a k m) <= l - 1).
      { intros m Hm. destruct (Ls0 m Hm) as [?|[?|Q]]; [auto|right; lia|right]. rewrite (lev_of _ _ _ T0 Q). lia. }
      assert (Sub0: incl done done0) by (rewrite X0; apply incl_appl, incl_refl).
      assert (C0in: ep e0 = PTerm \/ exists m, ep e0 = PNode m /\ In m done0).
      { destruct (ep e0) as [| |m] eqn:E0; [|auto|].
        - pose proof (te_n _ _ _ _ _ _ _ T0) as Q. rewrite E0 in Q. contradiction.
        - right. exists m. split; auto. destruct P0 as [P1 P2]. destruct (in_dec Nat.eq_dec m done) as [I0|I0]; [auto|]. destruct (P2 I0) as (x & ->).
          rewrite !in_app_iff. cbn. auto. }
      assert (Nn0: ~ In n done -> ~ In n done0). { intros A B. destruct (Lv0 n B) as [?|?]; [auto|lia]. }
      (* the first part of the run *)
      assert (R1: forall f F, (L <= f)%nat -> (Z.to_nat (l + 2) <= F)%nat -> bind (down N F k done e stk) (fun st1 => popF (d0 + f) st1 done) a = popF f (e :: pu ++ stk) done0 a).
      { intros f F Lf LF. destruct F as [|F]; [lia|]. rewrite <- orderF_none. change (orderF N (S f) k guard None (e :: pu ++ stk) done0 a) with (contF (S f) (e :: pu ++ stk) done0 a).
        rewrite <- (R0 f F Lf) by lia. unfold bind. cbn [down]. rewrite E. unfold bind, get. rewrite Ec. reflexivity. }
      destruct (in_dec Nat.eq_dec n done) as [In0|In0].
      * (* the node is done already *)
        destruct (topo_in _ _ Tp In0) as [_ Cl]. rewrite Ec in Cl.
        assert (Pu: pu = []). { unfold pu. cbn [filter]. unfold wanted. destruct (Cl e1) as [E1|(m & E1 & Hm)]; [cbn; auto|now rewrite E1|]. rewrite E1. apply memb_In in Hm. rewrite Hm. now rewrite andb_false_r. }
        assert (E0d: done0 = done). { destruct (Cl e0) as [E0|(m & E0 & Hm)]; [cbn; auto| |]; rewrite E0 in P0; [auto|]. now apply P0. }
        rewrite Pu, E0d in R1. cbn [app] in R1. exists (d0 + 1)%nat, done. split; auto. split; [exists []; now rewrite app_nil_r|]. split; [auto|]. split; [split; [auto|contradiction]|].
        intros f F Lf LF. replace (d0 + 1 + f)%nat with (d0 + S f)%nat by lia. rewrite R1 by lia. apply (pop_emit _ e n); auto.
        -- rewrite Ec. cbn [tl]. apply noChild; auto; [apply T1| |apply Cl; cbn; auto].
           intros Z1 Z2 Z3. destruct Hg as [?|[?|[Hd _]]]; [auto|contradiction|]. rewrite Hd in In0. destruct In0.
        -- apply memb_In in In0. now rewrite In0.
      * specialize (Nn0 In0). destruct (wanted N a done e1) eqn:Wa.
        -- (* the second successor was pushed *)
           assert (Pu: pu = [e1]) by (unfold pu; cbn [filter]; now rewrite Wa). rewrite Pu in R1. cbn [app] in R1.
           unfold wanted in Wa. destruct (ep e1) as [| |m1] eqn:E1; [pose proof (te_n _ _ _ _ _ _ _ T1) as Q; rewrite E1 in Q; contradiction|discriminate|].
           apply andb_true_iff in Wa. destruct Wa as [Wz Wm]. assert (Wz1: ew e1 <> Czero). { intros Z. apply zero_w in Z; [|apply T1]. rewrite Z in Wz. discriminate. }
           destruct (in_dec Nat.eq_dec m1 done0) as [In1|In1].
           ++ (* done meanwhile: the stale entry is removed afterwards *)
              assert (Tn: topo (done0 ++ [n])).
              { apply topo_snoc; auto. intros c Hc. rewrite Ec in Hc. destruct Hc as [<-|[<-|[]]]; [auto|]. right. eauto. }
              exists (d0 + 2)%nat, (done0 ++ [n]). split; auto. split; [exists (x0 ++ [n]); now rewrite X0, app_assoc|]. split.
              { intros m Hm. apply in_app_or in Hm. destruct Hm as [Hm|[<-|[]]]; [destruct (Lv0 m Hm); [auto|right; left; lia]|right; right; reflexivity]. }
              split; [split; [contradiction|intros _; exists x0; now rewrite X0, app_assoc]|].
              intros f F Lf LF. replace (d0 + 2 + f)%nat with (d0 + S (S f))%nat by lia. rewrite R1 by lia.
              assert (Fs1: Forall onnode (e1 :: stk)) by (constructor; auto; exists m1; auto).
              rewrite (pop_emit _ e n _ _ (done0 ++ [n])); auto.
              ** cbn [contF]. rewrite orderF_none.
                 assert (Im: In m1 (done0 ++ [n])) by (apply in_or_app; auto). destruct (topo_in _ _ Tn Im) as [Lm Cm]. destruct (ch2 m1 Lm) as (c0 & c1 & Ec1 & _ & Tc1 & _). rewrite Ec1 in Cm.
                 apply (pop_emit _ e1 m1); auto; [|apply memb_In in Im; now rewrite Im]. rewrite Ec1. cbn [tl]. apply noChild; auto; [apply Tc1| |apply Cm; cbn; auto].
                 intros Z1 Z2 Z3. destruct (te_t _ _ _ _ _ _ _ Tc1 Z2) as [Z4|Z4]; [|contradiction].
                 pose proof (lev_of _ _ _ T1 E1) as Q. destruct Hg as [?|[?|[Hd Hu]]]; [auto|contradiction|].
                 exfalso. apply (Hu n eq_refl). right. rewrite Ec. split; [lia|]. exists m1. cbn [nthe nth]. rewrite Ec1. split; [|split; [exact E1|exact Z3]].
                 destruct (Ls0 m1 In1) as [B|[B|B]]; [rewrite Hd in B; destruct B| |exact B]. destruct (ch2 m1 Lm) as (_ & _ & _ & _ & _ & B'). lia.
              ** rewrite Ec. cbn [tl]. apply noChild; auto; [apply T1|discriminate|right; eauto].
              ** destruct (memb n done0) eqn:M; auto. apply memb_In in M. contradiction.
           ++ (* the second successor is next *)
              destruct (IH (l - 1) e1 (e :: stk) done0) as (d1 & done1 & Tp1 & (x1 & X1) & Ls1 & P1 & R2); auto; [lia|constructor; auto; exists n; auto|left; discriminate|right; left; discriminate|].
              assert (Lv1: forall m, In m done1 -> In m done0 \/ nv (nod a k m) <= l - 1).
              { intros m Hm. destruct (Ls1 m Hm) as [?|[?|Q]]; [auto|right; lia|right]. rewrite (lev_of _ _ _ T1 Q). lia. }
              rewrite E1 in P1. destruct P1 as [_ P1]. destruct (P1 In1) as (y & Y). assert (I1: In m1 done1) by (rewrite Y, !in_app_iff; cbn; auto).
              assert (Nn1: ~ In n done1). { intros B. destruct (Lv1 n B) as [?|?]; [auto|lia]. }
              assert (Tn: topo (done1 ++ [n])).
              { apply topo_snoc; auto. intros c Hc. rewrite Ec in Hc. destruct Hc as [<-|[<-|[]]].
                - destruct C0in as [?|(m & ? & ?)]; [auto|]. right. exists m. split; auto. rewrite X1. apply in_or_app. auto.
                - right. eauto. }
              exists (d0 + 1 + d1 + 1)%nat, (done1 ++ [n]). split; auto. split; [exists (x0 ++ x1 ++ [n]); now rewrite X1, X0, !app_assoc|]. split.
              { intros m Hm. apply in_app_or in Hm. destruct Hm as [Hm|[<-|[]]]; [|right; right; reflexivity]. destruct (Lv1 m Hm) as [Hm'|]; [destruct (Lv0 m Hm'); [auto|right; left; lia]|right; left; lia]. }
              split; [split; [contradiction|intros _; exists (x0 ++ x1); now rewrite X1, X0, !app_assoc]|].
              intros f F Lf LF. replace (d0 + 1 + d1 + 1 + f)%nat with (d0 + S (d1 + S f))%nat by lia. rewrite R1 by lia.
              rewrite (pop_child _ e n e1 stk done0); auto; [|rewrite Ec; cbn [tl]; apply (yesChild done0 e1 e1 stk m1); auto; apply T1].
              rewrite orderF_some. rewrite (R2 (S f) (S (d1 + S f))) by lia. cbn [contF]. rewrite orderF_none.
              apply (pop_emit _ e n); auto; [|destruct (memb n done1) eqn:M; auto; apply memb_In in M; contradiction].
              rewrite Ec. cbn [tl]. apply noChild; auto; [apply T1|intros _ Z; congruence|right; eauto].
        -- (* the second successor was not pushed *)
           assert (Pu: pu = []) by (unfold pu; cbn [filter]; now rewrite Wa). rewrite Pu in R1. cbn [app] in R1.
           assert (C1in: ep e1 = PTerm \/ exists m, ep e1 = PNode m /\ In m done0).
           { unfold wanted in Wa. destruct (ep e1) as [| |m] eqn:E1; [pose proof (te_n _ _ _ _ _ _ _ T1) as Q; rewrite E1 in Q; contradiction|auto|].
             apply andb_false_iff in Wa. destruct Wa as [Wa|Wa].
             - apply negb_false_iff in Wa. apply zero_w in Wa; [|apply T1]. pose proof (te_z _ _ _ _ _ _ _ T1 Ex Wa). congruence.
             - apply negb_false_iff, memb_In in Wa. right. exists m. auto. }
           assert (Tn: topo (done0 ++ [n])).
           { apply topo_snoc; auto. intros c Hc. rewrite Ec in Hc. destruct Hc as [<-|[<-|[]]]; auto. }
           exists (d0 + 1)%nat, (done0 ++ [n]). split; auto. split; [exists (x0 ++ [n]); now rewrite X0, app_assoc|]. split.
           { intros m Hm. apply in_app_or in Hm. destruct Hm as [Hm|[<-|[]]]; [destruct (Lv0 m Hm); [auto|right; left; lia]|right; right; reflexivity]. }
           split; [split; [contradiction|intros _; exists x0; now rewrite X0, app_assoc]|].
           intros f F Lf LF. replace (d0 + 1 + f)%nat with (d0 + S f)%nat by lia. rewrite R1 by lia. apply (pop_emit _ e n); auto.
           ++ rewrite Ec. cbn [tl]. apply noChild; auto; [apply T1|].
              intros Z1 Z2 Z3. destruct (te_t _ _ _ _ _ _ _ T1 Z2) as [Z4|Z4]; [|contradiction]. destruct Hg as [?|[?|[_ Hu]]]; [auto|contradiction|].
              exfalso. apply (Hu n eq_refl). left. rewrite Ec. split; [lia|exact Z3].
           ++ destruct (memb n done0) eqn:M; auto. apply memb_In in M. contradiction.
Qed.

(** The whole traversal *)
Theorem order_sp l e n : tedge q k l e -> ep e = PNode n -> guard = true \/ ~ unsafe n ->
  exists f0 o, topo (o ++ [n]) /\ (forall m, In m (o ++ [n]) -> nv (nod a k m) <= l) /\ forall f, (f0 <= f)%nat -> orderF N f k guard (Some e) [] [] a = Ok (o ++ [n]) a.
Proof.
  intros T E Hg. pose proof (te_n _ _ _ _ _ _ _ T) as Q. rewrite E in Q. destruct Q as [Ln Lv]. destruct (ch2 n Ln) as (_ & _ & _ & _ & _ & Hv).
  change (qn q k n) with (nod a k n) in Lv.
  destruct (walk_sp _ eq_refl (Z.to_nat (l + 1)) l e [] [] ltac:(lia) T topo_nil (Forall_nil _)) as (d & done' & Tp & _ & Lm & P & R).
  { right. exists n. auto. } { destruct Hg as [?|Hu]; [auto|]. right. right. split; auto. intros m Em. congruence. }
  rewrite E in P. destruct P as [_ P]. destruct (P (fun H => H)) as (o & Eo). cbn in Eo. exists (S (d + Z.to_nat (s_nq a + 2)))%nat, o.
  rewrite <- Eo. split; auto. split.
  { intros m Hm. destruct (Lm m Hm) as [[]|[B|B]]; [lia|]. rewrite (lev_of _ _ _ T B). lia. }
  intros f Lf. destruct f as [|f]; [lia|]. rewrite orderF_some.
  assert (Ef: exists x, f = (d + x)%nat) by (exists (f - d)%nat; lia). destruct Ef as (x & ->). rewrite R by lia. reflexivity.
Qed.

(** Without the check, the top of the empty stack is read if the root is [unsafe]. *)
Lemma badChild done c : wtab q (ew c) -> guard = false -> ep c = PTerm -> ew c <> Czero -> hasChild N a guard done [c] [] a = Bad BadIndex.
Proof.
  intros T Gd E Wz. cbn [hasChild]. destruct (wapx0 a (ew c)) eqn:Z; [apply zero_w in Z; auto; contradiction|]. rewrite E, Gd. reflexivity.
Qed.
Lemma pop_bad f e n done : ep e = PNode n -> hasChild N a guard done (tl (ch n)) [] a = Bad BadIndex -> popF f [e] done a = Bad BadIndex.
Proof. intros E H. unfold popF. rewrite E. unfold bind at 1, get. unfold bind. rewrite H. reflexivity. Qed.
Lemma term0 c : tedge q k (-1) c -> ep c = PTerm.
Proof.
  intros T. pose proof (te_n _ _ _ _ _ _ _ T) as Q. destruct (ep c) as [| |n]; [contradiction|auto|].
  destruct Q as [Q V]. destruct (ch2 n Q) as (_ & _ & _ & _ & _ & B). change (qn q k n) with (nod a k n) in V. lia.
Qed.
Lemma down_node F done e n e0 e1 stk : ep e = PNode n -> ch n = [e0; e1] -> down N (S F) k done e stk a = down N F k done e0 (e :: filter (wanted N a done) [e1] ++ stk) a.
Proof. intros E Ec. cbn [down]. rewrite E. unfold bind, get. rewrite Ec. reflexivity. Qed.
Lemma down_term F done e stk : ep e = PTerm -> down N (S F) k done e stk a = Ok stk a.
Proof. intros E. cbn [down]. rewrite E. reflexivity. Qed.
Theorem order_bad e n l : guard = false -> tedge q k l e -> ep e = PNode n -> unsafe n -> forall f, (4 <= f)%nat -> orderF N f k guard (Some e) [] [] a = Bad BadIndex.
Proof.
  intros Gd T E U f Lf. do 4 (destruct f as [|f]; [lia|]). clear Lf. rewrite orderF_some. unfold bind.
  pose proof (te_n _ _ _ _ _ _ _ T) as Q. rewrite E in Q. destruct Q as [Ln _]. destruct (ch2 n Ln) as (e0 & e1 & Ec & T0 & T1 & Hv).
  rewrite (down_node _ _ e n e0 e1 _ E Ec). destruct U as [[V W]|(V & m & E0 & E1 & W)]; rewrite Ec in *; cbn [nthe nth] in *; rewrite V in *.
  - pose proof (term0 _ T0) as Z0. pose proof (term0 _ T1) as Z1. rewrite down_term by auto. cbn [filter]. unfold wanted at 1. rewrite Z1. cbn [app].
    apply (pop_bad _ e n); auto. rewrite Ec. cbn [tl]. apply badChild; auto. apply T1.
  - change (1 - 1) with 0 in *. pose proof (te_n _ _ _ _ _ _ _ T1) as Q. rewrite E1 in Q. destruct Q as [Lm Vm]. change (qn q k m) with (nod a k m) in Vm.
    destruct (ch2 m Lm) as (c0 & c1 & Ecm & Tc0 & Tc1 & _). rewrite Vm in *. pose proof (term0 _ Tc0) as Z0. pose proof (term0 _ Tc1) as Z1. rewrite Ecm in W. cbn [nthe nth] in W.
    assert (W1: ew e1 <> Czero). { intros Z. pose proof (te_z _ _ _ _ _ _ _ T1 Ex Z). congruence. }
    assert (Wa: wapx0 a (ew e1) = false). { destruct (wapx0 a (ew e1)) eqn:Z; auto. apply zero_w in Z; [contradiction|apply T1]. }
    assert (Nm: m <> n). { intros ->. rewrite V in Vm. discriminate. }
    cbn [filter]. unfold wanted at 1. rewrite E1, Wa. cbn [memb existsb negb andb app].
    rewrite (down_node _ _ e0 m c0 c1 _ E0 Ecm), down_term by auto. cbn [filter]. unfold wanted at 1. rewrite Z1. cbn [app].
    rewrite (pop_emit _ e0 m _ _ [m]); auto.
    2:{ rewrite Ecm. cbn [tl]. apply noChild; auto; [apply Tc1| |discriminate]. repeat constructor; unfold onnode; eauto. }
    cbn [contF]. rewrite orderF_none. rewrite (pop_emit _ e n _ _ [m; n]); auto.
    2:{ rewrite Ec. cbn [tl]. apply noChild; auto; [apply T1|repeat constructor; unfold onnode; eauto|discriminate|]. right. exists m. cbn. auto. }
    2:{ replace (memb n [m]) with false; [reflexivity|]. destruct (memb n [m]) eqn:B; auto. apply memb_In in B. destruct B as [B|[]]. contradiction. }
    cbn [contF]. rewrite orderF_none. apply (pop_bad _ e1 m); auto. rewrite Ecm. cbn [tl]. apply badChild; auto. apply Tc1.
Qed.
End Stack.

(** *** The recursion for matrices *)
Section Rec.
Hypothesis Kk : k = KM.

Lemma ch4 n : linked q k n -> (forall c, In c (ch n) -> tedge q k (nv (nod a k n) - 1) c) /\ 0 <= nv (nod a k n) < s_nq a.
Proof.
  intros L. assert (Ic: cinv q) by apply Ia. destruct (linked_ok (nb:=nb) (X:=X) _ _ _ Ic L) as (b & K & _).
  split; [apply (no_es _ _ _ _ _ _ _ _ _ K)|apply (no_v _ _ _ _ _ _ _ _ _ K)].
Qed.
Lemma vis_in p vs : existsb (nptr_eqb p) vs = true <-> In p vs.
Proof.
  rewrite existsb_exists. split.
  - intros (x & Hx & E). destruct p, x; cbn in E; try discriminate; auto. apply Nat.eqb_eq in E. now subst.
  - intros H. exists p. split; auto. destruct p; cbn; auto. apply Nat.eqb_refl.
Qed.

(** The set visited holds the nodes written and nodes above level [l]. *)
Definition visok (l : Z) (vs : list nptr) (o : list nat) : Prop :=
  topo o /\ (forall m, In m o -> In (PNode m) vs) /\
  (forall p, In p vs -> p = PTerm \/ exists m, p = PNode m /\ (In m o \/ l <= nv (nod a k m))).

Lemma visit_sp : forall j l e n vs o F, Z.of_nat j = l + 1 -> tedge q k l e -> ep e = PNode n -> (j + 1 <= F)%nat -> visok l vs o -> ~ In n o ->
  exists vs' ext, visitM N F e (vs, o) a = Ok (vs', o ++ ext ++ [n]) a /\ topo (o ++ ext ++ [n]) /\ incl vs vs' /\
    (forall m, In m (o ++ ext) -> In (PNode m) vs') /\ (forall m, In m ext -> nv (nod a k m) < l) /\
    (forall p, In p vs' -> In p vs \/ p = PTerm \/ exists m, p = PNode m /\ In m (o ++ ext)).
Proof.
  induction j as [|j IH]; intros l e n vs o F Hj T E HF V Nn; pose proof (te_n _ _ _ _ _ _ _ T) as Q; rewrite E in Q; destruct Q as [Ln Lv];
    change (qn q k n) with (nod a k n) in Lv; destruct (ch4 n Ln) as [Tc Hv]; rewrite Lv in *; [lia|].
  destruct F as [|F]; [lia|].
  assert (Fo: forall cs vs o, (forall c, In c cs -> In c (ch n)) -> visok l vs o -> ~ In n o -> exists vs' ext,
    foldM N (fun st c => if existsb (nptr_eqb (ep c)) (fst st) then ret st else visitM N F c (ep c :: fst st, snd st)) cs (vs, o) a = Ok (vs', o ++ ext) a /\
    visok l vs' (o ++ ext) /\ incl vs vs' /\ (forall m, In m ext -> nv (nod a k m) < l) /\
    (forall p, In p vs' -> In p vs \/ p = PTerm \/ exists m, p = PNode m /\ In m (o ++ ext)) /\
    (forall c, In c cs -> ep c = PTerm \/ exists m, ep c = PNode m /\ In m (o ++ ext))).
  { clear vs o V Nn. induction cs as [|c cs IHc]; intros vs o Hc V Nn; cbn [foldM].
    - exists vs, []. rewrite app_nil_r. split; [reflexivity|]. split; auto. split; [apply incl_refl|]. split; [intros m []|]. split; [auto|intros c []].
    - assert (T1: tedge q k (l - 1) c) by (apply Tc, Hc; now left). cbn [fst snd].
      assert (St: exists vs1 ext1, (if existsb (nptr_eqb (ep c)) vs then ret (vs, o) else visitM N F c (ep c :: vs, o)) a = Ok (vs1, o ++ ext1) a /\
        visok l vs1 (o ++ ext1) /\ incl vs vs1 /\ (forall m, In m ext1 -> nv (nod a k m) < l) /\
        (forall p, In p vs1 -> In p vs \/ p = PTerm \/ exists m, p = PNode m /\ In m (o ++ ext1)) /\
        (ep c = PTerm \/ exists m, ep c = PNode m /\ In m (o ++ ext1))).
      { destruct V as (V1 & V2 & V3). destruct (existsb (nptr_eqb (ep c)) vs) eqn:Ev.
        - apply vis_in in Ev. exists vs, []. rewrite app_nil_r. split; [reflexivity|]. split; [unfold visok; auto|]. split; [apply incl_refl|]. split; [intros m []|]. split; [auto|].
          destruct (V3 _ Ev) as [Et|(m & Em & [Hm|Hm])]; [auto|right; eauto|]. pose proof (te_n _ _ _ _ _ _ _ T1) as Q. rewrite Em in Q. destruct Q as [_ Q]. change (qn q k m) with (nod a k m) in Q. lia.
        - assert (Nv: ~ In (ep c) vs) by (intros Z; apply vis_in in Z; congruence). destruct (ep c) as [| |m] eqn:Ec.
          + pose proof (te_n _ _ _ _ _ _ _ T1) as Q. rewrite Ec in Q. contradiction.
          + exists (PTerm :: vs), []. rewrite app_nil_r. split; [destruct F; [lia|]; cbn [visitM]; rewrite Ec; reflexivity|]. split; [|split; [apply incl_tl, incl_refl|split; [intros m []|split; [|auto]]]].
            * split; [auto|]. split; [intros m Hm; right; auto|]. intros p [<-|Hp]; auto.
            * intros p [<-|Hp]; auto.
          + pose proof (te_n _ _ _ _ _ _ _ T1) as Q. rewrite Ec in Q. destruct Q as [_ Q]. change (qn q k m) with (nod a k m) in Q.
            destruct (IH (l - 1) c m (PNode m :: vs) o F) as (vs1 & ext & A1 & A2 & A3 & A4 & A5 & A6); auto; [lia|lia| |].
            { split; [auto|]. split; [intros x Hx; right; auto|]. intros p [<-|Hp]; [right; exists m; split; [auto|right; lia]|].
              destruct (V3 p Hp) as [?|(x & ? & [?|?])]; [auto|right; exists x; auto|right; exists x; split; [auto|right; lia]]. }
            exists vs1, (ext ++ [m]). split; [exact A1|]. assert (Im: In m (o ++ ext ++ [m])) by (rewrite !in_app_iff; cbn; auto). split; [|split; [|split; [|split]]].
            * split; [exact A2|]. split.
              -- intros x Hx. rewrite app_assoc in Hx. apply in_app_or in Hx. destruct Hx as [Hx|[<-|[]]]; [auto|]. apply A3. now left.
              -- intros p Hp. destruct (A6 p Hp) as [[<-|Hp']|[?|(x & ? & Hx)]]; [right; exists m; auto| |auto|right; exists x; split; [auto|left; rewrite app_assoc; apply in_or_app; auto]].
                 destruct (V3 p Hp') as [?|(x & ? & [?|?])]; [auto|right; exists x; split; [auto|left; apply in_or_app; auto]|right; exists x; auto].
            * intros p Hp. apply A3. now right.
            * intros x Hx. apply in_app_or in Hx. destruct Hx as [Hx|[<-|[]]]; [apply A5 in Hx; lia|lia].
            * intros p Hp. destruct (A6 p Hp) as [[<-|Hp']|[?|(x & ? & Hx)]]; [right; right; exists m; auto|auto|auto|right; right; exists x; split; [auto|rewrite app_assoc; apply in_or_app; auto]].
            * right. exists m. auto. }
      destruct St as (vs1 & ext1 & A1 & A2 & A3 & A4 & A5 & A6).
      destruct (IHc vs1 (o ++ ext1)) as (vs2 & ext2 & B1 & B2 & B3 & B4 & B5 & B6); auto; [intros c' Hc'; apply Hc; now right| |].
      { intros Z. apply in_app_or in Z. destruct Z as [Z|Z]; [auto|]. apply A4 in Z. lia. }
      exists vs2, (ext1 ++ ext2). unfold bind. rewrite A1. rewrite !app_assoc in *. split; [exact B1|]. split; auto. split; [eapply incl_tran; eauto|].
      split; [intros m Hm; apply in_app_or in Hm; destruct Hm; auto|]. split.
      + intros p Hp. destruct (B5 p Hp) as [Hp1|[?|?]]; [|auto|auto]. destruct (A5 p Hp1) as [?|[?|(m & ? & Hm)]]; [auto|auto|]. right; right. exists m. split; auto. apply in_or_app. auto.
      + intros c' [<-|Hc']; [|auto]. destruct A6 as [?|(m & ? & Hm)]; [auto|]. right. exists m. split; auto. apply in_or_app. auto. }
  destruct (Fo (ch n) vs o) as (vs' & ext & A1 & A2 & A3 & A4 & A5 & A6); auto.
  exists vs', ext. split.
  { cbn [visitM]. rewrite E. unfold bind, get. rewrite <- Kk. rewrite A1. cbn [fst snd ret]. now rewrite app_assoc. }
  destruct A2 as (B1 & B2 & B3). split; [|auto 10].
  rewrite app_assoc. apply topo_snoc; auto. intros Z. apply in_app_or in Z. destruct Z as [Z|Z]; [auto|]. apply A4 in Z. lia.
Qed.
Theorem visit_root l e n : tedge q k l e -> ep e = PNode n ->
  exists vs o, topo (o ++ [n]) /\ (forall m, In m (o ++ [n]) -> nv (nod a k m) <= l) /\ visitM N (Z.to_nat (s_nq a) + 2) e ([], []) a = Ok (vs, o ++ [n]) a.
Proof.
  intros T E. pose proof (te_n _ _ _ _ _ _ _ T) as Q. rewrite E in Q. destruct Q as [Ln Lv]. change (qn q k n) with (nod a k n) in Lv. destruct (ch4 n Ln) as [_ Hv].
  destruct (visit_sp (Z.to_nat (l + 1)) l e n [] [] (Z.to_nat (s_nq a) + 2)) as (vs & ext & A & B & _ & _ & D & _); auto; try lia.
  { split; [apply topo_nil|]. split; [intros m []|intros p []]. }
  exists vs, ext. split; [exact B|]. split; [|exact A]. intros m Hm. apply in_app_or in Hm. destruct Hm as [Hm|[<-|[]]]; [apply D in Hm; lia|lia].
Qed.
End Rec.

(** ** The lines written *)
Section Lines.
Hypothesis Hk : k <> KD.

Lemma posOf_app m d d' i : posOf m d = Some i -> posOf m (d ++ d') = Some i.
Proof.
  revert i. induction d as [|x d IH]; intros i; cbn; [discriminate|]. destruct (Nat.eqb x m); auto.
  destruct (posOf m d) as [j|]; [|discriminate]. intros [= <-]. now rewrite (IH j eq_refl).
Qed.
Lemma posOf_in m d : In m d -> exists i, posOf m d = Some i /\ nth_error d i = Some m.
Proof.
  induction d as [|x d IH]; cbn; [intros []|]. intros H. destruct (Nat.eqb_spec x m) as [->|Ne]; [exists 0%nat; auto|].
  destruct H as [H|H]; [contradiction|]. destruct (IH H) as (i & A & B). exists (S i). now rewrite A.
Qed.
Lemma posOf_last n d : ~ In n d -> posOf n (d ++ [n]) = Some (length d).
Proof.
  induction d as [|x d IH]; cbn; intros H; [now rewrite Nat.eqb_refl|]. destruct (Nat.eqb_spec x n) as [->|Ne]; [exfalso; auto|].
  rewrite IH by auto. reflexivity.
Qed.

Lemma kids_ok n : linked q k n -> length (ch n) = arity k /\ (forall c, In c (ch n) -> tedge q k (nv (nod a k n) - 1) c) /\ 0 <= nv (nod a k n) /\
  unitary_weights k (fun i => Cw q (ew (nthe (ch n) i))).
Proof.
  intros L. assert (Ic: cinv q) by apply Ia. destruct (linked_ok (nb:=nb) (X:=X) _ _ _ Ic L) as (b & K & _).
  split; [apply (no_len _ _ _ _ _ _ _ _ _ K)|]. split; [apply (no_es _ _ _ _ _ _ _ _ _ K)|]. split; [apply (no_v _ _ _ _ _ _ _ _ _ K)|].
  apply (uw_of (g:=g) (X:=X) q k); auto. apply (no_norm _ _ _ _ _ _ _ _ _ K Ex).
Qed.
Lemma stored_value w : wtab q w -> Cv2 (cval a w) = Cw q w.
Proof. intros T. change (Cv a w = Cw q w). now apply Cv_Cw. Qed.

Definition levelfun (n : nat) : Z * (list nat -> C) := (nv (nod a k n), dn q k (PNode n)).

Section Write.
Variable txt : option (N * N -> N * N).
Hypothesis Htxt : forall t, txt = Some t -> forall v, t v = v.
Lemma txt_id v : match txt with Some t => t v | None => v end = v.
Proof. destruct txt eqn:E; auto. Qed.

Definition agree (rho : fenv) (d : list nat) : Prop := forall i m, nth_error d i = Some m -> rho (Z.of_nat i) = Some (levelfun m).

Lemma writeChild_sp d d' rho v c : agree rho d -> 0 <= v -> tedge q k (v - 1) c -> (ep c = PTerm \/ exists m, ep c = PNode m /\ In m d) ->
  (forall m, ep c = PNode m -> nv (nod a k m) = v - 1) ->
  exists x, writeChild N txt a (d ++ d') c a = Ok x a /\ chok Cv2 (fun _ => True) rho v x (Cw q (ew c)) (dn q k (ep c)).
Proof.
  intros A Hv T H Lm. unfold writeChild. rewrite txt_id. destruct (match txt with Some _ => wapx0 a (ew c) | None => false end) eqn:Z.
  - exists None. split; [reflexivity|]. cbn. destruct txt; [|discriminate]. apply zero_w in Z; [|apply T]. rewrite Z. now apply Cw_zero.
  - destruct H as [Et|(m & Em & Hm)].
    + rewrite Et. eexists. split; [reflexivity|]. cbn. rewrite stored_value by apply T. split; auto. split; auto. left. split; auto.
      destruct (te_t _ _ _ _ _ _ _ T Et) as [?|Ez]; [right; split; [lia|reflexivity]|left; rewrite Ez; now apply Cw_zero].
    + rewrite Em. destruct (posOf_in _ _ Hm) as (i & P1 & P2). rewrite (posOf_app _ _ d' _ P1). eexists. split; [reflexivity|]. cbn. rewrite stored_value by apply T. split; auto. split; auto. right.
      split; [lia|]. split; [intros Z0; apply (Cw_eq0 q) in Z0; auto; [pose proof (te_z _ _ _ _ _ _ _ T Ex Z0); congruence|apply Ia|apply T]|].
      rewrite (A _ _ P2). unfold levelfun. now rewrite (Lm m Em).
Qed.

Lemma writeKids_sp d d' rho v : agree rho d -> 0 <= v -> forall cs, (forall c, In c cs -> tedge q k (v - 1) c /\ (ep c = PTerm \/ exists m, ep c = PNode m /\ In m d)) ->
  exists xs, mapM N (writeChild N txt a (d ++ d')) cs a = Ok xs a /\ length xs = length cs /\
    forall i, (i < length cs)%nat -> chok Cv2 (fun _ => True) rho v (nth i xs None) (Cw q (ew (nthe cs i))) (dn q k (ep (nthe cs i))).
Proof.
  intros A Hv. induction cs as [|c cs IH]; intros H.
  - exists []. split; [reflexivity|]. split; auto. intros i Hi. cbn in Hi. lia.
  - destruct (H c) as [T P]; [now left|]. destruct (writeChild_sp d d' rho v c A Hv T P) as (x & E & Cx).
    { intros m Em. pose proof (te_n _ _ _ _ _ _ _ T) as Q. rewrite Em in Q. apply Q. }
    destruct IH as (xs & Es & L & Cs); [intros c' Hc; apply H; now right|]. exists (x :: xs). split; [cbn [mapM]; unfold bind; rewrite E, Es; reflexivity|].
    split; [cbn; lia|]. intros [|i] Hi; cbn [nth nthe]; [exact Cx|]. apply Cs. cbn in Hi. lia.
Qed.

Lemma write_sp nq : forall todo d rho n, topo (d ++ todo ++ [n]) -> agree rho d -> (forall m, In m (todo ++ [n]) -> nv (nod a k m) < nq) ->
  exists rs, writeNodes N txt k d (todo ++ [n]) a = Ok rs a /\ recsok Cv2 (fun _ => True) nq k rho rs (nv (nod a k n)) (dn q k (PNode n)).
Proof.
  assert (One: forall d m r rho, topo (d ++ m :: r) -> agree rho d -> nv (nod a k m) < nq -> exists xs, posOf m (firsts (d ++ [m])) = Some (length d) /\
    mapM N (writeChild N txt a (firsts (d ++ [m]))) (ch m) a = Ok xs a /\
    recok Cv2 (fun _ => True) nq k rho (FR (Z.of_nat (length d)) (nv (nod a k m)) xs) (dn q k (PNode m))).
  { intros d m r rho Tp Ag Lm. destruct (Tp d m r eq_refl) as (Ln & Nd & Cl). destruct (kids_ok m Ln) as (Le & Te & Hv & U).
    assert (Fi: firsts (d ++ [m]) = d ++ [m]).
    { apply firsts_nodup, topo_nodup. apply (topo_pre _ r). rewrite <- app_assoc. exact Tp. }
    rewrite Fi. destruct (writeKids_sp d [m] rho (nv (nod a k m)) Ag Hv (ch m)) as (xs & E & L & Cs); [intros c Hc; split; auto|].
    exists xs. split; [now apply posOf_last|]. split; [exact E|]. split; [cbn; lia|]. split; [cbn; lia|]. split; [cbn [fr_es]; congruence|].
    exists (fun i => Cw q (ew (nthe (ch m) i))), (fun i => dn q k (ep (nthe (ch m) i))). cbn [fr_v fr_es]. rewrite Le in Cs. split; [exact Cs|]. split; [exact U|].
    intros i p Hi Vp. rewrite dn_cons. reflexivity. }
  induction todo as [|m todo IH]; intros d rho n Tp Ag Lq.
  - destruct (One d n [] rho Tp Ag) as (xs & Ep & Em & R); [apply Lq; now left|]. eexists. split; [cbn [app writeNodes]; unfold bind at 1, get; rewrite Ep; unfold bind; rewrite Em; reflexivity|].
    apply (ro_last Cv2 (fun _ => True) nq k rho _ _ R).
  - destruct (One d m (todo ++ [n]) rho Tp Ag) as (xs & Ep & Em & R); [apply Lq; now left|].
    destruct (IH (d ++ [m]) (updZ rho (Z.of_nat (length d)) (Some (levelfun m))) n) as (rs & Er & Rr).
    { rewrite <- app_assoc. exact Tp. }
    { intros i x Hx. unfold updZ. destruct (Nat.lt_trichotomy i (length d)) as [Li|[Li|Li]].
      - rewrite nth_error_app1 in Hx by auto. destruct (Z.eqb_spec (Z.of_nat i) (Z.of_nat (length d))); [lia|auto].
      - subst i. rewrite nth_error_app2, Nat.sub_diag in Hx by auto. injection Hx as <-. now rewrite Z.eqb_refl.
      - assert (Nn: nth_error (d ++ [m]) i = None) by (apply nth_error_None; rewrite app_length; cbn; lia). congruence. }
    { intros x Hx. apply Lq. now right. }
    eexists. split; [cbn [app writeNodes]; unfold bind at 1, get; rewrite Ep; unfold bind; rewrite Em, Er; reflexivity|].
    eapply (ro_cons Cv2 (fun _ => True) nq k rho); [exact R|exact Rr].
Qed.
End Write.

(** The nodes copied, as lines *)
Definition agreeX (rho : fenv) (d : list nat) : Prop := forall m, In m d -> rho (Z.of_nat m) = Some (levelfun m).
Lemma copy_sp nq : forall todo d rho n, topo (d ++ todo ++ [n]) -> agreeX rho d -> (forall m, In m (todo ++ [n]) -> nv (nod a k m) < nq) ->
  recsok (cvX (X:=X)) (goodX (X:=X)) nq k rho (map (copyRec N a k) (todo ++ [n])) (nv (nod a k n)) (dn q k (PNode n)).
Proof.
  assert (One: forall d m r rho, topo (d ++ m :: r) -> agreeX rho d -> nv (nod a k m) < nq -> recok (cvX (X:=X)) (goodX (X:=X)) nq k rho (copyRec N a k m) (dn q k (PNode m))).
  { intros d m r rho Tp Ag Lm. destruct (Tp d m r eq_refl) as (Ln & Nd & Cl). destruct (kids_ok m Ln) as (Le & Te & Hv & U).
    split; [cbn; lia|]. split; [cbn; lia|]. split; [cbn [fr_es copyRec]; now rewrite map_length|].
    exists (fun i => Cw q (ew (nthe (ch m) i))), (fun i => dn q k (ep (nthe (ch m) i))). cbn [fr_v fr_es copyRec]. split; [|split; [exact U|]].
    - intros i Hi. rewrite <- Le in Hi. 
      set (F := fun c : edge => Some (match ep c with PTerm => -1 | PNull => -3 | PNode m0 => Z.of_nat m0 end, (ew c, cval a (ew c)))).
      assert (Ei: nth i (map F (ch m)) None = F (nthe (ch m) i)).
      { rewrite (nth_indep _ None (F Enull)) by (now rewrite map_length). apply map_nth. }
      rewrite Ei. set (c := nthe (ch m) i). assert (Hc: In c (ch m)) by (apply nth_In; auto). specialize (Te c Hc). specialize (Cl c Hc).
      unfold F, chok, cvX, goodX. cbn [fst snd]. rewrite stored_value by apply Te. split; [split; intros ->; [now apply Cw_zero|now apply Cw_one]|]. split; auto.
      destruct Cl as [Et|(x & Ex' & Hx)].
      + rewrite Et. left. split; auto. destruct (te_t _ _ _ _ _ _ _ Te Et) as [?|Ez]; [right; split; [lia|reflexivity]|left; rewrite Ez; now apply Cw_zero].
      + rewrite Ex'. right. split; [lia|]. split; [intros Z0; apply (Cw_eq0 q) in Z0; auto; [pose proof (te_z _ _ _ _ _ _ _ Te Ex Z0); congruence|apply Ia|apply Te]|].
        rewrite (Ag x Hx). unfold levelfun. pose proof (te_n _ _ _ _ _ _ _ Te) as Q. rewrite Ex' in Q. destruct Q as [_ Q]. change (qn q k x) with (nod a k x) in Q. now rewrite Q.
    - intros i p Hi Vp. rewrite dn_cons. reflexivity. }
  induction todo as [|m todo IH]; intros d rho n Tp Ag Lq.
  - cbn [app map]. apply (ro_last (cvX (X:=X)) (goodX (X:=X)) nq k rho (copyRec N a k n)). apply (One d n []); auto. apply Lq. now left.
  - cbn [app map]. eapply (ro_cons (cvX (X:=X)) (goodX (X:=X)) nq k rho); [apply (One d m (todo ++ [n])); auto; apply Lq; now left|].
    apply (IH (d ++ [m])); [rewrite <- app_assoc; exact Tp| |intros x Hx; apply Lq; now right].
    intros x Hx. unfold updZ. cbn [fr_ix copyRec]. destruct (Z.eqb_spec (Z.of_nat x) (Z.of_nat m)) as [E|E].
    + apply Nat2Z.inj in E. subst x. reflexivity.
    + apply in_app_or in Hx. destruct Hx as [Hx|[<-|[]]]; [auto|]. congruence.
Qed.
End Lines.
End Source.

(** ** Writing and copying as a whole *)
Lemma serializeV_sp a e l n txt nq : ex X -> inv a -> (forall t, txt = Some t -> forall v, t v = v) -> tedge (co a) KV l e -> ep e = PNode n -> l < nq ->
  exists f0 fl, (forall f, (f0 <= f)%nat -> serializeV N f txt e a = Ok fl a) /\ fileok Cv2 (fun _ => True) nq KV fl l (de (co a) KV e).
Proof.
  intros Ex Ia Ht T E Hl. destruct (order_sp a KV Ia Ex eq_refl true l e n T E (or_introl eq_refl)) as (f0 & o & Tp & Lv & R).
  assert (Ln: nv (nod a KV n) = l). { pose proof (te_n _ _ _ _ _ _ _ T) as Q. rewrite E in Q. apply Q. }
  destruct (write_sp a KV Ia Ex ltac:(discriminate) txt Ht nq o [] (fun _ => None) n Tp) as (rs & Er & Rr).
  { intros i m Hi. destruct i; discriminate. } { intros m Hm. apply Lv in Hm. lia. }
  exists f0, (FL (cval a (ew e)) rs). split.
  - intros f Hf. unfold serializeV. unfold bind at 1, get. rewrite E. unfold bind. rewrite (R f Hf), Er, txt_id by auto. reflexivity.
  - rewrite Ln in Rr. exists (dn (co a) KV (PNode n)). cbn [fl_rs fl_w]. split; [exact Rr|]. rewrite stored_value; [|auto|apply T]. split.
    + intros Z0. apply (Cw_eq0 (co a)) in Z0; auto; [pose proof (te_z _ _ _ _ _ _ _ T Ex Z0); congruence|apply Ia|apply T].
    + intros p _. unfold Inv.de. now rewrite E.
Qed.
Lemma serializeM_sp a e l n txt nq : ex X -> inv a -> (forall t, txt = Some t -> forall v, t v = v) -> tedge (co a) KM l e -> ep e = PNode n -> l < nq ->
  exists fl, serializeM N txt e a = Ok fl a /\ fileok Cv2 (fun _ => True) nq KM fl l (de (co a) KM e).
Proof.
  intros Ex Ia Ht T E Hl. destruct (visit_root a KM Ia eq_refl l e n T E) as (vs & o & Tp & Lv & R).
  assert (Ln: nv (nod a KM n) = l). { pose proof (te_n _ _ _ _ _ _ _ T) as Q. rewrite E in Q. apply Q. }
  destruct (write_sp a KM Ia Ex ltac:(discriminate) txt Ht nq o [] (fun _ => None) n Tp) as (rs & Er & Rr).
  { intros i m Hi. destruct i; discriminate. } { intros m Hm. apply Lv in Hm. lia. }
  exists (FL (cval a (ew e)) rs). split.
  - unfold serializeM. unfold bind at 1, get. unfold bind. rewrite R. cbn [snd]. rewrite Er, txt_id by auto. reflexivity.
  - rewrite Ln in Rr. exists (dn (co a) KM (PNode n)). cbn [fl_rs fl_w]. split; [exact Rr|]. rewrite stored_value; [|auto|apply T]. split.
    + intros Z0. apply (Cw_eq0 (co a)) in Z0; auto; [pose proof (te_z _ _ _ _ _ _ _ T Ex Z0); congruence|apply Ia|apply T].
    + intros p _. unfold Inv.de. now rewrite E.
Qed.
Lemma transfer_file a e l n nq : ex X -> inv a -> tedge (co a) KV l e -> ep e = PNode n -> ~ unsafe a KV n -> l < nq ->
  exists f0 fl, (forall g' nb' f s, (f0 <= f)%nat -> transfer N g' nb' f KV a e s = rebuild N g' nb' KV fl s) /\ fileok (cvX (X:=X)) (goodX (X:=X)) nq KV fl l (de (co a) KV e).
Proof.
  intros Ex Ia T E Hu Hl. destruct (order_sp a KV Ia Ex eq_refl false l e n T E (or_intror Hu)) as (f0 & o & Tp & Lv & R).
  assert (Ln: nv (nod a KV n) = l). { pose proof (te_n _ _ _ _ _ _ _ T) as Q. rewrite E in Q. apply Q. }
  exists f0, (FL (ew e, cval a (ew e)) (map (copyRec N a KV) (o ++ [n]))). split.
  - intros g' nb' f s Hf. unfold transfer. rewrite E, (R f Hf). reflexivity.
  - exists (dn (co a) KV (PNode n)). cbn [fl_rs fl_w]. unfold cvX at 2 3. cbn [snd]. rewrite stored_value; [|auto|apply T]. split; [|split].
    + rewrite <- Ln at 1. apply (copy_sp a KV Ia Ex ltac:(discriminate) nq o [] (fun _ => None) n Tp); [intros m []|intros m Hm; apply Lv in Hm; lia].
    + intros Z0. apply (Cw_eq0 (co a)) in Z0; auto; [pose proof (te_z _ _ _ _ _ _ _ T Ex Z0); congruence|apply Ia|apply T].
    + intros p _. unfold Inv.de. now rewrite E.
Qed.

(** What an unsafe root means for the amplitudes *)
Definition stuckv (l : Z) (f : list nat -> C) : Prop :=
  (l = 0 /\ f [1%nat] <> C0) \/
  (l = 1 /\ f [0; 1]%nat <> C0 /\ f [1; 1]%nat <> C0 /\ (f [0; 0]%nat * f [1; 1]%nat = f [0; 1]%nat * f [1; 0]%nat)%C).
Lemma stuckv_iff a e l n : ex X -> inv a -> tedge (co a) KV l e -> ep e = PNode n -> unsafe a KV n <-> stuckv l (de (co a) KV e).
Proof.
  intros Ex Ia T E. assert (Ic: cinv (co a)) by apply Ia. pose proof (te_n _ _ _ _ _ _ _ T) as Q. rewrite E in Q. destruct Q as [Ln Lv].
  change (qn (co a) KV n) with (nod a KV n) in Lv.
  destruct (ch2 a KV Ia eq_refl n Ln) as (e0 & e1 & Ec & T0 & T1 & Hv). rewrite Lv in *.
  assert (nz: forall l c m, tedge (co a) KV l c -> ep c = PNode m -> Cw (co a) (ew c) <> C0).
  { intros l' c m Tc Em Z. apply (Cw_eq0 (co a)) in Z; auto; [|apply Tc]. pose proof (te_z _ _ _ _ _ _ _ Tc Ex Z). congruence. }
  assert (zw: forall l c, tedge (co a) KV l c -> Cw (co a) (ew c) = C0 -> ew c = Czero).
  { intros l' c Tc Z. apply (Cw_eq0 (co a)) in Z; auto. apply Tc. }
  assert (wz: forall c, Cw (co a) (ew c) <> C0 -> ew c <> Czero).
  { intros c H Z. apply H. rewrite Z. now apply Cw_zero. }
  assert (V: forall i p, (i < 2)%nat -> de (co a) KV e (i :: p) = (Cw (co a) (ew e) * de (co a) KV (nthe [e0; e1] i) p)%C).
  { intros i p Hi. unfold Inv.de at 1. rewrite E, dn_cons. change (ne (qn (co a) KV n)) with (ne (nod a KV n)). now rewrite Ec. }
  pose proof (nz _ _ _ T E) as We. unfold unsafe, stuckv. rewrite Lv, Ec. cbn [nthe nth]. split.
  - intros [[-> W]|(-> & m & E0 & E1 & W)].
    + left. split; auto. rewrite V by lia. cbn [nthe nth]. unfold Inv.de. rewrite (term0 a KV Ia eq_refl e1 T1). apply Cmul_neq; auto. apply Cmul_neq; [|apply C1_neq_0].
      intros Z. apply W. eapply zw; eauto.
    + right. split; auto. change (1 - 1) with 0 in *. pose proof (nz _ _ _ T0 E0) as W0. pose proof (nz _ _ _ T1 E1) as W1.
      pose proof (te_n _ _ _ _ _ _ _ T1) as Q. rewrite E1 in Q. destruct Q as [Lm Vm]. change (qn (co a) KV m) with (nod a KV m) in Vm.
      destruct (ch2 a KV Ia eq_refl m Lm) as (c0 & c1 & Ecm & Tc0 & Tc1 & _). rewrite Vm in *. rewrite Ecm in W. cbn [nthe nth] in W.
      assert (Vc: forall i, (i < 2)%nat -> dn (co a) KV (PNode m) [i] = Cw (co a) (ew (nthe [c0; c1] i))).
      { intros i Hi. rewrite dn_cons. change (ne (qn (co a) KV m)) with (ne (nod a KV m)). rewrite Ecm. unfold Inv.de.
        destruct i as [|[|i]]; [| |lia]; cbn [nthe nth]; [rewrite (term0 a KV Ia eq_refl c0 Tc0)|rewrite (term0 a KV Ia eq_refl c1 Tc1)]; cbn; ring. }
      assert (Wc: Cw (co a) (ew c1) <> C0). { intros Z. apply W. eapply zw; eauto. }
      assert (Vd: forall i j, (i < 2)%nat -> (j < 2)%nat -> de (co a) KV e [i; j] = (Cw (co a) (ew e) * (Cw (co a) (ew (nthe [e0; e1] i)) * Cw (co a) (ew (nthe [c0; c1] j))))%C).
      { intros i j Hi Hj. rewrite V by auto. unfold Inv.de. rewrite <- Vc by auto. destruct i as [|[|i]]; [| |lia]; cbn [nthe nth]; [rewrite E0|rewrite E1]; reflexivity. }
      rewrite !Vd by lia. cbn [nthe nth]. split; [|split; [|ring]]; repeat apply Cmul_neq; auto.
  - intros [[-> W]|(-> & A01 & A11 & D)].
    + left. split; auto. intros Z. apply W. rewrite V by lia. cbn [nthe nth]. unfold Inv.de. rewrite Z, Cw_zero by auto. ring.
    + right. split; auto. change (1 - 1) with 0 in *. rewrite !V in * by lia. cbn [nthe nth] in *.
      assert (nd: forall c j, tedge (co a) KV 0 c -> (Cw (co a) (ew e) * de (co a) KV c [j])%C <> C0 -> exists m, ep c = PNode m).
      { intros c j Tc H. destruct (ep c) as [| |m] eqn:Em; [|exfalso|eauto].
        - pose proof (te_n _ _ _ _ _ _ _ Tc) as Q. rewrite Em in Q. contradiction.
        - apply H. unfold Inv.de. rewrite Em. destruct (te_t _ _ _ _ _ _ _ Tc Em) as [Z|Z]; [lia|]. rewrite Z, Cw_zero by auto. ring. }
      destruct (nd _ _ T0 A01) as (m0 & E0). destruct (nd _ _ T1 A11) as (m1 & E1).
      pose proof (nz _ _ _ T0 E0) as W0. pose proof (nz _ _ _ T1 E1) as W1. unfold Inv.de in A01, A11, D. rewrite E0, E1 in *.
      assert (B0: dn (co a) KV (PNode m0) [1%nat] <> C0). { intros Z. apply A01. rewrite Z. ring. }
      assert (B1: dn (co a) KV (PNode m1) [1%nat] <> C0). { intros Z. apply A11. rewrite Z. ring. }
      destruct (canon_node (g:=g) (nb:=nb) (X:=X) (co a) KV ltac:(discriminate) Ex Ic 1%nat 0 (PNode m0) (PNode m1) (dn (co a) KV (PNode m0) [1%nat] / dn (co a) KV (PNode m1) [1%nat])%C) as [P _]; [lia| | | |].
      { rewrite <- E0. apply (tedge_nt (g:=g) (X:=X)); auto. } { rewrite <- E1. apply (tedge_nt (g:=g) (X:=X)); auto. }
      { intros p [Hp Hb]. destruct p as [|j [|? ?]]; cbn in Hp; try lia. inversion Hb as [|? ? Hj _]; subst. cbn in Hj.
        destruct j as [|[|j]]; [| |lia]; [|field; auto].
        apply (Cmul_cancel_l (Cw (co a) (ew e) * Cw (co a) (ew e) * (Cw (co a) (ew e0) * Cw (co a) (ew e1)) * dn (co a) KV (PNode m1) [1%nat])%C); [apply Cmul_neq; [|exact B1]; apply Cmul_neq; apply Cmul_neq; auto|].
        match type of D with ?x = ?y => transitivity x; [ring|rewrite D] end. field. auto. }
      injection P as <-. exists m0. split; auto. split; auto. intros Z. apply B0. rewrite dn_cons. change (ne (qn (co a) KV m0)) with (ne (nod a KV m0)). unfold Inv.de. rewrite Z, Cw_zero by auto. ring.
Qed.
(** The copying of such a vector reads the top of the empty stack. *)
Lemma transfer_bad a e l n : ex X -> inv a -> tedge (co a) KV l e -> ep e = PNode n -> unsafe a KV n ->
  forall g' nb' f s, (4 <= f)%nat -> transfer N g' nb' f KV a e s = Bad BadIndex.
Proof.
  intros Ex Ia T E U g' nb' f s Hf. unfold transfer. rewrite E, (order_bad a KV Ia Ex eq_refl false e n l eq_refl T E U f Hf). reflexivity.
Qed.
End SerialW.
