(** Specification of normalization. *)
From Coq Require Import ZArith List Bool Lia Arith Reals Lra Permutation.
From Verif Require Import Num Base CTable CTableWf Cx State Pkg Inv InvL PrimL.
Import ListNotations.
Local Open Scope Z_scope.

(** ** Algebra of vector normalization *)

Section Alg.
Local Open Scope R_scope.

Variables (a b : C).
Hypothesis (Ha : a <> C0) (Hb : b <> C0).
Let na := Cmag2 a. Let nb := Cmag2 b. Let n := na + nb.
Let cf := sqrt n / sqrt na.
Let r := (a * RtoC cf)%C.
Let m := sqrt na / sqrt n.

Lemma alg_pos : 0 < na /\ 0 < nb /\ 0 < sqrt na /\ 0 < sqrt n.
Proof.
  pose proof (Cmag2_pos a Ha). pose proof (Cmag2_pos b Hb). unfold n, na, nb.
  repeat split; auto; apply sqrt_lt_R0; lra.
Qed.
Lemma alg_cf : 0 < cf /\ 0 < m /\ cf * m = 1.
Proof.
  destruct alg_pos as (A & B & D & E). unfold cf, m. repeat split.
  - apply Rdiv_lt_0_compat; auto. - apply Rdiv_lt_0_compat; auto. - field; lra.
Qed.
Lemma alg_r : r <> C0.
Proof. destruct alg_cf as (A & _). unfold r. apply Cmul_neq; auto. apply RtoC_neq. lra. Qed.
Lemma alg_max : (r * RtoC m)%C = a.
Proof.
  destruct alg_cf as (A & B & D). unfold r.
  replace (a * RtoC cf * RtoC m)%C with (a * (RtoC cf * RtoC m))%C by ring.
  rewrite RtoC_mul, D. change (RtoC 1) with C1. ring.
Qed.
Lemma alg_min : (r * (b / r))%C = b.
Proof. field. apply alg_r. Qed.
Lemma alg_m2 : m * m = na / n.
Proof.
  destruct alg_pos as (A & B & D & E). unfold m.
  replace (sqrt na / sqrt n * (sqrt na / sqrt n)) with ((sqrt na * sqrt na) / (sqrt n * sqrt n)) by (field; lra).
  rewrite !sqrt_sqrt; auto; unfold n; lra.
Qed.
Lemma alg_q2 : Cmag2 (b / r)%C = nb / n.
Proof.
  destruct alg_pos as (A & B & D & E).
  assert (F: Cmag2 (b / r)%C * Cmag2 r = nb) by (rewrite <- Cmag2_mul; unfold nb; f_equal; field; apply alg_r).
  assert (G: Cmag2 r = n).
  { unfold r. rewrite Cmag2_mul, Cmag2_RtoC. fold na. unfold cf.
    replace (na * (sqrt n / sqrt na * (sqrt n / sqrt na))) with (na * ((sqrt n * sqrt n) / (sqrt na * sqrt na))) by (field; lra).
    rewrite !sqrt_sqrt; try (unfold n; lra). field; lra. }
  rewrite G in F. assert (n <> 0) by (unfold n; lra). apply (Rmult_eq_reg_r n); auto. rewrite F. field; auto.
Qed.
Lemma alg_sum : Cmag2 (RtoC m) + Cmag2 (b / r)%C = 1.
Proof.
  destruct alg_pos as (A & B & D & E). rewrite Cmag2_RtoC, alg_m2, alg_q2. unfold n. field. lra.
Qed.
Lemma alg_le : Cmag2 (b / r)%C <= Cmag2 (RtoC m) <-> nb <= na.
Proof.
  destruct alg_pos as (A & B & D & E). rewrite Cmag2_RtoC, alg_m2, alg_q2.
  assert (0 < / n) by (apply Rinv_0_lt_compat; unfold n; lra). unfold Rdiv. split; intros.
  - apply (Rmult_le_reg_r (/ n)); auto.
  - apply Rmult_le_compat_r; auto. lra.
Qed.
Lemma alg_ge : Cmag2 (RtoC m) <= Cmag2 (b / r)%C -> na <= nb.
Proof.
  destruct alg_pos as (A & B & D & E). rewrite Cmag2_RtoC, alg_m2, alg_q2.
  assert (0 < / n) by (apply Rinv_0_lt_compat; unfold n; lra). unfold Rdiv. intros.
  apply (Rmult_le_reg_r (/ n)); auto.
Qed.
Lemma alg_qz : (b / r)%C <> C0.
Proof. intros H. pose proof alg_min as Q. rewrite H in Q. apply Hb. rewrite <- Q. ring. Qed.
End Alg.

(** ** Lists *)

Lemma nthe_nil i : nthe [] i = Enull.
Proof. destruct i; auto. Qed.

Section NormL.
Context {N : num} {g : cfg N} {nb : kind -> Z} {X : numx N (g_ct g)} (G : gok g).
Local Notation cf := (g_ct g).
Local Notation co := (co N).
Local Notation Cw := (Cw N g X).
Local Notation Cv := (Cv N g X).
Local Notation Cv2 := (Cv2 N g X).
Local Notation wtab := (wtab N g X).
Local Notation etn := (etn N).
Local Notation tedge := (tedge N g X).
Local Notation cinv := (cinv N g nb X).
Local Notation inv := (inv N g nb X).
Local Notation step := (step N g nb X).
Local Notation owns := (owns N).
Local Notation wok := (wok N g X).
Local Notation wp := (wp N).
Local Notation al0 := (al0 N g X).
Local Notation nnorm := (nnorm N g X).
Implicit Types (s : st N).

Lemma alok0 : alok (X:=X) al0.
Proof. intros b H; exact H. Qed.

(** A successor passed to makeDDNode: with [cached], its weight is a temporary owned by
    the caller or zero; otherwise it is a stored weight. *)
Record iedge s (cached : bool) (k : kind) (l : Z) (e : edge) : Prop := {
  ie_n : etn (co s) k l (ep e);
  ie_t : ep e = PTerm -> l = -1 \/ ew e = Czero;
  ie_z : ex X -> ew e = Czero -> ep e = PTerm;
  ie_w : if cached then ew e = Czero \/ exists a b, ew e = cslot a b else wtab (co s) (ew e) }.

Definition slots (es : list edge) : list nat := flat_map (fun e => wslots (ew e)) es.

Lemma slots_cons e es : slots (e :: es) = wslots (ew e) ++ slots es.
Proof. reflexivity. Qed.
Lemma wslots_slot a b : wslots (cslot a b) = [a; b]. Proof. reflexivity. Qed.
Lemma wslots_tab q w : wtab q w -> wslots w = [].
Proof.
  intros [[A _] _]. destruct w as [[n a] p]. simpl in *. destruct n; auto. destruct a; auto. contradiction.
Qed.
Lemma iedge_step s s' O cached k l e : step O s s' -> iedge s cached k l e -> iedge s' cached k l e.
Proof.
  intros S [A B D F]. constructor; auto.
  - eapply etn_ext; [apply S|auto].
  - destruct cached; auto. eapply wtab_ext; [apply S|auto].
Qed.
Lemma iedge_cc s c cached k l e : iedge s cached k l e -> iedge (set_cc s c) cached k l e.
Proof. intros [A B D F]. constructor; auto. Qed.

(** Weights of the edges passed in stay readable while they are owned. *)
Lemma iedge_wok s cached k l e c A B : iedge s cached k l e -> owns c (A ++ wslots (ew e) ++ B) ->
  wok (co s) (wslots (ew e) ++ B) (ew e).
Proof.
  intros [_ _ _ F] H. destruct cached.
  - destruct F as [->|(a & b & E)]. left; apply wtab_zero. right. exists a, b. rewrite E in *. simpl in *.
    apply (owns_perm _ _ (a :: b :: A ++ B)) in H.
    + destruct (owns_nodup _ _ _ _ H) as (? & _). auto 10.
    + change (a :: b :: A ++ B) with ([a; b] ++ (A ++ B)). change (a :: b :: B) with ([a; b] ++ B).
      rewrite !app_assoc. apply Permutation_app_tail, Permutation_app_comm.
  - left; auto.
Qed.
Lemma nz_slot s k l e : iedge s true k l e -> wapx0 s (ew e) = false -> exists a b, ew e = cslot a b.
Proof. intros [A B D F] H. destruct F as [E|F]; auto. rewrite E in H. discriminate. Qed.

Lemma relz_sp s cached k l e O : inv s -> owns (s_cc s) (wslots (ew e) ++ O) -> iedge s cached k l e ->
  exists c', relz N cached (wapx0 s (ew e)) e s = Ok (if cached && wapx0 s (ew e) && negb (ceqb (ew e) Czero) then Ezero else e) (set_cc s c') /\
   cc_val c' = cc_val (s_cc s) /\
   owns c' (wslots (ew (if cached && wapx0 s (ew e) && negb (ceqb (ew e) Czero) then Ezero else e)) ++ O).
Proof.
  intros I H W. unfold relz. destruct (cached && wapx0 s (ew e) && negb (ceqb (ew e) Czero)) eqn:B.
  - apply andb_true_iff in B. destruct B as [B1 B2]. apply andb_true_iff in B1. destruct B1 as [-> B1].
    destruct W as [_ _ _ [E|(a & b & E)]]. { rewrite E in B2. discriminate. }
    rewrite E in H. simpl in H. destruct (retCache_sp _ _ _ _ H) as (c' & E1 & V & Ow & _).
    exists c'. unfold bind. rewrite E. rewrite E1. split; [reflexivity|]. split; auto.
  - exists (s_cc s). split; [destruct s; reflexivity|]. split; auto.
Qed.

(** ** Vectors *)

Definition npost (k : kind) (l : Z) (cached : bool) (es : list edge) (O : list nat) s (r : nrm) s' : Prop :=
  step O s s' /\
  match r with
  | NOk es' w =>
      owns (s_cc s') (wslots w ++ O) /\
      (if cached then exists a b, w = cslot a b else wtab (co s') w) /\
      length es' = arity k /\ (forall e, In e es' -> tedge (co s') k l e) /\
      (ex X -> nnorm (co s') k es' /\ Cv s' w <> C0 /\
         forall i, (i < arity k)%nat ->
           (Cv s' w * Cw (co s') (ew (nthe es' i)))%C = Cv s (ew (nthe es i)) /\
           (Cv s (ew (nthe es i)) <> C0 -> ep (nthe es' i) = ep (nthe es i)))
  | _ => owns (s_cc s') O /\ (r = NRet -> cached = false) /\
         (ex X -> forall i, (i < arity k)%nat -> Cv s (ew (nthe es i)) = C0)
  end.

Lemma topw_sp s cached k l e O : inv s -> owns (s_cc s) (wslots (ew e) ++ O) -> iedge s cached k l e ->
  wapx0 s (ew e) = false ->
  wp al0 (topw N g cached (ew e)) s (fun w s' => step O s s' /\ owns (s_cc s') (wslots w ++ O) /\
    (if cached then exists a b, w = cslot a b else wtab (co s') w) /\ (ex X -> Cv s' w = Cv s (ew e))).
Proof.
  intros I H W Z. unfold topw. destruct cached.
  - destruct (nz_slot _ _ _ _ W Z) as (a & b & E). rewrite E in *. simpl. apply wp_ret.
    split; [now apply step_refl|]. split; [auto|]. split; eauto.
  - simpl. eapply wp_mono; [apply (lookupC_sp (nb:=nb) G O); auto|].
    intros w s' (S & C & Wt & V). split; [auto|]. destruct W as [_ _ _ Wt0].
    rewrite (wslots_tab _ _ Wt0) in H. rewrite (wslots_tab _ _ Wt), C. split; [auto|]. split; [auto|].
    intros Ex. rewrite Cv_Cw by auto. auto.
Qed.

Lemma iedge_tedge_z s cached k l e : inv s -> iedge s cached k l e -> wapx0 s (ew e) = true ->
  tedge (co s) k l (if cached && wapx0 s (ew e) && negb (ceqb (ew e) Czero) then Ezero else e) /\
  (ex X -> Cw (co s) (ew (if cached && wapx0 s (ew e) && negb (ceqb (ew e) Czero) then Ezero else e)) = C0) /\
  (ex X -> ew (if cached && wapx0 s (ew e) && negb (ceqb (ew e) Czero) then Ezero else e) = Czero).
Proof.
  intros I [A B D F] Z. rewrite Z. destruct cached; simpl.
  - destruct (ceqb (ew e) Czero) eqn:E; simpl.
    + apply ceqb_spec in E. split; [|split]; auto.
      * constructor; auto. rewrite E. apply wtab_zero.
      * intros Ex. rewrite E. now apply Cw_zero.
    + split; [apply tedge_zero|]. split; auto. intros Ex. now apply Cw_zero.
  - assert (E: ex X -> Cw (co s) (ew e) = C0).
    { intros Ex. apply (x_wapx0 (X:=X)) in Z; auto. rewrite <- Z. symmetry. now apply Cv_Cw. }
    split; [constructor; auto|]. split; auto. intros Ex. eapply Cw_eq0; eauto. apply I.
Qed.

Lemma tedge_one s cached k l e : iedge s cached k l e -> wapx0 s (ew e) = false -> tedge (co s) k l (Ed (ep e) Cone).
Proof.
  intros [A B D F] Z. constructor; simpl; auto.
  - apply wtab_one.
  - intros E. destruct (B E) as [|E']; auto. rewrite E' in Z. discriminate.
  - discriminate.
Qed.

Lemma zeroed_tedge q s cached k l e w : iedge s cached k l e -> wapx0 s (ew e) = false ->
  etn q k l (ep e) -> wtab q w -> tedge q k l (zeroed e w).
Proof.
  intros [A B D F] Z T W. unfold zeroed. destruct (ceqb w Czero) eqn:E; [apply tedge_zero|].
  constructor; simpl; auto.
  - intros Et. destruct (B Et) as [|E']; auto. rewrite E' in Z. discriminate.
  - intros _ ->. discriminate.
Qed.
Lemma zeroed_w e w : ew (zeroed e w) = w.
Proof. unfold zeroed. destruct (ceqb w Czero) eqn:E; auto. apply ceqb_spec in E. now subst. Qed.
Lemma zeroed_p q e w : ex X -> Cw q w <> C0 -> ep (zeroed e w) = ep e.
Proof.
  intros Ex H. unfold zeroed. destruct (ceqb w Czero) eqn:E; auto. apply ceqb_spec in E. subst.
  rewrite Cw_zero in H; tauto.
Qed.

(** The part of normalizeV after the larger weight is known. *)
Definition normTail (cached : bool) s (mx mn : edge) (magMax norm cf : N) (mkes : edge -> edge -> list edge) : M N nrm :=
  let* rw :=
    if cached && negb (wone (ew mx)) then
      let* x := gets (fun s => nmul (aval s (ep_at (cr (ew mx)))) cf) in
      wr (cr (ew mx)) x ;;;
      let* y := gets (fun s => nmul (aval s (ep_at (ci (ew mx)))) cf) in
      wr (ci (ew mx)) y ;;;
      ret (Some (ew mx))
    else
      let* w := cn_lookup g (nmul (val s (cr (ew mx))) cf) (nmul (val s (ci (ew mx))) cf) in
      let* s' := get in
      ret (if wapx0 s' w then None else Some w) in
  match rw with
  | None => ret NLost
  | Some rw =>
    let* mxw := cn_lookup g (ndiv magMax norm) n0 in
    let mx' := zeroed mx mxw in
    let* mnw :=
      if cached then
        retCache (ew mn) ;;; divInto (ew mn) (ew mn) rw ;;; cn_lookupC g (ew mn)
      else
        let* t := getTemp g in divInto t (ew mn) rw ;;; cn_lookupC g t in
    let mn' := zeroed mn mnw in
    ret (NOk (mkes mx' mn') rw)
  end.

Lemma wp_bind_ok {A B} al (m : M N A) (f : A -> M N B) s a s' Q : m s = Ok a s' -> wp al (f a) s' Q -> wp al (bind m f) s Q.
Proof. intros E H. apply wp_bind. eapply wp_ok; eauto. Qed.

Lemma normTail_sp s s0 cached l mx mn magMax norm cfx mkes O :
  inv s -> owns (s_cc s) (wslots (ew mx) ++ wslots (ew mn) ++ O) ->
  iedge s cached KV l mx -> iedge s cached KV l mn ->
  wapx0 s (ew mx) = false -> wapx0 s (ew mn) = false ->
  (forall w, cval s0 w = cval s w) ->
  (ex X -> toR X magMax = sqrt (Cmag2 (Cv s (ew mx))) /\
           toR X norm = sqrt (Cmag2 (Cv s (ew mx)) + Cmag2 (Cv s (ew mn)))%R /\
           toR X cfx = (sqrt (Cmag2 (Cv s (ew mx)) + Cmag2 (Cv s (ew mn))) / sqrt (Cmag2 (Cv s (ew mx))))%R) ->
  wp al0 (normTail cached s0 mx mn magMax norm cfx mkes) s (fun r s' =>
    step O s s' /\ match r with
    | NOk es' w => exists mx' mn', es' = mkes mx' mn' /\
        owns (s_cc s') (wslots w ++ O) /\
        (if cached then exists a b, w = cslot a b else wtab (co s') w) /\
        tedge (co s') KV l mx' /\ tedge (co s') KV l mn' /\
        (ex X -> let a := Cv s (ew mx) in let b := Cv s (ew mn) in
           let m := RtoC (sqrt (Cmag2 a) / sqrt (Cmag2 a + Cmag2 b)) in
           let r := (a * RtoC (sqrt (Cmag2 a + Cmag2 b) / sqrt (Cmag2 a)))%C in
           Cv s' w = r /\ Cw (co s') (ew mx') = m /\ Cw (co s') (ew mn') = (b / r)%C /\
           ep mx' = ep mx /\ ep mn' = ep mn)
    | _ => owns (s_cc s') O /\ r = NLost /\ ~ ex X
    end).
Proof.
  intros I H Wx Wn Zx Zn SV MG. unfold normTail.
  assert (NZ: ex X -> Cv s (ew mx) <> C0 /\ Cv s (ew mn) <> C0).
  { intros Ex. split; intros Q; apply x_wapx0 in Q; auto; congruence. }
  (* first the top weight *)
  apply wp_bind.
  assert (R: wp al0 (if cached && negb (wone (ew mx)) then
      let* x := gets (fun s => nmul (aval s (ep_at (cr (ew mx)))) cfx) in
      wr (cr (ew mx)) x ;;;
      let* y := gets (fun s => nmul (aval s (ep_at (ci (ew mx)))) cfx) in
      wr (ci (ew mx)) y ;;;
      ret (Some (ew mx))
    else
      let* w := cn_lookup g (nmul (val s0 (cr (ew mx))) cfx) (nmul (val s0 (ci (ew mx))) cfx) in
      let* s' := get in
      ret (if wapx0 s' w then None else Some w)) s (fun r s1 =>
      step (wslots (ew mn) ++ O) s s1 /\
      match r with
      | None => cached = false /\ ~ ex X /\ owns (s_cc s1) O
      | Some w => owns (s_cc s1) (wslots w ++ wslots (ew mn) ++ O) /\
         (if cached then exists a b, w = cslot a b else wtab (co s1) w) /\
         (ex X -> Cv s1 w = (Cv s (ew mx) * RtoC (toR X cfx))%C)
      end)).
  { destruct cached.
    - destruct (nz_slot _ _ _ _ Wx Zx) as (a & b & E). rewrite E in *. simpl.
      destruct (owns_nodup _ _ _ _ H) as (D & D1 & D2).
      eapply wp_ok with (s' := setc a b (nmul (cc_val (s_cc s) a) cfx, nmul (cc_val (s_cc s) b) cfx) s).
      { unfold bind, gets, ret. simpl. rewrite upd_neq by auto. reflexivity. }
      split; [apply setc_step; auto|]. split; [apply owns_ccw; exact H|]. split; [eauto|].
      intros Ex. rewrite setc_Cv by auto. unfold Inv.Cv2; simpl. rewrite !(x_mul X Ex).
      unfold Inv.Cv, Inv.Cv2, cval, val, Cmul, RtoC; simpl. f_equal; ring.
    - simpl. apply wp_bind. eapply wp_mono; [apply (lookup_sp (nb:=nb) G (wslots (ew mn) ++ O)); auto|].
      intros w s1 (S1 & C1 & W1 & V1). apply wp_bind, wp_get, wp_ret.
      split; [auto|].
      assert (V: ex X -> Cv s1 w = (Cv s (ew mx) * RtoC (toR X cfx))%C).
      { intros Ex. rewrite Cv_Cw, V1 by auto. unfold Inv.Cv2; simpl. rewrite !(x_mul X Ex).
        unfold Inv.Cv. rewrite <- SV. unfold Inv.Cv2, Cmul, RtoC; simpl. f_equal; ring. }
      destruct Wx as [_ _ _ Wx]. destruct Wn as [_ _ _ Wn].
      rewrite (wslots_tab _ _ Wx), (wslots_tab _ _ Wn) in H. simpl in H.
      destruct (wapx0 s1 w) eqn:Zw.
      + split; [auto|]. split; [|now rewrite C1]. intros Ex. apply (x_wapx0 (X:=X)) in Zw; auto.
        rewrite V in Zw by auto. destruct (NZ Ex) as [NZ1 NZ2]. apply Cmul_integral in Zw. destruct Zw; auto.
        destruct (MG Ex) as (_ & _ & Hc). destruct (alg_cf _ _ NZ1 NZ2) as (P & _).
        rewrite <- Hc in P. unfold RtoC, C0 in H0. injection H0 as H0. lra.
      + split; [|split]; auto. rewrite (wslots_tab _ _ Wn), (wslots_tab _ _ W1), C1. auto. }
  eapply wp_mono; [exact R|]. clear R. intros [rw|] s1 (S1 & R).
  2: { apply wp_ret. destruct R as (R1 & R2 & R3).
       split; [eapply step_weak; [eauto|apply incl_appr, incl_refl]|]. auto. }
  destruct R as (O1 & W1 & V1).
  apply wp_bind. eapply wp_mono; [apply (lookup_sp (nb:=nb) G (wslots rw ++ wslots (ew mn) ++ O)); apply S1|].
  intros mxw s2 (S2 & C2 & W2 & V2).
  assert (O2: owns (s_cc s2) (wslots rw ++ wslots (ew mn) ++ O)) by (rewrite C2; auto).
  assert (S12: step (wslots (ew mn) ++ O) s s2).
  { eapply step_trans2; [exact S1|exact S2|]. apply incl_appr, incl_refl. }
  (* the smaller weight *)
  assert (RW: wok (co s2) (wslots rw ++ O) rw).
  { destruct cached. destruct W1 as (a & b & ->). right. exists a, b. simpl in O2.
    destruct (owns_nodup _ _ _ _ O2) as (D & _). simpl; auto 10.
    left. eapply wtab_ext; [apply S2|auto]. }
  assert (RV: ex X -> Cv s2 rw = (Cv s (ew mx) * RtoC (toR X cfx))%C).
  { intros Ex. rewrite <- V1 by auto. eapply Cv_step; [exact S2|].
    destruct cached. destruct W1 as (a & b & ->). right. exists a, b. simpl in O1.
    destruct (owns_nodup _ _ _ _ O1) as (D & _). simpl; auto 10. left; auto. }
  assert (MV: Cv s2 (ew mn) = Cv s (ew mn)).
  { eapply Cv_step; [exact S12|]. eapply iedge_wok; eauto. }
  assert (RZ: ex X -> Cv s2 rw <> C0).
  { intros Ex. rewrite RV by auto. destruct (MG Ex) as (_ & _ & ->). apply alg_r; apply NZ; auto. }
  apply wp_bind. eapply wp_mono with (Q := fun w s3 => step (wslots rw ++ O) s2 s3 /\
     owns (s_cc s3) (wslots rw ++ O) /\ wtab (co s3) w /\ (ex X -> Cw (co s3) w = (Cv s (ew mn) / Cv s2 rw)%C)).
  { destruct cached.
    - destruct (nz_slot _ _ _ _ Wn Zn) as (c & d & E). rewrite E in *. simpl in O2.
      apply (owns_perm _ _ (c :: d :: wslots rw ++ O)) in O2.
      2: { change (c :: d :: O) with ([c; d] ++ O). change (c :: d :: wslots rw ++ O) with ([c; d] ++ (wslots rw ++ O)).
           rewrite !app_assoc. apply Permutation_app_tail, Permutation_app_comm. }
      destruct (owns_nodup _ _ _ _ O2) as (D & D1 & D2).
      destruct (retCache_sp _ _ _ _ O2) as (c' & E1 & V & Ow & _).
      eapply wp_bind_ok; [exact E1|].
      destruct (divInto_sp (X:=X) (set_cc s2 c') c d (cslot c d) rw) as (v & E2 & V3). { simpl; congruence. }
      eapply wp_bind_ok; [exact E2|].
      assert (S3: step (wslots rw ++ O) s2 (setc c d v (set_cc s2 c'))).
      { eapply step_trans; [apply step_cc_any; [apply S2|exact V]|]. apply setc_step; auto. apply inv_cc. apply S2. }
      eapply wp_mono; [apply (lookupC_sp (nb:=nb) G (wslots rw ++ O)); apply S3|].
      intros w s3 (S4 & C4 & W4 & V4). split; [eapply step_trans; eauto|].
      split; [rewrite C4; apply owns_ccw; exact Ow|]. split; [auto|]. intros Ex. rewrite V4, setc_Cv by auto.
      rewrite V3; rewrite ?Cv_cc_same by auto; auto. now rewrite MV.
    - pose proof Wn as [_ _ _ Wn']. rewrite (wslots_tab _ _ Wn') in *. simpl in *.
      rewrite (wslots_tab _ _ W1) in *. simpl in *.
      change (let* t := getTemp g in divInto t (ew mn) rw;;; cn_lookupC g t)
        with (let* t := getTemp g in divInto t (ew mn) rw;;; cn_lookupC g t).
      eapply wp_mono with (Q := fun w s3 => step O s2 s3 /\
     owns (s_cc s3) O /\ wtab (co s3) w /\ (ex X -> Cw (co s3) w = (Cv s (ew mn) / Cv s2 rw)%C)); [|auto].
      assert (T: wp al0 (let* t := getTemp g in divInto t (ew mn) rw;;; (let* w := cn_lookupC g t in ret w)) s2 (fun w s3 => step O s2 s3 /\
     owns (s_cc s3) O /\ wtab (co s3) w /\ (ex X -> Cw (co s3) w = (Cv s (ew mn) / Cv s2 rw)%C))).
      { apply (wp_tdiv (nb:=nb) (X:=X) G al0 O); auto using alok0. apply S2.
        { left. left. eapply wtab_ext; [apply S12|auto]. }
        intros w s3 S3 O3 W3 V3. apply wp_ret. split; [auto|]. split; [auto|]. split; [auto|].
        intros Ex. rewrite V3; auto. now rewrite MV. }
      revert T. unfold Inv.wp, bind, ret. destruct (getTemp g s2) as [t s4| |]; auto. destruct (divInto t (ew mn) rw s4) as [? s5| |]; auto.
      destruct (cn_lookupC g t s5); auto. }
  intros mnw s3 (S3 & O3 & W3 & V3). apply wp_ret.
  assert (S13: step O s s3).
  { eapply step_trans; [eapply step_weak; [exact S12|apply incl_appr, incl_refl]|].
    eapply step_weak; [exact S3|apply incl_appr, incl_refl]. }
  split; [auto|]. exists (zeroed mx mxw), (zeroed mn mnw). split; [auto|]. split; [auto|].
  split. { destruct cached; auto. eapply wtab_ext; [apply S3|]. eapply wtab_ext; [apply S2|auto]. }
  assert (Tx: etn (co s3) KV l (ep mx)) by (eapply etn_ext; [apply S13|apply Wx]).
  assert (Tn: etn (co s3) KV l (ep mn)) by (eapply etn_ext; [apply S13|apply Wn]).
  split; [eapply zeroed_tedge; eauto; eapply wtab_ext; [apply S3|auto]|].
  split; [eapply zeroed_tedge; eauto|].
  intros Ex. destruct (NZ Ex) as [NZ1 NZ2]. destruct (MG Ex) as (M1 & M2 & M3). cbv zeta. rewrite <- M3.
  assert (CW: Cw (co s3) mxw = RtoC (sqrt (Cmag2 (Cv s (ew mx))) / sqrt (Cmag2 (Cv s (ew mx)) + Cmag2 (Cv s (ew mn))))).
  { rewrite (Cw_ext (co s2) (co s3)); [|apply S3|auto]. rewrite V2 by auto. unfold Inv.Cv2, RtoC; simpl.
    rewrite (x_div X Ex), (x_0 X Ex), M1, M2. reflexivity. }
  destruct (alg_cf _ _ NZ1 NZ2) as (P1 & P2 & _).
  rewrite !zeroed_w. split; [|split; [|split; [|split]]].
  - rewrite <- RV by auto. eapply Cv_step; eauto.
  - auto.
  - rewrite V3, RV by auto. auto.
  - apply (zeroed_p (co s3)); auto. rewrite CW. apply RtoC_neq. lra.
  - apply (zeroed_p (co s3)); auto. rewrite V3, RV, M3 by auto. apply alg_qz; auto.
Qed.

Lemma owns_swap c A B O : owns c (A ++ B ++ O) -> owns c (B ++ A ++ O).
Proof.
  apply owns_perm. rewrite !app_assoc. apply Permutation_app_tail, Permutation_app_comm.
Qed.

Lemma relz_z s cached k l e O : inv s -> owns (s_cc s) (wslots (ew e) ++ O) -> iedge s cached k l e ->
  wapx0 s (ew e) = true -> exists e' c', relz N cached true e s = Ok e' (set_cc s c') /\
   cc_val c' = cc_val (s_cc s) /\ owns c' O /\ tedge (co s) k l e' /\ (ex X -> ew e' = Czero).
Proof.
  intros I H W Z. destruct (relz_sp _ _ _ _ _ _ I H W) as (c' & E & V & Ow).
  destruct (iedge_tedge_z _ _ _ _ _ I W Z) as (T & _ & T2). rewrite Z in *.
  eexists _, c'. split; [exact E|]. split; auto. split; [|split; [exact T|exact T2]].
  rewrite (wslots_tab _ _ (te_w _ _ _ _ _ _ _ T)) in Ow. exact Ow.
Qed.
Lemma relz_nz s cached e : relz N cached false e s = Ok e s.
Proof. unfold relz. rewrite andb_false_r. reflexivity. Qed.

Lemma wapx0_cc s c w : cc_val c = cc_val (s_cc s) -> wapx0 (set_cc s c) w = wapx0 s w.
Proof.
  intros H. unfold wapx0, eapx0. now rewrite !val_other by (intros; now rewrite H).
Qed.
Lemma iedge_z_cv s cached k l e : wapx0 s (ew e) = true -> ex X -> iedge s cached k l e -> Cv s (ew e) = C0.
Proof. intros Z Ex _. now apply (x_wapx0 (X:=X)) in Z. Qed.
Lemma nz_cv s w : wapx0 s w = false -> ex X -> Cv s w <> C0.
Proof. intros Z Ex H. apply x_wapx0 in H; auto. congruence. Qed.

Lemma normalizeV_sp s cached l e0 e1 O :
  inv s -> owns (s_cc s) (wslots (ew e0) ++ wslots (ew e1) ++ O) ->
  iedge s cached KV l e0 -> iedge s cached KV l e1 ->
  wp al0 (normalizeV N g cached e0 e1) s (npost KV l cached [e0; e1] O s).
Proof.
  intros I H W0 W1. unfold normalizeV. apply wp_bind, wp_get.
  destruct (wapx0 s (ew e0)) eqn:Z0.
  - destruct (relz_z _ _ _ _ _ _ I H W0 Z0) as (e0' & c0 & E0 & V0 & O0 & T0 & Q0).
    eapply wp_bind_ok; [exact E0|].
    assert (S0: forall O, step O s (set_cc s c0)) by (intros; apply step_cc_any; auto).
    destruct (wapx0 s (ew e1)) eqn:Z1.
    + destruct (relz_z (set_cc s c0) cached KV l e1 O) as (e1' & c1 & E1 & V1 & O1 & T1 & Q1).
      { now apply inv_cc. } { exact O0. } { now apply iedge_cc. } { rewrite wapx0_cc; auto. }
      eapply wp_bind_ok; [exact E1|]. apply wp_ret. split.
      { eapply step_trans; [apply S0|]. apply step_cc_any; auto. now apply inv_cc. }
      assert (Q: ex X -> forall i, (i < arity KV)%nat -> Cv s (ew (nthe [e0; e1] i)) = C0).
      { intros Ex [|[|i]] Hi; simpl in Hi; try lia; unfold nthe; simpl; eapply iedge_z_cv; eauto. }
      destruct cached; (split; [exact O1|]); split; auto; discriminate.
    + eapply wp_bind_ok; [apply relz_nz|]. apply wp_bind.
      eapply wp_mono; [apply topw_sp with (k := KV) (l := l) (O := O)|].
      { now apply inv_cc. } { exact O0. } { now apply iedge_cc. } { rewrite wapx0_cc; auto. }
      intros w s2 (S2 & O2 & W2 & V2). apply wp_ret.
      assert (S02: step O s s2) by (eapply step_trans; eauto).
      split; [auto|]. split; [auto|]. split; [auto|]. split; [auto|]. split.
      * intros e [<-|[<-|[]]].
        -- eapply tedge_ext; [apply S02|auto].
        -- eapply tedge_ext; [apply S02|]. eapply tedge_one; eauto.
      * intros Ex. rewrite V2 by auto. rewrite Cv_cc_same by auto. specialize (Q0 Ex).
        split; [left; unfold nthe; simpl; auto|]. split; [now apply nz_cv|].
        intros [|[|i]] Hi; simpl in Hi; try lia; unfold nthe; simpl.
        -- rewrite Q0, Cw_zero by auto. rewrite (iedge_z_cv _ _ _ _ _ Z0 Ex W0). split; [ring|congruence].
        -- rewrite Cw_one by auto. split; [ring|auto].
  - eapply wp_bind_ok; [apply relz_nz|]. destruct (wapx0 s (ew e1)) eqn:Z1.
    + apply owns_swap in H.
      destruct (relz_z _ _ _ _ _ _ I H W1 Z1) as (e1' & c1 & E1 & V1 & O1 & T1 & Q1).
      eapply wp_bind_ok; [exact E1|].
      assert (S1: forall O, step O s (set_cc s c1)) by (intros; apply step_cc_any; auto).
      apply wp_bind. eapply wp_mono; [apply topw_sp with (k := KV) (l := l) (O := O)|].
      { now apply inv_cc. } { exact O1. } { now apply iedge_cc. } { rewrite wapx0_cc; auto. }
      intros w s2 (S2 & O2 & W2 & V2). apply wp_ret.
      assert (S02: step O s s2) by (eapply step_trans; eauto).
      split; [auto|]. split; [auto|]. split; [auto|]. split; [auto|]. split.
      * intros e [<-|[<-|[]]].
        -- eapply tedge_ext; [apply S02|]. eapply tedge_one; eauto.
        -- eapply tedge_ext; [apply S02|auto].
      * intros Ex. rewrite V2 by auto. rewrite Cv_cc_same by auto. specialize (Q1 Ex).
        split; [right; left; unfold nthe; simpl; auto|]. split; [now apply nz_cv|].
        intros [|[|i]] Hi; simpl in Hi; try lia; unfold nthe; simpl.
        -- rewrite Cw_one by auto. split; [ring|auto].
        -- rewrite Q1, Cw_zero by auto. rewrite (iedge_z_cv _ _ _ _ _ Z1 Ex W1). split; [ring|congruence].
    + eapply wp_bind_ok; [apply relz_nz|].
      set (ge := nleb (wmag2 s (ew e1)) (nadd (wmag2 s (ew e0)) ntol)).
      set (mx := if ge then e0 else e1). set (mn := if ge then e1 else e0).
      assert (GE: ex X -> if ge then (Cmag2 (Cv s (ew e1)) <= Cmag2 (Cv s (ew e0)))%R else (Cmag2 (Cv s (ew e0)) < Cmag2 (Cv s (ew e1)))%R).
      { intros Ex. destruct ge eqn:Q; unfold ge in Q.
        - apply (x_leb X Ex) in Q. rewrite (x_add X Ex), (x_tol X Ex), !x_wmag2 in Q by auto. lra.
        - apply not_true_iff_false in Q. rewrite (x_leb X Ex) in Q.
          rewrite (x_add X Ex), (x_tol X Ex), !x_wmag2 in Q by auto. lra. }
      assert (Wx: iedge s cached KV l mx) by (unfold mx; destruct ge; auto).
      assert (Wn: iedge s cached KV l mn) by (unfold mn; destruct ge; auto).
      assert (Zx: wapx0 s (ew mx) = false) by (unfold mx; destruct ge; auto).
      assert (Zn: wapx0 s (ew mn) = false) by (unfold mn; destruct ge; auto).
      assert (Ow: owns (s_cc s) (wslots (ew mx) ++ wslots (ew mn) ++ O)).
      { unfold mx, mn; destruct ge; auto. now apply owns_swap. }
      eapply wp_mono; [apply (normTail_sp s s cached l mx mn
         (nsqrt (if ge then wmag2 s (ew e0) else wmag2 s (ew e1)))
         (nsqrt (nadd (wmag2 s (ew e0)) (wmag2 s (ew e1))))
         (ndiv (nsqrt (nadd (wmag2 s (ew e0)) (wmag2 s (ew e1))))
               (nsqrt (if ge then wmag2 s (ew e0) else wmag2 s (ew e1))))
         (fun a b => if ge then [a; b] else [b; a]) O I Ow Wx Wn Zx Zn)|].
      { auto. }
      { intros Ex. rewrite (x_div X Ex), !(x_sqrt X Ex), (x_add X Ex), !x_wmag2 by auto.
        assert (Q: toR X (if ge then wmag2 s (ew e0) else wmag2 s (ew e1)) = Cmag2 (Cv s (ew mx))).
        { unfold mx; destruct ge; now rewrite x_wmag2. }
        rewrite Q. assert (Q': (Cmag2 (Cv s (ew e0)) + Cmag2 (Cv s (ew e1)) = Cmag2 (Cv s (ew mx)) + Cmag2 (Cv s (ew mn)))%R).
        { unfold mx, mn; destruct ge; lra. }
        rewrite Q'. auto. }
      intros r s' (S' & R). split; [auto|]. destruct r as [| |es' w].
      * destruct R as (R1 & R2 & R3). discriminate.
      * destruct R as (R1 & R2 & R3). split; [auto|]. split; [discriminate|]. intros Ex; contradiction.
      * destruct R as (mx' & mn' & -> & R1 & R2 & R3 & R4 & R5). split; [auto|]. split; [auto|].
        split; [destruct ge; auto|].
        split; [destruct ge; intros e [<-|[<-|[]]]; auto|].
        intros Ex. destruct (R5 Ex) as (V1 & V2 & V3 & P1 & P2). cbv zeta in V1, V2, V3. clear R5.
        assert (NZx: Cv s (ew mx) <> C0) by now apply nz_cv.
        assert (NZn: Cv s (ew mn) <> C0) by now apply nz_cv.
        pose proof (alg_r _ _ NZx NZn) as Ar. pose proof (alg_max _ _ NZx NZn) as Am.
        pose proof (alg_min _ _ NZx NZn) as An. pose proof (alg_sum _ _ NZx NZn) as As.
        pose proof (alg_le _ _ NZx NZn) as Al. pose proof (alg_ge _ _ NZx NZn) as Ag.
        pose proof (alg_qz _ _ NZx NZn) as Aq.
        destruct (alg_cf _ _ NZx NZn) as (_ & Apos & _).
        rewrite <- V3 in Aq, Al, Ag, As, An. rewrite <- V2 in Al, Ag, As, Am. rewrite <- V1 in Ar, Am, An.
        assert (Rp: real_pos (Cw (co s') (ew mx'))) by (rewrite V2; split; simpl; auto).
        assert (Nx: Cw (co s') (ew mx') <> C0) by (rewrite V2; apply RtoC_neq; lra).
        specialize (GE Ex). split; [|split; [exact Ar|]].
        -- right; right. unfold nthe; destruct ge; simpl.
           ++ split; [auto|]. split; [auto|]. split; [auto|]. split; [auto|]. intros Lt. exfalso.
              assert (Q: (Cmag2 (Cw (co s') (ew mn')) <= Cmag2 (Cw (co s') (ew mx')))%R) by (apply Al; exact GE). lra.
           ++ split; [auto|]. split; [auto|]. split; [lra|]. split; [|auto]. intros Le. exfalso.
              apply Ag in Le. unfold mx, mn in Le. lra.
        -- unfold nthe. intros [|[|i]] Hi; simpl in Hi; try lia; unfold mx, mn in *; destruct ge; simpl; auto.
Qed.

(** ** Matrices *)

Definition relzE cached s (e : edge) : edge :=
  if cached && wapx0 s (ew e) && negb (ceqb (ew e) Czero) then Ezero else e.

Lemma mapM_relz s cached k l : inv s -> forall es c O, cc_val c = cc_val (s_cc s) ->
  (forall e, In e es -> iedge s cached k l e) -> owns c (slots es ++ O) ->
  exists c', mapM N (fun q => relz N cached (fst q) (snd q)) (combine (map (fun e => wapx0 s (ew e)) es) es) (set_cc s c)
     = Ok (map (relzE cached s) es) (set_cc s c') /\
   cc_val c' = cc_val (s_cc s) /\ owns c' (slots (map (relzE cached s) es) ++ O).
Proof.
  intros I. induction es as [|e es IH]; intros c O V W H.
  - exists c. auto.
  - rewrite slots_cons, <- app_assoc in H.
    destruct (relz_sp (set_cc s c) cached k l e (slots es ++ O)) as (c1 & E1 & V1 & O1).
    { now apply inv_cc. } { exact H. } { apply iedge_cc, W. now left. }
    rewrite wapx0_cc in E1, O1 by auto. apply owns_swap in O1.
    destruct (IH c1 (wslots (ew (relzE cached s e)) ++ O)) as (c2 & E2 & V2 & O2).
    { now rewrite V1. } { intros; apply W; now right. } { exact O1. }
    exists c2. split; [|split; auto].
    + cbn [map combine mapM]. unfold bind at 1. cbn [fst snd]. rewrite E1.
      unfold bind at 1. change (set_cc (set_cc s c) c1) with (set_cc s c1). rewrite E2. reflexivity.
    + cbn [map]. rewrite slots_cons, <- app_assoc. now apply owns_swap.
Qed.

Definition AM s (zs : list bool) (es : list edge) (acc : option (nat * N)) : Prop :=
  match acc with
  | None => Forall (fun z => z = true) zs
  | Some (am, m) => (am < length zs)%nat /\ nth am zs true = false /\ m = wmag2 s (ew (nth am es Ezero)) /\
      (ex X -> forall j, (j < length zs)%nat -> nth j zs true = false ->
        (Cmag2 (Cv s (ew (nth j es Ezero))) <= Cmag2 (Cv s (ew (nth am es Ezero))))%R /\
        ((j < am)%nat -> (Cmag2 (Cv s (ew (nth j es Ezero))) < Cmag2 (Cv s (ew (nth am es Ezero))))%R))
  end.

Lemma argmaxM_sp s : forall zs es pz pe acc, length pz = length pe -> length zs = length es ->
  AM s pz pe acc -> AM s (pz ++ zs) (pe ++ es) (argmaxM N s (length pz) zs es acc).
Proof.
  induction zs as [|z zs IH]; intros [|e es] pz pe acc Lp Ls H; simpl in Ls; try discriminate.
  - rewrite !app_nil_r. exact H.
  - change (z :: zs) with ([z] ++ zs). change (e :: es) with ([e] ++ es). rewrite !app_assoc.
    assert (L1: S (length pz) = length (pz ++ [z])) by (rewrite app_length; simpl; lia).
    assert (Ne: nth (length pz) (pe ++ [e]) Ezero = e) by (rewrite Lp, nth_middle; auto).
    assert (Nz: nth (length pz) (pz ++ [z]) true = z) by (rewrite nth_middle; auto).
    assert (Nj: forall j, (j < length pz)%nat -> nth j (pe ++ [e]) Ezero = nth j pe Ezero /\ nth j (pz ++ [z]) true = nth j pz true).
    { intros j Hj. rewrite !app_nth1 by lia. auto. }
    cbn [argmaxM app]. rewrite L1. apply IH.
    { rewrite !app_length; simpl; lia. } { now injection Ls. }
    destruct z.
    + destruct acc as [[am m]|]; simpl in H |- *.
      * destruct H as (A & B & D & F). destruct (Nj am A) as [-> ->].
        split; [rewrite app_length; lia|]. split; [auto|]. split; [auto|].
        intros Ex j Hj Zj. rewrite app_length in Hj; simpl in Hj.
        destruct (Nat.eq_dec j (length pz)) as [->|Hn].
        { rewrite Nz in Zj. discriminate. }
        assert (Hj': (j < length pz)%nat) by lia. destruct (Nj j Hj') as [Q1 Q2]. rewrite Q1. rewrite Q2 in Zj. auto.
      * apply Forall_app. split; auto.
    + destruct acc as [[am m]|]; simpl in H |- *.
      * destruct H as (A & B & D & F). destruct (nltb ntol (nsub (wmag2 s (ew e)) m)) eqn:Lt; simpl.
        -- rewrite Ne, Nz. split; [rewrite app_length; simpl; lia|]. split; [auto|]. split; [auto|].
           intros Ex j Hj Zj. apply (x_ltb X Ex) in Lt.
           rewrite (x_sub X Ex), (x_tol X Ex), D, !x_wmag2 in Lt by auto.
           rewrite app_length in Hj; simpl in Hj.
           destruct (Nat.eq_dec j (length pz)) as [->|Hn].
           { rewrite Ne. split; [lra|lia]. }
           assert (Hj': (j < length pz)%nat) by lia. destruct (Nj j Hj') as [Q1 Q2]. rewrite Q1. rewrite Q2 in Zj.
           destruct (F Ex j Hj' Zj). split; intros; lra.
        -- destruct (Nj am A) as [-> ->].
           split; [rewrite app_length; simpl; lia|]. split; [auto|]. split; [auto|].
           intros Ex j Hj Zj. apply not_true_iff_false in Lt. rewrite (x_ltb X Ex) in Lt.
           rewrite (x_sub X Ex), (x_tol X Ex), D, !x_wmag2 in Lt by auto.
           rewrite app_length in Hj; simpl in Hj.
           destruct (Nat.eq_dec j (length pz)) as [->|Hn].
           { rewrite Ne. split; [lra|lia]. }
           assert (Hj': (j < length pz)%nat) by lia. destruct (Nj j Hj') as [Q1 Q2]. rewrite Q1. rewrite Q2 in Zj. auto.
      * rewrite Ne, Nz. split; [rewrite app_length; simpl; lia|]. split; [auto|]. split; [auto|].
        intros Ex j Hj Zj. rewrite app_length in Hj; simpl in Hj.
        destruct (Nat.eq_dec j (length pz)) as [->|Hn].
        { rewrite Ne. split; [lra|lia]. }
        assert (Hj': (j < length pz)%nat) by lia. destruct (Nj j Hj') as [Q1 Q2]. rewrite Q2 in Zj.
        rewrite Forall_forall in H. rewrite (H (nth j pz true)) in Zj by (apply nth_In; auto). discriminate.
Qed.

Lemma wapx0_eq s s' w : cval s' w = cval s w -> wapx0 s' w = wapx0 s w.
Proof. unfold cval, wapx0, eapx0. intros E. injection E as -> ->. reflexivity. Qed.

(** What the division loop needs to know of its [i]-th edge. *)
Definition dpre s cached k l (am i : nat) (z : bool) (e : edge) : Prop :=
  if Nat.eqb i am then tedge (co s) k l (Ed (ep e) Cone)
  else if z then tedge (co s) k l e /\ (cached = true -> ew e = Czero)
  else iedge s cached k l e /\ wapx0 s (ew e) = false.
Definition oslots (am i : nat) (e : edge) : list nat := if Nat.eqb i am then [] else wslots (ew e).
Fixpoint oslotsL (am i : nat) (es : list edge) : list nat :=
  match es with [] => [] | e :: r => oslots am i e ++ oslotsL am (S i) r end.
Definition dpost s s' k l (am i : nat) (maxc : complex) (z : bool) (e e' : edge) : Prop :=
  tedge (co s') k l e' /\ (i = am -> e' = Ed (ep e) Cone) /\
  (ex X -> i <> am -> z = true -> ew e' = Czero) /\
  (ex X -> i <> am -> z = false -> Cv s maxc <> C0 -> Cw (co s') (ew e') = (Cv s (ew e) / Cv s maxc)%C /\ ep e' = ep e).

Lemma Cdiv_neq (a b : C) : a <> C0 -> b <> C0 -> (a / b)%C <> C0.
Proof. intros A B H. apply A. replace a with (b * (a / b))%C by (field; auto). rewrite H. ring. Qed.

Lemma normEdge_sp s cached k l am maxc i z e O :
  inv s -> owns (s_cc s) (oslots am i e ++ O) ->
  dpre s cached k l am i z e -> (ex X -> Cv s maxc <> C0) ->
  wp al0 (normEdge N g cached am maxc (i, (z, e))) s (fun e' s' =>
    step O s s' /\ owns (s_cc s') O /\ dpost s s' k l am i maxc z e e').
Proof.
  intros I H P NZ. unfold normEdge, dpre, dpost, oslots in *. destruct (Nat.eqb i am) eqn:Ei.
  - apply Nat.eqb_eq in Ei. apply wp_ret. split; [now apply step_refl|]. split; auto. split; auto.
    split; auto. split; intros; lia.
  - apply Nat.eqb_neq in Ei. destruct z.
    + destruct P as (T & Z). rewrite (wslots_tab _ _ (te_w _ _ _ _ _ _ _ T)) in H. simpl in H.
      assert (B: cached && negb (ceqb (ew e) Czero) = false).
      { destruct cached; auto. now rewrite Z, ceqb_refl. }
      rewrite B. apply wp_bind, wp_ret, wp_ret. split; [now apply step_refl|]. split; auto.
      split; [apply tedge_zero|]. split; [lia|]. split; auto. discriminate.
    + destruct P as (W & Z).
      assert (Tail: forall s1 w, inv s1 -> step O s s1 -> owns (s_cc s1) O -> (forall w, Cv s1 w = Cv s w) ->
         wokT (X:=X) s1 O w -> (ex X -> Cv s1 w = Cv s (ew e)) ->
         wp al0 (bind (getTemp g) (fun t => bind (divInto t w maxc) (fun _ => bind (cn_lookupC g t) (fun w' => ret (Ed (ep e) w'))))) s1
          (fun e' s' => step O s s' /\ owns (s_cc s') O /\
             (tedge (co s') k l e' /\ (i = am -> e' = Ed (ep e) Cone) /\
              (ex X -> i <> am -> false = true -> ew e' = Czero) /\
              (ex X -> i <> am -> false = false -> Cv s maxc <> C0 -> Cw (co s') (ew e') = (Cv s (ew e) / Cv s maxc)%C /\ ep e' = ep e)))).
      { intros s1 w I1 S1 O1 V1 W1 E1. apply (wp_tdiv (nb:=nb) (X:=X) G al0 O); auto. { apply alok0. }
        intros w' s2 S2 O2 Wt Q. apply wp_ret. split; [eapply step_trans; eauto|]. split; auto.
        assert (S02: step O s s2) by (eapply step_trans; eauto). simpl. split.
        - destruct W as [A B D F]. constructor; simpl; auto.
          + eapply etn_ext; [apply S02|auto].
          + intros Et. destruct (B Et) as [|E']; auto. rewrite E' in Z. discriminate.
          + intros Ex Hz. exfalso. subst w'. specialize (Q Ex). rewrite Cw_zero, E1, V1 in Q by auto.
            apply (Cdiv_neq (Cv s (ew e)) (Cv s maxc)); auto. now apply nz_cv. symmetry; auto.
        - split; [lia|]. split; [discriminate|]. intros Ex _ _ _. split; auto. rewrite Q; auto.
          + now rewrite E1, V1 by auto. + rewrite V1; auto. }
      destruct cached.
      * destruct (nz_slot _ _ _ _ W Z) as (a & b & E). rewrite E in *. simpl in H.
        destruct (ceqb_slot a b) as [_ B]. unfold wone. rewrite B. simpl.
        destruct (retCache_sp _ _ _ _ H) as (c' & E1 & V1 & O1 & r & Av).
        eapply wp_bind_ok; [exact E1|]. apply wp_bind, wp_get.
        apply Tail; auto. { now apply inv_cc. } { apply step_cc_any; auto. }
        { intros; now apply Cv_cc_same. }
        { destruct (wapx1 _ _). left; left; apply wtab_one. right; exists a, b, r; auto. }
        { intros Ex. destruct (wapx1 (set_cc s c') (cslot a b)) eqn:Q1.
          - apply (x_wapx1 (X:=X)) in Q1; auto. rewrite Cv_cc_same in Q1 by auto. rewrite Q1. now apply Cv_one.
          - now apply Cv_cc_same. }
      * destruct W as [_ _ _ Wt]. simpl in Wt. rewrite (wslots_tab _ _ Wt) in H. simpl in H.
        simpl. apply wp_bind, wp_ret, wp_bind, wp_get. apply Tail; auto. { now apply step_refl. }
        { left; left. destruct (wapx1 _ _); auto. apply wtab_one. }
        { intros Ex. destruct (wapx1 s (ew e)) eqn:Q1; auto. apply (x_wapx1 (X:=X)) in Q1; auto. rewrite Q1. now apply Cv_one. }
Qed.

Lemma nodup_appl {A} (a b : list A) : NoDup (a ++ b) -> NoDup a.
Proof.
  induction a; simpl; intros H; [constructor|]. inversion H; subst. constructor; auto.
  intros Q. apply H2, in_or_app. auto.
Qed.
Lemma nodup_appr {A} (a b : list A) : NoDup (a ++ b) -> NoDup b.
Proof. induction a; simpl; intros H; auto. inversion H; subst. auto. Qed.

Lemma oslots_In am : forall es i j, (j < length es)%nat -> (i + j)%nat <> am ->
  incl (wslots (ew (nth j es Ezero))) (oslotsL am i es).
Proof.
  induction es as [|e es IH]; intros i j Hj Hn; simpl in Hj; [lia|]. destruct j; simpl.
  - unfold oslots. destruct (Nat.eqb i am) eqn:E. apply Nat.eqb_eq in E. lia. apply incl_appl, incl_refl.
  - apply incl_appr. apply IH; lia.
Qed.

Lemma iedge_wokI s cached k l e c B : iedge s cached k l e -> owns c B -> incl (wslots (ew e)) B ->
  NoDup (wslots (ew e)) -> wok (co s) B (ew e).
Proof.
  intros [_ _ _ F] H J Nd. destruct cached.
  - destruct F as [->|(a & b & E)]. left; apply wtab_zero. right. exists a, b. rewrite E in *. simpl in *.
    inversion Nd; subst. simpl in *. repeat split; auto with datatypes.
  - left; auto.
Qed.

Lemma oslots_nodup am : forall es i j, (j < length es)%nat -> (i + j)%nat <> am -> NoDup (oslotsL am i es) ->
  NoDup (wslots (ew (nth j es Ezero))).
Proof.
  induction es as [|e es IH]; intros i j Hj Hn Nd; simpl in Hj; [lia|]. destruct j; simpl in *.
  - unfold oslots in Nd. destruct (Nat.eqb i am) eqn:E. apply Nat.eqb_eq in E. lia. now apply nodup_appl in Nd.
  - apply nodup_appr in Nd. apply (IH (S i)); auto; lia.
Qed.

Lemma normLoop_sp cached k l am maxc B : forall es zs i s,
  length zs = length es ->
  inv s -> owns (s_cc s) (oslotsL am i es ++ B) -> wok (co s) B maxc ->
  (forall j, (j < length es)%nat -> dpre s cached k l am (i + j) (nth j zs true) (nth j es Ezero)) ->
  (ex X -> Cv s maxc <> C0) ->
  wp al0 (mapM N (normEdge N g cached am maxc) (combine (seq i (length es)) (combine zs es))) s (fun es' s' =>
    step B s s' /\ owns (s_cc s') B /\ length es' = length es /\
    forall j, (j < length es)%nat -> dpost s s' k l am (i + j) maxc (nth j zs true) (nth j es Ezero) (nth j es' Ezero)).
Proof.
  induction es as [|e es IH]; intros [|z zs] i s L I H Wm P NZ; simpl in L; try discriminate.
  - apply wp_ret. split; [now apply step_refl|]. split; auto. split; auto. simpl. intros; lia.
  - cbn [length seq combine mapM]. simpl in H. rewrite <- app_assoc in H. apply wp_bind.
    assert (P0: dpre s cached k l am i z e). { specialize (P 0%nat). rewrite Nat.add_0_r in P. apply P. simpl; lia. }
    eapply wp_mono; [apply (normEdge_sp s cached k l am maxc i z e (oslotsL am (S i) es ++ B)); auto|].
    intros e' s1 (S1 & O1 & Q1). apply wp_bind.
    assert (Vm: Cv s1 maxc = Cv s maxc). { eapply Cv_step; eauto. eapply wok_incl; eauto. apply incl_appr, incl_refl. }
    assert (Wj: forall j, (j < length es)%nat -> (S i + j)%nat <> am -> nth j zs true = false -> wok (co s) (oslotsL am (S i) es ++ B) (ew (nth j es Ezero))).
    { intros j Hj Hn Zj. specialize (P (S j)). simpl in P. rewrite <- plus_n_Sm in P. specialize (P ltac:(lia)).
      unfold dpre in P. replace (Nat.eqb (S (i + j)) am) with false in P by (symmetry; apply Nat.eqb_neq; lia).
      rewrite Zj in P. eapply iedge_wokI; [apply P|exact O1| |].
      - apply incl_appl. apply oslots_In; auto.
      - eapply oslots_nodup; eauto. destruct O1 as [Nd]. now apply nodup_appl in Nd. }
    assert (SB: step B s s1). { eapply step_weak; eauto. apply incl_appr, incl_refl. }
    eapply wp_mono; [apply (IH zs (S i) s1); auto|].
    + apply S1.
    + eapply wok_step; eauto.
    + intros j Hj. specialize (Wj j Hj). specialize (P (S j)). simpl in P. rewrite <- plus_n_Sm in P. specialize (P ltac:(lia)).
      unfold dpre in P |- *. change (S i + j)%nat with (S (i + j)) in *. destruct (Nat.eqb (S (i + j)) am) eqn:Ej.
      * eapply tedge_ext; [apply S1|auto].
      * apply Nat.eqb_neq in Ej. specialize (Wj Ej). destruct (nth j zs true).
        -- destruct P as [P1 P2]. split; auto. eapply tedge_ext; [apply S1|auto].
        -- destruct P as [P1 P2]. split. { eapply iedge_step; eauto. }
           rewrite <- P2. apply wapx0_eq. eapply val_wok; [exact S1|auto].
    + rewrite Vm. auto.
    + intros es' s2 (S2 & O2 & L2 & Q2). apply wp_ret. split; [eapply step_trans; eauto|].
      split; auto. split; [simpl; lia|]. intros [|j] Hj; simpl in Hj.
      * simpl. rewrite Nat.add_0_r. destruct Q1 as (A1 & A2 & A3 & A4). split; [eapply tedge_ext; [apply S2|auto]|].
        split; auto. split; auto. intros Ex Hn Zj Nm. destruct (A4 Ex Hn Zj Nm) as [A5 A6]. split; auto.
        rewrite <- A5. eapply Cw_ext. apply S2. apply A1.
      * simpl. specialize (Q2 j ltac:(lia)). specialize (Wj j ltac:(lia)).
        unfold dpost in *. simpl in Q2, Wj. rewrite <- plus_n_Sm. destruct Q2 as (A1 & A2 & A3 & A4).
        split; auto. split; auto. split; auto. intros Ex Hn Zj Nm. rewrite Vm in A4. destruct (A4 Ex Hn Zj Nm) as [A5 A6]. split; auto.
        rewrite A5. f_equal. eapply Cv_step; [exact S1|auto].
Qed.

Lemma Cmag2_div (a b : C) : b <> C0 -> Cmag2 (a / b)%C = (Cmag2 a / Cmag2 b)%R.
Proof.
  intros H. pose proof (Cmag2_pos b H).
  assert (Q: (Cmag2 (a / b)%C * Cmag2 b = Cmag2 a)%R). { rewrite <- Cmag2_mul. f_equal. field. auto. }
  rewrite <- Q. field. lra.
Qed.

Lemma relzE_z s cached k l e : inv s -> iedge s cached k l e -> wapx0 s (ew e) = true ->
  tedge (co s) k l (relzE cached s e) /\ (cached = true -> ew (relzE cached s e) = Czero) /\
  (ex X -> ew (relzE cached s e) = Czero).
Proof.
  intros I W Z. destruct (iedge_tedge_z _ _ _ _ _ I W Z) as (T & _ & T2). split; [exact T|]. split; [|exact T2].
  unfold relzE. rewrite Z. intros ->. simpl. destruct (ceqb (ew e) Czero) eqn:E; auto. now apply ceqb_spec in E.
Qed.
Lemma relzE_nz s cached e : wapx0 s (ew e) = false -> relzE cached s e = e.
Proof. unfold relzE. intros ->. rewrite andb_false_r. reflexivity. Qed.

Lemma slots_pick am : forall es i, (i <= am < i + length es)%nat ->
  Permutation (slots es) (oslotsL am i es ++ wslots (ew (nth (am - i) es Ezero))).
Proof.
  induction es as [|e es IH]; intros i Hi; simpl in Hi; [lia|]. rewrite slots_cons. simpl oslotsL. unfold oslots.
  destruct (Nat.eqb i am) eqn:E.
  - apply Nat.eqb_eq in E. subst. rewrite Nat.sub_diag. simpl.
    assert (Q: forall es j, (am < j)%nat -> oslotsL am j es = slots es).
    { clear. induction es as [|e es IH]; intros j Hj; auto. cbn [oslotsL]. rewrite slots_cons, IH by lia. f_equal.
      unfold oslots. replace (Nat.eqb j am) with false; auto. symmetry. apply Nat.eqb_neq. lia. }
    rewrite Q by lia. apply Permutation_app_comm.
  - apply Nat.eqb_neq in E. rewrite <- app_assoc. apply Permutation_app_head.
    replace (am - i)%nat with (S (am - S i)) by lia. simpl. apply IH. lia.
Qed.

Lemma nth_map_relzE cached s es j : (j < length es)%nat -> nth j (map (relzE cached s) es) Ezero = relzE cached s (nth j es Ezero).
Proof. intros H. rewrite (nth_indep _ Ezero (relzE cached s Ezero)) by (now rewrite map_length). apply map_nth. Qed.
Lemma nthe_nth es j : (j < length es)%nat -> nthe es j = nth j es Ezero.
Proof. apply nth_indep. Qed.

Lemma normalizeM_sp s k cached l es O : k <> KV -> length es = 4%nat ->
  inv s -> owns (s_cc s) (slots es ++ O) -> (forall e, In e es -> iedge s cached k l e) ->
  wp al0 (normalizeM N g cached es) s (npost k l cached es O s).
Proof.
  intros Hk L I H W. assert (Ar: arity k = 4%nat) by (destruct k; auto; congruence).
  unfold normalizeM. apply wp_bind, wp_get.
  destruct (mapM_relz s cached k l I es (s_cc s) O eq_refl W H) as (c1 & E1 & V1 & O1).
  replace (set_cc s (s_cc s)) with s in E1 by (destruct s; reflexivity).
  eapply wp_bind_ok; [exact E1|]. clear E1. set (es1 := map (relzE cached s) es) in *. set (s1 := set_cc s c1).
  set (zs := map (fun e => wapx0 s (ew e)) es).
  assert (Lz: length zs = 4%nat) by (unfold zs; now rewrite map_length).
  assert (L1: length es1 = 4%nat) by (unfold es1; now rewrite map_length).
  assert (I1: inv s1) by now apply inv_cc.
  assert (S1: forall O, step O s s1) by (intros; apply step_cc_any; auto).
  assert (Nz: forall j, (j < 4)%nat -> nth j zs true = wapx0 s (ew (nth j es Ezero))).
  { intros j Hj. unfold zs. rewrite (nth_indep _ true (wapx0 s (ew Ezero))) by (rewrite map_length; lia).
    apply (map_nth (fun e => wapx0 s (ew e))). }
  assert (Wj: forall j, (j < 4)%nat -> iedge s cached k l (nth j es Ezero)) by (intros; apply W, nth_In; lia).
  assert (N1: forall j, (j < 4)%nat -> nth j es1 Ezero = relzE cached s (nth j es Ezero)) by (intros; apply nth_map_relzE; lia).
  pose proof (argmaxM_sp s zs es1 [] [] None eq_refl) as A. simpl length in A. simpl app in A.
  specialize (A ltac:(lia) (Forall_nil _)). destruct (argmaxM N s 0 zs es1 None) as [[am m]|].
  - destruct A as (Aa & Az & Am & Ax). clear Am m. rewrite Lz in Aa, Ax. rewrite Nz in Az by auto.
    set (maxc := ew (nth am es1 Ezero)).
    assert (Em: maxc = ew (nth am es Ezero)) by (unfold maxc; now rewrite N1, relzE_nz).
    assert (Wm: iedge s cached k l (nth am es Ezero)) by auto.
    assert (P1: Permutation (slots es1 ++ O) (oslotsL am 0 es1 ++ wslots maxc ++ O)).
    { rewrite app_assoc. apply Permutation_app_tail. unfold maxc. replace am with (am - 0)%nat at 2 by lia.
      apply slots_pick. lia. }
    apply (owns_perm _ _ _ P1) in O1.
    assert (Wk: wok (co s1) (wslots maxc ++ O) maxc).
    { rewrite Em in *. eapply (iedge_wok s); [exact Wm|]. exact O1. }
    assert (Vm: forall w, Cv s1 w = Cv s w) by (intros; now apply Cv_cc_same).
    assert (NZ: ex X -> Cv s maxc <> C0) by (intros Ex; rewrite Em; now apply nz_cv).
    apply wp_bind. eapply wp_mono; [apply (normLoop_sp cached k l am maxc (wslots maxc ++ O) es1 zs 0 s1)|].
    { lia. } { auto. } { exact O1. } { auto. }
    { rewrite L1. intros j Hj. simpl. rewrite Nz, N1 by auto. unfold dpre. destruct (Nat.eqb j am) eqn:Ej.
      - apply Nat.eqb_eq in Ej. subst j. rewrite relzE_nz by auto. exact (tedge_one _ _ _ _ _ Wm Az).
      - destruct (wapx0 s (ew (nth j es Ezero))) eqn:Zj.
        + destruct (relzE_z _ _ _ _ _ I (Wj _ Hj) Zj) as (T1 & T2 & _). auto.
        + rewrite relzE_nz by auto. split. { apply iedge_cc. auto. } unfold s1; rewrite wapx0_cc; auto. }
    { now rewrite Vm. }
    intros es' s2 (S2 & O2 & L2 & Q2). rewrite L1 in L2, Q2. apply wp_ret.
    assert (S02: step O s s2). { eapply step_trans; [apply S1|]. eapply step_weak; eauto. apply incl_appr, incl_refl. }
    split; auto. split; auto. split.
    { rewrite Em. destruct cached. eapply nz_slot; eauto. destruct Wm as [_ _ _ Wt]. eapply wtab_ext; [apply S02|auto]. }
    split; [congruence|]. split.
    { intros e He. apply In_nth with (d := Ezero) in He. destruct He as (j & Hj & <-). apply Q2. lia. }
    intros Ex. specialize (NZ Ex). specialize (Ax Ex).
    assert (Vm2: Cv s2 maxc = Cv s maxc). { rewrite <- Vm. eapply Cv_step; eauto. }
    assert (Fz: forall j, (j < 4)%nat -> j <> am -> wapx0 s (ew (nth j es Ezero)) = true -> ew (nth j es' Ezero) = Czero /\ Cv s (ew (nth j es Ezero)) = C0).
    { intros j Hj Hn Zj. destruct (Q2 j Hj) as (_ & _ & Q & _). split. apply Q; auto. now rewrite Nz.
      now apply (x_wapx0 (X:=X)). }
    assert (Fn: forall j, (j < 4)%nat -> j <> am -> wapx0 s (ew (nth j es Ezero)) = false ->
       Cw (co s2) (ew (nth j es' Ezero)) = (Cv s (ew (nth j es Ezero)) / Cv s maxc)%C /\ ep (nth j es' Ezero) = ep (nth j es Ezero)).
    { intros j Hj Hn Zj. destruct (Q2 j Hj) as (_ & _ & _ & Q). rewrite Nz, N1, relzE_nz in Q by auto. rewrite !Vm in Q. auto. }
    assert (Fa: nth am es' Ezero = Ed (ep (nth am es Ezero)) Cone).
    { destruct (Q2 am Aa) as (_ & Q & _). rewrite N1, relzE_nz in Q by auto. auto. }
    assert (Mg: forall j, (j < 4)%nat -> (Cmag2 (Cw (co s2) (ew (nthe es' j))) <= 1)%R /\ ((j < am)%nat -> (Cmag2 (Cw (co s2) (ew (nthe es' j))) < 1)%R)).
    { intros j Hj. rewrite nthe_nth by lia. destruct (Nat.eq_dec j am) as [->|Hn].
      - rewrite Fa. simpl. rewrite Cw_one by auto. unfold Cmag2; simpl. split; [lra|lia].
      - destruct (wapx0 s (ew (nth j es Ezero))) eqn:Zj.
        + destruct (Fz j Hj Hn Zj) as [-> _]. rewrite Cw_zero by auto. unfold Cmag2; simpl. split; intros; lra.
        + destruct (Fn j Hj Hn Zj) as [-> _]. rewrite Cmag2_div by auto. pose proof (Cmag2_pos _ NZ).
          destruct (Ax j Hj) as [B1 B2]. { now rewrite Nz. }
          fold maxc in B1, B2. rewrite N1, relzE_nz in B1, B2 by auto. unfold Rdiv. split.
          * apply (Rmult_le_reg_r (Cmag2 (Cv s maxc))); auto. rewrite Rmult_assoc, Rinv_l by lra. lra.
          * intros Hl. apply (Rmult_lt_reg_r (Cmag2 (Cv s maxc))); auto. rewrite Rmult_assoc, Rinv_l by lra. specialize (B2 Hl). lra. }
    split; [|split; [now rewrite Vm2|]].
    + assert (Q: exists am, (am < 4)%nat /\ ew (nthe es' am) = Cone /\
        (forall i, (i < 4)%nat -> (Cmag2 (Cw (co s2) (ew (nthe es' i))) <= 1)%R) /\
        (forall i, (i < am)%nat -> (Cmag2 (Cw (co s2) (ew (nthe es' i))) < 1)%R)).
      { exists am. split; auto. split. { rewrite nthe_nth by lia. now rewrite Fa. }
        split; intros; apply Mg; auto; lia. }
      destruct k; auto. congruence.
    + rewrite Ar. intros j Hj. rewrite !nthe_nth by lia. rewrite Vm2. destruct (Nat.eq_dec j am) as [->|Hn].
      * rewrite Fa. simpl. rewrite Cw_one by auto. split; auto. rewrite <- Em. ring.
      * destruct (wapx0 s (ew (nth j es Ezero))) eqn:Zj.
        -- destruct (Fz j Hj Hn Zj) as [-> ->]. rewrite Cw_zero by auto. split; [ring|congruence].
        -- destruct (Fn j Hj Hn Zj) as [-> ->]. split; auto. field. auto.
  - simpl in A. rewrite Forall_forall in A. apply wp_ret.
    assert (Zj: forall j, (j < 4)%nat -> wapx0 s (ew (nth j es Ezero)) = true).
    { intros j Hj. rewrite <- Nz by auto. apply A. apply nth_In. lia. }
    assert (Sl: slots es1 = []).
    { unfold es1. clear - Zj L W I. rewrite <- L in Zj. clear L. induction es as [|e es IH]; auto.
      simpl map. rewrite slots_cons. rewrite IH.
      - destruct (relzE_z _ _ _ _ e I (W _ (or_introl eq_refl)) (Zj 0%nat ltac:(simpl; lia))) as (T & _).
        now rewrite (wslots_tab _ _ (te_w _ _ _ _ _ _ _ T)).
      - intros; apply W; now right.
      - intros j Hj. apply (Zj (S j)). simpl. lia. }
    rewrite Sl in O1. simpl in O1.
    assert (Q: ex X -> forall i, (i < arity k)%nat -> Cv s (ew (nthe es i)) = C0).
    { intros Ex j Hj. rewrite Ar in Hj. rewrite nthe_nth by lia. apply (x_wapx0 (X:=X)); auto. }
    split; [auto|]. destruct cached; (split; [exact O1|]); split; auto; discriminate.
Qed.

Lemma normalize_sp s k cached l es O : length es = arity k ->
  inv s -> owns (s_cc s) (slots es ++ O) -> (forall e, In e es -> iedge s cached k l e) ->
  wp al0 (normalize N g k cached es) s (npost k l cached es O s).
Proof.
  intros L I H W. unfold normalize. destruct k; try (apply normalizeM_sp; auto; congruence).
  destruct es as [|e0 [|e1 [|e2 es]]]; try discriminate. apply normalizeV_sp; auto.
  - unfold slots in H. simpl in H. rewrite app_nil_r, <- app_assoc in H. exact H.
  - apply W. simpl; auto. - apply W; simpl; auto.
Qed.

End NormL.
