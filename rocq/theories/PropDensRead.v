(** Reading a density matrix gives the entries that the diagram stands for (C56). *)
From Coq Require Import ZArith List Bool Lia Arith Reals Lra SpecFloat.
From Verif Require Import Num Base CTable CTableWf CTableR Cx State Pkg Control Gate Named Meas Inv InvL PrimL NormL MkL TrL AddL MulL CanonL IdentL StateL TraceL ReadL Read GateL GateAct NamedL DelL MeasL SampL Run Inst PropBase PropSem PropState PropMeas Density DensMul PropDens DensL PropDensMul.
Import ListNotations.
Local Open Scope Z_scope.

(** * The entries, by the successors of stored nodes *)

(** The number of the successor for row [r] and column [c] at level [l]: the row bit, then the column bit. *)
Definition quad (l : nat) (r c : Z) : nat := ((if Z.testbit r (Z.of_nat l) then 2 else 0) + (if Z.testbit c (Z.of_nat l) then 1 else 0))%nat.

Section Entries.
Context (av : eaddr -> R) (h0 : dheap).
(** The value of the weight of an edge. *)
Definition wv (e : dedge) : C := dcval R0 av (de_w e).

(** The entry of the matrix below an edge to [l] qubits, all successors taken as they are stored. *)
Fixpoint dent (l : nat) (e : dedge) (r c : Z) : C :=
  match l with
  | O => wv e
  | S l' => (wv e * match dp_at (de_p e) with PNode n => dent l' (succ (h0 n) (quad l' r c)) r c | _ => C0 end)%C
  end.
(** The same for a diagram in reduced form: below a node on the diagonal the lower left quadrant is the adjoint of what
    successor 2 stores. *)
Fixpoint herm (l : nat) (e : dedge) (r c : Z) : C :=
  match l with
  | O => wv e
  | S l' => (wv e * match dp_at (de_p e) with
                    | PNode n => match quad l' r c with
                                 | O => herm l' (succ (h0 n) 0) r c
                                 | S O => dent l' (succ (h0 n) 1) r c
                                 | S (S O) => Cconj (dent l' (succ (h0 n) 2) c r)
                                 | _ => herm l' (succ (h0 n) 3) r c
                                 end
                    | _ => C0
                    end)%C
  end.
End Entries.

(** No level is skipped above a successor that is not zero. *)
Definition levelled (av : eaddr -> R) (h : dheap) (D : nat -> Prop) : Prop :=
  forall n, D n -> Forall (fun e => wv av e = C0 \/
    match dp_at (de_p e) with PNull => False | PTerm => dn_v (h n) = 0 | PNode m => dn_v (h m) = dn_v (h n) - 1 end) (succs4 (h n)).

(** * Exact arithmetic *)
Lemma ap0R (x : R) : @approx_zero R0 x = true <-> x = 0%R.
Proof.
  unfold approx_zero. cbn [nleb nabs ntol NumR T]. rewrite Rleb_iff. split; intros H; [|subst; rewrite Rabs_R0; lra].
  pose proof (Rabs_pos x). destruct (Req_dec x 0) as [E|E]; auto. apply Rabs_no_R0 in E. lra.
Qed.
Lemma ap1R (x : R) : @approx_one R0 x = true -> x = 1%R.
Proof.
  unfold approx_one. intros H. apply approx_eq_R in H; [|lra]. cbn in H. destruct (Req_dec (x - 1) 0) as [E|E]; [lra|]. apply Rabs_no_R0 in E.
  pose proof (Rabs_pos (x - 1)). lra.
Qed.
Lemma dz_C (a : C) : dz R0 a = true <-> a = C0.
Proof.
  unfold dz. rewrite andb_true_iff, !ap0R. destruct a as [x y]. cbn. split; [intros [-> ->]; reflexivity|]. unfold C0. now intros [= -> ->].
Qed.
Lemma dmul_C (a b : C) : dmul R0 a b = (a * b)%C.
Proof.
  assert (O: forall x : C, d1 R0 x = true -> x = C1).
  { intros [x y]. unfold d1. rewrite andb_true_iff, ap0R. cbn. intros [H ->]. apply ap1R in H. subst. reflexivity. }
  unfold dmul. destruct (d1 R0 a) eqn:A; [apply O in A; subst; now rewrite Cmul_1_l|].
  destruct (d1 R0 b) eqn:B; [apply O in B; subst; now rewrite Cmul_1_r|].
  destruct (dz R0 a) eqn:A0; [apply dz_C in A0; subst; now rewrite Cmul_0_l|].
  destruct (dz R0 b) eqn:B0; [apply dz_C in B0; subst; now rewrite Cmul_0_r|]. reflexivity.
Qed.

(** * Blocks of the matrix *)
Lemma shift_bit x y k : 0 <= k -> (Z.shiftr x k = Z.shiftr y k <-> Z.shiftr x (k + 1) = Z.shiftr y (k + 1) /\ Z.testbit x k = Z.testbit y k).
Proof.
  intros K. split.
  - intros E. split.
    + apply Z.bits_inj'. intros b B. rewrite !Z.shiftr_spec by lia. pose proof (f_equal (fun z => Z.testbit z (b + 1)) E) as H. cbn beta in H. rewrite !Z.shiftr_spec in H by lia. replace (b + (k + 1)) with (b + 1 + k) by ring. exact H.
    + pose proof (f_equal (fun z => Z.testbit z 0) E) as H. cbn beta in H. now rewrite !Z.shiftr_spec in H by lia.
  - intros [E B]. apply Z.bits_inj'. intros b Hb. rewrite !Z.shiftr_spec by lia. destruct (Z.eq_dec b 0) as [->|N]; [exact B|].
    pose proof (f_equal (fun z => Z.testbit z (b - 1)) E) as H. cbn beta in H. rewrite !Z.shiftr_spec in H by lia. replace (b + k) with (b - 1 + (k + 1)) by ring. exact H.
Qed.
(** Bits up to [l] are 0. *)
Definition lowz (l : nat) (i : Z) : Prop := forall k, 0 <= k < Z.of_nat l -> Z.testbit i k = false.
Lemma lor_bit l i b : Z.testbit (Z.lor i (2 ^ Z.of_nat l)) b = Z.testbit i b || (b =? Z.of_nat l).
Proof. rewrite Z.lor_spec, Z.pow2_bits_eqb by lia. now rewrite Z.eqb_sym. Qed.
(** Splitting a block at bit [l]. *)
Definition sub (l : nat) (b : bool) (i : Z) : Z := if b then Z.lor i (2 ^ Z.of_nat l) else i.
Lemma sub_low l b i : lowz (S l) i -> lowz l (sub l b i).
Proof.
  intros L k K. unfold sub. destruct b; [rewrite lor_bit; rewrite L by lia; cbn; apply Z.eqb_neq; lia|apply L; lia].
Qed.
Lemma sub_in l b i r : lowz (S l) i ->
  (Z.shiftr r (Z.of_nat l) = Z.shiftr (sub l b i) (Z.of_nat l) <-> Z.shiftr r (Z.of_nat (S l)) = Z.shiftr i (Z.of_nat (S l)) /\ Z.testbit r (Z.of_nat l) = b).
Proof.
  intros L. rewrite shift_bit by lia. replace (Z.of_nat l + 1) with (Z.of_nat (S l)) by lia.
  assert (E1: Z.shiftr (sub l b i) (Z.of_nat (S l)) = Z.shiftr i (Z.of_nat (S l))).
  { unfold sub. destruct b; auto. apply Z.bits_inj'. intros k K. rewrite !Z.shiftr_spec by lia. rewrite lor_bit. replace (k + Z.of_nat (S l) =? Z.of_nat l) with false by (symmetry; apply Z.eqb_neq; lia). apply orb_false_r. }
  assert (E2: Z.testbit (sub l b i) (Z.of_nat l) = b).
  { unfold sub. destruct b; [rewrite lor_bit, Z.eqb_refl; apply orb_true_r|apply L; lia]. }
  rewrite E1, E2. tauto.
Qed.

Ltac cring := match goal with |- @eq _ ?a ?b => change (@eq C a b) end; ring.
Section Read.
Context (av : eaddr -> R) (h0 : dheap) (D : nat -> Prop) (W : stored h0 D) (L : levelled av h0 D) (Z0 : av AZero = 0%R).
Local Notation dent := (dent av h0).
Local Notation herm := (herm av h0).
Local Notation wv := (wv av).

(** What is below a node reached through a pointer with the marks [mm]. *)
Definition seen (mm : marks) (l : nat) (n : nat) (r c : Z) : C :=
  let q := quad l r c in
  if mk_conj mm && mk_dm mm then Cconj (dent l (succ (h0 n) (quad l c r)) c r)
  else if mk_first mm || negb (mk_dm mm) then dent l (succ (h0 n) q) r c
  else match q with
       | O => herm l (succ (h0 n) 0) r c
       | S O => dent l (succ (h0 n) 1) r c
       | S (S O) => Cconj (dent l (succ (h0 n) 2) c r)
       | _ => herm l (succ (h0 n) 3) r c
       end.
(** What is below a successor as the traversal sees it. *)
Definition seenE (l : nat) (e : dedge) (r c : Z) : C :=
  match l with
  | O => wv e
  | S l' => (wv e * match dp_at (de_p e) with PNode n => seen (dp_mk (de_p e)) l' n r c | _ => C0 end)%C
  end.

Lemma wv_flip e : wv (flipI e) = Cconj (wv e).
Proof.
  unfold wv, Density.dcval, dval, flipI, Cconj, ep_flip. destruct e as [p [a [s b]]]. cbn [de_w cr ci ep_neg ep_at].
  apply f_equal2; [reflexivity|]. destruct (eaddr_eqb b AZero) eqn:E; [assert (b = AZero) as -> by (destruct b; cbn in E; congruence); destruct s; cbn; rewrite ?Z0; ring|]. destruct s; cbn; rewrite ?E; cbn; [now rewrite Ropp_involutive|reflexivity].
Qed.
Lemma quad_swap l r c : quad l c r = match quad l r c with 1%nat => 2%nat | 2%nat => 1%nat | q => q end.
Proof. unfold quad. destruct (Z.testbit r (Z.of_nat l)), (Z.testbit c (Z.of_nat l)); reflexivity. Qed.
Lemma quad_lt l r c : (quad l r c < 4)%nat.
Proof. unfold quad. destruct (Z.testbit r (Z.of_nat l)), (Z.testbit c (Z.of_nat l)); cbn; lia. Qed.
Lemma seen_plain l e r c : dp_mk (de_p e) = mk0 -> seenE l e r c = dent l e r c.
Proof. intros M. destruct l; [reflexivity|]. unfold seenE. cbn [PropDensRead.dent]. rewrite M. destruct (dp_at (de_p e)); reflexivity. Qed.
Lemma seen_mark l e p r c : dp_mk p = MK false false true -> dp_at p = dp_at (de_p e) -> seenE l (DE p (de_w e)) r c = herm l e r c.
Proof.
  intros M A. destruct l; [reflexivity|]. unfold seenE. cbn [PropDensRead.herm de_p]. rewrite M, A. unfold PropDensRead.wv. cbn [de_w]. destruct (dp_at (de_p e)); reflexivity.
Qed.
Lemma seen_first l e p r c : dp_mk p = MK false true true -> dp_at p = dp_at (de_p e) -> seenE l (DE p (de_w e)) r c = dent l e r c.
Proof.
  intros M A. destruct l; [reflexivity|]. unfold seenE. cbn [PropDensRead.dent de_p]. rewrite M, A. unfold PropDensRead.wv. cbn [de_w]. destruct (dp_at (de_p e)); reflexivity.
Qed.
Lemma seen_conj l e p b r c : dp_mk p = MK true b true -> dp_at p = dp_at (de_p e) -> seenE l (DE p (de_w (flipI e))) r c = Cconj (dent l e c r).
Proof.
  intros M A. pose proof (wv_flip e) as F. unfold PropDensRead.wv in F. destruct l; [exact F|].
  unfold seenE. cbn [PropDensRead.dent de_p]. rewrite M, A. unfold PropDensRead.wv. cbn [de_w]. rewrite F.
  destruct (dp_at (de_p e)); unfold seen; cbn [mk_conj mk_dm andb]; rewrite Cconj_mul; try reflexivity; now rewrite Cconj_0.
Qed.
(** The successors of a prepared node show what the marks say. *)
Lemma seen_ch mm l n r c : D n -> mk_dm mm = true \/ mm = mk0 ->
  seenE l (chE mm (h0 n) (quad l r c)) r c = seen mm l n r c.
Proof.
  intros Dn Mk. destruct (W n Dn) as (_ & [_ R] & _ & _). unfold succs4 in R.
  inversion_clear R as [|? ? Ra R1]. inversion_clear R1 as [|? ? Rb R2]. inversion_clear R2 as [|? ? Rc R3]. inversion_clear R3 as [|? ? Rd _].
  destruct Mk as [Mk|Mk].
  - unfold chE, seen. rewrite Mk. rewrite andb_true_r. unfold prepE. destruct (mk_conj mm) eqn:Cj.
    + rewrite andb_false_r. rewrite (quad_swap l r c). pose proof (quad_lt l r c) as Q. destruct (quad l r c) as [|[|[|[|]]]]; [..|lia]; cbn [succ withE dn_e0 dn_e1 dn_e2 dn_e3 negb];
        (unfold onp at 1; eapply seen_conj; [|reflexivity]); cbn [onp setDm setConj flipI de_p dp_mk]; [rewrite Ra|rewrite Rc|rewrite Rb|rewrite Rd]; reflexivity.
    + rewrite andb_true_r, orb_false_r. cbn [negb]. destruct (mk_first mm) eqn:Fi.
      * pose proof (quad_lt l r c) as Q. destruct (quad l r c) as [|[|[|[|]]]]; [..|lia]; apply seen_plain; assumption.
      * pose proof (quad_lt l r c) as Q. destruct (quad l r c) as [|[|[|[|]]]]; [..|lia]; cbn [succ withE dn_e0 dn_e1 dn_e2 dn_e3].
        -- apply (seen_mark l (dn_e0 (h0 n))); [cbn; now rewrite Ra|reflexivity].
        -- apply (seen_first l (dn_e1 (h0 n))); [cbn; now rewrite Rb|reflexivity].
        -- eapply (seen_conj l (dn_e2 (h0 n))); [cbn; now rewrite Rc|reflexivity].
        -- apply (seen_mark l (dn_e3 (h0 n))); [cbn; now rewrite Rd|reflexivity].
  - subst mm. unfold chE, seen. cbn [mk_dm mk0 mk_conj andb mk_first orb negb].
    pose proof (quad_lt l r c) as Q. destruct (quad l r c) as [|[|[|[|]]]]; [..|lia]; apply seen_plain; assumption.
Qed.
(** The successors of a prepared node are again such edges. *)
Lemma ch_ok mm n k : D n -> mk_dm mm = true \/ mm = mk0 ->
  let e := chE mm (h0 n) k in
  markable (de_p e) /\ (wv e = C0 \/ match dp_at (de_p e) with PNull => False | PTerm => dn_v (h0 n) = 0 | PNode m => D m /\ dn_v (h0 m) = dn_v (h0 n) - 1 end).
Proof.
  intros Dn Mk. destruct (W n Dn) as (_ & Re & _ & Tg). specialize (L n Dn).
  assert (A: forall e, In e (succs4 (h0 n)) -> dp_mk (de_p e) = mk0 /\ (wv e = C0 \/ match dp_at (de_p e) with PNull => False | PTerm => dn_v (h0 n) = 0 | PNode m => D m /\ dn_v (h0 m) = dn_v (h0 n) - 1 end)).
  { destruct Re as [_ R]. rewrite Forall_forall in R, Tg, L. intros e He. split; [apply R; auto|]. specialize (Tg e He). destruct (L e He) as [Z|Z]; [auto|right]. destruct (dp_at (de_p e)); auto. destruct Tg; auto. }
  assert (F: forall e p b, In e (succs4 (h0 n)) -> dp_at p = dp_at (de_p e) -> mk_dm (dp_mk p) = true -> (b = e \/ b = flipI e) -> markable p /\ (wv (DE p (de_w b)) = C0 \/ match dp_at p with PNull => False | PTerm => dn_v (h0 n) = 0 | PNode m => D m /\ dn_v (h0 m) = dn_v (h0 n) - 1 end)).
  { intros e p b He Ap Mp Hb. split; [left; auto|]. destruct (A e He) as [_ Q]. rewrite Ap. destruct Q as [Q|Q]; [left|right; exact Q]. unfold PropDensRead.wv. cbn [de_w]. destruct Hb as [-> | ->]; [exact Q|].
    change (wv (flipI e) = C0). rewrite wv_flip, Q. apply Cconj_0. }
  assert (I: forall k, In (succ (h0 n) k) (succs4 (h0 n))) by (intros k'; apply in_succ).
  pose proof (I 0%nat) as I0. pose proof (I 1%nat) as I1. pose proof (I 2%nat) as I2. pose proof (I 3%nat) as I3. cbn [succ] in I0, I1, I2, I3.
  cbv zeta. unfold chE. destruct Mk as [Mk|Mk].
  - rewrite Mk. unfold prepE. destruct (mk_first mm && negb (mk_conj mm)); [|destruct (negb (mk_conj mm))].
    + destruct (A _ (I k)) as [B Q]. split; [right; exact B|exact Q].
    + destruct k as [|[|[|k]]]; cbn [succ withE dn_e0 dn_e1 dn_e2 dn_e3]; solve [apply (F (dn_e0 (h0 n)) _ (dn_e0 (h0 n))); [assumption|reflexivity|reflexivity|auto] | apply (F (dn_e0 (h0 n)) _ (flipI (dn_e0 (h0 n)))); [assumption|reflexivity|reflexivity|auto] | apply (F (dn_e1 (h0 n)) _ (dn_e1 (h0 n))); [assumption|reflexivity|reflexivity|auto] | apply (F (dn_e1 (h0 n)) _ (flipI (dn_e1 (h0 n)))); [assumption|reflexivity|reflexivity|auto] | apply (F (dn_e2 (h0 n)) _ (dn_e2 (h0 n))); [assumption|reflexivity|reflexivity|auto] | apply (F (dn_e2 (h0 n)) _ (flipI (dn_e2 (h0 n)))); [assumption|reflexivity|reflexivity|auto] | apply (F (dn_e3 (h0 n)) _ (dn_e3 (h0 n))); [assumption|reflexivity|reflexivity|auto] | apply (F (dn_e3 (h0 n)) _ (flipI (dn_e3 (h0 n)))); [assumption|reflexivity|reflexivity|auto]].
    + destruct k as [|[|[|k]]]; cbn [succ withE dn_e0 dn_e1 dn_e2 dn_e3]; solve [apply (F (dn_e0 (h0 n)) _ (dn_e0 (h0 n))); [assumption|reflexivity|reflexivity|auto] | apply (F (dn_e0 (h0 n)) _ (flipI (dn_e0 (h0 n)))); [assumption|reflexivity|reflexivity|auto] | apply (F (dn_e1 (h0 n)) _ (dn_e1 (h0 n))); [assumption|reflexivity|reflexivity|auto] | apply (F (dn_e1 (h0 n)) _ (flipI (dn_e1 (h0 n)))); [assumption|reflexivity|reflexivity|auto] | apply (F (dn_e2 (h0 n)) _ (dn_e2 (h0 n))); [assumption|reflexivity|reflexivity|auto] | apply (F (dn_e2 (h0 n)) _ (flipI (dn_e2 (h0 n)))); [assumption|reflexivity|reflexivity|auto] | apply (F (dn_e3 (h0 n)) _ (dn_e3 (h0 n))); [assumption|reflexivity|reflexivity|auto] | apply (F (dn_e3 (h0 n)) _ (flipI (dn_e3 (h0 n)))); [assumption|reflexivity|reflexivity|auto]].
  - subst mm. cbn [mk_dm mk0]. destruct (A _ (I k)) as [B Q]. split; [right; exact B|exact Q].
Qed.

(** One block: the entries below the node, at the rows and columns that agree with [i] and [j] above level [l]. *)
Lemma block : forall l fuel n w amp i j m mm, D n -> dn_v (h0 n) = Z.of_nat l -> (l + 1 < fuel)%nat -> mk_dm mm = true \/ mm = mk0 ->
  lowz (S l) i -> lowz (S l) j ->
  forall r c, (Z.shiftr r (Z.of_nat (S l)) = Z.shiftr i (Z.of_nat (S l)) /\ Z.shiftr c (Z.of_nat (S l)) = Z.shiftr j (Z.of_nat (S l)) -> m r c = C0 ->
               rdF R0 av h0 fuel mm n w amp i j m r c = (dcval R0 av w * amp * seen mm l n r c)%C) /\
              (~ (Z.shiftr r (Z.of_nat (S l)) = Z.shiftr i (Z.of_nat (S l)) /\ Z.shiftr c (Z.of_nat (S l)) = Z.shiftr j (Z.of_nat (S l))) ->
               rdF R0 av h0 fuel mm n w amp i j m r c = m r c).
Proof.
  induction l as [l IH] using (well_founded_induction Wf_nat.lt_wf). intros fuel n w amp i j m mm Dn V Hf Mk Li Lj r c.
  destruct fuel as [|f]; [lia|]. cbn [rdF]. rewrite dmul_C. set (cc := (dcval R0 av w * amp)%C).
  set (st := rdStep R0 av h0 (rdF R0 av h0 f) mm n cc i j).
  (* one successor *)
  assert (St: forall k mc, (k < 4)%nat -> let i' := sub l (Nat.leb 2 k) i in let j' := sub l (Nat.odd k) j in
    (Z.shiftr r (Z.of_nat l) = Z.shiftr i' (Z.of_nat l) /\ Z.shiftr c (Z.of_nat l) = Z.shiftr j' (Z.of_nat l) -> mc r c = C0 ->
       st k mc r c = (cc * seenE l (chE mm (h0 n) k) r c)%C) /\
    (~ (Z.shiftr r (Z.of_nat l) = Z.shiftr i' (Z.of_nat l) /\ Z.shiftr c (Z.of_nat l) = Z.shiftr j' (Z.of_nat l)) -> st k mc r c = mc r c)).
  { intros k mc Hk i' j'. destruct (ch_ok mm n k Dn Mk) as [Me Te]. unfold st, rdStep. rewrite V. fold (sub l (Nat.leb 2 k) i). fold (sub l (Nat.odd k) j). fold i' j'.
    set (e := chE mm (h0 n) k) in *. destruct (dz R0 (dcval R0 av (de_w e))) eqn:Z.
    { apply dz_C in Z. split; auto. intros _ M0. rewrite M0. unfold seenE, PropDensRead.wv. rewrite Z. destruct l; cring. }
    destruct Te as [Te|Te]; [unfold PropDensRead.wv in Te; apply dz_C in Te; congruence|].
    destruct (dp_at (de_p e)) as [| |t] eqn:At; [destruct Te| |].
    - assert (l = 0%nat) by lia. subst l. change (Z.of_nat 0) with 0. rewrite !Z.shiftr_0_r. unfold setM. rewrite dmul_C. split.
      + intros [-> ->] _. rewrite !Z.eqb_refl. cbn [andb seenE]. unfold PropDensRead.wv. cring.
      + intros Nn. destruct (Z.eqb_spec r i'); [|reflexivity]. destruct (Z.eqb_spec c j'); [|reflexivity]. exfalso. auto.
    - destruct Te as [Dt Vt]. destruct (W t Dt) as (Vt0 & _). destruct l as [|l']; [lia|].
      destruct (IH l' ltac:(lia) f t (de_w e) cc i' j' mc (dp_mk (de_p e)) Dt ltac:(lia) ltac:(lia) Me (sub_low _ _ _ Li) (sub_low _ _ _ Lj) r c) as [A B].
      split; [|exact B]. intros In M0. rewrite (A In M0). unfold seenE, PropDensRead.wv. rewrite At. cring. }
  assert (Q: forall k, (k < 4)%nat -> (Z.shiftr r (Z.of_nat l) = Z.shiftr (sub l (Nat.leb 2 k) i) (Z.of_nat l) /\ Z.shiftr c (Z.of_nat l) = Z.shiftr (sub l (Nat.odd k) j) (Z.of_nat l)) <->
     ((Z.shiftr r (Z.of_nat (S l)) = Z.shiftr i (Z.of_nat (S l)) /\ Z.shiftr c (Z.of_nat (S l)) = Z.shiftr j (Z.of_nat (S l))) /\ quad l r c = k)).
  { intros k Hk. rewrite !sub_in by assumption. unfold quad. destruct k as [|[|[|[|]]]]; [..|lia]; cbn [Nat.leb Nat.odd Nat.even negb];
      destruct (Z.testbit r (Z.of_nat l)), (Z.testbit c (Z.of_nat l)); cbn; intuition (try discriminate; try lia). }
  assert (Sk: forall k mc, (k < 4)%nat -> (quad l r c <> k -> st k mc r c = mc r c)).
  { intros k mc Hk Nq. apply (St k mc Hk). rewrite Q by exact Hk. tauto. }
  split.
  - intros In M0. rewrite <- (seen_ch mm l n r c Dn Mk). pose proof (quad_lt l r c) as Ql.
    assert (Sh: forall k mc, (k < 4)%nat -> quad l r c = k -> mc r c = C0 -> st k mc r c = (cc * seenE l (chE mm (h0 n) k) r c)%C).
    { intros k mc Hk E M1. apply (St k mc Hk); auto. apply Q; auto. }
    destruct (quad l r c) as [|[|[|[|]]]] eqn:E; [..|lia].
    + rewrite !Sk by (auto; lia). now apply Sh.
    + rewrite !(Sk 3%nat), !(Sk 2%nat) by (auto; lia). apply Sh; auto. now rewrite Sk by (auto; lia).
    + rewrite !(Sk 3%nat) by (auto; lia). apply Sh; auto. now rewrite !Sk by (auto; lia).
    + apply Sh; auto. now rewrite !Sk by (auto; lia).
  - intros Nin. assert (A: forall k mc, (k < 4)%nat -> st k mc r c = mc r c).
    { intros k mc Hk. apply (St k mc Hk). rewrite Q by exact Hk. tauto. }
    now rewrite !A by lia.
Qed.

(** The whole matrix: rows and columns up to 2^(v+1); nothing is written outside. *)
Lemma in_range r l : 0 <= r < 2 ^ Z.of_nat l <-> Z.shiftr r (Z.of_nat l) = Z.shiftr 0 (Z.of_nat l).
Proof.
  rewrite Z.shiftr_0_l, Z.shiftr_div_pow2 by lia. assert (0 < 2 ^ Z.of_nat l) by (apply Z.pow_pos_nonneg; lia). split.
  - intros R. apply Z.div_small. exact R.
  - intros E. split.
    + destruct (Z.neg_nonneg_cases r) as [Ng|]; auto. assert (r / 2 ^ Z.of_nat l < 0) by (apply Z.div_lt_upper_bound; lia). lia.
    + pose proof (Z.mul_succ_div_gt r (2 ^ Z.of_nat l) ltac:(lia)). rewrite E in H0. lia.
Qed.
Lemma low0 l : lowz l 0.
Proof. intros k _. apply Z.testbit_0_l. Qed.
Lemma reading_seen p n w fuel l : D n -> dp_at p = PNode n -> markable p -> dn_v (h0 n) = Z.of_nat l -> (l + 1 < fuel)%nat -> (l < 63)%nat ->
  exists h m, getDensityMatrix R0 av h0 (DE p w) fuel = inl (h, DE (alignP p) w, m) /\ (forall k, h k = h0 k) /\
    forall r c, m r c = if (0 <=? r) && (r <? 2 ^ Z.of_nat (S l)) && ((0 <=? c) && (c <? 2 ^ Z.of_nat (S l)))
                        then (dcval R0 av w * seen (dp_mk p) l n r c)%C else C0.
Proof.
  intros Dn At Mk V Hf H63. destruct (reading R0 av h0 D W p n w fuel Dn At Mk ltac:(lia) ltac:(lia)) as (h & E & F).
  eexists h, _. split; [exact E|]. split; [exact F|]. intros r c.
  destruct (block l fuel n w (1, 0)%R 0 0 (fun _ _ => C0) (dp_mk p) Dn V Hf Mk (low0 _) (low0 _) r c) as [A B].
  change (@n1 R0, @n0 R0) with (1, 0)%R. change (fun _ _ : Z => (@n0 R0, @n0 R0)) with (fun _ _ : Z => C0).
  rewrite <- !in_range in A, B.
  destruct ((0 <=? r) && (r <? 2 ^ Z.of_nat (S l)) && ((0 <=? c) && (c <? 2 ^ Z.of_nat (S l)))) eqn:T.
  - rewrite !andb_true_iff, !Z.leb_le, !Z.ltb_lt in T. rewrite A by (auto; lia). change (1, 0)%R with C1. cring.
  - rewrite B; auto. intros T'. apply not_true_iff_false in T. apply T. rewrite !andb_true_iff, !Z.leb_le, !Z.ltb_lt. lia.
Qed.
End Read.

(** * C56 *)

(** Nodes and the caller's edge as they were; the matrix has 2^(v+1) rows and columns and nothing is written elsewhere. *)
Definition reads (av : eaddr -> R) (h0 : dheap) (e : dedge) (l fuel : nat) (f : Z -> Z -> C) : Prop :=
  exists h m, getDensityMatrix R0 av h0 e fuel = inl (h, onp alignP e, m) /\ (forall k, h k = h0 k) /\
    (forall r c, 0 <= r < 2 ^ Z.of_nat l -> 0 <= c < 2 ^ Z.of_nat l -> m r c = f r c) /\
    (forall r c, ~ (0 <= r < 2 ^ Z.of_nat l /\ 0 <= c < 2 ^ Z.of_nat l) -> m r c = C0).

Theorem density_reading_nodes av h0 D e n l fuel : stored h0 D -> levelled av h0 D -> av AZero = 0%R -> D n -> dp_at (de_p e) = PNode n ->
  dn_v (h0 n) = Z.of_nat l -> (l + 1 < fuel)%nat -> (l < 63)%nat ->
  (dp_mk (de_p e) = mk0 -> reads av h0 e (S l) fuel (dent av h0 (S l) e)) /\
  (dp_mk (de_p e) = MK false false true -> reads av h0 e (S l) fuel (herm av h0 (S l) e)).
Proof.
  intros W L Z0 Dn At V Hf H63.
  assert (A: forall f, markable (de_p e) -> (forall r c, seen av h0 (dp_mk (de_p e)) l n r c = f r c) -> reads av h0 e (S l) fuel (fun r c => wv av e * f r c)%C).
  { intros f Mk F. destruct (reading_seen av h0 D W L Z0 (de_p e) n (de_w e) fuel l Dn At Mk V Hf H63) as (h & m & E & Hh & M).
    exists h, m. split; [destruct e; exact E|]. split; [exact Hh|]. split; intros r c.
    - intros Hr Hc. rewrite M. destruct Hr as [R1 R2], Hc as [C1' C2]. apply Z.leb_le in R1, C1'. apply Z.ltb_lt in R2, C2. rewrite R1, R2, C1', C2. cbn [andb]. now rewrite F.
    - intros Nn. rewrite M. destruct ((0 <=? r) && (r <? 2 ^ Z.of_nat (S l)) && ((0 <=? c) && (c <? 2 ^ Z.of_nat (S l)))) eqn:T; auto.
      exfalso. apply Nn. rewrite !andb_true_iff, !Z.leb_le, !Z.ltb_lt in T. lia. }
  split; intros Mk; cbn [dent herm]; rewrite At; apply A; try (rewrite Mk; auto; fail).
  - right. exact Mk.
  - left. now rewrite Mk.
Qed.

(** A diagram in reduced form: real weights along the diagonal, and successor 2 of a node on the diagonal is the copy of
    successor 1. *)
Fixpoint reduced (av : eaddr -> R) (h : dheap) (l : nat) (e : dedge) : Prop :=
  snd (wv av e) = 0%R /\
  match l with
  | O => True
  | S l' => match dp_at (de_p e) with
            | PNode n => succ (h n) 2 = succ (h n) 1 /\ reduced av h l' (succ (h n) 0) /\ reduced av h l' (succ (h n) 3)
            | _ => True
            end
  end.
Lemma conj_real a : snd a = 0%R -> Cconj a = a.
Proof. destruct a as [x y]. cbn. intros ->. unfold Cconj. cbn. now rewrite Ropp_0. Qed.
Lemma herm_conj av h l : forall e, reduced av h l e -> forall r c, herm av h l e r c = Cconj (herm av h l e c r).
Proof.
  induction l as [|l IH]; intros e [Re Rn] r c; cbn [herm]; [symmetry; now apply conj_real|].
  rewrite Cconj_mul, (conj_real _ Re). f_equal. destruct (dp_at (de_p e)) as [| |n]; [symmetry; apply Cconj_0..|].
  destruct Rn as (E & R0' & R3'). rewrite (quad_swap l r c). pose proof (quad_lt l r c). destruct (quad l r c) as [|[|[|[|]]]]; [..|lia].
  - now apply IH.
  - rewrite E, Cconj_conj. reflexivity.
  - now rewrite E.
  - now apply IH.
Qed.
(** Reading it gives a Hermitian matrix ... *)
Theorem reduced_reading_hermitian av h0 D e n l fuel : stored h0 D -> levelled av h0 D -> av AZero = 0%R -> D n -> dp_at (de_p e) = PNode n ->
  dn_v (h0 n) = Z.of_nat l -> (l + 1 < fuel)%nat -> (l < 63)%nat -> dp_mk (de_p e) = MK false false true -> reduced av h0 (S l) e ->
  exists h e' m, getDensityMatrix R0 av h0 e fuel = inl (h, e', m) /\ forall r c, m r c = Cconj (m c r).
Proof.
  intros W L Z0 Dn At V Hf H63 Mk Rd. destruct (density_reading_nodes av h0 D e n l fuel W L Z0 Dn At V Hf H63) as [_ A].
  destruct (A Mk) as (h & m & E & _ & M & O). exists h, (onp alignP e), m. split; auto. intros r c.
  destruct (Z_le_dec 0 r) as [Hr|Hr]; [|rewrite !O by lia; symmetry; apply Cconj_0].
  destruct (Z_le_dec 0 c) as [Hc|Hc]; [|rewrite !O by lia; symmetry; apply Cconj_0].
  destruct (Z_lt_dec r (2 ^ Z.of_nat (S l))) as [Hr'|Hr']; [|rewrite !O by lia; symmetry; apply Cconj_0].
  destruct (Z_lt_dec c (2 ^ Z.of_nat (S l))) as [Hc'|Hc']; [|rewrite !O by lia; symmetry; apply Cconj_0].
  rewrite !M by lia. now apply herm_conj.
Qed.

(** ** In every reachable state *)
Section Reached.
Context (g : cfg R0) (nb : kind -> Z) (G : gok g).
Local Notation X := (XR g G).
Local Notation entry := (entry g G).
Local Notation reachedR := (reachedR g nb G).
Local Notation co := (co R0).
Local Notation rest := (at_rest_nodes R0).

Lemma dcval_Cw s w : wtab R0 g X (co s) w -> dcval R0 (aval s) w = Cw R0 g X (co s) w.
Proof. intros T. rewrite <- (Cv_Cw (X:=X) s w Logic.I T). reflexivity. Qed.
Lemma rest_stored s : inv R0 g nb X s -> stored (rest s) (linked R0 (co s) KD) /\ levelled (aval s) (rest s) (linked R0 (co s) KD).
Proof.
  intros I.
  assert (A: forall n, linked R0 (co s) KD n -> 0 <= nv (nod s KD n) /\ forall k, (k < 4)%nat -> tedge R0 g X (co s) KD (nv (nod s KD n) - 1) (nthe (ne (nod s KD n)) k)).
  { intros n Hn. destruct (linked_ok (co s) KD n (iv_c _ _ _ _ _ I) Hn) as (b & O & _). split; [apply O|]. intros k Hk. apply (no_es _ _ _ _ _ _ _ _ _ O).
    apply nth_In. rewrite (no_len _ _ _ _ _ _ _ _ _ O). exact Hk. }
  split; intros n Hn; destruct (A n Hn) as [V T].
  - split; [exact V|]. split; [split; [reflexivity|repeat constructor]|].
    pose proof (T 0%nat ltac:(lia)) as T0. pose proof (T 1%nat ltac:(lia)) as T1. pose proof (T 2%nat ltac:(lia)) as T2. pose proof (T 3%nat ltac:(lia)) as T3. split.
    + assert (B: forall e, tedge R0 g X (co s) KD (nv (nod s KD n) - 1) e -> ci (de_w (dof (hden e))) <> EP true AZero).
      { intros e Te. apply (te_w _ _ _ _ _ _ _ Te). exact Logic.I. }
      unfold no_neg_zero, succs4. cbn [rest dn_e0 dn_e1 dn_e2 dn_e3]. repeat (apply Forall_cons; [apply B; assumption|]). apply Forall_nil.
    + assert (B: forall e, tedge R0 g X (co s) KD (nv (nod s KD n) - 1) e ->
        match dp_at (de_p (dof (hden e))) with PNull => False | PTerm => True | PNode m => linked R0 (co s) KD m /\ dn_v (rest s m) < dn_v (rest s n) end).
      { intros e Te. pose proof (te_n _ _ _ _ _ _ _ Te) as E. cbn [dof hden de_p dp_at hdp hp]. destruct (ep e); auto. destruct E as [E1 E2]. split; auto.
        change (nv (nod s KD n0) < nv (nod s KD n)). change (nv (nod s KD n0) = nv (nod s KD n) - 1) in E2. lia. }
      unfold succs4. repeat (apply Forall_cons; [apply B; assumption|]). apply Forall_nil.
  - pose proof (T 0%nat ltac:(lia)) as T0. pose proof (T 1%nat ltac:(lia)) as T1. pose proof (T 2%nat ltac:(lia)) as T2. pose proof (T 3%nat ltac:(lia)) as T3.
    assert (B: forall e, tedge R0 g X (co s) KD (nv (nod s KD n) - 1) e -> wv (aval s) (dof (hden e)) = C0 \/
        match dp_at (de_p (dof (hden e))) with PNull => False | PTerm => dn_v (rest s n) = 0 | PNode m => dn_v (rest s m) = dn_v (rest s n) - 1 end).
    { intros e Te. pose proof (te_n _ _ _ _ _ _ _ Te) as E. pose proof (te_t _ _ _ _ _ _ _ Te) as Et. cbn [dof hden de_p dp_at hdp hp]. destruct (ep e) eqn:P; auto.
      - destruct (Et eq_refl) as [E1|E1]; [right; change (nv (nod s KD n) = 0); lia|left].
        unfold wv. cbn [dof hden de_w hw]. rewrite E1. rewrite dcval_Cw by apply wtab_zero. apply Cw_zero. exact Logic.I.
      - right. destruct E as [_ E2]. exact E2. }
    unfold succs4. repeat (apply Forall_cons; [apply B; assumption|]). apply Forall_nil.
Qed.
Lemma dent_entry s : inv R0 g nb X s -> forall l e r c, tedge R0 g X (co s) KD (Z.of_nat l - 1) e ->
  dent (aval s) (rest s) l (dof (hden e)) r c = entry s KD e (digp (bitM r c) l).
Proof.
  intros I. induction l as [|l IH]; intros e r c Te.
  - cbn [dent digp]. unfold wv. cbn [dof hden de_w hw]. rewrite dcval_Cw by apply Te. unfold PropBase.entry, de. cbn [dn]. ring.
  - cbn [dent digp]. unfold wv. cbn [dof hden de_w hw de_p dp_at hdp hp]. rewrite dcval_Cw by apply Te. unfold PropBase.entry, de.
    pose proof (te_n _ _ _ _ _ _ _ Te) as E. pose proof (te_t _ _ _ _ _ _ _ Te) as Et. cbn [dn]. destruct (ep e) as [| |n] eqn:P; [destruct E| |].
    + destruct (Et eq_refl) as [E1|E1]; [lia|]. rewrite E1. rewrite Cw_zero by exact Logic.I. cring.
    + destruct E as [E1 E2]. destruct (linked_ok (co s) KD n (iv_c _ _ _ _ _ I) E1) as (b & O & _).
      assert (Tk: tedge R0 g X (co s) KD (Z.of_nat l - 1) (nthe (ne (nod s KD n)) (quad l r c))).
      { replace (Z.of_nat l - 1) with (nv (qn R0 (co s) KD n) - 1) by lia. apply (no_es _ _ _ _ _ _ _ _ _ O). apply nth_In. rewrite (no_len _ _ _ _ _ _ _ _ _ O). apply quad_lt. }
      assert (Es: succ (rest s n) (quad l r c) = dof (hden (nthe (ne (nod s KD n)) (quad l r c)))).
      { pose proof (quad_lt l r c). destruct (quad l r c) as [|[|[|[|]]]]; [..|lia]; reflexivity. }
      rewrite Es, IH by exact Tk. unfold PropBase.entry, de. f_equal.
      replace (bitM r c (Z.of_nat l)) with (quad l r c) by (unfold bitM, bitV, quad; destruct (Z.testbit r (Z.of_nat l)), (Z.testbit c (Z.of_nat l)); reflexivity). reflexivity.
Qed.

(** A density matrix read back entry by entry; the matrix that is built has 2^l rows and columns. *)
Theorem density_reading nq s V D e l fuel : reachedR nq s V D -> usr V D KD (Z.of_nat l - 1) e -> ep e <> PTerm -> (l < fuel)%nat -> (l < 64)%nat ->
  exists h m, getDensityMatrix R0 (aval s) (rest s) (dof (hden e)) fuel = inl (h, dof (hden e), m) /\ (forall k, h k = rest s k) /\
    (forall a b, (a < 2 ^ l)%nat -> (b < 2 ^ l)%nat -> m (Z.of_nat a) (Z.of_nat b) = entry s KD e (mp (pidx l a) (pidx l b))) /\
    (forall r c, ~ (0 <= r < 2 ^ Z.of_nat l /\ 0 <= c < 2 ^ Z.of_nat l) -> m r c = C0).
Proof.
  intros H U Nt Hf H64. destruct (usr_t _ _ _ _ _ _ _ _ _ _ H U) as [_ Te]. destruct (reached_inv _ _ _ _ _ _ _ H) as (I & _).
  destruct (rest_stored s I) as [W L]. pose proof (te_n _ _ _ _ _ _ _ Te) as E. destruct (ep e) as [| |n] eqn:P; [destruct E|congruence|].
  destruct E as [E1 E2]. destruct (linked_ok (co s) KD n (iv_c _ _ _ _ _ I) E1) as (b & O & _). pose proof (no_v _ _ _ _ _ _ _ _ _ O) as Vn.
  destruct l as [|l]; [lia|].
  destruct (density_reading_nodes (aval s) (rest s) (linked R0 (co s) KD) (dof (hden e)) n l fuel W L) as [A _]; auto; try lia.
  { change (nv (nod s KD n) = Z.of_nat l). change (nv (nod s KD n) = Z.of_nat (S l) - 1) in E2. lia. }
  destruct (A eq_refl) as (h & m & Eg & Hh & M & Z). exists h, m. split; [exact Eg|]. split; [exact Hh|]. split; [|exact Z].
  intros a c Ha Hc. rewrite M by (split; [lia|rewrite <- (Nat2Z.inj_pow 2); lia]). rewrite (dent_entry s I) by exact Te. now rewrite digp_mp.
Qed.
End Reached.

Lemma not_term g nb G nq s V D k l e p : PropBase.reachedR g nb G nq s V D -> usr V D k l e -> l <> -1 -> entry g G s k e p <> C0 -> ep e <> PTerm.
Proof.
  intros H U Hl N E. destruct (usr_t _ _ _ _ _ _ _ _ _ _ H U) as [_ Te]. destruct (te_t _ _ _ _ _ _ _ Te E) as [|Z]; [congruence|].
  apply N. unfold entry, de. rewrite Z, Cw_zero by exact Logic.I. apply Cmul_0_l.
Qed.
(** |0><0| *)
Example density_reading_example : exists s V h m, reachedR gR nbdef GR 1 s V DD /\
  getDensityMatrix R0 (aval s) (at_rest_nodes R0 s) (dof (hden (var V 0))) 2 = inl (h, dof (hden (var V 0)), m) /\ m 0 0 = C1 /\ m 1 1 = C0 /\ m 0 1 = C0.
Proof.
  destruct reachedD as (s & V & H). destruct (usrDD V) as [U0 _].
  assert (E: forall a, (a < 4)%nat -> entry gR GR s KD (var V 0) [a] = dzero [a]) by (intros a Ha; apply (usr_entry gR nbdef GR 1 s V DD 0 KD 0 dzero H); [now exists 1%nat|apply vp_kd0; exact Ha]).
  destruct (density_reading gR nbdef GR 1 s V DD (var V 0) 1 2 H U0) as (h & m & Eg & _ & M & _); try lia.
  { apply (not_term gR nbdef GR 1 s V DD KD 0 (var V 0) [0%nat] H U0); [lia|]. rewrite E by lia. apply C1_neq_0. }
  exists s, V, h, m. split; [exact H|]. split; [exact Eg|].
  pose proof (M 0%nat 0%nat ltac:(cbn; lia) ltac:(cbn; lia)) as M0. pose proof (M 1%nat 1%nat ltac:(cbn; lia) ltac:(cbn; lia)) as M3. pose proof (M 0%nat 1%nat ltac:(cbn; lia) ltac:(cbn; lia)) as M1.
  cbn [Z.of_nat pidx mp Nat.pow Nat.div Nat.modulo Nat.divmod Nat.mul Nat.add fst snd Nat.sub] in M0, M1, M3. rewrite E in M0, M1, M3 by lia. auto.
Qed.
(** The one-qubit matrix of PropDens: 1/2, i/2, -i/2, 1/2 in reduced form. *)
Definition davR (a : eaddr) : R := match a with AZero => 0 | AOne => 1 | _ => / 2 end%R.
Lemma levelledEx : levelled davR dheapEx (fun n => n = 0%nat).
Proof. intros n ->. repeat (apply Forall_cons; [right; reflexivity|]). apply Forall_nil. Qed.
Example density_reading_nodes_example : exists h e' m, getDensityMatrix R0 davR dheapEx rootEx 2 = inl (h, e', m) /\
  m 0 1 = (0, / 2)%R /\ m 1 0 = (0, - / 2)%R /\ (forall r c, m r c = Cconj (m c r)).
Proof.
  destruct reading_case as (W & _). 
  assert (Rd: reduced davR dheapEx 1 rootEx) by (cbn; auto).
  destruct (density_reading_nodes davR dheapEx (fun n => n = 0%nat) rootEx 0 0 2 W levelledEx eq_refl eq_refl eq_refl eq_refl ltac:(lia) ltac:(lia)) as [_ A].
  destruct (reduced_reading_hermitian davR dheapEx (fun n => n = 0%nat) rootEx 0 0 2 W levelledEx eq_refl eq_refl eq_refl eq_refl ltac:(lia) ltac:(lia) eq_refl Rd) as (h' & e' & m' & E' & Hm).
  destruct (A eq_refl) as (h & m & E & _ & M & _). rewrite E in E'. injection E' as <- <- <-.
  exists h, (onp alignP rootEx), m. split; [exact E|]. rewrite !M by (cbn; lia). split; [|split; [|exact Hm]]; cbn -[Rinv]; apply C_eq; unfold wv, Cconj, Cmul; cbn -[Rinv]; ring.
Qed.

(** The root may not be the terminal, as it is for the zero matrix: the dimension would be 2 shifted by -1. *)
Theorem density_reading_terminal_refuted : exists e, forall N av h fuel, getDensityMatrix N av h e fuel = inr BadShift.
Proof. exists (DE (DP PTerm mk0) (CX (EP false AZero) (EP false AZero))). reflexivity. Qed.
(** A matrix stored in full must be read without the mark: with it, the Hermitian matrix 1/2, i/2, -i/2, 1/2 is read as
    1/2, i/2, i/2, 1/2. *)
Definition dwMI : complex := CX (EP false AZero) (EP true (ATab 0)).
Definition dheapFull : dheap := fun _ =>
  DN (DE (DP PTerm mk0) dwR) (DE (DP PTerm mk0) dwI) (DE (DP PTerm mk0) dwMI) (DE (DP PTerm mk0) dwR) 0 mk0 8.
Theorem marked_reading_full_refuted : exists (h : dheap) (p : nptr) (w : complex), stored h (fun n => n = 0%nat) /\
  match getDensityMatrix NumF davEx h (DE (DP p mk0) w) 2, getDensityMatrix NumF davEx h (DE (DP p (MK false false true)) w) 2 with
  | inl (_, _, m), inl (_, _, m') => m 0 1 = (F0, Fhalf) /\ m 1 0 = (F0, SFopp Fhalf) /\ m' 0 1 = (F0, Fhalf) /\ m' 1 0 = (F0, Fhalf)
  | _, _ => False
  end.
Proof.
  exists dheapFull, (PNode 0), (CX (EP false AOne) (EP false AZero)). split; [|vm_compute; auto].
  intros n ->. split; [cbn; lia|]. split; [repeat split; repeat constructor|]. split; repeat constructor; discriminate.
Qed.

Print Assumptions density_reading_nodes.
Print Assumptions reduced_reading_hermitian.
Print Assumptions density_reading.
Print Assumptions density_reading_terminal_refuted.
Print Assumptions marked_reading_full_refuted.
