(** Measurement probabilities read off a density matrix (C57). *)
From Coq Require Import ZArith List Bool Lia Arith Reals Lra SpecFloat.
From Verif Require Import Num Base CTable CTableWf CTableR Cx State Pkg Control Gate Named Meas Inv InvL PrimL NormL MkL TrL AddL MulL CanonL IdentL StateL TraceL ReadL Read GateL GateAct NamedL DelL MeasL SampL Run Inst PropBase PropSem PropState PropMeas Density DensMul PropDens DensL PropDensMul PropDensRead.
Import ListNotations.
Local Open Scope Z_scope.

(** * Strings and numbers *)

(** The number whose bit [j] is character [j] of the string. *)
Fixpoint bidx (t : list bool) : Z := match t with [] => 0 | b :: r => (if b then 1 else 0) + 2 * bidx r end.
Lemma bidx_bit : forall t j, Z.testbit (bidx t) (Z.of_nat j) = nth j t false.
Proof.
  induction t as [|b t IH]; intros j; [destruct j; apply Z.testbit_0_l|]. cbn [bidx].
  destruct j as [|j].
  - cbn [nth]. change (Z.of_nat 0) with 0. rewrite Z.bit0_odd, Z.odd_add_mul_2. destruct b; reflexivity.
  - cbn [nth]. rewrite <- IH. replace (Z.of_nat (S j)) with (Z.succ (Z.of_nat j)) by lia. rewrite (Z.add_comm _ (2 * _)). destruct b.
    + apply Z.testbit_odd_succ. lia.
    + rewrite Z.add_0_r. apply Z.testbit_even_succ. lia.
Qed.
Lemma bidx_range t : 0 <= bidx t < 2 ^ Z.of_nat (length t).
Proof.
  induction t as [|b t IH]; cbn [bidx length]; [cbn; lia|]. rewrite Nat2Z.inj_succ, Z.pow_succ_r by lia. destruct b; lia.
Qed.
Lemma its_len q : forall m, length (intToString q m) = q.
Proof. induction q as [|q IH]; intros m; cbn [intToString]; [reflexivity|]. rewrite app_length, IH. cbn. lia. Qed.
Lemma its_nth q : forall m j, (j < q)%nat -> nth j (intToString q m) false = Z.testbit m (Z.of_nat q - 1 - Z.of_nat j).
Proof.
  induction q as [|q IH]; intros m j Hj; [lia|]. cbn [intToString].
  destruct (Nat.eq_dec j q) as [->|N].
  - rewrite app_nth2 by (rewrite its_len; lia). rewrite its_len, Nat.sub_diag. cbn [nth]. replace (Z.of_nat (S q) - 1 - Z.of_nat q) with 0 by lia. now rewrite Z.bit0_odd.
  - rewrite app_nth1 by (rewrite its_len; lia). rewrite IH by lia. rewrite Z.shiftr_spec by lia. f_equal. lia.
Qed.
Lemma its_inv : forall t, intToString (length t) (bidx (rev t)) = t.
Proof.
  intros t. induction t as [|b t IH] using rev_ind; [reflexivity|]. rewrite app_length, rev_app_distr. cbn [length rev app bidx]. rewrite Nat.add_1_r. cbn [intToString].
  assert (E: Z.shiftr ((if b then 1 else 0) + 2 * bidx (rev t)) 1 = bidx (rev t)).
  { rewrite Z.shiftr_div_pow2 by lia. change (2 ^ 1) with 2. rewrite (Z.mul_comm 2), Z.div_add by lia. destruct b; reflexivity. }
  rewrite E, IH. f_equal. f_equal. rewrite Z.odd_add_mul_2. destruct b; reflexivity.
Qed.
Lemma its_inj q m m' : 0 <= m < 2 ^ Z.of_nat q -> 0 <= m' < 2 ^ Z.of_nat q -> intToString q m = intToString q m' -> m = m'.
Proof.
  intros H H' E. apply Z.bits_inj'. intros b Hb. destruct (Z_lt_dec b (Z.of_nat q)) as [L|L].
  - pose proof (its_nth q m (Z.to_nat (Z.of_nat q - 1 - b)) ltac:(lia)) as A. pose proof (its_nth q m' (Z.to_nat (Z.of_nat q - 1 - b)) ltac:(lia)) as B.
    rewrite E in A. rewrite A in B. replace (Z.of_nat q - 1 - Z.of_nat (Z.to_nat (Z.of_nat q - 1 - b))) with b in B by lia. exact B.
  - assert (A: forall x, 0 <= x < 2 ^ Z.of_nat q -> Z.testbit x b = false).
    { intros x Hx. destruct (Z.eq_dec x 0) as [->|]; [apply Z.testbit_0_l|]. apply Z.bits_above_log2; [lia|]. assert (Z.log2 x < Z.of_nat q) by (apply Z.log2_lt_pow2; lia). lia. }
    now rewrite !A.
Qed.

(** * The products along the diagonal *)
Ltac rring := match goal with |- @eq _ ?a ?b => change (@eq R a b) end; ring.
Section Prob.
Context (av : eaddr -> R) (h : dheap).
Local Notation dval := (dval R0 av).

(** Along the diagonal the weights are real numbers from 0 to 1. *)
Definition wt (e : dedge) : Prop := dval (ci (de_w e)) = 0%R /\ (0 <= dval (cr (de_w e)) <= 1)%R.
Fixpoint dnn (l : nat) (p : nptr) : Prop :=
  match l with
  | O => True
  | S k => match p with
           | PNull => False
           | PTerm => True
           | PNode n => wt (dn_e0 (h n)) /\ wt (dn_e3 (h n)) /\ dnn k (dp_at (de_p (dn_e0 (h n)))) /\ dnn k (dp_at (de_p (dn_e3 (h n))))
           end
  end.
(** The product of the weights that the loop follows. *)
Fixpoint dpv (l : nat) (p : nptr) (m : Z) : R :=
  match l with
  | O => 1%R
  | S k => match p with
           | PNode n => let e := if Z.odd m then dn_e3 (h n) else dn_e0 (h n) in (dval (cr (de_w e)) * dpv k (dp_at (de_p e)) (Z.shiftr m 1))%R
           | _ => 0%R
           end
  end.
Lemma dpv_range : forall l p m, dnn l p -> (0 <= dpv l p m <= 1)%R.
Proof.
  induction l as [|l IH]; intros p m Dn; cbn [dpv]; [lra|]. destruct p as [| |n]; [destruct Dn|lra|]. destruct Dn as (W0 & W3 & D0 & D3).
  destruct (Z.odd m); cbv zeta; [destruct W3 as [_ W]; specialize (IH _ (Z.shiftr m 1) D3)|destruct W0 as [_ W]; specialize (IH _ (Z.shiftr m 1) D0)]; nra.
Qed.
Lemma probF_dpv thr : (0 <= thr)%R -> forall l p pr m, dnn l p -> (0 <= pr)%R ->
  exists y, probF R0 av l h thr p pr m = inl y /\ (y = pr * dpv l p m \/ y = 0)%R /\ (thr < pr * dpv l p m -> y = pr * dpv l p m)%R.
Proof.
  intros Ht. induction l as [|l IH]; intros p pr m Dn Hp; cbn [probF dpv].
  { exists pr. split; [reflexivity|]. split; [left; rring|intros _; rring]. }
  pose proof (dpv_range (S l) p m Dn) as Rg. destruct p as [| |n]; [destruct Dn| |].
  { exists 0%R. split; [reflexivity|]. split; [auto|]. rewrite Rmult_0_r. lra. }
  destruct (@nleb R0 pr thr) eqn:Le.
  { apply Rleb_iff in Le. exists 0%R. split; [reflexivity|]. split; [auto|]. intros A. exfalso. cbn [dpv] in Rg. cbv zeta in *. match type of A with (_ < _ * ?d)%R => assert (pr * d <= pr * 1)%R by (apply Rmult_le_compat_l; lra) end. lra. }
  destruct Dn as (W0 & W3 & D0 & D3). rewrite (proj2 (ap0R _) (proj1 W0)), (proj2 (ap0R _) (proj1 W3)). cbn [andb]. cbv zeta.
  destruct (Z.odd m).
  - destruct (IH (dp_at (de_p (dn_e3 (h n)))) (pr * dval (cr (de_w (dn_e3 (h n)))))%R (Z.shiftr m 1) D3) as (y & E & F & H); [destruct W3; nra|].
    exists y. split; [exact E|]. rewrite <- !Rmult_assoc. auto.
  - destruct (IH (dp_at (de_p (dn_e0 (h n)))) (pr * dval (cr (de_w (dn_e0 (h n)))))%R (Z.shiftr m 1) D0) as (y & E & F & H); [destruct W0; nra|].
    exists y. split; [exact E|]. rewrite <- !Rmult_assoc. auto.
Qed.
(** The product is the entry on the diagonal whose bits are those of [m] in reverse. *)
Lemma dpv_dent : forall l e m r, dnn l (dp_at (de_p e)) -> snd (wv av e) = 0%R -> (forall k, 0 <= k < Z.of_nat l -> Z.testbit r k = Z.testbit m (Z.of_nat l - 1 - k)) ->
  dent av h l e r r = (fst (wv av e) * dpv l (dp_at (de_p e)) m, 0)%R.
Proof.
  induction l as [|l IH]; intros e m r Dn We Rb; cbn [dent dpv].
  { rewrite Rmult_1_r, <- We. now destruct (wv av e). }
  assert (Z: forall x, (wv av e * (x, 0%R))%C = (fst (wv av e) * x, 0)%R).
  { intros x. destruct (wv av e) as [a b]. cbn in We. subst b. unfold Cmul. cbn. apply f_equal2; ring. }
  destruct (dp_at (de_p e)) as [| |n]; [destruct Dn|apply (Z 0%R)|]. destruct Dn as (W0 & W3 & D0 & D3).
  pose proof (Rb (Z.of_nat l) ltac:(lia)) as B. replace (Z.of_nat (S l) - 1 - Z.of_nat l) with 0 in B by lia. rewrite Z.bit0_odd in B.
  assert (Rb': forall k, 0 <= k < Z.of_nat l -> Z.testbit r k = Z.testbit (Z.shiftr m 1) (Z.of_nat l - 1 - k)).
  { intros k K. rewrite Rb by lia. rewrite Z.shiftr_spec by lia. f_equal. lia. }
  unfold quad. rewrite B. destruct (Z.odd m); cbn [Nat.add succ]; cbv zeta.
  - rewrite (IH (dn_e3 (h n)) (Z.shiftr m 1) r D3 (proj1 W3) Rb'). apply Z.
  - rewrite (IH (dn_e0 (h n)) (Z.shiftr m 1) r D0 (proj1 W0) Rb'). apply Z.
Qed.
End Prob.

Section ProbAll.
Context (av : eaddr -> R) (h : dheap).
Lemma probAll_dpv thr q e : (0 <= thr)%R -> dnn av h q (dp_at (de_p e)) -> (0 <= fst (wv av e))%R -> forall ms,
  exists L, probAll R0 av q h thr e ms = inl L /\
    (forall t x, In (t, x) L -> exists m, In m ms /\ t = intToString q m /\ x = (fst (wv av e) * dpv av h q (dp_at (de_p e)) m)%R /\ (0 < x)%R) /\
    (forall m, In m ms -> (thr < fst (wv av e) * dpv av h q (dp_at (de_p e)) m)%R -> In (intToString q m, (fst (wv av e) * dpv av h q (dp_at (de_p e)) m)%R) L) /\
    (NoDup (map (intToString q) ms) -> NoDup (map fst L)).
Proof.
  intros Ht Dn We. induction ms as [|m ms IH]; cbn [probAll].
  { exists []. split; [reflexivity|]. split; [intros t x []|]. split; [intros m []|intros _; constructor]. }
  destruct (probF_dpv av h thr Ht q (dp_at (de_p e)) (fst (wv av e)) m Dn We) as (y & E & F & K).
  change (dval R0 av (cr (de_w e))) with (fst (wv av e)). rewrite E. destruct IH as (L & EL & A & B & C). rewrite EL.
  assert (A': forall t x, In (t, x) L -> exists m0, In m0 (m :: ms) /\ t = intToString q m0 /\ x = (fst (wv av e) * dpv av h q (dp_at (de_p e)) m0)%R /\ (0 < x)%R).
  { intros t x H. destruct (A t x H) as (m0 & I & R). exists m0. split; [right; exact I|exact R]. }
  destruct (@nltb R0 n0 y) eqn:Lt.
  - apply Rltb_iff in Lt. change (0 < y)%R in Lt. assert (Ey: y = (fst (wv av e) * dpv av h q (dp_at (de_p e)) m)%R) by (destruct F as [F|F]; [exact F|rewrite F in Lt; lra]).
    exists ((intToString q m, y) :: L). split; [reflexivity|]. split; [|split].
    + intros t x [H|H]; [|apply A'; exact H]. injection H as <- <-. exists m. split; [left; reflexivity|]. auto.
    + intros m0 [<-|H] Gt; [left; now rewrite (K Gt)|right; apply B; auto].
    + cbn [map fst]. intros N. inversion_clear N as [|? ? N1 N2]. constructor; [|auto]. intros I. apply N1. apply in_map_iff in I. destruct I as ([t x] & <- & I). destruct (A t x I) as (m0 & I0 & -> & _). cbn [fst]. apply (in_map (intToString q)). exact I0.
  - apply Rltb_false in Lt. change (y <= 0)%R in Lt. exists L. split; [reflexivity|]. split; [exact A'|]. split.
    + intros m0 [<-|H] Gt; [exfalso; rewrite (K Gt) in Lt; lra|apply B; auto].
    + cbn [map]. intros N. inversion_clear N. auto.
Qed.
End ProbAll.

(** * C57 *)

(** The list has every string at most once; a string stands for the basis state in which qubit [j] has the value of
    character [j]; what is listed is the entry on the diagonal, and every entry above the threshold is listed. *)
Definition lists (q : nat) (thr : R) (f : list bool -> R) (L : list (list bool * R)) : Prop :=
  NoDup (map fst L) /\
  (forall t x, In (t, x) L -> length t = q /\ x = f t /\ (0 < x)%R) /\
  (forall t, length t = q -> (thr < f t)%R -> In (t, f t) L).

Theorem probability_vector_nodes av h e n l thr : dp_at (de_p e) = PNode n -> dn_v (h n) = Z.of_nat l -> (l < 63)%nat -> (0 <= thr)%R ->
  snd (wv av e) = 0%R -> (0 <= fst (wv av e))%R -> dnn av h (S l) (PNode n) ->
  exists L, getProbVector R0 av h e thr = inl (inl L) /\ lists (S l) thr (fun t => fst (dent av h (S l) e (bidx t) (bidx t))) L.
Proof.
  intros At V H63 Ht W0 W1 Dn. unfold getProbVector. rewrite At, V. replace (64 <=? Z.of_nat l + 1) with false by (symmetry; apply Z.leb_gt; lia).
  replace (Z.to_nat (Z.of_nat l + 1)) with (S l) by lia.
  destruct (probAll_dpv av h thr (S l) e Ht) with (ms := map Z.of_nat (seq 0 (2 ^ S l))) as (L & E & A & B & C); [now rewrite At|exact W1|].
  rewrite E. exists L. split; [reflexivity|].
  assert (Dv: forall m, dent av h (S l) e (bidx (intToString (S l) m)) (bidx (intToString (S l) m)) = (fst (wv av e) * dpv av h (S l) (dp_at (de_p e)) m, 0)%R).
  { intros m. apply dpv_dent; [now rewrite At|exact W0|]. intros k K. rewrite <- (Z2Nat.id k) at 1 by lia. rewrite bidx_bit, its_nth by lia. f_equal. lia. }
  split; [|split].
  - apply C. assert (Hr: forall m, In m (map Z.of_nat (seq 0 (2 ^ S l))) -> 0 <= m < 2 ^ Z.of_nat (S l)).
    { intros m I. apply in_map_iff in I. destruct I as (k & <- & I). apply in_seq in I. rewrite <- (Nat2Z.inj_pow 2). lia. }
    assert (Nd: NoDup (map Z.of_nat (seq 0 (2 ^ S l)))) by (apply FinFun.Injective_map_NoDup; [intros x y; lia|apply seq_NoDup]).
    revert Hr Nd. generalize (map Z.of_nat (seq 0 (2 ^ S l))). intros ms Hr Nd. induction Nd as [|m ms Ni Nd IH]; cbn [map]; constructor.
    + intros I. apply in_map_iff in I. destruct I as (m' & Em & I). apply its_inj in Em; [subst; auto|apply Hr; right; exact I|apply Hr; left; reflexivity].
    + apply IH. intros m' I. apply Hr. right. exact I.
  - intros t x I. destruct (A t x I) as (m & _ & -> & -> & P). split; [apply its_len|]. split; [now rewrite Dv|exact P].
  - intros t Lt Gt. assert (I: In (bidx (rev t)) (map Z.of_nat (seq 0 (2 ^ S l)))).
    { pose proof (bidx_range (rev t)) as R. rewrite rev_length, Lt in R. rewrite <- (Nat2Z.inj_pow 2) in R. apply in_map_iff. exists (Z.to_nat (bidx (rev t))). split; [lia|]. apply in_seq. lia. }
    assert (Et: intToString (S l) (bidx (rev t)) = t) by (rewrite <- Lt; apply its_inv).
    specialize (Dv (bidx (rev t))). rewrite Et in Dv. specialize (B _ I). rewrite Et in B. rewrite Dv in *. cbn [fst] in *. auto.
Qed.

(** ** Density matrices in reachable states *)

(** What a positive semidefinite matrix satisfies: real entries not below 0 on the diagonal, and the 2 x 2 minors on rows
    and columns [a], [b]. *)
Definition minors (l : Z) (f : list nat -> C) : Prop :=
  (forall a, vpath KV l a -> snd (f (mp a a)) = 0%R /\ (0 <= fst (f (mp a a)))%R) /\
  (forall a b, vpath KV l a -> vpath KV l b -> (Cmag2 (f (mp a b)) <= fst (f (mp a a)) * fst (f (mp b b)))%R).

Section Reached.
Context (g : cfg R0) (nb : kind -> Z) (G : gok g).
Local Notation X := (XR g G).
Local Notation entry := (entry g G).
Local Notation reachedR := (reachedR g nb G).
Local Notation co := (co R0).
Local Notation rest := (at_rest_nodes R0).
Local Notation dn := (dn R0 g X).
Local Notation Cw := (Cw R0 g X).
Local Notation linked := (linked R0).

(** A pointer to a diagram on qubits 0..l that is not zero. *)
Definition pok (s : st R0) (l : Z) (p : nptr) : Prop := match p with PNull => False | PTerm => l = -1 | PNode n => linked (co s) KD n /\ nv (nod s KD n) = l end.
Lemma pok_t s l e : tedge R0 g X (co s) KD l e -> Cw (co s) (ew e) <> C0 -> pok s l (ep e).
Proof.
  intros T N. pose proof (te_n _ _ _ _ _ _ _ T) as E. pose proof (te_t _ _ _ _ _ _ _ T) as Et. destruct (ep e); auto. destruct (Et eq_refl) as [->|Z]; [reflexivity|].
  exfalso. apply N. rewrite Z. apply Cw_zero. exact Logic.I.
Qed.
(** A node: its successors and its normal form. *)
Lemma pok_node s l n : inv R0 g nb X s -> pok s l (PNode n) -> 0 <= l /\ (forall k, (k < 4)%nat -> tedge R0 g X (co s) KD (l - 1) (nthe (ne (nod s KD n)) k)) /\
  nnorm R0 g X (co s) KD (ne (nod s KD n)).
Proof.
  intros I [L <-]. destruct (linked_ok (co s) KD n (iv_c _ _ _ _ _ I) L) as (b & O & _). split; [apply O|]. split.
  - intros k Hk. apply (no_es _ _ _ _ _ _ _ _ _ O). apply nth_In. rewrite (no_len _ _ _ _ _ _ _ _ _ O). exact Hk.
  - apply (no_norm _ _ _ _ _ _ _ _ _ O). exact Logic.I.
Qed.
(** No entry below a node is larger than 1 in magnitude ... *)
Lemma dn_bound s : inv R0 g nb X s -> forall path p, (Cmag2 (Cw (co s) Cone) = 1)%R -> match p with PNull => False | PTerm => True | PNode n => linked (co s) KD n end ->
  Forall (fun i => (i < 4)%nat) path -> (Cmag2 (dn (co s) KD p path) <= 1)%R.
Proof.
  intros I. induction path as [|i r IH]; intros p O Lp F; cbn [Inv.dn]; [rewrite Cmag2_1; lra|]. destruct p as [| |n]; [destruct Lp|rewrite Cmag2_1; lra|].
  inversion_clear F as [|? ? Hi Hr]. destruct (pok_node s (nv (nod s KD n)) n I) as (_ & T & (am & _ & _ & B & _)); [split; auto|].
  cbv zeta. rewrite Cmag2_mul. specialize (B i Hi). specialize (T i Hi). pose proof (te_n _ _ _ _ _ _ _ T) as E. change (qn R0 (co s) KD n) with (nod s KD n).
  specialize (IH (ep (nthe (ne (nod s KD n)) i)) O). assert (J: (Cmag2 (dn (co s) KD (ep (nthe (ne (nod s KD n)) i)) r) <= 1)%R).
  { apply IH; [|exact Hr]. destruct (ep (nthe (ne (nod s KD n)) i)); auto. apply E. }
  pose proof (Cmag2_nonneg (Cw (co s) (ew (nthe (ne (nod s KD n)) i)))). pose proof (Cmag2_nonneg (dn (co s) KD (ep (nthe (ne (nod s KD n)) i)) r)). nra.
Qed.
(** ... and one of them is 1. *)
Lemma dn_lead s : inv R0 g nb X s -> forall l p, pok s (Z.of_nat l - 1) p -> exists a b, vpath KV (Z.of_nat l - 1) a /\ vpath KV (Z.of_nat l - 1) b /\ dn (co s) KD p (mp a b) = C1.
Proof.
  intros I. induction l as [|l IH]; intros p P.
  - exists [], []. split; [apply vpath_nil|]. split; [apply vpath_nil|]. reflexivity.
  - destruct p as [| |n]; [destruct P|unfold pok in P; lia|]. destruct (pok_node s _ n I P) as (_ & T & (am & Ha & E1 & _)).
    destruct (IH (ep (nthe (ne (nod s KD n)) am))) as (a & b & Va & Vb & E).
    { replace (Z.of_nat l - 1) with (Z.of_nat (S l) - 1 - 1) by lia. apply pok_t; [apply T; exact Ha|]. rewrite E1, Cw_one by exact Logic.I. apply C1_neq_0. }
    exists ((am / 2)%nat :: a), ((am mod 2)%nat :: b). split; [apply vpath_cons; split; [change (am / 2 < 2)%nat; apply Nat.div_lt_upper_bound; lia|replace (Z.of_nat (S l) - 1 - 1) with (Z.of_nat l - 1) by lia; exact Va]|].
    split; [apply vpath_cons; split; [change (am mod 2 < 2)%nat; apply Nat.mod_upper_bound; lia|replace (Z.of_nat (S l) - 1 - 1) with (Z.of_nat l - 1) by lia; exact Vb]|].
    cbn [mp Inv.dn]. rewrite <- Nat.div_mod by lia. cbv zeta. change (qn R0 (co s) KD n) with (nod s KD n). rewrite E1, Cw_one by exact Logic.I. rewrite E. cring.
Qed.
(** For a positive semidefinite matrix one on the diagonal is 1. *)
Lemma dn_lead_diag s : inv R0 g nb X s -> forall l p W, pok s (Z.of_nat l - 1) p -> W <> C0 -> minors (Z.of_nat l - 1) (fun r => W * dn (co s) KD p r)%C ->
  exists a, vpath KV (Z.of_nat l - 1) a /\ dn (co s) KD p (mp a a) = C1.
Proof.
  intros I. induction l as [|l IH]; intros p W P HW [M1 M2].
  - exists []. split; [apply vpath_nil|reflexivity].
  - destruct p as [| |n]; [destruct P|unfold pok in P; lia|]. destruct (pok_node s _ n I P) as (_ & T & (am & Ha & E1 & B & Sm)). replace (Z.of_nat (S l) - 1 - 1) with (Z.of_nat l - 1) in T by lia.
    assert (Vc: forall i a, (i < 2)%nat -> vpath KV (Z.of_nat l - 1) a -> vpath KV (Z.of_nat (S l) - 1) (i :: a)).
    { intros i a Hi V. apply vpath_cons. split; [exact Hi|]. replace (Z.of_nat (S l) - 1 - 1) with (Z.of_nat l - 1) by lia. exact V. }
    assert (Dc: forall i j a b, dn (co s) KD (PNode n) (mp (i :: a) (j :: b)) = (Cw (co s) (ew (nthe (ne (nod s KD n)) (2 * i + j))) * dn (co s) KD (ep (nthe (ne (nod s KD n)) (2 * i + j))) (mp a b))%C) by reflexivity.
    assert (Pa: pok s (Z.of_nat l - 1) (ep (nthe (ne (nod s KD n)) am))).
    { apply pok_t; [apply T; exact Ha|]. rewrite E1, Cw_one by exact Logic.I. apply C1_neq_0. }
    (* a leading successor on the diagonal *)
    assert (Dg: forall i, (i < 2)%nat -> am = (2 * i + i)%nat -> exists a, vpath KV (Z.of_nat (S l) - 1) a /\ dn (co s) KD (PNode n) (mp a a) = C1).
    { intros i Hi Ei. destruct (IH _ W Pa HW) as (a & Va & Ea).
      - assert (Eq: forall a b, dn (co s) KD (PNode n) (mp (i :: a) (i :: b)) = dn (co s) KD (ep (nthe (ne (nod s KD n)) am)) (mp a b)).
        { intros a b. rewrite Dc, <- Ei, E1, Cw_one by exact Logic.I. cring. }
        split; [intros a Va; rewrite <- Eq; apply M1; auto|intros a b Va Vb; rewrite <- !Eq; apply M2; auto].
      - exists (i :: a). split; [auto|]. rewrite Dc, <- Ei, E1, Cw_one, Ea by exact Logic.I. cring. }
    (* no other successor leads *)
    assert (Od: forall i j, (i < 2)%nat -> (j < 2)%nat -> am = (2 * i + j)%nat -> i <> j -> False).
    { intros i j Hi Hj Ei Nij. destruct (dn_lead s I l _ Pa) as (a & b & Va & Vb & Eab).
      assert (Bd: forall k a', (k < 2)%nat -> vpath KV (Z.of_nat l - 1) a' -> (Cmag2 (dn (co s) KD (ep (nthe (ne (nod s KD n)) (2 * k + k))) (mp a' a')) <= 1)%R).
      { intros k a' Hk Va'. apply dn_bound; auto; [rewrite Cw_one by exact Logic.I; apply Cmag2_1| |apply (vpath_mp _ _ _ Va' Va')].
        specialize (T (2 * k + k)%nat ltac:(lia)). pose proof (te_n _ _ _ _ _ _ _ T) as Te. destruct (ep (nthe (ne (nod s KD n)) (2 * k + k))); auto. apply Te. }
      pose proof (M2 (i :: a) (j :: b) (Vc i a Hi Va) (Vc j b Hj Vb)) as Mi. destruct (M1 (i :: a) (Vc i a Hi Va)) as [Ia Ra]. destruct (M1 (j :: b) (Vc j b Hj Vb)) as [Ib Rb].
      rewrite Dc, <- Ei, E1, Cw_one, Eab in Mi by exact Logic.I. replace (W * (C1 * C1))%C with W in Mi by cring.
      assert (Qa: forall k a', (k < 2)%nat -> vpath KV (Z.of_nat l - 1) a' -> let x := fst (W * dn (co s) KD (PNode n) (mp (k :: a') (k :: a')))%C in
        (x * x <= Cmag2 W * Cmag2 (Cw (co s) (ew (nthe (ne (nod s KD n)) (2 * k + k)))))%R).
      { intros k a' Hk Va' x. assert (x * x = Cmag2 (W * dn (co s) KD (PNode n) (mp (k :: a') (k :: a'))))%R.
        { unfold x, Cmag2. destruct (M1 (k :: a') (Vc k a' Hk Va')) as [Z _]. rewrite Z. ring. }
        rewrite H, Dc, !Cmag2_mul. specialize (Bd k a' Hk Va'). pose proof (Cmag2_nonneg W). pose proof (Cmag2_nonneg (Cw (co s) (ew (nthe (ne (nod s KD n)) (2 * k + k))))).
        pose proof (Cmag2_nonneg (dn (co s) KD (ep (nthe (ne (nod s KD n)) (2 * k + k))) (mp a' a'))). 
        apply Rmult_le_compat_l; [lra|]. rewrite <- (Rmult_1_r (Cmag2 (Cw _ _))) at 2. apply Rmult_le_compat_l; lra. }
      pose proof (Qa i a Hi Va) as Q1. pose proof (Qa j b Hj Vb) as Q2. cbv zeta in Q1, Q2.
      set (x := fst (W * dn (co s) KD (PNode n) (mp (i :: a) (i :: a)))%C) in *. set (y := fst (W * dn (co s) KD (PNode n) (mp (j :: b) (j :: b)))%C) in *.
      pose proof (Cmag2_pos W HW) as PW. pose proof (B (2 * i + i)%nat ltac:(lia)) as Bi. pose proof (B (2 * j + j)%nat ltac:(lia)) as Bj.
      assert (S0: (Cmag2 (Cw (co s) (ew (nthe (ne (nod s KD n)) 0))) < 1)%R) by (apply Sm; lia).
      assert (St: (x * x < Cmag2 W /\ y * y <= Cmag2 W \/ x * x <= Cmag2 W /\ y * y < Cmag2 W)%R).
      { destruct i as [|[|]]; [left|right|lia]; [|destruct j as [|]; [|lia]]; cbn [Nat.mul Nat.add] in *; split; nra. }
      assert (Z: (x * y * (x * y) < Cmag2 W * Cmag2 W)%R).
      { replace (x * y * (x * y))%R with ((x * x) * (y * y))%R by ring. assert (0 <= x * x)%R by nra. assert (0 <= y * y)%R by nra. destruct St as [[A1 A2]|[A1 A2]]; nra. }
      assert (Cmag2 W * Cmag2 W <= x * y * (x * y))%R by (apply Rmult_le_compat; lra). lra. }
    destruct am as [|[|[|[|]]]]; [|exfalso|exfalso| |lia].
    + apply (Dg 0%nat); lia.
    + apply (Od 0%nat 1%nat); lia.
    + apply (Od 1%nat 0%nat); lia.
    + apply (Dg 1%nat); lia.
Qed.

(** So its weights on the diagonal are real numbers from 0 to 1. *)
Lemma minors_dnn s : inv R0 g nb X s -> forall l p W, pok s (Z.of_nat l - 1) p -> snd W = 0%R -> (0 < fst W)%R -> minors (Z.of_nat l - 1) (fun r => W * dn (co s) KD p r)%C ->
  dnn (aval s) (rest s) l p.
Proof.
  intros I. induction l as [|l IH]; intros p W P W0 W1 M; cbn [dnn]; [exact Logic.I|]. destruct p as [| |n]; [destruct P|exact Logic.I|].
  destruct (pok_node s _ n I P) as (_ & T & (am & _ & _ & B & _)). replace (Z.of_nat (S l) - 1 - 1) with (Z.of_nat l - 1) in T by lia.
  assert (K: forall k, (k < 2)%nat -> let e := nthe (ne (nod s KD n)) (2 * k + k) in wt (aval s) (dof (hden e)) /\ dnn (aval s) (rest s) l (ep e)).
  { intros k Hk e. pose proof (T (2 * k + k)%nat ltac:(lia)) as Te. pose proof (B (2 * k + k)%nat ltac:(lia)) as Be. fold e in Te, Be.
    assert (Ew: (dval R0 (aval s) (cr (ew e)), dval R0 (aval s) (ci (ew e))) = Cw (co s) (ew e)) by (rewrite <- (dcval_Cw g G s); [reflexivity|apply Te]).
    assert (Wt: forall x, Cw (co s) (ew e) = (x, 0)%R -> (0 <= x)%R -> wt (aval s) (dof (hden e))).
    { intros x Ex Hx. rewrite Ex in Ew, Be. injection Ew as E1 E2. unfold wt. cbn [dof hden de_w hw]. rewrite E1, E2. split; [reflexivity|]. split; [exact Hx|]. unfold Cmag2 in Be. cbn [fst snd] in Be. nra. }
    destruct (Req_dec (Cmag2 (Cw (co s) (ew e))) 0) as [Z|NZ].
    - apply Cmag2_zero in Z. split; [apply (Wt 0%R); [exact Z|lra]|]. destruct l as [|l']; [exact Logic.I|].
      assert (Ez: ew e = Czero). { apply (Cw_inj (nb:=nb) (X:=X) (co s)); [exact Logic.I|apply (iv_c _ _ _ _ _ I)|apply Te|apply wtab_zero|]. rewrite Z, Cw_zero by exact Logic.I. reflexivity. }
      rewrite (te_z _ _ _ _ _ _ _ Te Logic.I Ez). exact Logic.I.
    - assert (NZ': Cw (co s) (ew e) <> C0) by (intros Z; apply NZ; rewrite Z; apply Cmag2_0).
      assert (Pe: pok s (Z.of_nat l - 1) (ep e)) by (apply pok_t; assumption).
      assert (HW: (W * Cw (co s) (ew e))%C <> C0) by (apply Cmul_neq; [intros Z; rewrite Z in W1; cbn in W1; lra|exact NZ']).
      assert (Me: minors (Z.of_nat l - 1) (fun r => W * Cw (co s) (ew e) * dn (co s) KD (ep e) r)%C).
      { destruct M as [M1 M2].
        assert (Vc: forall a, vpath KV (Z.of_nat l - 1) a -> vpath KV (Z.of_nat (S l) - 1) (k :: a)).
        { intros a V. apply vpath_cons. split; [exact Hk|]. replace (Z.of_nat (S l) - 1 - 1) with (Z.of_nat l - 1) by lia. exact V. }
        assert (Eq: forall a b, (W * Cw (co s) (ew e) * dn (co s) KD (ep e) (mp a b) = W * dn (co s) KD (PNode n) (mp (k :: a) (k :: b)))%C).
        { intros a b. change (dn (co s) KD (PNode n) (mp (k :: a) (k :: b))) with (Cw (co s) (ew e) * dn (co s) KD (ep e) (mp a b))%C. cring. }
        split; [intros a Va; rewrite Eq; apply M1; auto|intros a b Va Vb; rewrite !Eq; apply M2; auto]. }
      destruct (dn_lead_diag s I l (ep e) _ Pe HW Me) as (a & Va & Ea). destruct Me as [M1 M2]. destruct (M1 a Va) as [Z1 Z2]. rewrite Ea in Z1, Z2.
      destruct W as [x0 y0]. cbn [fst snd] in W0, W1. subst y0. destruct (Cw (co s) (ew e)) as [x y] eqn:Ec. unfold Cmul, C1 in Z1, Z2. cbn [fst snd] in Z1, Z2.
      assert (y = 0%R) by nra. subst y. assert (0 <= x)%R by nra. assert (x <> 0)%R by (intros ->; apply NZ'; reflexivity).
      split; [apply (Wt x); auto|]. apply (IH (ep e) ((x0, 0%R) * (x, 0%R))%C Pe); [unfold Cmul; cbn; ring|unfold Cmul; cbn; nra|split; [exact M1|exact M2]]. }
  destruct (K 0%nat ltac:(lia)) as [A0 B0]. destruct (K 1%nat ltac:(lia)) as [A1 B1]. split; [exact A0|]. split; [exact A1|]. split; [exact B0|exact B1].
Qed.

(** The basis state of a string as a path from the topmost qubit. *)
Definition spath (t : list bool) : list nat := map (fun b : bool => if b then 1%nat else 0%nat) (rev t).
Lemma digp_spath t : digp (bitM (bidx t) (bidx t)) (length t) = mp (spath t) (spath t).
Proof.
  assert (H: forall k t', (k <= length t')%nat -> digp (bitM (bidx t') (bidx t')) k = mp (spath (firstn k t')) (spath (firstn k t'))).
  { induction k as [|k IH]; intros t' Hk; [reflexivity|]. cbn [digp]. rewrite IH by lia. unfold bitM, bitV. rewrite bidx_bit.
    assert (Ef: firstn (S k) t' = firstn k t' ++ [nth k t' false]).
    { clear IH. revert t' Hk. induction k as [|k IHk]; intros [|b t'] Hk; cbn [length] in Hk; try lia; [reflexivity|]. cbn [firstn nth app]. f_equal. apply IHk. lia. }
    rewrite Ef. unfold spath. rewrite rev_app_distr. cbn [rev app map mp]. destruct (nth k t' false); reflexivity. }
  rewrite H by lia. now rewrite firstn_all.
Qed.

(** A density matrix as far as [minors] goes: no assertion fails, and the list is right. *)
Theorem probability_vector nq s V D e l thr : reachedR nq s V D -> usr V D KD (Z.of_nat l - 1) e -> ep e <> PTerm -> (l < 64)%nat -> (0 <= thr)%R ->
  minors (Z.of_nat l - 1) (entry s KD e) ->
  exists L, getProbVector R0 (aval s) (rest s) (dof (hden e)) thr = inl (inl L) /\
    lists l thr (fun t => fst (entry s KD e (mp (spath t) (spath t)))) L.
Proof.
  intros H U Nt H64 Ht M. destruct (usr_t _ _ _ _ _ _ _ _ _ _ H U) as [_ Te]. destruct (reached_inv _ _ _ _ _ _ _ H) as (I & _).
  assert (NZ: Cw (co s) (ew e) <> C0).
  { intros Z. apply Nt. apply (te_z _ _ _ _ _ _ _ Te Logic.I). apply (Cw_inj (nb:=nb) (X:=X) (co s)); [exact Logic.I|apply (iv_c _ _ _ _ _ I)|apply Te|apply wtab_zero|]. rewrite Z, Cw_zero by exact Logic.I. reflexivity. }
  pose proof (pok_t s _ e Te NZ) as P. destruct (ep e) as [| |n] eqn:Ep; [destruct P|congruence|].
  destruct (pok_node s _ n I P) as (L0 & _). destruct l as [|l]; [lia|].
  destruct (dn_lead_diag s I (S l) (PNode n) _ P NZ) as (a & Va & Ea).
  { split; [intros a Va|intros a b Va Vb]; rewrite <- Ep; apply M; auto. }
  destruct (proj1 M a Va) as [Z1 Z2]. unfold PropBase.entry, de in Z1, Z2. rewrite Ep, Ea in Z1, Z2. rewrite Cmul_1_r in Z1, Z2.
  assert (Ew: wv (aval s) (dof (hden e)) = Cw (co s) (ew e)) by (apply (dcval_Cw g G s); apply Te).
  destruct (probability_vector_nodes (aval s) (rest s) (dof (hden e)) n l thr) as (L & E & Ls); auto.
  - destruct P as [_ P]. change (nv (nod s KD n) = Z.of_nat l). lia.
  - lia.
  - now rewrite Ew.
  - now rewrite Ew.
  - apply (minors_dnn s I (S l) (PNode n) (Cw (co s) (ew e)) P Z1).
    + destruct (Rle_lt_or_eq_dec _ _ Z2) as [|Z]; auto. exfalso. apply NZ. destruct (Cw (co s) (ew e)). cbn in *. subst. reflexivity.
    + split; [intros b Vb|intros b c Vb Vc]; rewrite <- Ep; apply M; auto.
  - exists L. split; [exact E|].
    assert (Eq: forall t, length t = S l -> dent (aval s) (rest s) (S l) (dof (hden e)) (bidx t) (bidx t) = entry s KD e (mp (spath t) (spath t))).
    { intros t Lt. rewrite (dent_entry g nb G s I) by exact Te. now rewrite <- Lt, digp_spath. }
    destruct Ls as (A & B & C). split; [exact A|]. split.
    + intros t x Ix. destruct (B t x Ix) as (Lt & Ex & Px). split; [exact Lt|]. split; [|exact Px]. rewrite Ex. now rewrite Eq.
    + intros t Lt Gt. rewrite <- (Eq t Lt) in *. apply C; auto.
Qed.
End Reached.

(** ** Examples *)
Lemma vpKV0 a : vpath KV 0 a -> a = [0%nat] \/ a = [1%nat].
Proof.
  intros [L F]. destruct a as [|x [|y a]]; [discriminate| |cbn [length] in L; lia]. inversion F; subst. cbn in *. destruct x as [|[|]]; auto; lia.
Qed.
(** |0><0|: the result is 0 with certainty. *)
Example probability_vector_example : exists s V L, reachedR gR nbdef GR 1 s V DD /\
  getProbVector R0 (aval s) (at_rest_nodes R0 s) (dof (hden (var V 0))) (1 / 1000)%R = inl (inl L) /\ L = [([false], 1%R)].
Proof.
  destruct reachedD as (s & V & H). destruct (usrDD V) as [U0 _].
  assert (E: forall a, (a < 4)%nat -> entry gR GR s KD (var V 0) [a] = dzero [a]) by (intros a Ha; apply (usr_entry gR nbdef GR 1 s V DD 0 KD 0 dzero H); [now exists 1%nat|apply vp_kd0; exact Ha]).
  destruct (probability_vector gR nbdef GR 1 s V DD (var V 0) 1 (1 / 1000)%R H U0) as (L & Eg & Nd & A & B); try lia; try lra.
  - apply (not_term gR nbdef GR 1 s V DD KD 0 (var V 0) [0%nat] H U0); [lia|]. rewrite E by lia. apply C1_neq_0.
  - split.
    + intros a Va. apply vpKV0 in Va. destruct Va as [-> | ->]; cbn [mp Nat.mul Nat.add]; rewrite E by lia; cbn; lra.
    + intros a b Va Vb. apply vpKV0 in Va, Vb. destruct Va as [-> | ->], Vb as [-> | ->]; cbn [mp Nat.mul Nat.add]; rewrite !E by lia; unfold Cmag2; cbn; lra.
  - exists s, V, L. split; [exact H|]. split; [exact Eg|].
    assert (B0: In ([false], 1%R) L). { specialize (B [false] eq_refl). unfold spath in B. cbn [rev app map mp Nat.mul Nat.add] in B. rewrite E in B by lia. apply B. cbn. lra. }
    assert (U: forall p, In p L -> p = ([false], 1%R)).
    { intros [t x] I. destruct (A t x I) as (Lt & Ex & Px). destruct t as [|b [|c t]]; cbn [length] in Lt; try lia. unfold spath in Ex. destruct b; cbn [rev app map mp Nat.mul Nat.add] in Ex; rewrite E in Ex by lia; cbn in Ex; [lra|now rewrite Ex]. }
    destruct L as [|p L]; [destruct B0|]. pose proof (U p (or_introl eq_refl)) as ->. destruct L as [|p L]; [reflexivity|].
    pose proof (U p (or_intror (or_introl eq_refl))) as ->. cbn [map fst] in Nd. inversion_clear Nd as [|? ? N1 _]. exfalso. apply N1. left. reflexivity.
Qed.
(** Weights 1/2 and 1/2 below a root weight 1, off the diagonal i/2. *)
Example probability_vector_nodes_example : exists L, getProbVector R0 davR dheapEx rootEx 0%R = inl (inl L) /\ In ([false], (/ 2)%R) L /\ In ([true], (/ 2)%R) L.
Proof.
  destruct (probability_vector_nodes davR dheapEx rootEx 0 0 0%R) as (L & E & _ & _ & B); try reflexivity; try lia; try (cbn; lra).
  - assert (W: wt davR (DE (DP PTerm mk0) dwR)) by (split; cbn; [reflexivity|lra]). cbn [dnn]. split; [exact W|]. split; [exact W|]. split; exact Logic.I.
  - exists L. split; [exact E|].
    assert (F: forall b, fst (dent davR dheapEx 1 rootEx (bidx [b]) (bidx [b])) = (/ 2)%R) by (intros []; cbn -[Rinv]; unfold wv, Cmul; cbn -[Rinv]; ring).
    split; rewrite <- (F true); [rewrite (F true), <- (F false)|]; apply B; try reflexivity; rewrite F; lra.
Qed.

(** The strings are the reverse of those that measureAll returns, where the topmost qubit comes first
    (Package.hpp:1103-1160).  Here only the basis state with number 1 (qubit 0 is 1, qubit 1 is 0) has a probability, and
    it is listed under the string of the number 2. *)
Definition dw1 : complex := CX (EP false AOne) (EP false AZero).
Definition dw0 : complex := CX (EP false AZero) (EP false AZero).
Definition dzE : dedge := DE (DP PTerm mk0) dw0.
Definition dheapOrd : dheap := fun n =>
  if Nat.eqb n 0 then DN (DE (DP (PNode 1) mk0) dw1) dzE dzE dzE 1 mk0 8 else DN dzE dzE dzE (DE (DP PTerm mk0) dw1) 0 mk0 8.
Theorem probability_order_refuted : exists (h : dheap) (e : dedge), stored h (fun n => (n < 2)%nat) /\
  match getDensityMatrix NumF davEx h e 3 with inl (_, _, m) => m 1 1 = (F1, F0) /\ m 2 2 = (F0, F0) | _ => False end /\
  match getProbVector NumF davEx h e F0 with
  | inl (inl [(t, x)]) => t = intToString 2 2 /\ t <> intToString 2 1 /\ x = F1
  | _ => False
  end.
Proof.
  exists dheapOrd, (DE (DP (PNode 0) mk0) dw1). split; [|split; vm_compute; [auto|split; [reflexivity|split; [discriminate|reflexivity]]]].
  intros n Hn. destruct n as [|[|n]]; [| |lia]; (split; [cbn; lia|]; split; [repeat split; repeat constructor|]; split; repeat constructor; try discriminate; cbn; lia).
Qed.
(** The threshold is compared before a factor is multiplied, not after the last one: with the threshold 1/2 the
    probability 1/4 is listed. *)
Definition dw2 : complex := CX (EP false (ATab 0)) (EP false AZero).
Definition dheapThr : dheap := fun n => DN (DE (DP PTerm mk0) dw2) dzE dzE (DE (DP PTerm mk0) dw1) 0 mk0 8.
Definition davThr (a : eaddr) : NumF := match a with AZero => F0 | AOne => F1 | ASqrt2 => Fsq2 | _ => SFmul 53 1024 Fhalf Fhalf end.
Theorem probability_threshold_refuted : exists (h : dheap) (e : dedge) (thr : NumF), stored h (fun n => n = 0%nat) /\
  match getProbVector NumF davThr h e thr with
  | inl (inl ((t, x) :: _)) => SFltb x thr = true
  | _ => False
  end.
Proof.
  exists dheapThr, (DE (DP (PNode 0) mk0) dw1), Fhalf. split; [|vm_compute; auto].
  intros n ->. split; [cbn; lia|]. split; [repeat split; repeat constructor|]. split; repeat constructor; discriminate.
Qed.
(** The zero matrix (terminal root) is not handled. *)
Theorem probability_terminal_refuted : exists e, forall N av h thr, getProbVector N av h e thr = inr BadShift.
Proof. exists dzE. reflexivity. Qed.

Print Assumptions probability_vector_nodes.
Print Assumptions probability_vector.
Print Assumptions probability_order_refuted.
Print Assumptions probability_threshold_refuted.
Print Assumptions probability_terminal_refuted.
