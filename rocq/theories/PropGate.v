(** Control sets, gate diagrams, edge deletion and diagram size (C30, C31, C37, C38, C46). *)
From Coq Require Import ZArith List Bool Lia Arith Reals Lra Sorted Permutation.
From Verif Require Import Num Base CTable CTableWf Cx State Pkg Control Gate Meas Inv InvL PrimL NormL MkL TrL AddL MulL CanonL IdentL StateL TraceL GateL GateAct DelL MeasL SampL Run Inst PropBase PropSem PropRefute.
Import ListNotations.
Local Open Scope Z_scope.

(** * C46 *)

(** The order on controls is a strict total order compatible with equality. *)
Theorem control_order a b c :
  ctl_ltb a a = false /\
  (ctl_ltb a b = true -> ctl_ltb b a = false) /\
  (ctl_ltb a b = true -> ctl_ltb b c = true -> ctl_ltb a c = true) /\
  (ctl_ltb a b = true \/ ctl_eqb a b = true \/ ctl_ltb b a = true) /\
  (ctl_eqb a b = true <-> ctl_ltb a b = false /\ ctl_ltb b a = false) /\
  (ctl_eqb a b = true <-> a = b).
Proof.
  assert (L: forall x y, ctl_ltb x y = true <-> cqb x < cqb y \/ cqb x = cqb y /\ cpos x = false /\ cpos y = true).
  { intros x y. unfold ctl_ltb. rewrite orb_true_iff, !andb_true_iff, negb_true_iff, Z.ltb_lt, Z.eqb_eq. reflexivity. }
  assert (F: forall x y, ctl_ltb x y = false <-> ~ (cqb x < cqb y \/ cqb x = cqb y /\ cpos x = false /\ cpos y = true)).
  { intros x y. rewrite <- L. destruct (ctl_ltb x y); split; congruence. }
  rewrite ctl_eqb_spec. destruct a as [qa pa], b as [qb pb], c as [qc pc]. rewrite !L, !F. cbn [cqb cpos].
  split; [|split; [|split; [|split; [|split; [|reflexivity]]]]].
  - intros [A|(A & B & D)]; [lia|congruence].
  - intros H [A|(A & B & D)]; [lia|]. destruct H as [H|(H1 & H2 & H3)]; [lia|congruence].
  - intros [H|(H1 & H2 & H3)] [K|(K1 & K2 & K3)]; try (left; lia). right. repeat split; auto; lia.
  - destruct (Z.lt_trichotomy qa qb) as [A|[->|A]]; auto. destruct pa, pb; auto. right. right. right. auto.
  - split.
    + intros [= -> ->]. split; intros [A|(A & B & D)]; try lia; congruence.
    + intros [H K]. assert (qa = qb) by lia. subst. f_equal. destruct pa, pb; auto; exfalso; [apply K|apply H]; auto.
Qed.

Definition clt (a b : control) : Prop := ctl_ltb a b = true.
Lemma clt_trans a b c : clt a b -> clt b c -> clt a c.
Proof. apply (control_order a b c). Qed.
Lemma insert_in x a : forall l, In x (cs_insert a l) <-> x = a \/ In x l.
Proof.
  induction l as [|b r IH]; cbn [cs_insert].
  - split; intros [H|H]; auto; try contradiction; left; auto.
  - destruct (ctl_ltb a b) eqn:E1; [|destruct (ctl_ltb b a) eqn:E2].
    + split; intros [H|H]; [left|right|left|right]; auto.
    + cbn [In]. rewrite IH. tauto.
    + assert (a = b) by (apply ctl_eqb_spec; destruct (control_order a b a) as (_ & _ & _ & _ & Q & _); apply Q; auto). subst. split; auto. intros [->|H]; auto. now left.
Qed.
Lemma insert_sorted a : forall l, StronglySorted clt l -> StronglySorted clt (cs_insert a l).
Proof.
  induction l as [|b r IH]; cbn [cs_insert]; intros S; [repeat constructor|]. inversion S as [|? ? S1 S2]; subst.
  destruct (ctl_ltb a b) eqn:E1; [constructor; auto; constructor; auto; eapply Forall_impl; [|exact S2]; intros x; now apply clt_trans|].
  destruct (ctl_ltb b a) eqn:E2; auto. constructor; auto. apply Forall_forall. intros x Hx. apply insert_in in Hx. destruct Hx as [->|Hx]; auto.
  rewrite Forall_forall in S2. auto.
Qed.

(** A control set holds exactly the controls put into it, none twice, and iterates by increasing
    qubit. *)
Theorem control_set l :
  (forall c, In c (cs_of l) <-> In c l) /\ NoDup (cs_of l) /\ StronglySorted clt (cs_of l) /\
  StronglySorted (fun a b => cqb a <= cqb b) (cs_of l).
Proof.
  assert (H: (forall c, In c (cs_of l) <-> In c l) /\ StronglySorted clt (cs_of l)).
  { unfold cs_of. assert (Gn: forall l acc, StronglySorted clt acc -> (forall c, In c (fold_left (fun s a => cs_insert a s) l acc) <-> In c acc \/ In c l) /\ StronglySorted clt (fold_left (fun s a => cs_insert a s) l acc)).
    { clear. induction l as [|a l IH]; intros acc S; cbn [fold_left In]; [split; [intuition|auto]|]. destruct (IH (cs_insert a acc) (insert_sorted a acc S)) as [A B]. split; auto.
      intros c. rewrite A, insert_in. intuition. }
    destruct (Gn l [] ltac:(constructor)) as [A B]. split; auto. intros c. rewrite A. cbn. intuition. }
  destruct H as [A B]. split; auto. split; [|split; auto].
  - clear A. induction B as [|a r S IH F]; constructor; auto. intros Hi. rewrite Forall_forall in F. specialize (F a Hi). unfold clt in F.
    rewrite (proj1 (control_order a a a)) in F. discriminate.
  - clear A. induction B as [|a r S IH F]; constructor; auto. eapply Forall_impl; [|exact F]. intros x Hx. unfold clt, ctl_ltb in Hx.
    rewrite orb_true_iff, andb_true_iff, Z.ltb_lt, Z.eqb_eq in Hx. lia.
Qed.

Lemma cs_of_in l c : In c (cs_of l) -> In c l.
Proof. apply control_set. Qed.

Example control_set_example : cs_of [Ctl 2 true; Ctl 0 false; Ctl 2 true; Ctl 1 true] = [Ctl 0 false; Ctl 1 true; Ctl 2 true].
Proof. reflexivity. Qed.

(** Each qubit has one control, and none of them is a target. *)
Definition ctl_dom (n : Z) (ts : list Z) (l : list control) : Prop :=
  (forall c, In c l -> 0 <= cqb c < n /\ ~ In (cqb c) ts) /\ (forall c d, In c l -> In d l -> cqb c = cqb d -> c = d).
Lemma ctl_dom_ok n ts l : ctl_dom n ts l -> ctlok n ts (cs_of l).
Proof.
  intros [A B]. destruct (control_set l) as (Hi & _ & S & _). split; [|intros c Hc; apply Hi in Hc; destruct (A c Hc); split; [lia|auto]].
  assert (A': forall c, In c (cs_of l) -> 0 <= cqb c) by (intros c Hc; apply Hi in Hc; apply A in Hc; lia).
  assert (B': forall c d, In c (cs_of l) -> In d (cs_of l) -> cqb c = cqb d -> c = d) by (intros c d Hc Hd; apply Hi in Hc; apply Hi in Hd; now apply B).
  clear A B Hi. assert (Gn: forall z, (forall c, In c (cs_of l) -> z <= cqb c) -> ctls z (cs_of l)); [|apply Gn; auto]. clear A'.
  induction S as [|a r S IH F]; intros z Hz; [exact Logic.I|]. cbn [ctls]. split; [apply Hz; now left|]. apply IH; [intros; apply B'; auto; now right|].
  intros c Hc. rewrite Forall_forall in F. pose proof (F c Hc) as Q. unfold clt, ctl_ltb in Q. rewrite orb_true_iff, andb_true_iff, Z.ltb_lt, Z.eqb_eq in Q.
  destruct Q as [Q|[Q1 Q2]]; [lia|]. assert (a = c) by (apply B'; auto; [now left|now right]). subst. destruct (cpos c); discriminate.
Qed.

(** * C30, C31 *)

(** The rows and columns [a] and [b] agree on all qubits but [ts]. *)
Definition agree_off (ts : list Z) (a b : list nat) : bool :=
  forallb (fun i => existsb (Z.eqb (Z.of_nat i)) ts || Nat.eqb (dig (Z.of_nat i) a) (dig (Z.of_nat i) b)) (seq 0 (length a)).
(** The matrix that applies [U] to the qubits [ts] where all controls in [cs] are satisfied and the
    identity elsewhere: entry in row [a], column [b]. *)
Definition gate_entry (cs : list control) (ts : list Z) (U : list nat -> list nat -> C) (a b : list nat) : C :=
  if agree_off ts a b
  then if forallb (fun c => Nat.eqb (dig (cqb c) b) (if cpos c then 1 else 0)) cs
       then U (map (fun t => dig t a) ts) (map (fun t => dig t b) ts)
       else if list_eq_dec Nat.eq_dec a b then C1 else C0
  else C0.

Lemma gatem_entry n cs ds ts F p : tgok n cs ts -> (forall c, In c cs <-> In c ds) -> vpath KM (n - 1) p ->
  gatem cs ts F p = gate_entry ds ts (fun x y => F (mp x y)) (rowd p) (cold p).
Proof.
  intros (Nd & Ht & Hc) Hd Vp. destruct (mp_rc (n - 1) p Vp) as (E & Vr & Vc). set (a := rowd p) in *. set (b := cold p) in *. rewrite <- E. clearbody a b. clear Vp E p.
  pose proof (InvL.vpath_len _ _ _ Vr) as La. pose proof (InvL.vpath_len _ _ _ Vc) as Lb. destruct Vr as [Va Fa], Vc as [Vb Fb]. cbn [arity] in Fa, Fb.
  assert (L: length a = length b) by lia.
  unfold gatem, gate_entry.
  assert (Ag: diagx ts (mp a b) = agree_off ts a b).
  { apply eq_true_iff_eq. unfold agree_off. rewrite diagx_iff, forallb_forall, mp_len by auto. split.
    - intros H i Hi. apply in_seq in Hi. rewrite orb_true_iff, Nat.eqb_eq. destruct (H (Z.of_nat i)) as [Q|Q]; [lia| |].
      + left. apply existsb_exists. exists (Z.of_nat i). split; auto. apply Z.eqb_refl.
      + right. rewrite dig_mp in Q by (auto; lia). pose proof (bitd a (Z.of_nat i) Fa). pose proof (bitd b (Z.of_nat i) Fb). lia.
    - intros H q Hq. specialize (H (Z.to_nat q)). rewrite orb_true_iff, Nat.eqb_eq, Z2Nat.id in H by lia. destruct H as [H|H]; [apply in_seq; lia| |].
      + left. apply existsb_exists in H. destruct H as (t & Hi & Et). apply Z.eqb_eq in Et. now subst.
      + right. rewrite dig_mp by (auto; lia). pose proof (bitd b q Fb). lia. }
  rewrite Ag. destruct (agree_off ts a b) eqn:Ea; auto.
  assert (Dq: forall c, In c cs -> dig (cqb c) a = dig (cqb c) b).
  { intros c Hi. destruct (Hc c Hi) as [A B]. unfold agree_off in Ea. rewrite forallb_forall in Ea. specialize (Ea (Z.to_nat (cqb c))).
    rewrite orb_true_iff, Nat.eqb_eq, Z2Nat.id in Ea by lia. destruct Ea as [Q|Q]; auto; [apply in_seq; lia|]. apply existsb_exists in Q. destruct Q as (t & Hi' & Et).
    apply Z.eqb_eq in Et. subst. contradiction. }
  rewrite ctl_csat by (auto; intros c Hi; pose proof (Hc c Hi) as [? ?]; split; auto; lia).
  assert (Sq: csat cs a = forallb (fun c => Nat.eqb (dig (cqb c) b) (if cpos c then 1 else 0)) ds).
  { apply eq_true_iff_eq. unfold csat. rewrite !forallb_forall. split; intros H c Hi; [apply Hd in Hi; rewrite <- Dq by auto; auto|rewrite Dq by auto; apply Hd in Hi; auto]. }
  rewrite <- Sq. change (map (fun t => dig t (mp a b)) ts) with (digs ts (mp a b)). rewrite mp_digs by (auto; intros t Hi; specialize (Ht t Hi); lia).
  destruct (csat cs a); auto. rewrite <- idm_mp by auto. rewrite <- mp_digs by (auto; intros t Hi; specialize (Ht t Hi); lia).
  rewrite (idm_split ts (mp a b)), Ag; auto. intros t Hi. rewrite mp_len by auto. specialize (Ht t Hi). lia.
Qed.

Section GateP.
Context (g : cfg R0) (nb : kind -> Z) (G : gok g).
Local Notation X := (XR g G).
Local Notation entry := (entry g G).
Local Notation reachedR := (reachedR g nb G).
Local Notation unchanged := (unchanged g G).
Local Notation co := (co R0).
Local Notation gives := (gives g nb G).

(** Number [i] of a list of complex numbers. *)
Definition num_at (l : list (R0 * R0)) (i : nat) : C := nth i l (0%R, 0%R).

Lemma Cv2R (z : R0 * R0) : Cv2 R0 g X z = z.
Proof. now destruct z. Qed.

Theorem gate_diagram nq s V D mat n cs t : reachedR nq s V D -> length mat = 4%nat -> 0 <= t < n -> n <= nq -> n <= 128 -> ctl_dom n [t] cs ->
  exists r s', makeGateDD R0 g nb mat n (cs_of cs) t 0 s = Ok r s' /\
    gives nq V D s KM (n - 1) r s' (fun p => gate_entry cs [t] (fun x y => num_at mat (2 * nth 0 x 0 + nth 0 y 0)%nat) (rowd p) (cold p)).
Proof.
  intros H Lm Ht Hn H1 Hc. pose proof (ctl_dom_ok _ _ _ Hc) as Ok. destruct (reached_inv _ _ _ _ _ _ _ H) as (I & Ow & Q).
  eapply gives_push; [exact H|apply (d_gate (X:=X) nq D mat n (cs_of cs) t); auto|reflexivity|apply al0_1|].
  eapply wp_mono; [apply (makeGateDD_sp (g:=g) (nb:=nb) (X:=X) G mat n (cs_of cs) t s []); auto; lia|].
  intros r s' (S' & O' & T' & V'). split; auto. intros p Vp. rewrite V' by (auto; exact Logic.I).
  rewrite (gatem_entry n (cs_of cs) cs); auto; [| |apply control_set].
  - unfold gate_entry. cbn [map mp nth]. destruct (agree_off _ _ _); auto. match goal with |- (if ?b then _ else _) = _ => destruct b end; auto. apply Cv2R.
  - split; [repeat constructor; cbn; tauto|]. split; [intros x [<-|[]]; lia|]. intros c Hi. apply cs_of_in in Hi. apply Hc in Hi. exact Hi.
Qed.

(** For up to 127 qubits; see [two_qubit_gate_128_refuted]. *)
Theorem two_qubit_gate_diagram_partial nq s V D mat n t0 t1 : reachedR nq s V D -> length mat = 4%nat -> (forall row, In row mat -> length row = 4%nat) ->
  0 <= t0 < n -> 0 <= t1 < n -> t0 <> t1 -> n <= nq -> n <= 127 ->
  exists r s', makeTwoQubitGateDD R0 g nb mat n t0 t1 0 s = Ok r s' /\
    gives nq V D s KM (n - 1) r s' (fun p => gate_entry [] [t0; t1]
      (fun x y => num_at (nth (2 * nth 0 x 0 + nth 1 x 0) mat [])%nat (2 * nth 0 y 0 + nth 1 y 0)%nat) (rowd p) (cold p)).
Proof.
  intros H Lm Lr H0 H1 Ne Hn Hm. destruct (reached_inv _ _ _ _ _ _ _ H) as (I & Ow & Q).
  eapply gives_push; [exact H|apply (d_two (X:=X) nq D mat n t0 t1); auto|reflexivity|apply al0_1|].
  eapply wp_mono; [apply (makeTwoQubitGateDD_sp (g:=g) (nb:=nb) (X:=X) G mat n t0 t1 s []); auto; lia|].
  intros r s' (S' & O' & T' & V'). split; auto. intros p Vp. rewrite V' by (auto; exact Logic.I).
  rewrite (gatem_entry n [] []); auto; [| |tauto].
  - unfold gate_entry. destruct (agree_off _ _ _); auto. cbn [forallb map mp]. destruct (mp_rc (n - 1) p Vp) as (_ & Vr & Vc). unfold num_at, mentry, ridx, cidx. cbn [map nth].
    pose proof (bitd _ t0 (proj2 Vc)). pose proof (bitd _ t1 (proj2 Vc)).
    assert (Dv: forall x y, (y < 2)%nat -> ((2 * x + y) / 2 = x /\ (2 * x + y) mod 2 = y)%nat).
    { intros x y Hy. split; [symmetry; apply (Nat.div_unique _ 2 x y); lia|symmetry; apply (Nat.mod_unique _ 2 x y); lia]. }
    destruct (Dv (dig t0 (rowd p)) (dig t0 (cold p)) ltac:(auto)) as [-> ->]. destruct (Dv (dig t1 (rowd p)) (dig t1 (cold p)) ltac:(auto)) as [-> ->].
    cbn [vidx length Nat.pow]. rewrite !Nat.mul_1_r, !Nat.add_0_r, !(Nat.mul_comm _ 2). apply Cv2R.
  - split; [repeat constructor; cbn; [intros [->|[]]; congruence|tauto]|]. split; [intros x [<-|[<-|[]]]; lia|]. intros c [].
Qed.

(** Applying a gate to a state: the amplitude of index [a] is unchanged where a control is not
    satisfied, and else combines the amplitudes of the two indices that differ from [a] at most in the target. *)
Theorem gate_application nq s V D mat n cs t x : reachedR nq s V D -> length mat = 4%nat -> 0 <= t < n -> n <= 128 -> ctl_dom n [t] cs -> usr V D KV (n - 1) x ->
  exists m s1 r s2, makeGateDD R0 g nb mat n (cs_of cs) t 0 s = Ok m s1 /\ multiply R0 g nb KV m x 0 s1 = Ok r s2 /\
    (forall p, vpath KV (n - 1) p -> entry s2 KV r p =
       if forallb (fun c => Nat.eqb (dig (cqb c) p) (if cpos c then 1 else 0)) cs
       then (num_at mat (2 * dig t p) * entry s KV x (setd t 0 p) + num_at mat (2 * dig t p + 1) * entry s KV x (setd t 1 p))%C
       else entry s KV x p) /\
    unchanged V D s s2.
Proof.
  intros H Lm Ht H1 Hc Hx. destruct (usr_t _ _ _ _ _ _ _ _ _ _ H Hx) as [Lq Tx]. destruct (reached_inv _ _ _ _ _ _ _ H) as (I & Ow & Q).
  destruct (gate_diagram nq s V D mat n cs t H Lm Ht ltac:(lia) H1 Hc) as (m & s1 & E1 & (f0 & R1) & F1 & U1).
  assert (LD: length D = length V) by (eapply reached_len; eauto).
  assert (Um: usr (V ++ [m]) (D ++ [dnew KM (n - 1) f0]) KM (n - 1) m) by now apply usr_new.
  assert (Ux: usr (V ++ [m]) (D ++ [dnew KM (n - 1) f0]) KV (n - 1) x) by (eapply usr_app; eauto).
  destruct (multiply_is_matrix_vector_product g nb G nq s1 _ _ (n - 1) m x R1 Um Ux) as (r & s2 & E2 & (f1 & R2) & F2 & U2).
  exists m, s1, r, s2. split; auto. split; auto. split.
  - intros p Vp. rewrite F2 by auto. pose proof (ctl_dom_ok _ _ _ Hc) as Ok.
    set (F := fun ds => num_at mat (nth 0 ds 0%nat)).
    assert (T: tgok n (cs_of cs) [t]).
    { split; [repeat constructor; cbn; tauto|]. split; [intros z [<-|[]]; lia|]. intros c Hi. apply cs_of_in in Hi. apply Hc in Hi. exact Hi. }
    assert (Lp: Z.of_nat (length p) = n) by (destruct Vp; lia).
    transitivity (Csum (fun b => (gatem (cs_of cs) [t] F (mp p b) * entry s KV x b)%C) (bits (Z.to_nat n))).
    + replace (length p) with (Z.to_nat n) by lia. apply Csum_ext. intros b Hb. assert (Vb: vpath KV (n - 1) b) by (apply bits_vpath; [lia|now replace (n - 1 + 1) with n by lia]).
      rewrite F1 by (apply vpath_mp; auto). rewrite (U1 KV (n - 1) x) by auto. f_equal. symmetry. rewrite (gatem_entry n (cs_of cs) cs); [|exact T|apply control_set|apply vpath_mp; auto].
      unfold gate_entry. cbn [map mp nth]. reflexivity.
    + replace (Z.to_nat n) with (length p) by lia. rewrite (gate_act n (cs_of cs) [t] F (entry s KV x) p) by (auto; apply Vp).
      replace (forallb _ cs) with (csat (cs_of cs) p).
      2:{ apply eq_true_iff_eq. unfold csat. rewrite !forallb_forall. split; intros Hf c Hi; apply Hf; now apply control_set. }
      destruct (csat (cs_of cs) p); auto. unfold Csum, F. cbn [length bits map app fold_right digs mp nth setds]. rewrite Nat.add_0_r. ring.
  - intros k l e U p Vp. rewrite (U2 k l e) by (auto; eapply usr_app; eauto). now apply (U1 k l e).
Qed.

(** * C37 *)
Theorem deleteEdge_zeroes_slice nq s V D k l x v i : reachedR nq s V D -> usr V D k l x ->
  exists r s', deleteEdge R0 g nb k x v i s = Ok r s' /\
    gives nq V D s k l r s' (fun p => if (0 <=? v) && (v <=? l) && Nat.eqb (dig v p) i then C0 else entry s k x p).
Proof.
  intros H Hx. destruct (usr_t _ _ _ _ _ _ _ _ _ _ H Hx) as [L Tx].
  destruct Hx as (j & a & Lj & <-). destruct (reached_inv _ _ _ _ _ _ _ H) as (I & Ow & Q).
  eapply gives_push; [exact H|apply (d_del (X:=X) nq D k l j a v i); auto|reflexivity|apply al0_1|].
  eapply wp_mono; [apply (deleteEdge_sp (g:=g) (nb:=nb) (X:=X) G k v i l s []); auto; lia|].
  intros r s' (S' & O' & T' & V'). split; auto. intros p Vp. rewrite V' by (auto; exact Logic.I). unfold cut.
  replace (v <? Z.of_nat (length p)) with (v <=? l); [reflexivity|]. destruct Vp as [Lp _]. apply eq_true_iff_eq. rewrite Z.leb_le, Z.ltb_lt. lia.
Qed.

End GateP.

(** * C38 *)
(** Holds for any number system, the doubles included. *)
Section SizeP.
Context {N : num} (g : cfg N) (nb : kind -> Z) (X : numx N (g_ct g)) (G : gok g).
(** The nodes reachable from [p], the terminal included. *)
Inductive reachable (s : st N) (k : kind) : nptr -> nptr -> Prop :=
  | re_self p : reachable s k p p
  | re_child n i e p : nth_error (ne (nod s k n)) i = Some e -> reachable s k (ep e) p -> reachable s k (PNode n) p.

Theorem size_counts_nodes nq s V D k l x : reached (g:=g) (nb:=nb) (X:=X) nq s V D -> usr V D k l x ->
  exists ps, NoDup ps /\ (forall p, In p ps <-> reachable s k (ep x) p) /\
    size N k x s = Ok (Z.of_nat (length ps) mod 2 ^ 32) s.
Proof.
  intros H (i & f & Lv & <-). pose proof (reached_sim G _ _ _ _ H) as S. destruct (sim_live _ _ _ _ _ _ _ _ _ S Lv) as (L & Tx & _). pose proof S as [Q I _ _ _].
  destruct (size_sp (g:=g) (nb:=nb) (X:=X) s k l (var V i)) as (ps & E & Nd & Hi); auto; [lia|]. exists ps. split; auto. split; auto.
  intros p. rewrite Hi. clear. split; intros R.
  - induction R as [|n e p Hin R IH]; [constructor|]. apply In_nth_error in Hin. destruct Hin as [j Hin]. econstructor; eauto.
  - induction R as [|n j e p Hin R IH]; [constructor|]. apply nth_error_In in Hin. econstructor; eauto.
Qed.
End SizeP.

(** * Examples on the sample state of PropBase: (1, i, 2, 0) and [[1, 2], [3i, 4]] *)

Definition matX : list (R0 * R0) := [(0, 0); (1, 0); (1, 0); (0, 0)]%R.
Lemma ctl_dom_one n t q p : 0 <= q < n -> q <> t -> ctl_dom n [t] [Ctl q p].
Proof. intros H Ne. split; [intros c [<-|[]]; cbn; split; auto; intros [E|[]]; congruence|]. intros c d [<-|[]] [<-|[]] _; auto. Qed.
(** X on qubit 1 controlled by qubit 0 moves the amplitude i from |01> to |11>. *)
Example gate_application_example : exists s V m s1 r s2, reachedR gR nbdef GR 3 s V D0 /\
  makeGateDD R0 gR nbdef matX 2 (cs_of [Ctl 0 true]) 1 0 s = Ok m s1 /\ multiply R0 gR nbdef KV m (var V 1) 0 s1 = Ok r s2 /\
  entry gR GR s2 KV r [1; 1]%nat = (0, 1)%R /\ entry gR GR s2 KV r [1; 0]%nat = (2, 0)%R.
Proof.
  destruct reached0 as (s & V & H).
  destruct (gate_application gR nbdef GR 3 s V D0 matX 2 [Ctl 0 true] 1 (var V 1) H) as (m & s1 & r & s2 & E1 & E2 & F & _); [reflexivity|lia|lia|apply ctl_dom_one; lia|apply usr0_v|].
  exists s, V, m, s1, r, s2. split; auto. split; auto. split; auto. split; rewrite F by vp; unfold dig; change (Z.to_nat 1) with 1%nat; cbn [forallb cqb cpos Z.to_nat length Nat.sub nth Nat.eqb andb setd Z.eqb Z.of_nat Pos.of_succ_nat Pos.eqb]; vals; unfold num_at, matX; cval.
Qed.
(** The matrix of X on qubit 1 controlled by a zero in qubit 0. *)
Example gate_diagram_example : exists s V r s', reachedR gR nbdef GR 3 s V D0 /\
  makeGateDD R0 gR nbdef matX 2 (cs_of [Ctl 0 false]) 1 0 s = Ok r s' /\
  entry gR GR s' KM r [1; 0]%nat = C1 /\ entry gR GR s' KM r [0; 3]%nat = C1 /\ entry gR GR s' KM r [1; 3]%nat = C0.
Proof.
  destruct reached0 as (s & V & H).
  destruct (gate_diagram gR nbdef GR 3 s V D0 matX 2 [Ctl 0 false] 1 H) as (r & s' & E & _ & F & _); [reflexivity|lia|lia|lia|apply ctl_dom_one; lia|].
  exists s, V, r, s'. split; auto. split; auto. repeat split; rewrite F by vp; reflexivity.
Qed.
(** X on the second target controlled by the first: the first target is qubit 0. *)
Definition matCX : list (list (R0 * R0)) := [[(1, 0); (0, 0); (0, 0); (0, 0)]; [(0, 0); (1, 0); (0, 0); (0, 0)]; [(0, 0); (0, 0); (0, 0); (1, 0)]; [(0, 0); (0, 0); (1, 0); (0, 0)]]%R.
Example two_qubit_gate_diagram_partial_example : exists s V r s', reachedR gR nbdef GR 3 s V D0 /\
  makeTwoQubitGateDD R0 gR nbdef matCX 2 0 1 0 s = Ok r s' /\
  entry gR GR s' KM r [1; 3]%nat = C1 /\ entry gR GR s' KM r [0; 0]%nat = C1 /\ entry gR GR s' KM r [3; 1]%nat = C0.
Proof.
  destruct reached0 as (s & V & H).
  destruct (two_qubit_gate_diagram_partial gR nbdef GR 3 s V D0 matCX 2 0 1 H) as (r & s' & E & _ & F & _); [reflexivity| |lia|lia|lia|lia|lia|].
  { intros row [<-|[<-|[<-|[<-|[]]]]]; reflexivity. }
  exists s, V, r, s'. split; auto. split; auto. repeat split; rewrite F by vp; reflexivity.
Qed.
(** Without the branch 0 of qubit 0 the vector (1, i, 2, 0) is (0, i, 0, 0). *)
Example deleteEdge_example : exists s V r s', reachedR gR nbdef GR 3 s V D0 /\
  deleteEdge R0 gR nbdef KV (var V 1) 0 0 s = Ok r s' /\
  entry gR GR s' KV r [0; 1]%nat = (0, 1)%R /\ entry gR GR s' KV r [1; 0]%nat = C0 /\ entry gR GR s' KV r [0; 0]%nat = C0.
Proof.
  destruct reached0 as (s & V & H).
  destruct (deleteEdge_zeroes_slice gR nbdef GR 3 s V D0 KV 1 (var V 1) 0 0 H (usr0_v V)) as (r & s' & E & _ & F & _).
  exists s, V, r, s'. split; auto. split; auto. repeat split; rewrite F by vp; cbn; vals; cval.
Qed.
(** The state (|00> + |11>) / sqrt 2 up to its norm has three nodes and the terminal. *)
Definition bell : list (NumF * NumF) := [(F1, F0); (F0, F0); (F0, F0); (F1, F0)].
Definition prog_size : list (ins NumF) := [IVec bell].
Definition bellF : list nat -> C := fun p => Cv2 NumF gF (numG NumF _ saneF) (nth (vidx p) bell (n0, n0)).
Example size_example : match run NumF gF nbdef prog_size [] (pkg_init NumF gF 2) with
  | Ok (V, _) s => reached (g:=gF) (nb:=nbdef) (X:=numG NumF _ saneF) 2 s V [dnew KV 1 (Some bellF)] /\ usr V [dnew KV 1 (Some bellF)] KV 1 (var V 0)
  | _ => False
  end /\
  match run NumF gF nbdef prog_size [] (pkg_init NumF gF 2) with
  | Ok (V, _) s => match size NumF KV (var V 0) s with Ok z _ => z = 4 | _ => False end
  | _ => False
  end.
Proof.
  assert (W: match run NumF gF nbdef prog_size [] (pkg_init NumF gF 2) with Ok _ _ => True | _ => False end) by (vm_compute; exact Logic.I).
  split; [|vm_compute; reflexivity].
  assert (Dr: druns (N:=NumF) (g:=gF) (X:=numG NumF _ saneF) 2 [] prog_size [dnew KV 1 (Some bellF)] ([] ++ [])).
  { eapply dr_cons; [apply (d_vec (N:=NumF) 2 [] 2); [reflexivity|cbn; lia]|]. apply dr_nil. }
  revert W. destruct (run NumF gF nbdef prog_size [] (pkg_init NumF gF 2)) as [[V o] s| |] eqn:E; intros W; [|exact W|exact W].
  split.
  - exact (proj1 (reached_run (gdef_ok NumF) 2 prog_size _ _ _ _ _ _ _ _ (rc_init 2 ltac:(lia) nbdef_pos) Dr E)).
  - exists 0%nat, (Some bellF). split; [exists 0%nat; reflexivity|reflexivity].
Qed.

(** * Where the claims end *)

(** C30 needs one control per qubit: for a set with both signs on one qubit only the first in the
    order takes effect, and the iterator never moves past the second (Package.hpp:505-518).
    No index satisfies both controls, yet |00> goes to |10>. *)
Definition matXF : list (NumF * NumF) := [(F0, F0); (F1, F0); (F1, F0); (F0, F0)].
Theorem gate_contradictory_controls_refuted : exists V s m,
  run NumF gF nbdef [IGate matXF 2 (cs_of [Ctl 0 true; Ctl 0 false]) 1; IGetMat 0] [] (pkg_init NumF gF 2) = Ok (V, [OM m]) s /\
  mentry m 2 0 = (F1, F0) /\ mentry m 0 0 = (F0, F0).
Proof.
  destruct (watch_outs 2 [IGate matXF 2 (cs_of [Ctl 0 true; Ctl 0 false]) 1; IGetMat 0] [@OM NumF [[(F0, F0); (F0, F0); (F1, F0); (F0, F0)]; [(F0, F0); (F1, F0); (F0, F0); (F0, F0)]; [(F1, F0); (F0, F0); (F0, F0); (F0, F0)]; [(F0, F0); (F0, F0); (F0, F0); (F1, F0)]]]) as (V & s & E); [vm_compute; reflexivity|].
  eexists V, s, _. split; [exact E|]. split; reflexivity.
Qed.
(** Nor may a control be on the target: the iterator stops there and the controls above are ignored.
    X on qubit 0 controlled by qubits 0 and 1 exchanges |00> and |01> although qubit 1 is 0. *)
Theorem gate_control_on_target_refuted : exists V s m,
  run NumF gF nbdef [IGate matXF 2 (cs_of [Ctl 0 true; Ctl 1 true]) 0; IGetMat 0] [] (pkg_init NumF gF 2) = Ok (V, [OM m]) s /\
  mentry m 1 0 = (F1, F0) /\ mentry m 0 0 = (F0, F0).
Proof.
  destruct (watch_outs 2 [IGate matXF 2 (cs_of [Ctl 0 true; Ctl 1 true]) 0; IGetMat 0] [@OM NumF [[(F0, F0); (F1, F0); (F0, F0); (F0, F0)]; [(F1, F0); (F0, F0); (F0, F0); (F0, F0)]; [(F0, F0); (F0, F0); (F0, F0); (F1, F0)]; [(F0, F0); (F0, F0); (F1, F0); (F0, F0)]]]) as (V & s & E); [vm_compute; reflexivity|].
  eexists V, s, _. split; [exact E|]. split; reflexivity.
Qed.
(** C31 fails for 128 qubits, which the package supports (Package.hpp:91): n does not fit into a
    Qubit, so no line above the larger target is built (621) and the result covers two qubits only. *)
Definition matCXF : list (list (NumF * NumF)) := [[(F1, F0); (F0, F0); (F0, F0); (F0, F0)]; [(F0, F0); (F1, F0); (F0, F0); (F0, F0)]; [(F0, F0); (F0, F0); (F0, F0); (F1, F0)]; [(F0, F0); (F0, F0); (F1, F0); (F0, F0)]].
Theorem two_qubit_gate_128_refuted :
  match run NumF gF nbdef [ITwo matCXF 128 0 1] [] (pkg_init NumF gF 128) with
  | Ok (V, _) s => lvl s KM (ep (var V 0)) = 1
  | _ => False
  end /\
  match run NumF gF nbdef [ITwo matCXF 127 0 1] [] (pkg_init NumF gF 128) with
  | Ok (V, _) s => lvl s KM (ep (var V 0)) = 126
  | _ => False
  end.
Proof. split; vm_compute; reflexivity. Qed.

Print Assumptions control_order.
Print Assumptions control_set.
Print Assumptions gate_diagram.
Print Assumptions two_qubit_gate_diagram_partial.
Print Assumptions gate_application.
Print Assumptions deleteEdge_zeroes_slice.
Print Assumptions size_counts_nodes.
Print Assumptions gate_contradictory_controls_refuted.
Print Assumptions gate_control_on_target_refuted.
Print Assumptions two_qubit_gate_128_refuted.
