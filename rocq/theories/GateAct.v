(** How a gate matrix acts: on vectors, on other gate matrices, and under additional controls. *)
From Coq Require Import ZArith List Bool Lia Arith Reals Lra Permutation.
From Verif Require Import Num Base CTable CTableWf Cx State Pkg Control Gate Inv InvL TraceL GateL.
Import ListNotations.
Local Open Scope Z_scope.

(** Digit [t] of an index set to [c]. *)
Fixpoint setd (t : Z) (c : nat) (p : list nat) : list nat :=
  match p with
  | [] => []
  | i :: r => if t =? Z.of_nat (length r) then c :: r else i :: setd t c r
  end.
(** The digits [ts] set to [ds]. *)
Fixpoint setds (ts : list Z) (ds p : list nat) : list nat :=
  match ts, ds with
  | t :: ts, d :: ds => setd t d (setds ts ds p)
  | _, _ => p
  end.
(** The bits of a vector index satisfy the controls. *)
Definition csat (cs : list control) (p : list nat) : bool :=
  forallb (fun c => Nat.eqb (dig (cqb c) p) (if cpos c then 1 else 0)) cs.
Definition digs (ts : list Z) (p : list nat) : list nat := map (fun t => dig t p) ts.

Lemma setd_len t c p : length (setd t c p) = length p.
Proof. induction p; cbn [setd]; auto. destruct (_ =? _); cbn [length]; auto. Qed.
Lemma setds_len ts : forall ds p, length (setds ts ds p) = length p.
Proof. induction ts; intros [|d ds] p; cbn [setds]; auto. now rewrite setd_len. Qed.
Lemma dig_setd t c q p : 0 <= t < Z.of_nat (length p) -> 0 <= q < Z.of_nat (length p) -> dig q (setd t c p) = if q =? t then c else dig q p.
Proof.
  induction p as [|i p IH]; cbn [length setd]; intros Ht Hq; [lia|]. destruct (Z.eqb_spec t (Z.of_nat (length p))) as [->|Nt].
  - rewrite !dig_cons by lia. destruct (q =? Z.of_nat (length p)); reflexivity.
  - rewrite !dig_cons by (rewrite ?setd_len; lia). rewrite setd_len. destruct (Z.eqb_spec q (Z.of_nat (length p))) as [->|Nq].
    + destruct (Z.eqb_spec (Z.of_nat (length p)) t); [lia|reflexivity].
    + apply IH; lia.
Qed.
Lemma dig_setds_out ts : forall ds q p, (forall t, In t ts -> 0 <= t < Z.of_nat (length p)) -> 0 <= q < Z.of_nat (length p) -> ~ In q ts ->
  dig q (setds ts ds p) = dig q p.
Proof.
  induction ts as [|t ts IH]; intros [|d ds] q p H Hq Hn; cbn [setds]; auto. rewrite dig_setd by (rewrite setds_len; auto; apply H; now left).
  destruct (Z.eqb_spec q t) as [->|]; [exfalso; apply Hn; now left|]. apply IH; auto. intros; apply H; now right. intros ?; apply Hn; now right.
Qed.
Lemma digs_setds ts : forall ds p, NoDup ts -> (forall t, In t ts -> 0 <= t < Z.of_nat (length p)) -> length ds = length ts -> digs ts (setds ts ds p) = ds.
Proof.
  induction ts as [|t ts IH]; intros [|d ds] p Nd H L; cbn [length] in L; try lia; auto. inversion Nd as [|? ? Nt Nd']; subst. unfold digs. cbn [map setds].
  rewrite dig_setd, Z.eqb_refl by (rewrite setds_len; apply H; now left). f_equal. transitivity (digs ts (setds ts ds p)); [|apply IH; auto; intros; apply H; now right].
  apply map_ext_in. intros q Hq. rewrite dig_setd; rewrite ?setds_len; [|apply H; now left|apply H; now right].
  destruct (Z.eqb_spec q t) as [->|]; [contradiction|reflexivity].
Qed.
Lemma dig_ext : forall p q, length p = length q -> (forall i, 0 <= i < Z.of_nat (length p) -> dig i p = dig i q) -> p = q.
Proof.
  induction p as [|i p IH]; intros [|j q] L H; cbn [length] in L; try lia; auto. f_equal.
  - specialize (H (Z.of_nat (length p))). cbn [length] in H. rewrite !dig_cons in H by lia. rewrite Z.eqb_refl in H. replace (Z.of_nat (length p) =? Z.of_nat (length q)) with true in H by (symmetry; apply Z.eqb_eq; lia). apply H. lia.
  - apply IH; [lia|]. intros k Hk. specialize (H k). cbn [length] in H. rewrite !dig_cons in H by lia.
    replace (k =? Z.of_nat (length p)) with false in H by (symmetry; apply Z.eqb_neq; lia). replace (k =? Z.of_nat (length q)) with false in H by (symmetry; apply Z.eqb_neq; lia). apply H. lia.
Qed.
Lemma mp_len : forall a b, length a = length b -> length (mp a b) = length a.
Proof. induction a; intros [|y b] L; cbn [length mp] in *; try lia. rewrite IHa; lia. Qed.
Lemma dig_mp q : forall a b, length a = length b -> 0 <= q < Z.of_nat (length a) -> dig q (mp a b) = (2 * dig q a + dig q b)%nat.
Proof.
  induction a as [|x a IH]; intros [|y b] L H; cbn [length] in L, H; try lia. cbn [mp]. assert (La: length a = length b) by lia. rewrite !dig_cons by (rewrite ?mp_len; lia).
  rewrite mp_len by auto. rewrite <- La. destruct (q =? _) eqn:E; auto. apply IH; auto. apply Z.eqb_neq in E. lia.
Qed.
Lemma mp_digs ts a b : length a = length b -> (forall t, In t ts -> 0 <= t < Z.of_nat (length a)) -> digs ts (mp a b) = mp (digs ts a) (digs ts b).
Proof.
  intros L H. unfold digs. induction ts as [|t ts IH]; auto. cbn [map mp]. rewrite dig_mp by (auto; apply H; now left). f_equal. apply IH. intros; apply H; now right.
Qed.
Lemma bitd p q : Forall (fun i => (i < 2)%nat) p -> (dig q p < 2)%nat.
Proof. intros F. unfold dig. rewrite Forall_forall in F. destruct (Nat.lt_ge_cases (length p - 1 - Z.to_nat q) (length p)); [apply F; now apply nth_In|rewrite nth_overflow; auto]. Qed.
Lemma bits_all : forall n p, length p = n -> Forall (fun i => (i < 2)%nat) p -> In p (bits n).
Proof.
  induction n as [|n IH]; intros [|i p] L F; cbn [length] in L; try lia; cbn; auto. inversion F; subst. apply in_or_app.
  assert (i = 0 \/ i = 1)%nat as [-> | ->] by lia; [left|right]; apply in_map; apply IH; auto.
Qed.
Lemma bits_nodup n : NoDup (bits n).
Proof.
  induction n as [|n IH]; cbn; [repeat constructor; auto|].
  assert (M: forall i, NoDup (map (cons i) (bits n))) by (intros i; apply FinFun.Injective_map_NoDup; auto; intros a b E; congruence).
  revert M. generalize (bits n). intros l M. assert (D: forall x, In x (map (cons 0%nat) l) -> ~ In x (map (cons 1%nat) l)).
  { intros x A B. apply in_map_iff in A, B. destruct A as (a & <- & _), B as (b & E & _). discriminate. }
  generalize (M 0%nat) (M 1%nat) D. generalize (map (cons 0%nat) l) (map (cons 1%nat) l). clear. induction l as [|x l IH]; cbn; auto. intros r Hl Hr D. inversion Hl; subst. constructor.
  - intros A. apply in_app_or in A. destruct A; [contradiction|]. apply (D x); auto.
  - apply IH; auto.
Qed.
Lemma setd_bits t c p : (c < 2)%nat -> Forall (fun i => (i < 2)%nat) p -> Forall (fun i => (i < 2)%nat) (setd t c p).
Proof. induction p; intros Hc F; cbn [setd]; auto. inversion F; subst. destruct (_ =? _); constructor; auto. Qed.
Lemma setds_bits ts : forall ds p, Forall (fun i => (i < 2)%nat) ds -> Forall (fun i => (i < 2)%nat) p -> Forall (fun i => (i < 2)%nat) (setds ts ds p).
Proof. induction ts; intros [|d ds] p Fd F; cbn [setds]; auto. inversion Fd; subst. apply setd_bits; auto. Qed.

(** A sum of which all terms outside [u] vanish. *)
Lemma Csum_in {A} (dec : forall x y : A, {x = y} + {x <> y}) (f : A -> C) (u l : list A) : NoDup l -> NoDup u -> incl u l -> (forall x, In x l -> ~ In x u -> f x = C0) -> Csum f l = Csum f u.
Proof.
  revert u. induction l as [|x l IH]; intros u Nl Nu Iu Z.
  - destruct u as [|y u]; auto. destruct (Iu y (or_introl eq_refl)).
  - inversion Nl; subst. cbn [Csum]. assert (D: In x u \/ ~ In x u).
    { destruct (in_dec dec x u); auto. }
    destruct D as [D|D].
    + apply in_split in D. destruct D as (u1 & u2 & ->). rewrite Csum_app. cbn [Csum]. rewrite (IH (u1 ++ u2)); auto.
      * rewrite Csum_app. ring.
      * now apply NoDup_remove_1 in Nu.
      * intros y Hy. assert (Q: In y (u1 ++ x :: u2)) by (apply in_app_or in Hy; apply in_or_app; cbn; tauto). apply Iu in Q. destruct Q as [<-|]; auto. apply NoDup_remove_2 in Nu. contradiction.
      * intros y Hy Hn. apply Z; [now right|]. intros Q. apply in_app_or in Q. destruct Q as [Q|[<-|Q]]; [apply Hn, in_or_app; auto|contradiction|apply Hn, in_or_app; auto].
    + rewrite Z; [|now left|auto]. rewrite (IH u); auto; [ring| |]. intros y Hy. destruct (Iu y Hy) as [<-|]; auto; contradiction. intros y Hy. apply Z. now right.
Qed.

Lemma ctl_csat cs : forall a b, length a = length b -> Forall (fun i => (i < 2)%nat) a -> Forall (fun i => (i < 2)%nat) b ->
  (forall c, In c cs -> 0 <= cqb c < Z.of_nat (length a) /\ dig (cqb c) a = dig (cqb c) b) -> ctl_sat cs (mp a b) = csat cs a.
Proof.
  intros a b L Fa Fb H. unfold ctl_sat, csat. induction cs as [|c cs IH]; auto. cbn [forallb]. rewrite IH by (intros; apply H; now right). f_equal.
  destruct (H c (or_introl eq_refl)) as [R E]. rewrite dig_mp, <- E by auto. pose proof (bitd a (cqb c) Fa) as B.
  destruct (cpos c); assert (dig (cqb c) a = 0 \/ dig (cqb c) a = 1)%nat as [-> | ->] by lia; reflexivity.
Qed.
Lemma idm_mp : forall a b, length a = length b -> Forall (fun i => (i < 2)%nat) a -> Forall (fun i => (i < 2)%nat) b -> idm (mp a b) = if list_eq_dec Nat.eq_dec a b then C1 else C0.
Proof.
  induction a as [|x a IH]; intros [|y b] L Fa Fb; cbn [length] in L; try lia.
  - reflexivity.
  - inversion Fa; subst. inversion Fb; subst. cbn [mp]. rewrite idm_cons, IH by (auto; lia).
    destruct (list_eq_dec Nat.eq_dec a b) as [->|Ne], (list_eq_dec Nat.eq_dec (x :: _) (y :: b)) as [E|E]; try congruence; [| |ring].
    + injection E as ->. assert (y = 0 \/ y = 1)%nat as [-> | ->] by lia; cbn; ring.
    + assert (x <> y) by congruence. assert (x = 0 /\ y = 1 \/ x = 1 /\ y = 0)%nat as [[-> ->] | [-> ->]] by lia; cbn; ring.
Qed.

(** Controls and targets of a gate on [n] qubits. *)
Definition tgok (n : Z) (cs : list control) (ts : list Z) : Prop :=
  NoDup ts /\ (forall t, In t ts -> 0 <= t < n) /\ (forall c, In c cs -> 0 <= cqb c < n /\ ~ In (cqb c) ts).

Lemma diagx_setds n cs ts a b : tgok n cs ts -> Z.of_nat (length a) = n -> length a = length b -> Forall (fun i => (i < 2)%nat) a -> Forall (fun i => (i < 2)%nat) b ->
  diagx ts (mp a b) = true -> b = setds ts (digs ts b) a.
Proof.
  intros (Nd & Ht & Hc) La L Fa Fb D. rewrite diagx_iff in D. rewrite mp_len in D by auto. apply dig_ext; [now rewrite setds_len|]. intros q Hq.
  destruct (in_dec Z.eq_dec q ts) as [I|I].
  - assert (E: digs ts (setds ts (digs ts b) a) = digs ts b) by (apply digs_setds; auto; [intros t Q; rewrite La; auto|unfold digs; now rewrite map_length]).
    revert E. generalize (setds ts (digs ts b) a). intros z E. unfold digs in E. clear - I E. induction ts as [|t ts IH]; [destruct I|]. cbn [map] in E. injection E as E1 E2. destruct I as [<-|I]; auto.
  - rewrite dig_setds_out by (rewrite ?La; auto; lia). destruct (D q ltac:(lia)) as [?|A]; [contradiction|]. rewrite dig_mp in A by (auto; lia).
    pose proof (bitd a q Fa). pose proof (bitd b q Fb). lia.
Qed.
Lemma setds_diagx n cs ts ds a : tgok n cs ts -> Z.of_nat (length a) = n -> Forall (fun i => (i < 2)%nat) a -> diagx ts (mp a (setds ts ds a)) = true.
Proof.
  intros (Nd & Ht & Hc) La Fa. apply diagx_iff. rewrite mp_len by now rewrite setds_len. intros q Hq. destruct (in_dec Z.eq_dec q ts) as [I|I]; auto. right.
  rewrite dig_mp by (rewrite ?setds_len; auto). rewrite dig_setds_out by (rewrite ?La; auto; lia). pose proof (bitd a q Fa). lia.
Qed.
Lemma gatem_setds n cs ts F ds a : tgok n cs ts -> Z.of_nat (length a) = n -> Forall (fun i => (i < 2)%nat) a -> Forall (fun i => (i < 2)%nat) ds -> length ds = length ts ->
  gatem cs ts F (mp a (setds ts ds a)) = (if csat cs a then F else idm) (mp (digs ts a) ds).
Proof.
  intros T La Fa Fd Ld. unfold gatem. erewrite setds_diagx by eauto. pose proof T as (Nd & Ht & Hc).
  rewrite ctl_csat; auto; [| now rewrite setds_len| now apply setds_bits|].
  - fold (digs ts (mp a (setds ts ds a))). rewrite mp_digs by (rewrite ?setds_len; auto; intros; rewrite La; auto). rewrite digs_setds; auto. intros; rewrite La; auto.
  - intros c Hcc. destruct (Hc c Hcc). split; [lia|]. rewrite dig_setds_out; auto; intros; rewrite La; auto.
Qed.

(** A gate applied to a vector: where the controls hold, [F] acts on the target bits. *)
Theorem gate_act n cs ts F h a : tgok n cs ts -> Z.of_nat (length a) = n -> Forall (fun i => (i < 2)%nat) a ->
  Csum (fun b => (gatem cs ts F (mp a b) * h b)%C) (bits (length a)) =
  if csat cs a then Csum (fun ds => (F (mp (digs ts a) ds) * h (setds ts ds a))%C) (bits (length ts)) else h a.
Proof.
  intros T La Fa. pose proof T as (Nd & Ht & Hc).
  assert (Inj: forall d e, In d (bits (length ts)) -> In e (bits (length ts)) -> setds ts d a = setds ts e a -> d = e).
  { intros d e Hd He E. apply bits_In in Hd, He. rewrite <- (digs_setds ts d a), <- (digs_setds ts e a), E; auto; try apply Hd; try apply He; intros; rewrite La; auto. }
  rewrite (Csum_in (list_eq_dec Nat.eq_dec) _ (map (fun ds => setds ts ds a) (bits (length ts)))).
  - rewrite Csum_map. destruct (csat cs a) eqn:S.
    + apply Csum_ext. intros ds Hd. apply bits_In in Hd. destruct Hd as [Ld Fd]. rewrite (gatem_setds n) by auto. now rewrite S.
    + rewrite (Csum_in (list_eq_dec Nat.eq_dec) _ [digs ts a]).
      * cbn [Csum]. assert (Fg: Forall (fun i => (i < 2)%nat) (digs ts a)) by (apply Forall_forall; intros x Hx; apply in_map_iff in Hx; destruct Hx as (q & <- & _); now apply bitd).
        rewrite (gatem_setds n) by (auto; unfold digs; now rewrite map_length). rewrite S, idm_mp by auto. destruct (list_eq_dec _ _ _); [|congruence].
        assert (E: setds ts (digs ts a) a = a).
        { symmetry. apply (diagx_setds n cs); auto. apply diagx_iff. rewrite mp_len by auto. intros q Hq. right. rewrite dig_mp by auto. pose proof (bitd a q Fa). lia. }
        rewrite E. ring.
      * apply bits_nodup.
      * repeat constructor; auto.
      * intros x [<-|[]]. apply bits_all; [unfold digs; now rewrite map_length|]. apply Forall_forall. intros x Hx. apply in_map_iff in Hx. destruct Hx as (q & <- & _). now apply bitd.
      * intros ds Hd Hn. apply bits_In in Hd. destruct Hd as [Ld Fd]. rewrite (gatem_setds n) by auto. rewrite S, idm_mp; auto; [|unfold digs; now rewrite map_length|].
        -- destruct (list_eq_dec _ _ _) as [E|E]; [|ring]. exfalso. apply Hn. left. auto.
        -- apply Forall_forall. intros x Hx. apply in_map_iff in Hx. destruct Hx as (q & <- & _). now apply bitd.
  - apply bits_nodup.
  - generalize (bits_nodup (length ts)). generalize Inj. generalize (bits (length ts)). clear. intros l Inj N. induction l as [|x l IH]; cbn [map]; constructor.
    + intros Q. apply in_map_iff in Q. destruct Q as (y & E & Hy). inversion N; subst. apply Inj in E; [subst; contradiction|now right|now left].
    + inversion N; subst. apply IH; auto. intros d e Hd He. apply Inj; now right.
  - intros x Hx. apply in_map_iff in Hx. destruct Hx as (ds & <- & Hd). apply bits_In in Hd. apply bits_all; [now rewrite setds_len|]. apply setds_bits; auto. apply Hd.
  - intros b Hb Hn. apply bits_In in Hb. destruct Hb as [Lb Fb]. unfold gatem. destruct (diagx ts (mp a b)) eqn:D; [|ring]. exfalso. apply Hn. apply in_map_iff.
    exists (digs ts b). split; [symmetry; now apply (diagx_setds n cs)|]. apply bits_all; [unfold digs; now rewrite map_length|].
    apply Forall_forall. intros x Hx. apply in_map_iff in Hx. destruct Hx as (q & <- & _). now apply bitd.
Qed.

(** The product of two gates on the same targets under the same controls is the gate of the product. *)
Definition rowd (p : list nat) : list nat := map (fun i => Nat.div i 2) p.
Definition cold (p : list nat) : list nat := map (fun i => Nat.modulo i 2) p.
(** Product of matrices of [n] qubits. *)
Definition mprod (n : nat) (F H : list nat -> C) (p : list nat) : C := Csum (fun c => (F (mp (rowd p) c) * H (mp c (cold p)))%C) (bits n).

Lemma rowd_mp : forall a b, length a = length b -> Forall (fun i => (i < 2)%nat) b -> rowd (mp a b) = a.
Proof. induction a as [|x a IH]; intros [|y b] L F; cbn [length] in L; try lia; auto. inversion F; subst. unfold rowd in *. cbn [mp map]. rewrite IH by (auto; lia). f_equal. rewrite Nat.mul_comm, Nat.div_add_l by lia. rewrite Nat.div_small by auto. lia. Qed.
Lemma cold_mp : forall a b, length a = length b -> Forall (fun i => (i < 2)%nat) b -> cold (mp a b) = b.
Proof. induction a as [|x a IH]; intros [|y b] L F; cbn [length] in L; try lia; auto. inversion F; subst. unfold cold in *. cbn [mp map]. rewrite IH by (auto; lia). f_equal. rewrite Nat.add_comm, Nat.mul_comm, Nat.mod_add by lia. apply Nat.mod_small. auto. Qed.
Lemma digs_bits ts a : Forall (fun i => (i < 2)%nat) a -> Forall (fun i => (i < 2)%nat) (digs ts a).
Proof. intros F. apply Forall_forall. intros x Hx. apply in_map_iff in Hx. destruct Hx as (q & <- & _). now apply bitd. Qed.
Lemma digs_len ts a : length (digs ts a) = length ts.
Proof. apply map_length. Qed.

Theorem gate_mul n cs ts F H a b : tgok n cs ts -> Z.of_nat (length a) = n -> length a = length b -> Forall (fun i => (i < 2)%nat) a -> Forall (fun i => (i < 2)%nat) b ->
  Csum (fun c => (gatem cs ts F (mp a c) * gatem cs ts H (mp c b))%C) (bits (length a)) = gatem cs ts (mprod (length ts) F H) (mp a b).
Proof.
  intros T La L Fa Fb. pose proof T as (Nd & Ht & Hc). rewrite (gate_act n cs ts F (fun c => gatem cs ts H (mp c b)) a) by auto.
  assert (Ht': forall t, In t ts -> 0 <= t < Z.of_nat (length a)) by (intros; rewrite La; auto).
  assert (Dx: forall ds, diagx ts (mp (setds ts ds a) b) = diagx ts (mp a b)).
  { intros ds. apply eq_true_iff_eq. rewrite !diagx_iff, !mp_len by (rewrite ?setds_len; auto). rewrite setds_len.
    split; intros Q q Hq; destruct (in_dec Z.eq_dec q ts) as [I|I]; auto; destruct (Q q Hq) as [?|A]; auto; right;
    rewrite dig_mp in * by (rewrite ?setds_len; auto); rewrite dig_setds_out in * by auto; auto. }
  unfold gatem at 3. destruct (diagx ts (mp a b)) eqn:D.
  - assert (Q: forall c, In c cs -> 0 <= cqb c < Z.of_nat (length a) /\ dig (cqb c) a = dig (cqb c) b).
    { intros c Hcc. destruct (Hc c Hcc) as [R I]. split; [lia|]. rewrite diagx_iff, mp_len in D by auto. destruct (D (cqb c) ltac:(lia)) as [?|A]; [contradiction|].
      rewrite dig_mp in A by (auto; lia). pose proof (bitd a (cqb c) Fa). pose proof (bitd b (cqb c) Fb). lia. }
    rewrite (ctl_csat cs a b) by auto. fold (digs ts (mp a b)). rewrite mp_digs by auto. destruct (csat cs a) eqn:S.
    + unfold mprod.
 rewrite rowd_mp, cold_mp by (rewrite ?digs_len; auto using digs_bits). apply Csum_ext. intros ds Hd. apply bits_In in Hd. destruct Hd as [Ld Fd]. f_equal.
      unfold gatem. rewrite Dx. rewrite ctl_csat; auto; [|now rewrite setds_len|now apply setds_bits|].
      * assert (Es: csat cs (setds ts ds a) = csat cs a).
        { unfold csat. clear S. revert Hc. clear - La Ht'. induction cs as [|c cs IH]; intros Hc; auto. cbn [forallb]. rewrite IH by (intros; apply Hc; now right). f_equal. destruct (Hc c (or_introl eq_refl)). rewrite dig_setds_out; auto. lia. }
        rewrite Es, S. fold (digs ts (mp (setds ts ds a) b)). rewrite mp_digs by (rewrite ?setds_len; auto). rewrite digs_setds; auto.
      * intros c Hcc. destruct (Q c Hcc) as [R E]. rewrite setds_len. split; auto. rewrite dig_setds_out; auto. apply (Hc c Hcc).
    + unfold gatem. rewrite D, (ctl_csat cs a b), S by auto. fold (digs ts (mp a b)). now rewrite mp_digs.
  - destruct (csat cs a).
    + rewrite (Csum_ext _ (fun _ => C0)); [apply Csum_0|]. intros ds Hd. unfold gatem. rewrite Dx. ring.
    + unfold gatem. now rewrite D.
Qed.

Lemma diagx_add t ts p : 0 <= t < Z.of_nat (length p) -> ~ In t ts -> diagx ts p = (Nat.eqb (dig t p) 0 || Nat.eqb (dig t p) 3) && diagx (t :: ts) p.
Proof.
  intros Ht I. apply eq_true_iff_eq. rewrite andb_true_iff, orb_true_iff, !Nat.eqb_eq, !diagx_iff. split.
  - intros H. split; [destruct (H t Ht); [contradiction|auto]|]. intros q Hq. destruct (H q Hq); auto. left. now right.
  - intros [A H] q Hq. destruct (H q Hq) as [[<-|B]|B]; auto.
Qed.
Lemma diagx_perm ts us p : (forall t, In t ts <-> In t us) -> diagx ts p = diagx us p.
Proof. intros E. apply eq_true_iff_eq. rewrite !diagx_iff. split; intros H q Hq; destruct (H q Hq); auto; left; now apply E. Qed.
Lemma ctl_sat_perm cs ds p : Permutation cs ds -> ctl_sat cs p = ctl_sat ds p.
Proof.
  intros E. unfold ctl_sat. apply eq_true_iff_eq. rewrite !forallb_forall. split; intros H x Hx; apply H; [now apply (Permutation_in _ (Permutation_sym E))|now apply (Permutation_in _ E)].
Qed.
Lemma gatem_perm cs ds ts F p : Permutation cs ds -> gatem cs ts F p = gatem ds ts F p.
Proof. intros E. unfold gatem. now rewrite (ctl_sat_perm _ _ _ E). Qed.
Lemma gatem_ext cs ts F H p : (forall t, In t ts -> 0 <= t < Z.of_nat (length p)) -> Forall (fun i => (i < 4)%nat) p ->
  (forall ds, length ds = length ts -> Forall (fun i => (i < 4)%nat) ds -> F ds = H ds) -> gatem cs ts F p = gatem cs ts H p.
Proof.
  intros R Fp E. unfold gatem. destruct (diagx ts p); auto. destruct (ctl_sat cs p); auto. apply E; [apply map_length|].
  apply Forall_forall. intros x Hx. apply in_map_iff in Hx. destruct Hx as (t & <- & Ht). unfold dig. rewrite Forall_forall in Fp. apply Fp. apply nth_In. specialize (R t Ht). lia.
Qed.

(** A gate on one target, possibly controlled by a second qubit, as a gate on both. *)
Definition tens (F H : list nat -> C) (ds : list nat) : C := (F [nth 0 ds 0%nat] * H [nth 1 ds 0%nat])%C.
Definition cond0 (pos : bool) (F : list nat -> C) (ds : list nat) : C :=
  if Nat.eqb (nth 0 ds 0%nat) (if pos then 3 else 0) then F [nth 1 ds 0%nat] else (idm [nth 0 ds 0%nat] * idm [nth 1 ds 0%nat])%C.
Definition cond1 (pos : bool) (F : list nat -> C) (ds : list nat) : C :=
  if Nat.eqb (nth 1 ds 0%nat) (if pos then 3 else 0) then F [nth 0 ds 0%nat] else (idm [nth 0 ds 0%nat] * idm [nth 1 ds 0%nat])%C.

Lemma idm2 x y : idm [x; y] = (idm [x] * idm [y])%C.
Proof. unfold idm. cbn. destruct (Nat.eqb x 0 || Nat.eqb x 3), (Nat.eqb y 0 || Nat.eqb y 3); cbn; ring. Qed.
Lemma idm1 x : idm [x] = if Nat.eqb x 0 || Nat.eqb x 3 then C1 else C0.
Proof. unfold idm. cbn. now destruct (Nat.eqb x 0 || Nat.eqb x 3). Qed.

Lemma gatem_t1 cs t0 t1 F p : 0 <= t0 < Z.of_nat (length p) -> t0 <> t1 -> gatem cs [t1] F p = gatem cs [t0; t1] (tens idm F) p.
Proof.
  intros H Ne. unfold gatem. rewrite (diagx_add t0 [t1]) by (auto; intros [?|[]]; auto). unfold tens, idm. cbn [nth map forallb].
  destruct (ctl_sat cs p); cbn [nth map forallb cqb cpos]; rewrite ?andb_true_r, ?andb_false_r;
  destruct (Nat.eqb (dig t0 p) 0), (Nat.eqb (dig t0 p) 3); cbn [nth map forallb andb orb];
  destruct (Nat.eqb (dig t1 p) 0), (Nat.eqb (dig t1 p) 3), (diagx _ p); cbn [nth map forallb andb orb]; ring.
Qed.
Lemma gatem_t0 cs t0 t1 F p : 0 <= t1 < Z.of_nat (length p) -> t0 <> t1 -> gatem cs [t0] F p = gatem cs [t0; t1] (tens F idm) p.
Proof.
  intros H Ne. unfold gatem. rewrite (diagx_add t1 [t0]) by (auto; intros [?|[]]; auto). rewrite (diagx_perm [t1; t0] [t0; t1]) by (cbn; tauto). unfold tens, idm. cbn [nth map forallb].
  destruct (ctl_sat cs p); cbn [nth map forallb cqb cpos]; rewrite ?andb_true_r, ?andb_false_r;
  destruct (Nat.eqb (dig t0 p) 0), (Nat.eqb (dig t0 p) 3); cbn [nth map forallb andb orb];
  destruct (Nat.eqb (dig t1 p) 0), (Nat.eqb (dig t1 p) 3), (diagx _ p); cbn [nth map forallb andb orb]; ring.
Qed.
Lemma gatem_c0 cs t0 t1 pos F p : 0 <= t0 < Z.of_nat (length p) -> t0 <> t1 -> gatem (Ctl t0 pos :: cs) [t1] F p = gatem cs [t0; t1] (cond0 pos F) p.
Proof.
  intros H Ne. unfold gatem. rewrite (diagx_add t0 [t1]) by (auto; intros [?|[]]; auto). unfold cond0, idm, ctl_sat. cbn [nth map forallb cqb cpos]. fold (ctl_sat cs p).
  destruct pos, (ctl_sat cs p); cbn [nth map forallb cqb cpos]; rewrite ?andb_true_r, ?andb_false_r;
  destruct (Nat.eqb (dig t0 p) 0), (Nat.eqb (dig t0 p) 3); cbn [nth map forallb andb orb];
  destruct (Nat.eqb (dig t1 p) 0), (Nat.eqb (dig t1 p) 3), (diagx _ p); cbn [nth map forallb andb orb]; ring.
Qed.
Lemma gatem_c1 cs t0 t1 pos F p : 0 <= t1 < Z.of_nat (length p) -> t0 <> t1 -> gatem (Ctl t1 pos :: cs) [t0] F p = gatem cs [t0; t1] (cond1 pos F) p.
Proof.
  intros H Ne. unfold gatem. rewrite (diagx_add t1 [t0]) by (auto; intros [?|[]]; auto). rewrite (diagx_perm [t1; t0] [t0; t1]) by (cbn; tauto). unfold cond1, idm, ctl_sat. cbn [nth map forallb cqb cpos]. fold (ctl_sat cs p).
  destruct pos, (ctl_sat cs p); cbn [nth map forallb cqb cpos]; rewrite ?andb_true_r, ?andb_false_r;
  destruct (Nat.eqb (dig t1 p) 0), (Nat.eqb (dig t1 p) 3); cbn [nth map forallb andb orb];
  destruct (Nat.eqb (dig t0 p) 0), (Nat.eqb (dig t0 p) 3), (diagx _ p); cbn [nth map forallb andb orb]; ring.
Qed.

Lemma mp_rc l p : vpath KM l p -> mp (rowd p) (cold p) = p /\ vpath KV l (rowd p) /\ vpath KV l (cold p).
Proof.
  intros [A B]. split; [|split; split].
  - clear A. induction B as [|i p Hi B IH]; auto. cbn [rowd cold map mp]. fold (rowd p) (cold p). rewrite IH. f_equal. symmetry. apply Nat.div_mod. lia.
  - unfold rowd. now rewrite map_length.
  - apply Forall_map. eapply Forall_impl; [|exact B]. intros i Hi. cbn [arity] in *. apply Nat.div_lt_upper_bound; lia.
  - unfold cold. now rewrite map_length.
  - apply Forall_map. eapply Forall_impl; [|exact B]. intros i Hi. simpl arity. apply Nat.mod_upper_bound. lia.
Qed.
