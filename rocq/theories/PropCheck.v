(** The consistency checks of the package (C52).  The theorems hold for every number system with a law
    record [X], among them the doubles. *)
From Coq Require Import ZArith List Bool Lia Arith Reals.
From Verif Require Import Num Base CTable CTableWf Cx State Pkg Check Inv InvL PrimL NormL MkL TrL AddL StateL GcL RefL Run Inst PropBase PropSem PropStruct PropRefute.
Import ListNotations.
Local Open Scope Z_scope.

Section CheckP.
Context {N : num} (g : cfg N) (nb : kind -> Z) (X : numx N (g_ct g)) (G : gok g).
Local Notation reached := (reached (g:=g) (nb:=nb) (X:=X)).
Local Notation co := (co N).
Local Notation inv := (inv N g nb X).
Local Notation tedge := (tedge N g X).
Local Notation pact := (pact (N:=N)).
Local Notation wprot := (wprot (N:=N)).

Lemma kids s k n : inv s -> linked N (co s) k n -> 0 <= nv (nod s k n) /\ forall c, In c (ne (nod s k n)) -> tedge (co s) k (nv (nod s k n) - 1) c.
Proof.
  intros I L. destruct (linked_ok (g:=g) (nb:=nb) (X:=X) _ _ _ (iv_c _ _ _ _ _ I) L) as (b & K & _).
  split; [apply (no_v _ _ _ _ _ _ _ _ _ K)|exact (no_es _ _ _ _ _ _ _ _ _ K)].
Qed.
Lemma entryRefs_pos s w : wtab N g X (co s) w -> wprot (co s) w -> entryRefs s (ep_at (cr w)) <> 0 /\ entryRefs s (ep_at (ci w)) <> 0.
Proof.
  intros [[A _] [B _]] W. unfold entryRefs. split.
  - destruct (ep_at (cr w)) eqn:E; try lia; [|cbn in A; contradiction]. apply (W n). auto.
  - destruct (ep_at (ci w)) eqn:E; try lia; [|cbn in B; contradiction]. apply (W n). auto.
Qed.

Lemma localF_ok s k : inv s -> rcact (co s) -> forall fuel l e, tedge (co s) k l e -> pact (co s) k (ep e) -> wprot (co s) (ew e) ->
  (match ep e with PNode _ => l | _ => -1 end) + 2 <= Z.of_nat fuel -> localF N fuel k e s = Ok true s.
Proof.
  intros I Ra. induction fuel as [|fuel IH]; intros l e T P W F. { exfalso. destruct (ep e) as [| |n] eqn:E; try lia. pose proof (te_n _ _ _ _ _ _ _ T) as Tn. rewrite E in Tn. destruct Tn as [L Lv]. destruct (kids s k n I L) as [Hv _]. change (Inv.qn N (co s) k n) with (nod s k n) in Lv. lia. }
  cbn [localF]. unfold bind, get. destruct (entryRefs_pos s (ew e) (te_w _ _ _ _ _ _ _ T) W) as [Q1 Q2].
  apply Z.eqb_neq in Q1, Q2. rewrite Q1, Q2. cbn [orb andb]. pose proof (te_n _ _ _ _ _ _ _ T) as Tn.
  destruct (ep e) as [| |n]; [contradiction|reflexivity|]. destruct Tn as [L Lv]. change (Inv.qn N (co s) k n) with (nod s k n) in Lv.
  cbn in P. change (Inv.qn N (co s) k n) with (nod s k n) in P. apply Z.eqb_neq in P as P'. rewrite P'.
  destruct (kids s k n I L) as [Hv Kd]. pose proof (Ra k n L P) as Pc. change (Inv.qn N (co s) k n) with (nod s k n) in Pc.
  revert Kd Pc. generalize (ne (nod s k n)) as cs. induction cs as [|c cs IHc]; intros Kd Pc; [reflexivity|]. cbn [foldM]. unfold bind.
  pose proof (Kd c (or_introl eq_refl)) as Tc. destruct (Pc c (or_introl eq_refl)) as [Pp Pw].
  assert (R: localF N fuel k c s = Ok true s). { apply (IH (nv (nod s k n) - 1)); auto. destruct (ep c); lia. }
  pose proof (te_n _ _ _ _ _ _ _ Tc) as Tcn. destruct (ep c) as [| |m]; [contradiction| |].
  - rewrite R. apply IHc; intros; [apply Kd|apply Pc]; now right.
  - destruct Tcn as [Lm Lvm]. change (Inv.qn N (co s) k m) with (nod s k m) in Lvm. cbn in Pp. change (Inv.qn N (co s) k m) with (nod s k m) in Pp.
    replace (nv (nod s k m) + 1 =? nv (nod s k n)) with true by (symmetry; apply Z.eqb_eq; lia). cbn [negb]. apply Z.eqb_neq in Pp. rewrite Pp, R.
    apply IHc; intros; [apply Kd|apply Pc]; now right.
Qed.

Lemma held_ok nq s V D k e : reached nq s V D -> In e (held V D k) ->
  inv s /\ rcact (co s) /\ (exists l, tedge (co s) k l e) /\ pact (co s) k (ep e) /\ wprot (co s) (ew e).
Proof.
  intros H He. pose proof (reached_sim G _ _ _ _ H) as Sm. destruct (reached_i _ _ _ G _ _ _ _ H) as (I & _). destruct (si_rc _ _ _ _ _ Sm) as (pin & _ & R).
  pose proof (rcok_rcact (g:=g) (nb:=nb) (X:=X) _ _ _ I R) as Ac.
  assert (Hr: In (k, e) (refs D V)).
  { unfold held in He. unfold refs. apply in_flat_map in He. destruct He as (x & Hx & He). apply in_flat_map. exists x. split; auto. unfold refs1.
    destruct (fst x) as [v|]; [|destruct He]. destruct (kind_eqb k (dk v)) eqn:Ek; [|destruct He]. apply kind_eqb_spec in Ek. apply repeat_spec in He as Es. subst e k.
    destruct (dc v); [destruct He|now left]. }
  assert (Te: exists l, tedge (co s) k l e).
  { pose proof (si_var _ _ _ _ _ Sm) as F. unfold refs in Hr. apply in_flat_map in Hr. destruct Hr as ((o & e0) & Hx & Hr). unfold refs1 in Hr. cbn in Hr.
    destruct o as [v|]; [|destruct Hr]. apply repeat_spec in Hr. injection Hr as -> ->. exists (dl v). clear - F Hx.
    induction F as [|y z D0 V0 A F IH]; [destruct Hx|]. destruct Hx as [[= -> ->]|Hx]; auto. apply A. }
  destruct Te as [l Te]. split; auto. split; auto. split; eauto. exact (rcok_prot (g:=g) (nb:=nb) (X:=X) s pin (refs D V) k l e I R Hr Te).
Qed.
Lemma fuel_enough s k l e : inv s -> tedge (co s) k l e -> (match ep e with PNode _ => l | _ => -1 end) + 2 <= Z.of_nat (fuelof N s).
Proof.
  intros I T. pose proof (fuelof_ok' (g:=g) (nb:=nb) (X:=X) s k l (ep e) I (te_n _ _ _ _ _ _ _ T)) as H. destruct (ep e); cbn [isT] in H; auto. unfold fuelof. lia.
Qed.

(** The local check succeeds for every diagram the user has referenced, and changes nothing. *)
Theorem local_check_succeeds nq s V D k e : reached nq s V D -> In e (held V D k) -> isLocallyConsistent N k e s = Ok true s.
Proof.
  intros H He. destruct (held_ok _ _ _ _ _ _ H He) as (I & Ac & (l & T) & Pa & Wp).
  apply (localF_ok s k I Ac _ l); auto. eapply fuel_enough; eauto.
Qed.

(** The edges of a diagram: the edge itself and those of the successors. *)
Inductive within (s : st N) (k : kind) : edge -> edge -> Prop :=
  | within_here e : within s k e e
  | within_child e n c x : ep e = PNode n -> In c (ne (nod s k n)) -> within s k c x -> within s k e x.
(** What the local check has to establish for one edge: the entries of its weight have references,
    unless the weight is the constant one or zero, its node has references, and the successors are one
    level below. *)
Definition sound_edge (s : st N) (k : kind) (e : edge) : Prop :=
  ((entryRefs s (ep_at (cr (ew e))) <> 0 /\ entryRefs s (ep_at (ci (ew e))) <> 0) \/ ew e = Cone \/ ew e = Czero) /\
  forall n, ep e = PNode n -> nref (nod s k n) <> 0 /\
    forall c m, In c (ne (nod s k n)) -> ep c = PNode m -> nv (nod s k m) + 1 = nv (nod s k n).
(** If the local check succeeds, all edges of the diagram are as they should be: in every state, reachable
    or not. *)
Theorem local_check_sound s s' k e : isLocallyConsistent N k e s = Ok true s' -> s' = s /\ forall x, within s k e x -> sound_edge s k x.
Proof.
  unfold isLocallyConsistent. generalize (fuelof N s). intros fuel. revert e s'. induction fuel as [|fuel IH]; intros e s' H; [discriminate|].
  cbn [localF] in H. unfold bind, get in H. destruct (_ && _) eqn:W in H; [discriminate|].
  assert (We: (entryRefs s (ep_at (cr (ew e))) <> 0 /\ entryRefs s (ep_at (ci (ew e))) <> 0) \/ ew e = Cone \/ ew e = Czero).
  { apply andb_false_iff in W. destruct W as [W|W]; [|apply negb_false_iff in W; right; right; now apply ceqb_spec].
    apply andb_false_iff in W. destruct W as [W|W]; [|apply negb_false_iff in W; right; left; now apply ceqb_spec].
    apply orb_false_iff in W. rewrite !Z.eqb_neq in W. auto. }
  destruct (ep e) as [| |n] eqn:E; [discriminate| |].
  { injection H as <-. split; auto. intros x Hx. inversion Hx; subst; [|congruence]. split; auto. intros n Hn. congruence. }
  destruct (nref (nod s k n) =? 0) eqn:Rf; [discriminate|]. apply Z.eqb_neq in Rf.
  assert (Fold: forall cs, foldM N (fun (b : bool) c => if b then match ep c with PNull => fail BadNull | PTerm => localF N fuel k c
        | PNode m => if negb (nv (nod s k m) + 1 =? nv (nod s k n)) then ret false else if nref (nod s k m) =? 0 then ret false else localF N fuel k c end
        else ret false) cs false s <> Ok true s').
  { induction cs as [|c cs IHc]; cbn [foldM]; [discriminate|]. unfold bind. exact IHc. }
  assert (All: s' = s /\ forall c, In c (ne (nod s k n)) -> localF N fuel k c s = Ok true s /\ forall m, ep c = PNode m -> nv (nod s k m) + 1 = nv (nod s k n)).
  { revert H. generalize (ne (nod s k n)) as cs. induction cs as [|c cs IHc]; cbn [foldM]; intros H; [injection H as <-; split; [auto|intros c []]|].
    unfold bind at 1 in H. destruct (ep c) as [| |m] eqn:Ec; [discriminate| |].
    - destruct (localF N fuel k c s) as [[] s1| |] eqn:Lc; try discriminate; [|exfalso].
      + destruct (IH _ _ Lc) as [-> _]. destruct (IHc H) as [-> A]. split; auto. intros x [<-|Hx]; [split; [exact Lc|congruence]|auto].
      + clear - H. revert s1 H. induction cs as [|c0 cs IHc]; cbn [foldM]; [discriminate|]. unfold bind, ret. auto.
    - destruct (Z.eqb_spec (nv (nod s k m) + 1) (nv (nod s k n))) as [Lv|Lv]; cbn [negb] in H; [|exfalso; unfold ret at 1 in H; exact (Fold _ H)].
      destruct (nref (nod s k m) =? 0); [exfalso; unfold ret at 1 in H; exact (Fold _ H)|].
      destruct (localF N fuel k c s) as [[] s1| |] eqn:Lc; try discriminate; [|exfalso].
      + destruct (IH _ _ Lc) as [-> _]. destruct (IHc H) as [-> A]. split; auto. intros x [<-|Hx]; [split; [exact Lc|]|auto]. intros m' Hm. rewrite Ec in Hm. injection Hm as <-. exact Lv.
      + clear - H. revert s1 H. induction cs as [|c0 cs IHc]; cbn [foldM]; [discriminate|]. unfold bind, ret. auto. }
  destruct All as [-> All]. split; auto. intros x Hx. inversion Hx as [e0|e0 n0 c x0 En Hc Hw]; subst.
  - split; auto. intros n' Hn. rewrite E in Hn. injection Hn as <-. split; auto. intros c m Hc Hm. exact (proj2 (All c Hc) m Hm).
  - rewrite E in En. injection En as <-. destruct (All c Hc) as [Lc _]. destruct (IH _ _ Lc) as [_ S]. exact (S x Hw).
Qed.
(** Together: for a diagram the user has referenced, all its edges are as they should be. *)
Theorem referenced_is_sound nq s V D k e : reached nq s V D -> In e (held V D k) -> forall x, within s k e x -> sound_edge s k x.
Proof. intros H He. exact (proj2 (local_check_sound _ _ _ _ (local_check_succeeds _ _ _ _ _ _ H He))). Qed.

(** ** The global check *)
Lemma cget_cset {A} (dec : forall a b : A, {a = b} + {a <> b}) m a z b : cget (cset dec m a z) b = if dec a b then z else cget m b.
Proof. unfold cget, cset. destruct (dec a b); auto. Qed.
Definition nonneg (c : counters) : Prop := forall p, 0 <= cget (snd c) p.
Definition covered (c : counters) (e : edge) : Prop :=
  fst c (ep_at (cr (ew e))) <> None /\ fst c (ep_at (ci (ew e))) <> None /\ match ep e with PNode m => cget (snd c) (PNode m) <> 0 | _ => True end.
Definition grows (c c' : counters) : Prop :=
  (forall a, fst c a <> None -> fst c' a <> None) /\ (forall p, cget (snd c) p <> 0 -> cget (snd c') p <> 0).
Lemma grows_refl c : grows c c.
Proof. split; auto. Qed.
Lemma grows_trans a b c : grows a b -> grows b c -> grows a c.
Proof. intros [A1 A2] [B1 B2]. split; auto. Qed.
Lemma covered_grows c c' e : grows c c' -> covered c e -> covered c' e.
Proof. intros [A B] (C1 & C2 & C3). split; auto. split; auto. destruct (ep e); auto. Qed.
Lemma countWeight_mono m w a : m a <> None -> countWeight m w a <> None.
Proof. intros H. unfold countWeight, cset. repeat destruct eaddr_dec; try discriminate; auto. Qed.
Lemma countWeight_in m w : countWeight m w (ep_at (cr w)) <> None /\ countWeight m w (ep_at (ci w)) <> None.
Proof. unfold countWeight, cset. split; repeat destruct eaddr_dec; try discriminate; congruence. Qed.

(** All nodes counted in [c] but not in [c0] have their successors counted. *)
Definition closes (s : st N) (k : kind) (c0 c : counters) : Prop := forall n, cget (snd c0) (PNode n) = 0 -> cget (snd c) (PNode n) <> 0 ->
  forall ch, In ch (ne (nod s k n)) -> covered c ch.

Lemma fillF_ok s k : inv s -> forall fuel l e c, tedge (co s) k l e -> nonneg c ->
  (match ep e with PNode _ => l | _ => -1 end) + 2 <= Z.of_nat fuel ->
  exists c', fillF N fuel k e c s = Ok c' s /\ nonneg c' /\ grows c c' /\ covered c' e /\ closes s k c c'.
Proof.
  intros I. induction fuel as [|fuel IH]; intros l e c T Nn F.
  { exfalso. destruct (ep e) as [| |n] eqn:E; try lia. pose proof (te_n _ _ _ _ _ _ _ T) as Tn. rewrite E in Tn. destruct Tn as [L Lv]. destruct (kids s k n I L) as [Hv _]. change (Inv.qn N (co s) k n) with (nod s k n) in Lv. lia. }
  cbn [fillF]. pose proof (te_n _ _ _ _ _ _ _ T) as Tn. destruct (ep e) as [| |n] eqn:E; [contradiction| |].
  - eexists. split; [reflexivity|]. split; [exact Nn|]. split; [split; [intros a; apply countWeight_mono|auto]|]. split; [|intros n A B; contradiction].
    destruct (countWeight_in (fst c) (ew e)). split; [|split]; cbn [fst snd]; auto. now rewrite E.
  - destruct Tn as [L Lv]. change (Inv.qn N (co s) k n) with (nod s k n) in Lv. destruct (kids s k n I L) as [Hv Kd]. unfold bind, get.
    set (c1 := (countWeight (fst c) (ew e), countNode (snd c) (PNode n))).
    assert (C1: nonneg c1 /\ grows c c1 /\ covered c1 e /\ forall m, cget (snd c) (PNode m) = 0 -> cget (snd c1) (PNode m) <> 0 -> m = n).
    { split; [|split; [|split]].
      - intros p. cbn [snd c1]. unfold countNode. rewrite cget_cset. destruct nptr_dec; [|apply Nn]. specialize (Nn (PNode n)). lia.
      - split; [intros a; apply countWeight_mono|]. intros p Hp. cbn [snd c1]. unfold countNode. rewrite cget_cset. destruct nptr_dec; auto. specialize (Nn (PNode n)). lia.
      - destruct (countWeight_in (fst c) (ew e)). split; [|split]; cbn [fst snd c1]; auto. rewrite E. unfold countNode. rewrite cget_cset. destruct nptr_dec; [|congruence]. specialize (Nn (PNode n)). lia.
      - intros m A B. cbn [snd c1] in B. unfold countNode in B. rewrite cget_cset in B. destruct nptr_dec as [Q|Q]; [now injection Q|contradiction]. }
    destruct C1 as (N1 & G1 & V1 & U1).
    assert (Fold: forall cs d, (forall x, In x cs -> In x (ne (nod s k n))) -> nonneg d -> exists d',
       foldM N (fun c ch => if cget (snd c) (ep ch) =? 0 then fillF N fuel k ch (fst c, cset nptr_dec (snd c) (ep ch) 0)
            else ret (countWeight (fst c) (ew ch), countNode (snd c) (ep ch))) cs d s = Ok d' s /\ nonneg d' /\ grows d d' /\ (forall x, In x cs -> covered d' x) /\ closes s k d d').
    { induction cs as [|x cs IHc]; intros d Hin Nd.
      - exists d. split; [reflexivity|]. split; auto. split; [apply grows_refl|]. split; [intros x []|intros m A B; contradiction].
      - assert (St: exists d1, (if cget (snd d) (ep x) =? 0 then fillF N fuel k x (fst d, cset nptr_dec (snd d) (ep x) 0)
            else ret (countWeight (fst d) (ew x), countNode (snd d) (ep x))) s = Ok d1 s /\ nonneg d1 /\ grows d d1 /\ covered d1 x /\ closes s k d d1).
        { destruct (Z.eqb_spec (cget (snd d) (ep x)) 0) as [Z0|Z0].
          - set (d0 := (fst d, cset nptr_dec (snd d) (ep x) 0)).
            assert (Eq: forall p, cget (snd d0) p = cget (snd d) p). { intros p. cbn [snd d0]. rewrite cget_cset. destruct nptr_dec; congruence. }
            destruct (IH (nv (nod s k n) - 1) x d0 (Kd x (Hin x (or_introl eq_refl)))) as (d1 & A & B & C & D & Cl).
            + intros p. rewrite Eq. apply Nd.
            + destruct (ep x); lia.
            + exists d1. split; auto. split; auto. split; [split; [apply C|intros p Hp; apply C; now rewrite Eq]|]. split; auto. intros m Hm. apply Cl. now rewrite Eq.
          - eexists. split; [reflexivity|]. split; [|split; [|split]].
            + intros p. cbn [snd]. unfold countNode. rewrite cget_cset. destruct nptr_dec; [|apply Nd]. specialize (Nd (ep x)). lia.
            + split; [intros a; apply countWeight_mono|]. intros p Hp. cbn [snd]. unfold countNode. rewrite cget_cset. destruct nptr_dec; auto. specialize (Nd (ep x)). lia.
            + destruct (countWeight_in (fst d) (ew x)). split; [|split]; cbn [fst snd]; auto. destruct (ep x); auto. unfold countNode. rewrite cget_cset. destruct nptr_dec; [|congruence]. specialize (Nd (PNode n0)). lia.
            + intros m A B. exfalso. cbn [snd] in B. unfold countNode in B. rewrite cget_cset in B. destruct nptr_dec as [Q|Q]; [rewrite Q in Z0|]; contradiction. }
        destruct St as (d1 & A & B & C & D & Cl). destruct (IHc d1) as (d2 & A2 & B2 & C2 & D2 & Cl2); auto. { intros y Hy. apply Hin. now right. }
        exists d2. cbn [foldM]. unfold bind at 1. split; [match goal with |- match ?t with _ => _ end = _ => replace t with (Ok (A:=counters) d1 s) by (symmetry; exact A) end; exact A2|]. split; auto. split; [eapply grows_trans; eauto|]. split.
        + intros y [<-|Hy]; auto. eapply covered_grows; eauto.
        + intros m A0 B0 ch Hc. destruct (Z.eq_dec (cget (snd d1) (PNode m)) 0) as [Z1|Z1]; [eapply Cl2; eauto|]. eapply covered_grows; [exact C2|]. eapply Cl; eauto. }
    destruct (Fold (ne (nod s k n)) c1 (fun x Hx => Hx) N1) as (c2 & A & B & C & D & Cl). exists c2. split; [exact A|]. split; auto. split; [eapply grows_trans; eauto|]. split; [eapply covered_grows; eauto|].
    intros m A0 B0 ch Hc. destruct (Z.eq_dec (cget (snd c1) (PNode m)) 0) as [Z1|Z1]; [eapply Cl; eauto|]. specialize (U1 m A0 Z1). subst m. auto.
Qed.

Definition trueOrThrow {A} (o : res N A) (a : A) (s : st N) : Prop := o = Ok a s \/ o = Thr ERuntime s.
Lemma checkPart_ok s wm a : wm a <> None -> trueOrThrow (checkPart N s wm a s) tt s.
Proof. intros H. unfold checkPart, trueOrThrow. destruct (wm a); [|congruence]. destruct (_ && _); auto. Qed.
Lemma checkF_ok s k c : inv s -> (forall n, cget (snd c) (PNode n) <> 0 -> forall ch, In ch (ne (nod s k n)) -> covered c ch) ->
  forall fuel l e, tedge (co s) k l e -> covered c e -> (match ep e with PNode _ => l | _ => -1 end) + 2 <= Z.of_nat fuel ->
  trueOrThrow (checkF N fuel k c e s) tt s.
Proof.
  intros I Cl. induction fuel as [|fuel IH]; intros l e T Cv F.
  { exfalso. destruct (ep e) as [| |n] eqn:E; try lia. pose proof (te_n _ _ _ _ _ _ _ T) as Tn. rewrite E in Tn. destruct Tn as [L Lv]. destruct (kids s k n I L) as [Hv _]. change (Inv.qn N (co s) k n) with (nod s k n) in Lv. lia. }
  cbn [checkF]. unfold bind, get. destruct Cv as (C1 & C2 & C3).
  destruct (checkPart_ok s (fst c) (ep_at (cr (ew e))) C1) as [-> | ->]; [|now right]. destruct (checkPart_ok s (fst c) (ep_at (ci (ew e))) C2) as [-> | ->]; [|now right].
  pose proof (te_n _ _ _ _ _ _ _ T) as Tn. destruct (ep e) as [| |n] eqn:E; [contradiction|now left|].
  destruct Tn as [L Lv]. change (Inv.qn N (co s) k n) with (nod s k n) in Lv. destruct (kids s k n I L) as [Hv Kd]. specialize (Cl n C3) as Cn.
  unfold cget in C3. destruct (snd c (PNode n)) as [z|]; [|congruence]. destruct (negb _); [now right|].
  revert Kd Cn. generalize (ne (nod s k n)) as cs. induction cs as [|x cs IHc]; intros Kd Cn; [now left|]. cbn [iterM]. unfold bind.
  assert (R: trueOrThrow (checkF N fuel k c x s) tt s). { apply (IH (nv (nod s k n) - 1)); [apply Kd; now left|apply Cn; now left|]. destruct (ep x); lia. }
  assert (Rest: trueOrThrow (iterM N (fun ch => match ep ch with PNull => fail BadNull | PTerm => checkF N fuel k c ch
                   | PNode m => if negb (nv (nod s k m) =? nv (nod s k n) - 1) then throw ERuntime else checkF N fuel k c ch end) cs s) tt s).
  { apply IHc; intros; [apply Kd|apply Cn]; now right. }
  pose proof (te_n _ _ _ _ _ _ _ (Kd x (or_introl eq_refl))) as Tx. destruct (ep x) as [| |m]; [contradiction| |].
  - destruct R as [-> | ->]; [exact Rest|now right].
  - destruct (negb (nv (nod s k m) =? _)); [now right|]. destruct R as [-> | ->]; [exact Rest|now right].
Qed.
(** The global check of a diagram the user may use returns true or reports a mismatch; it finds every
    number and node it looks up in its counters, and changes nothing. *)
Theorem global_check_defined nq s V D i k l f : reached nq s V D -> live D i k l f ->
  isGloballyConsistent N k (var V i) s = Ok true s \/ isGloballyConsistent N k (var V i) s = Thr ERuntime s.
Proof.
  intros H Lv. pose proof (reached_sim G _ _ _ _ H) as Sm. destruct (reached_i _ _ _ G _ _ _ _ H) as (I & _).
  destruct (sim_live _ _ _ _ _ _ _ _ _ Sm Lv) as (_ & T & _). unfold isGloballyConsistent, bind.
  destruct (fillF_ok s k I (fuelof N s) l (var V i) (fun _ => None, fun _ => None) T) as (c & A & _ & _ & B & Cl); [intros p; cbn; lia|eapply fuel_enough; eauto|].
  rewrite A. destruct (checkF_ok s k c I (fun n Hn => Cl n eq_refl Hn) (fuelof N s) l (var V i) T B) as [-> | ->]; [eapply fuel_enough; eauto|now left|now right].
Qed.

(** ** Exactly when the global check succeeds *)

(** The nodes of a diagram. *)
Definition node_of (s : st N) (k : kind) (e : edge) (n : nat) : Prop := exists x, within s k e x /\ ep x = PNode n.
(** All edges of the diagram with the nodes [vs]: the root edge and the successors of every node. *)
Definition all_edges (s : st N) (k : kind) (e : edge) (vs : list nat) : list edge := e :: flat_map (fun n => ne (nod s k n)) vs.
(** How many of the edges [es] lead to [p], and how often the entry [a] is a part of their weights. *)
Fixpoint edges_to (p : nptr) (es : list edge) : Z := match es with [] => 0 | x :: r => (if nptr_dec (ep x) p then 1 else 0) + edges_to p r end.
Fixpoint parts_at (a : eaddr) (es : list edge) : Z :=
  match es with [] => 0 | x :: r => (if eaddr_dec (ep_at (cr (ew x))) a then 1 else 0) + (if eaddr_dec (ep_at (ci (ew x))) a then 1 else 0) + parts_at a r end.

Lemma NoDup_both {A} (a b : list A) : NoDup a -> NoDup b -> (forall x, In x a -> In x b -> False) -> NoDup (a ++ b).
Proof.
  induction a as [|x a IH]; intros Na Nb H; [exact Nb|]. inversion Na; subst. cbn. constructor.
  - intros Q. apply in_app_iff in Q. destruct Q; [contradiction|]. apply (H x); auto. now left.
  - apply IH; auto. intros y Hy. apply H. now right.
Qed.
Lemma edges_to_app p a b : edges_to p (a ++ b) = edges_to p a + edges_to p b.
Proof. induction a; cbn [app edges_to]; lia. Qed.
Lemma parts_at_app p a b : parts_at p (a ++ b) = parts_at p a + parts_at p b.
Proof. induction a; cbn [app parts_at]; lia. Qed.
Lemma edges_to_nn p es : 0 <= edges_to p es.
Proof. induction es as [|x es IH]; cbn; [lia|]. destruct nptr_dec; lia. Qed.
Lemma cget_weight m w a : cget (countWeight m w) a = cget m a + parts_at a [Ed PNull w].
Proof.
  unfold countWeight. cbn [parts_at ew]. rewrite cget_cset. destruct (eaddr_dec (ep_at (ci w)) a) as [->|Q]; rewrite cget_cset; destruct (eaddr_dec (ep_at (cr w)) _); subst; try congruence; lia.
Qed.
Lemma cget_node m p q : cget (countNode m p) q = cget m q + (if nptr_dec p q then 1 else 0).
Proof. unfold countNode. rewrite cget_cset. destruct nptr_dec; subst; lia. Qed.
Lemma parts_one a x : parts_at a [Ed PNull (ew x)] = parts_at a [x].
Proof. reflexivity. Qed.

Definition tally (s : st N) (k : kind) (c c' : counters) (es : list edge) (vs : list nat) : Prop :=
  NoDup vs /\ (forall n, In n vs -> cget (snd c) (PNode n) = 0) /\
  (forall n, cget (snd c') (PNode n) = cget (snd c) (PNode n) + edges_to (PNode n) (es ++ flat_map (fun n => ne (nod s k n)) vs)) /\
  (forall a, cget (fst c') a = cget (fst c) a + parts_at a (es ++ flat_map (fun n => ne (nod s k n)) vs)) /\
  (forall n, cget (snd c') (PNode n) <> 0 <-> cget (snd c) (PNode n) <> 0 \/ In n vs) /\ cget (snd c') PTerm = 0 /\ nonneg c'.

Lemma fillF_tally s k : forall fuel e c c' s', cget (snd c) (ep e) = 0 -> cget (snd c) PTerm = 0 -> nonneg c -> fillF N fuel k e c s = Ok c' s' ->
  s' = s /\ exists vs, tally s k c c' [e] vs /\ forall n, In n vs -> node_of s k e n.
Proof.
  induction fuel as [|fuel IH]; intros e c c' s' Z0 Zt Nn H; [discriminate|]. cbn [fillF] in H.
  destruct (ep e) as [| |n] eqn:E; [discriminate| |].
  { injection H as <- <-. split; auto. exists []. split; [|intros n []]. split; [constructor|]. split; [intros n []|]. cbn [fst snd flat_map app]. split; [|split; [|split; [|split]]]; auto.
    - intros n. cbn. rewrite E. destruct nptr_dec; [discriminate|lia].
    - intros a. now rewrite cget_weight, parts_one.
    - intros n. intuition. }
  unfold bind, get in H. set (c1 := (countWeight (fst c) (ew e), countNode (snd c) (PNode n))) in *.
  assert (N1: nonneg c1). { intros p. cbn [snd c1]. rewrite cget_node. specialize (Nn p). destruct nptr_dec; lia. }
  assert (Z1: cget (snd c1) PTerm = 0). { cbn [snd c1]. rewrite cget_node. destruct nptr_dec; [discriminate|lia]. }
  assert (Fold: forall cs d d' s', (forall x, In x cs -> In x (ne (nod s k n))) -> cget (snd d) PTerm = 0 -> nonneg d ->
     foldM N (fun c ch => if cget (snd c) (ep ch) =? 0 then fillF N fuel k ch (fst c, cset nptr_dec (snd c) (ep ch) 0)
            else ret (countWeight (fst c) (ew ch), countNode (snd c) (ep ch))) cs d s = Ok d' s' ->
     s' = s /\ exists vs, tally s k d d' cs vs /\ forall m, In m vs -> node_of s k e m).
  { clear H s' c'. induction cs as [|x cs IHc]; intros d d' s' Hin Zd Nd H; cbn [foldM] in H.
    - injection H as <- <-. split; auto. exists []. split; [|intros m []]. split; [constructor|]. split; [intros m []|]. cbn. split; [intros; lia|]. split; [intros; lia|]. split; auto. intros m. intuition.
    - unfold bind at 1 in H. match type of H with match ?t with _ => _ end = _ => destruct t as [d1 s1| |] eqn:St; try discriminate end.
      assert (One: s1 = s /\ exists vs, tally s k d d1 [x] vs /\ forall m, In m vs -> node_of s k e m).
      { destruct (Z.eqb_spec (cget (snd d) (ep x)) 0) as [Zx|Zx].
        - set (d0 := (fst d, cset nptr_dec (snd d) (ep x) 0)) in *.
          assert (Eq: forall p, cget (snd d0) p = cget (snd d) p). { intros p. cbn [snd d0]. rewrite cget_cset. destruct nptr_dec; congruence. }
          destruct (IH x d0 d1 s1) as [-> (vs & (T1 & T2 & T3 & T4 & T5 & T6) & Rn)]; auto; [now rewrite Eq|now rewrite Eq|intros p; rewrite Eq; apply Nd|].
          split; auto. exists vs. split.
          + split; auto. split; [intros m Hm; rewrite <- Eq; auto|]. split; [intros m; rewrite <- Eq; auto|]. split; [exact T4|]. split; [intros m; rewrite <- Eq; auto|auto].
          + intros m Hm. destruct (Rn m Hm) as (y & Hy & Ey). exists y. split; auto. eapply within_child; eauto. apply Hin. now left.
        - injection St as <- <-. split; auto. exists []. split; [|intros m []]. split; [constructor|]. split; [intros m []|]. cbn [fst snd flat_map app].
          assert (Nt: ep x <> PTerm) by (intros Q; rewrite Q in Zx; contradiction).
          split; [|split; [|split; [|split]]].
          + intros m. rewrite cget_node. cbn [edges_to]. lia.
          + intros a. now rewrite cget_weight, parts_one.
          + intros m. rewrite cget_node. destruct (nptr_dec (ep x) (PNode m)) as [Q|Q]; [|rewrite Z.add_0_r; intuition]. rewrite <- Q. specialize (Nd (ep x)). split; [auto|lia].
          + rewrite cget_node. destruct nptr_dec; [contradiction|lia].
          + intros p. cbn [snd]. rewrite cget_node. specialize (Nd p). destruct nptr_dec; lia. }
      destruct One as [-> (vs1 & (T1 & T2 & T3 & T4 & T5 & T6 & T7) & R1)].
      destruct (IHc d1 d' s') as [-> (vs2 & (U1 & U2 & U3 & U4 & U5 & U6 & U7) & R2)]; auto. { intros y Hy. apply Hin. now right. }
      split; auto. exists (vs1 ++ vs2). split; [|intros m Hm; apply in_app_iff in Hm; destruct Hm; auto].
      split; [|split; [|split; [|split; [|split]]]]; auto.
      + apply NoDup_both; auto. intros m H1 H2. apply U2 in H2. apply (proj2 (T5 m)); auto.
      + intros m Hm. apply in_app_iff in Hm. destruct Hm as [Hm|Hm]; auto. specialize (U2 m Hm). destruct (Z.eq_dec (cget (snd d) (PNode m)) 0); auto. exfalso. apply (proj2 (T5 m)); auto.
      + intros m. rewrite U3, T3, flat_map_app. cbn [app edges_to]. rewrite !edges_to_app. cbn. lia.
      + intros a. rewrite U4, T4, flat_map_app. cbn [app parts_at]. rewrite !parts_at_app. cbn. lia.
      + intros m. rewrite U5, T5, in_app_iff. tauto. }
  destruct (Fold (ne (nod s k n)) c1 c' s' (fun x Hx => Hx) Z1 N1 H) as [-> (vs & (T1 & T2 & T3 & T4 & T5 & T6 & T7) & R)].
  split; auto. exists (n :: vs).
  assert (Cn: cget (snd c1) (PNode n) <> 0). { cbn [snd c1]. rewrite cget_node. specialize (Nn (PNode n)). destruct nptr_dec; [lia|congruence]. }
  assert (Co: forall m, m <> n -> cget (snd c1) (PNode m) = cget (snd c) (PNode m)). { intros m Hm. cbn [snd c1]. rewrite cget_node. destruct nptr_dec; [congruence|lia]. }
  assert (Nv: ~ In n vs) by (intros Q; now apply T2 in Q).
  split; [|intros m [<-|Hm]; [exists e; split; [constructor|exact E]|auto]].
  split; [now constructor|]. split; [|split; [|split; [|split]]]; auto.
  - intros m [<-|Hm]; [exact Z0|]. rewrite <- Co by congruence. auto.
  - intros m. rewrite T3. cbn [flat_map app edges_to]. rewrite E, edges_to_app. cbn [snd c1]. rewrite cget_node. lia.
  - intros a. rewrite T4. cbn [flat_map app parts_at]. rewrite parts_at_app. cbn [fst c1]. rewrite cget_weight. cbn. lia.
  - intros m. rewrite T5. destruct (Nat.eq_dec m n) as [->|Q]; [intuition|]. rewrite Co by auto. cbn. intuition congruence.
Qed.

(** What the second pass tests on an edge. *)
Definition passes (s : st N) (k : kind) (c : counters) (x : edge) : Prop :=
  (isStatic (ep_at (cr (ew x))) = true \/ cget (fst c) (ep_at (cr (ew x))) <= entryRefs s (ep_at (cr (ew x)))) /\
  (isStatic (ep_at (ci (ew x))) = true \/ cget (fst c) (ep_at (ci (ew x))) <= entryRefs s (ep_at (ci (ew x)))) /\
  forall n, ep x = PNode n -> cget (snd c) (PNode n) = nref (nod s k n).
Lemma checkPart_iff (s : st N) wm a : wm a <> None -> checkPart N s wm a s = (if (entryRefs s a <? cget wm a) && negb (isStatic a) then Thr ERuntime s else Ok tt s).
Proof. intros H. unfold checkPart, cget. destruct (wm a); [|congruence]. now destruct (_ && _). Qed.
Lemma part_iff (s : st N) wm a : (entryRefs s a <? cget wm a) && negb (isStatic a) = false <-> isStatic a = true \/ cget wm a <= entryRefs s a.
Proof. rewrite andb_false_iff, negb_false_iff, Z.ltb_ge. tauto. Qed.
Lemma checkF_iff (s : st N) k c : inv s -> (forall n, cget (snd c) (PNode n) <> 0 -> forall ch, In ch (ne (nod s k n)) -> covered c ch) ->
  forall fuel l e, tedge (co s) k l e -> covered c e -> (match ep e with PNode _ => l | _ => -1 end) + 2 <= Z.of_nat fuel ->
  (checkF N fuel k c e s = Ok tt s <-> forall x, within s k e x -> passes s k c x).
Proof.
  intros I Cl. induction fuel as [|fuel IH]; intros l e T Cv F.
  { exfalso. destruct (ep e) as [| |n] eqn:E; try lia. pose proof (te_n _ _ _ _ _ _ _ T) as Tn. rewrite E in Tn. destruct Tn as [L Lv]. destruct (kids s k n I L) as [Hv _]. change (Inv.qn N (co s) k n) with (nod s k n) in Lv. lia. }
  cbn [checkF]. unfold bind, get. destruct Cv as (C1 & C2 & C3).
  rewrite checkPart_iff by auto. destruct (_ && _) eqn:P1.
  { split; [discriminate|]. intros H. destruct (H e (within_here _ _ _)) as [A _]. apply part_iff in A. congruence. }
  rewrite checkPart_iff by auto. destruct ((_ <? cget (fst c) (ep_at (ci (ew e)))) && _) eqn:P2.
  { split; [discriminate|]. intros H. destruct (H e (within_here _ _ _)) as (_ & A & _). apply part_iff in A. congruence. }
  apply part_iff in P1, P2.
  pose proof (te_n _ _ _ _ _ _ _ T) as Tn. destruct (ep e) as [| |n] eqn:E; [contradiction| |].
  { split; [|reflexivity]. intros _ x Hx. inversion Hx; subst; [|congruence]. split; auto. split; auto. intros m Hm. congruence. }
  destruct Tn as [L Lv]. change (Inv.qn N (co s) k n) with (nod s k n) in Lv. destruct (kids s k n I L) as [Hv Kd]. specialize (Cl n C3) as Cn.
  assert (Ez: exists z, snd c (PNode n) = Some z /\ cget (snd c) (PNode n) = z). { unfold cget in *. destruct (snd c (PNode n)) as [z|]; [eauto|congruence]. }
  destruct Ez as (z & Ez & Cz). rewrite Ez. destruct (Z.eqb_spec z (nref (nod s k n))) as [Q|Q]; cbn [negb].
  2: { split; [discriminate|]. intros H. destruct (H e (within_here _ _ _)) as (_ & _ & A). specialize (A n E). congruence. }
  assert (It: iterM N (fun ch => match ep ch with PNull => fail BadNull | PTerm => checkF N fuel k c ch
                   | PNode m => if negb (nv (nod s k m) =? nv (nod s k n) - 1) then throw ERuntime else checkF N fuel k c ch end) (ne (nod s k n)) s = Ok tt s <->
     forall ch, In ch (ne (nod s k n)) -> checkF N fuel k c ch s = Ok tt s).
  { revert Kd Cn. generalize (ne (nod s k n)) as cs. induction cs as [|x cs IHc]; intros Kd Cn; [split; [intros _ ch []|reflexivity]|]. cbn [iterM]. unfold bind.
    assert (R: trueOrThrow (checkF N fuel k c x s) tt s). { apply (checkF_ok s k c I Cl fuel (nv (nod s k n) - 1)); [apply Kd; now left|apply Cn; now left|]. destruct (ep x); lia. }
    pose proof (te_n _ _ _ _ _ _ _ (Kd x (or_introl eq_refl))) as Tx. destruct (ep x) as [| |m] eqn:Ex; [contradiction| |].
    - destruct R as [R|R]; rewrite R; [|split; [discriminate|intros H; specialize (H x (or_introl eq_refl)); congruence]].
      rewrite (IHc (fun y Hy => Kd y (or_intror Hy)) (fun y Hy => Cn y (or_intror Hy))). split; [intros H ch [<-|Hc]; auto|intros H ch Hc; apply H; now right].
    - destruct Tx as [Lx Lvx]. change (Inv.qn N (co s) k m) with (nod s k m) in Lvx. replace (nv (nod s k m) =? nv (nod s k n) - 1) with true by (symmetry; apply Z.eqb_eq; lia). cbn [negb].
      destruct R as [R|R]; rewrite R; [|split; [discriminate|intros H; specialize (H x (or_introl eq_refl)); congruence]].
      rewrite (IHc (fun y Hy => Kd y (or_intror Hy)) (fun y Hy => Cn y (or_intror Hy))). split; [intros H ch [<-|Hc]; auto|intros H ch Hc; apply H; now right]. }
  rewrite It. assert (Ch: forall ch, In ch (ne (nod s k n)) -> (checkF N fuel k c ch s = Ok tt s <-> forall x, within s k ch x -> passes s k c x)).
  { intros ch Hc. apply (IH (nv (nod s k n) - 1)); auto. destruct (ep ch); lia. }
  split.
  - intros H x Hx. inversion Hx as [e0|e0 n0 ch x0 En Hc Hw]; subst.
    + split; auto. split; auto. intros m Hm. rewrite E in Hm. injection Hm as <-. congruence.
    + rewrite E in En. injection En as <-. exact (proj1 (Ch ch Hc) (H ch Hc) x Hw).
  - intros H ch Hc. apply (proj2 (Ch ch Hc)). intros x Hx. apply H. eapply within_child; eauto.
Qed.

(** The global check of a diagram the user may use succeeds exactly if every node of the diagram is
    counted as often as edges of this diagram lead to it, and no entry of the complex table is a part of
    more weights of the diagram than it has references; otherwise it throws (global_check_defined). *)
Theorem global_check_exact nq s V D i k l f : reached nq s V D -> live D i k l f ->
  exists vs, NoDup vs /\ (forall n, In n vs <-> node_of s k (var V i) n) /\
  let es := all_edges s k (var V i) vs in
  (isGloballyConsistent N k (var V i) s = Ok true s <->
   (forall n, In n vs -> nref (nod s k n) = edges_to (PNode n) es) /\
   (forall n, 0 < parts_at (ATab n) es -> parts_at (ATab n) es <= entryRefs s (ATab n))).
Proof.
  intros H Lv. pose proof (reached_sim G _ _ _ _ H) as Sm. destruct (reached_i _ _ _ G _ _ _ _ H) as (I & _).
  destruct (sim_live _ _ _ _ _ _ _ _ _ Sm Lv) as (_ & T & _). unfold isGloballyConsistent, bind.
  set (c0 := (fun _ => None, fun _ => None) : counters).
  destruct (fillF_ok s k I (fuelof N s) l (var V i) c0 T) as (c & A & Nn & _ & B & Cl); [intros p; cbn; lia|eapply fuel_enough; eauto|].
  destruct (fillF_tally s k _ _ c0 c s eq_refl eq_refl (fun p => Z.le_refl 0) A) as [_ (vs & (T1 & _ & T3 & T4 & T5 & _) & R)].
  assert (Cl': forall n, cget (snd c) (PNode n) <> 0 -> forall ch, In ch (ne (nod s k n)) -> covered c ch) by (intros n Hn; exact (Cl n eq_refl Hn)).
  assert (Cov: forall e x, within s k e x -> covered c e -> covered c x).
  { induction 1 as [|e0 n ch x0 En Hc Hw IHw]; auto. intros (_ & _ & C3). rewrite En in C3. apply IHw. eapply Cl'; eauto. }
  assert (Vs: forall n, In n vs <-> node_of s k (var V i) n).
  { intros n. split; [apply R|]. intros (x & Hx & Ex). destruct (Cov _ _ Hx B) as (_ & _ & C3). rewrite Ex in C3. apply T5 in C3. destruct C3 as [C3|]; auto. now cbn in C3. }
  exists vs. split; auto. split; auto. cbv zeta. rewrite A.
  assert (Sub: forall x, In x (all_edges s k (var V i) vs) <-> within s k (var V i) x).
  { intros x. unfold all_edges. split.
    - intros [<-|Hx]; [constructor|]. apply in_flat_map in Hx. destruct Hx as (n & Hn & Hx). apply Vs in Hn. destruct Hn as (y & Hy & Ey).
      clear - Hy Ey Hx. induction Hy as [e|e m ch y Em Hc Hy IHy]; [eapply within_child; eauto; constructor|eapply within_child; eauto].
    - assert (Gen: forall e x, within s k e x -> x = e \/ exists n, node_of s k e n /\ In x (ne (nod s k n))).
      { induction 1 as [e|e n ch x0 En Hc Hw [->|(m & (y & Hy & Ey) & Hm)]]; [now left|right; exists n; split; auto; exists e; split; [constructor|auto]|right; exists m; split; auto; exists y; split; auto; eapply within_child; eauto]. }
      intros Hx. destruct (Gen _ _ Hx) as [->|(n & Hn & Hc)]; [now left|right]. apply in_flat_map. exists n. split; auto. now apply Vs. }
  assert (Pos: forall es a, 0 <= parts_at a es). { induction es as [|x es IHe]; intros a; cbn; [lia|]. specialize (IHe a). repeat destruct eaddr_dec; lia. }
  assert (Occ: forall es a, 0 < parts_at a es <-> exists x, In x es /\ (ep_at (cr (ew x)) = a \/ ep_at (ci (ew x)) = a)).
  { induction es as [|x es IHe]; intros a; cbn [parts_at]; [split; [lia|intros (x & [] & _)]|]. specialize (Pos es a). split.
    - intros Q. destruct (eaddr_dec (ep_at (cr (ew x))) a); [exists x; split; [now left|auto]|]. destruct (eaddr_dec (ep_at (ci (ew x))) a); [exists x; split; [now left|auto]|].
      destruct (proj1 (IHe a)) as (y & Hy & Ey); [lia|]. exists y. split; [now right|auto].
    - intros (y & [<-|Hy] & Ey); [destruct Ey as [->| ->]; repeat destruct eaddr_dec; try congruence; lia|].
      assert (0 < parts_at a es) by (apply IHe; eauto). repeat destruct eaddr_dec; lia. }
  pose proof (checkF_iff s k c I Cl' (fuelof N s) l (var V i) T B (fuel_enough _ _ _ _ I T)) as Ck.
  assert (Wc: forall a, cget (fst c) a = parts_at a (all_edges s k (var V i) vs)) by (intros a; rewrite T4; reflexivity).
  assert (Nc: forall n, cget (snd c) (PNode n) = edges_to (PNode n) (all_edges s k (var V i) vs)) by (intros n; rewrite T3; reflexivity).
  assert (Tab: forall x, within s k (var V i) x -> wtab N g X (co s) (ew x)).
  { assert (Gen: forall e x, within s k e x -> forall l, tedge (co s) k l e -> wtab N g X (co s) (ew x)).
    { induction 1 as [e|e n ch x0 En Hc Hw IHw]; intros l0 Te; [apply Te|]. pose proof (te_n _ _ _ _ _ _ _ Te) as Tn. rewrite En in Tn. destruct Tn as [L _]. destruct (kids s k n I L) as [_ Kd]. eapply IHw; eauto. }
    intros x Hx. eapply Gen; eauto. }
  transitivity (checkF N (fuelof N s) k c (var V i) s = Ok tt s).
  { destruct (checkF_ok s k c I Cl' (fuelof N s) l (var V i) T B (fuel_enough _ _ _ _ I T)) as [-> | ->]; split; auto; discriminate. }
  rewrite Ck. split.
  - intros P. split.
    + intros n Hn. apply Vs in Hn. destruct Hn as (x & Hx & Ex). destruct (P x Hx) as (_ & _ & Q). rewrite <- Nc. symmetry. auto.
    + intros n Q. apply Occ in Q. destruct Q as (x & Hx & Ex). apply Sub in Hx. destruct (P x Hx) as (P1 & P2 & _). rewrite <- Wc.
      destruct Ex as [Ex|Ex]; rewrite Ex in *; [destruct P1|destruct P2]; auto; discriminate.
  - intros [P1 P2] x Hx. assert (Hin: In x (all_edges s k (var V i) vs)) by now apply Sub.
    assert (Part: forall a, ep_at (cr (ew x)) = a \/ ep_at (ci (ew x)) = a -> isStatic a = true \/ cget (fst c) a <= entryRefs s a).
    { intros a Ha. destruct a as [| | |n|n]; auto.
      - right. rewrite Wc. apply P2. apply Occ. eauto.
      - exfalso. destruct (Tab x Hx) as [[W1 _] [W2 _]]. destruct Ha as [Ha|Ha]; rewrite Ha in *; cbn in W1, W2; contradiction. }
    split; [apply Part; auto|]. split; [apply Part; auto|]. intros n Hn. rewrite Nc. symmetry. apply P1. apply Vs. exists x. auto.
Qed.
End CheckP.

(** ** Examples *)
(** Variable 1 of the sample program is referenced. *)
Example local_check_example : exists s V, reachedR gR nbdef GR 3 s V D0 /\ In (var V 1) (held V D0 KV) /\ isLocallyConsistent R0 KV (var V 1) s = Ok true s.
Proof.
  destruct reached0 as (s & V & H). exists s, V. split; [exact H|]. pose proof (reached_len _ _ _ _ _ _ _ H) as L.
  assert (Hi: In (var V 1) (held V D0 KV)). { destruct V as [|a [|b V]]; [discriminate|discriminate|]. cbn. now left. }
  split; [exact Hi|]. eapply (local_check_succeeds gR nbdef (XR gR GR) GR); eauto.
Qed.
(** The result of the local check of variable 0 *)
Definition locally (nq : Z) (k : kind) (prog : list (ins NumF)) : option bool :=
  match run NumF gF nbdef prog [] (pkg_init NumF gF nq) with
  | Ok (V, _) s => match isLocallyConsistent NumF k (var V 0) s with Ok b _ => Some b | _ => None end
  | _ => None
  end.
(** A vector that is not referenced is rejected. *)
Example local_check_rejects_ex : locally 2 KV [@IVec NumF [(f1, f0); (f2, f0)]] = Some false /\ locally 2 KV [@IVec NumF [(f1, f0); (f2, f0)]; IInc KV 0] = Some true.
Proof. split; vm_compute; reflexivity. Qed.
(** The result of the global check of variable 0 *)
Definition globally (nq : Z) (k : kind) (prog : list (ins NumF)) : option (bool + exn) :=
  match run NumF gF nbdef prog [] (pkg_init NumF gF nq) with
  | Ok (V, _) s => match isGloballyConsistent NumF k (var V 0) s with Ok b _ => Some (inl b) | Thr x _ => Some (inr x) | _ => None end
  | _ => None
  end.
Lemma globally_thr nq k prog x : globally nq k prog = Some (inr x) -> exists V outs s s',
  run NumF gF nbdef prog [] (pkg_init NumF gF nq) = Ok (V, outs) s /\ isGloballyConsistent NumF k (var V 0) s = Thr x s'.
Proof.
  unfold globally. destruct (run NumF gF nbdef prog [] (pkg_init NumF gF nq)) as [[V outs] s| |]; try discriminate.
  destruct (isGloballyConsistent NumF k (var V 0) s) as [|y s'|] eqn:E; try discriminate. intros [= ->]. exists V, outs, s, s'. auto.
Qed.
(** Variable 1 of the sample program meets the hypotheses of global_check_exact: a vector of two qubits. *)
Example global_check_exact_ex : exists s V, reachedR gR nbdef GR 3 s V D0 /\ live D0 1 KV 1 (Some fV).
Proof. destruct reached0 as (s & V & H). exists s, V. split; [exact H|]. now exists 1%nat. Qed.
(** (1, 2) referenced once passes, ... *)
Example global_check_example : globally 2 KV [@IVec NumF [(f1, f0); (f2, f0)]; IInc KV 0] = Some (inl true).
Proof. vm_compute. reflexivity. Qed.
(** ... but not when it is referenced twice, because the count of its root is then 2 and not 1
    (Package.hpp:3247). *)
Theorem global_check_refuted : exists prog V outs s s', prog = [@IVec NumF [(f1, f0); (f2, f0)]; IInc KV 0; IInc KV 0] /\
  run NumF gF nbdef prog [] (pkg_init NumF gF 2) = Ok (V, outs) s /\ isGloballyConsistent NumF KV (var V 0) s = Thr ERuntime s'.
Proof.
  eexists. destruct (globally_thr 2 KV [@IVec NumF [(f1, f0); (f2, f0)]; IInc KV 0; IInc KV 0] ERuntime) as (V & o & s & s' & A & B); [vm_compute; reflexivity|].
  exists V, o, s, s'. split; [reflexivity|]. auto.
Qed.

Print Assumptions local_check_succeeds.
Print Assumptions local_check_sound.
Print Assumptions referenced_is_sound.
Print Assumptions global_check_defined.
Print Assumptions global_check_exact.
Print Assumptions global_check_refuted.
