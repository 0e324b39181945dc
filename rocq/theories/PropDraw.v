(** The drawing of a diagram and the list of its weights (C67).  The theorems hold for every behaviour of the
    priority queue among edges to the same level and, unless they say otherwise, for every number system with
    a law record [X], among them the doubles. *)
From Coq Require Import ZArith List Bool Lia Arith Permutation Sorted Reals.
From Verif Require Import Num Base CTable CTableWf Cx State Pkg Draw Inv InvL PrimL NormL MkL TrL AddL StateL DelL SerialW Run Inst PropBase PropSem PropStruct PropGate PropRefute.
Import ListNotations.
Local Open Scope Z_scope.

(** What std::priority_queue promises: nothing is lost, and the edge taken leads to a node of the highest level. *)
Definition queue {N : num} (pop : st N -> kind -> list edge -> option (edge * list edge)) : Prop :=
  forall s k q, match pop s k q with
                | None => q = []
                | Some (e, r) => Permutation q (e :: r) /\ forall x, In x r -> plevel N s k (ep x) <= plevel N s k (ep e)
                end.
(** Nodes reached from [p] through edges that are not left out *)
Inductive shown {N : num} (skip : st N -> edge -> bool) (s : st N) (k : kind) : nptr -> nptr -> Prop :=
  | sh_here p : shown skip s k p p
  | sh_step n c p : In c (ne (nod s k n)) -> skip s c = false -> shown skip s k (ep c) p -> shown skip s k (PNode n) p.
(** From the highest level to the lowest *)
Definition downwards {N : num} (s : st N) (k : kind) (L : list nat) : Prop := StronglySorted (fun a b => nv (nod s k b) <= nv (nod s k a)) L.

Lemma shown_right {N : num} skip (s : st N) k p n c : shown skip s k p (PNode n) -> In c (ne (nod s k n)) -> skip s c = false -> shown skip s k p (ep c).
Proof.
  intros H Hc Hs. remember (PNode n) as t eqn:E. induction H as [p|m d p Hd Sd H IH]; subst.
  - econstructor; eauto. constructor.
  - econstructor; eauto.
Qed.
Lemma popFirst_queue {N : num} : queue (popFirst N).
Proof.
  intros s k q. induction q as [|e q IH]; cbn [popFirst]; auto. destruct (popFirst N s k q) as [[x r]|].
  - destruct IH as [P H]. destruct (Z.ltb_spec (plevel N s k (ep e)) (plevel N s k (ep x))) as [L|L].
    + split; [rewrite P; apply perm_swap|]. intros y [<-|Hy]; [lia|auto].
    + split; auto. intros y Hy. apply (Permutation_in _ P) in Hy. destruct Hy as [<-|Hy]; [lia|]. specialize (H y Hy). lia.
  - subst. split; auto. intros x [].
Qed.

Section Walk.
Context {N : num} (pop : st N -> kind -> list edge -> option (edge * list edge)) (Q : queue pop).
Context {A : Type} (skip : st N -> edge -> bool) (atNode : st N -> nat -> list A) (atEdge : st N -> nat -> nat -> edge -> A).
Context (s : st N) (k : kind) (p0 : nptr) (U : list nat).
Local Notation kept n := (filter (fun ic => negb (skip s (snd ic))) (numbered N s k n)).
Definition block (n : nat) : list A := atNode s n ++ map (fun ic => atEdge s n (fst ic) (snd ic)) (kept n).
(** The nodes [U] are closed under successors, which are on lower levels. *)
Definition inU (p : nptr) : Prop := match p with PNull => False | PTerm => True | PNode n => In n U end.
Hypothesis UC : forall n c, In n U -> In c (ne (nod s k n)) -> inU (ep c) /\ plevel N s k (ep c) <= nv (nod s k n).
Hypothesis U0 : forall n, In n U -> 0 <= nv (nod s k n).

Lemma numbered_in n i c : In (i, c) (numbered N s k n) <-> nth_error (ne (nod s k n)) i = Some c.
Proof.
  unfold numbered. rewrite <- in_rev. generalize (ne (nod s k n)) as l. intros l.
  assert (H: forall l j, In (i, c) (combine (seq j (length l)) l) <-> (j <= i)%nat /\ nth_error l (i - j) = Some c).
  { clear l. induction l as [|a l IH]; intros j; cbn [length seq combine In].
    - split; [intros []|]. intros [_ H]. destruct (i - j)%nat; discriminate.
    - rewrite IH. split.
      + intros [[= -> ->]|[H1 H2]]; [split; auto; rewrite Nat.sub_diag; reflexivity|]. split; [lia|]. replace (i - j)%nat with (S (i - S j)) by lia. exact H2.
      + intros [H1 H2]. destruct (Nat.eq_dec i j) as [->|Ne]; [left; rewrite Nat.sub_diag in H2; cbn in H2; congruence|]. right. split; [lia|]. replace (i - j)%nat with (S (i - S j)) in H2 by lia. exact H2. }
  rewrite (H l 0%nat), Nat.sub_0_r. split; [tauto|]. split; [lia|auto].
Qed.
Lemma kept_in n ic : In ic (kept n) <-> nth_error (ne (nod s k n)) (fst ic) = Some (snd ic) /\ skip s (snd ic) = false.
Proof. destruct ic as [i c]. rewrite filter_In, numbered_in. cbn [fst snd]. now rewrite negb_true_iff. Qed.
Lemma kept_edge n c : In c (map snd (kept n)) -> In c (ne (nod s k n)) /\ skip s c = false.
Proof. intros H. apply in_map_iff in H. destruct H as (ic & <- & H). apply kept_in in H. destruct H as [H1 H2]. split; auto. eapply nth_error_In; eauto. Qed.
Lemma kept_short n : (length (kept n) <= length (ne (nod s k n)))%nat.
Proof.
  transitivity (length (numbered N s k n)).
  - generalize (numbered N s k n). intros l. induction l as [|a l IH]; cbn; auto. destruct (negb _); cbn; lia.
  - unfold numbered. rewrite rev_length, combine_length, seq_length. lia.
Qed.

Variable K : nat.
Hypothesis UK : forall n, In n U -> (length (ne (nod s k n)) < K)%nat.
Record winv (q : list edge) (seen : list nat) : Prop := {
  wi_nd : NoDup seen;
  wi_in : forall n, In n seen -> In n U;
  wi_q : forall e, In e q -> inU (ep e);
  wi_sh : forall n, In n seen -> shown skip s k p0 (PNode n);
  wi_shq : forall e, In e q -> shown skip s k p0 (ep e);
  wi_cl : forall n c m, In n seen -> In c (ne (nod s k n)) -> skip s c = false -> ep c = PNode m -> In m seen \/ exists e, In e q /\ ep e = PNode m;
  wi_r : forall n, p0 = PNode n -> In n seen \/ exists e, In e q /\ ep e = PNode n;
  wi_lv : StronglySorted (fun a b => nv (nod s k a) <= nv (nod s k b)) seen;
  wi_ql : forall e n, In e q -> In n seen -> plevel N s k (ep e) <= nv (nod s k n) }.

Lemma sorted_rev (R1 R2 : nat -> nat -> Prop) l : (forall a b, R1 a b -> R2 b a) -> StronglySorted R1 l -> StronglySorted R2 (rev l).
Proof.
  intros H S. induction S as [|a l S IH F]; cbn [rev]; [constructor|]. assert (F2: Forall (fun b => R2 b a) (rev l)) by (apply Forall_rev; eapply Forall_impl; [|exact F]; auto).
  clear F S. induction IH as [|b l' S' IH' F']; cbn [app]; [repeat constructor|]. inversion F2; subst. constructor; auto. apply Forall_app. split; auto.
Qed.
Lemma walk_sp fuel : forall q seen out, winv q seen -> (length q + K * (length U - length seen) < fuel)%nat ->
  exists more, walk N pop fuel k skip atNode atEdge q seen out s = Ok (out ++ flat_map block more) s /\ winv [] (rev more ++ seen).
Proof.
  induction fuel as [|fuel IH]; intros q seen out W F; [exfalso; exact (Nat.nlt_0_r _ F)|]. cbn [walk]. unfold bind, get. pose proof (Q s k q) as P. destruct (pop s k q) as [[e r]|].
  2: { subst q. exists []. cbn [flat_map rev app]. rewrite app_nil_r. split; auto. }
  destruct P as [P Mx]. pose proof (Permutation_length P) as Ln. cbn [length] in Ln. assert (He: In e q) by (apply (Permutation_in _ (Permutation_sym P)); now left).
  assert (Hr: forall x, In x r -> In x q) by (intros x Hx; apply (Permutation_in _ (Permutation_sym P)); now right).
  assert (Hq: forall x, In x q -> x = e \/ In x r) by (intros x Hx; apply (Permutation_in _ P) in Hx; destruct Hx; auto).
  assert (Drop: (forall n, ep e = PNode n -> In n seen) -> winv r seen).
  { intros D. constructor; try apply W; auto; try (intros; apply W; auto).
    - intros n c m H1 H2 H3 H4. destruct (wi_cl _ _ W n c m H1 H2 H3 H4) as [H|(x & Hx & Ex)]; auto. destruct (Hq _ Hx) as [->|Hx']; [left; auto|]. right. exists x. auto.
    - intros n Hn. destruct (wi_r _ _ W n Hn) as [H|(x & Hx & Ex)]; auto. destruct (Hq _ Hx) as [->|Hx']; [left; auto|]. right. exists x. auto. }
  pose proof (wi_q _ _ W e He) as Ue. destruct (ep e) as [| |n] eqn:Ee; [contradiction| |].
  - apply IH; [apply Drop; discriminate|lia].
  - destruct (memb n seen) eqn:Mn. { apply memb_In in Mn. apply IH; [apply Drop; intros m [= <-]; auto|lia]. }
    assert (Nn: ~ In n seen) by (intros H; apply memb_In in H; congruence). cbn in Ue.
    assert (Ls: (S (length seen) <= length U)%nat).
    { change (S (length seen)) with (length (n :: seen)). apply NoDup_incl_length; [constructor; auto; apply W|]. intros m [<-|Hm]; auto. now apply W. }
    assert (Lk: (length (map snd (kept n)) < K)%nat) by (rewrite map_length; pose proof (kept_short n); pose proof (UK n Ue); lia).
    destruct (IH (map snd (kept n) ++ r) (n :: seen) (out ++ block n)) as (more & E & W').
    + constructor.
      * constructor; auto. apply W.
      * intros m [<-|Hm]; auto. now apply W.
      * intros x Hx. apply in_app_or in Hx. destruct Hx as [Hx|Hx]; [|apply W; auto]. apply kept_edge in Hx. apply (UC n x); tauto.
      * intros m [<-|Hm]; [|now apply W]. rewrite <- Ee. now apply W.
      * intros x Hx. apply in_app_or in Hx. destruct Hx as [Hx|Hx]; [|apply W; auto]. apply kept_edge in Hx. apply (shown_right _ _ _ _ n); try tauto. rewrite <- Ee. now apply W.
      * intros a c m [<-|Ha] Hc Sc Em.
        -- right. exists c. split; auto. apply in_or_app. left. apply In_nth_error in Hc. destruct Hc as [i Hi]. apply in_map_iff. exists (i, c). split; auto. apply kept_in. auto.
        -- destruct (wi_cl _ _ W a c m Ha Hc Sc Em) as [H|(x & Hx & Ex)]; [left; now right|]. destruct (Hq _ Hx) as [->|Hx']; [left; left; congruence|]. right. exists x. split; auto. apply in_or_app. auto.
      * intros m Hm. destruct (wi_r _ _ W m Hm) as [H|(x & Hx & Ex)]; [left; now right|]. destruct (Hq _ Hx) as [->|Hx']; [left; left; congruence|]. right. exists x. split; auto. apply in_or_app. auto.
      * constructor; [apply W|]. apply Forall_forall. intros b Hb. pose proof (wi_ql _ _ W e b He Hb) as L. rewrite Ee in L. exact L.
      * intros x m Hx [<-|Hm]; apply in_app_or in Hx; destruct Hx as [Hx|Hx].
        -- apply kept_edge in Hx. apply (UC n x); tauto.
        -- specialize (Mx x Hx). exact Mx.
        -- apply kept_edge in Hx. pose proof (wi_ql _ _ W e m He Hm) as L. rewrite Ee in L. cbn in L. pose proof (proj2 (UC n x Ue (proj1 Hx))). lia.
        -- apply W; auto.
    + rewrite app_length. cbn [length]. replace (length U - length seen)%nat with (S (length U - S (length seen))) in F by lia. rewrite Nat.mul_succ_r in F. lia.
    + exists (n :: more). cbn [flat_map rev]. rewrite app_assoc. split; [|rewrite <- app_assoc; exact W'].
      rewrite <- app_assoc. rewrite <- app_assoc in E. exact E.
Qed.
(** All nodes shown, each once, from the top downwards *)
Lemma walk_all out e : ep e = p0 -> inU p0 -> exists L, NoDup L /\ (forall n, In n L <-> shown skip s k p0 (PNode n)) /\ downwards s k L /\
  forall fuel, (S (1 + K * length U) <= fuel)%nat -> walk N pop fuel k skip atNode atEdge [e] [] out s = Ok (out ++ flat_map block L) s.
Proof.
  intros Ee Up.
  assert (W0: winv [e] []).
  { assert (He: forall x : edge, In x [e] -> ep x = p0) by (intros x [<-|[]]; exact Ee). constructor.
    - constructor.
    - intros n [].
    - intros x Hx. now rewrite (He x Hx).
    - intros n [].
    - intros x Hx. rewrite (He x Hx). constructor.
    - intros n c m [].
    - intros n Hn. right. exists e. split; [now left|congruence].
    - constructor.
    - intros x n _ []. }
  assert (Fin: forall more, winv [] (rev more ++ []) -> NoDup more /\ (forall n, In n more <-> shown skip s k p0 (PNode n)) /\ downwards s k more).
  { intros more W. rewrite app_nil_r in W. split; [rewrite <- (rev_involutive more); apply NoDup_rev, W|]. split.
    - intros n. rewrite in_rev. split; [apply W|]. intros H.
      assert (Gen: forall p t, shown skip s k p t -> forall n, t = PNode n -> (forall m, p = PNode m -> In m (rev more)) -> In n (rev more)).
      { clear n H. intros p t H. induction H as [p|m c p Hc Sc H IH]; intros n -> Hp; [auto|]. apply IH; auto. intros m' Em. destruct (wi_cl _ _ W m c m') as [|(x & [] & _)]; auto. }
      apply (Gen _ _ H n eq_refl). intros m Hm. destruct (wi_r _ _ W m Hm) as [|(x & [] & _)]; auto.
    - unfold downwards. rewrite <- (rev_involutive more). eapply sorted_rev; [|apply W]. auto. }
  destruct (walk_sp (S (1 + K * length U)) [e] [] out W0) as (L & E & W); [cbn [length]; lia|]. exists L. destruct (Fin L W) as (A1 & A2 & A3). split; auto. split; auto. split; auto.
  (* more fuel changes nothing *)
  assert (Mono: forall f q seen o r, walk N pop f k skip atNode atEdge q seen o s = Ok r s -> forall f', (f <= f')%nat -> walk N pop f' k skip atNode atEdge q seen o s = Ok r s).
  { clear. induction f as [|f IH]; intros q seen o r H f' Hf; [discriminate|]. destruct f' as [|f']; [lia|]. cbn [walk] in *. unfold bind, get in *. destruct (pop s k q) as [[e r1]|]; auto.
    destruct (ep e) as [| |n]; auto; [apply (IH _ _ _ _ H); lia|]. destruct (memb n seen); apply (IH _ _ _ _ H); lia. }
  intros fuel Hf. apply (Mono _ _ _ _ _ E). exact Hf.
Qed.
End Walk.

(** * The theorems *)
Section DrawP.
Context {N : num} (g : cfg N) (nb : kind -> Z) (X : numx N (g_ct g)) (G : gok g).
Local Notation reached := (reached (g:=g) (nb:=nb) (X:=X)).
Local Notation co := (co N).
Local Notation inv := (inv N g nb X).
Local Notation tedge := (tedge N g X).
Context (pop : st N -> kind -> list edge -> option (edge * list edge)) (Q : queue pop).
Implicit Types (s : st N) (k : kind).

Lemma kids s k n : inv s -> linked N (co s) k n -> 0 <= nv (nod s k n) /\ length (ne (nod s k n)) = arity k /\ forall c, In c (ne (nod s k n)) -> tedge (co s) k (nv (nod s k n) - 1) c.
Proof.
  intros I L. destruct (linked_ok (g:=g) (nb:=nb) (X:=X) _ _ _ (iv_c _ _ _ _ _ I) L) as (b & K & _).
  split; [apply (no_v _ _ _ _ _ _ _ _ _ K)|]. split; [exact (no_len _ _ _ _ _ _ _ _ _ K)|exact (no_es _ _ _ _ _ _ _ _ _ K)].
Qed.
Lemma reach_linked s k p t : inv s -> DelL.reach s k p t -> (forall n, p = PNode n -> linked N (co s) k n) -> p <> PNull -> t <> PNull /\ forall n, t = PNode n -> linked N (co s) k n.
Proof.
  intros I R. induction R as [p|n c p Hc R IH]; intros Hp Np; [auto|]. apply IH.
  - intros m Em. destruct (kids s k n I (Hp n eq_refl)) as (_ & _ & K). pose proof (te_n _ _ _ _ _ _ _ (K c Hc)) as T. rewrite Em in T. apply T.
  - intros Em. destruct (kids s k n I (Hp n eq_refl)) as (_ & _ & K). pose proof (te_n _ _ _ _ _ _ _ (K c Hc)) as T. rewrite Em in T. exact T.
Qed.
Lemma reach_trans s k p n c : DelL.reach s k p (PNode n) -> In c (ne (nod s k n)) -> DelL.reach s k p (ep c).
Proof.
  intros R. remember (PNode n) as t eqn:E. induction R as [p|m d p Hd R IH]; intros Hc; subst.
  - econstructor; eauto. constructor.
  - econstructor; eauto.
Qed.
Lemma walk_ok {A} s k l x skip (atNode : st N -> nat -> list A) atEdge out : inv s -> tedge (co s) k l x -> -1 <= l < s_nq s ->
  exists L f0, NoDup L /\ (forall n, In n L <-> shown skip s k (ep x) (PNode n)) /\ downwards s k L /\
    forall fuel, (f0 <= fuel)%nat -> walk N pop fuel k skip atNode atEdge [x] [] out s = Ok (out ++ flat_map (block skip atNode atEdge s k) L) s.
Proof.
  intros I T Hl. destruct (size_sp (g:=g) (nb:=nb) (X:=X) s k l x) as (ps & _ & Nd & Hi); auto.
  set (U := flat_map (fun p => match p with PNode n => [n] | _ => [] end) ps).
  assert (HU: forall n, In n U <-> DelL.reach s k (ep x) (PNode n)).
  { intros n. rewrite <- Hi. unfold U. rewrite in_flat_map. split; [intros ([| |m] & Hm & Hn); try contradiction; destruct Hn as [->|[]]; auto|]. intros H. exists (PNode n). split; auto. now left. }
  assert (X0: ep x <> PNull /\ forall n, ep x = PNode n -> linked N (co s) k n).
  { pose proof (te_n _ _ _ _ _ _ _ T) as Tn. destruct (ep x); [contradiction|split; discriminate|]. split; [discriminate|]. intros m [= <-]. apply Tn. }
  assert (LU: forall n, In n U -> linked N (co s) k n).
  { intros n Hn. apply HU in Hn. apply (reach_linked s k _ _ I Hn); tauto. }
  destruct (walk_all pop Q skip atNode atEdge s k (ep x) U) with (K := S (arity k)) (e := x) (out := out) as (L & A1 & A2 & A3 & A4); auto.
  - intros n c Hn Hc. destruct (kids s k n I (LU n Hn)) as (V0 & _ & K). specialize (K c Hc). apply HU in Hn. pose proof (reach_trans _ _ _ _ _ Hn Hc) as R.
    pose proof (te_n _ _ _ _ _ _ _ K) as Tn. destruct (ep c) as [| |m] eqn:Ec; [contradiction|split; [exact Logic.I|cbn; lia]|]. split; [now apply HU|]. cbn. destruct Tn as [_ Tn]. change (qn N (co s) k m) with (nod s k m) in Tn. lia.
  - intros n Hn. destruct (kids s k n I (LU n Hn)) as (_ & Ln & _). rewrite Ln. lia.
  - destruct (ep x) as [| |m] eqn:Ex; [tauto|exact Logic.I|]. apply HU. constructor.
  - exists L, (S (1 + S (arity k) * length U))%nat. split; auto.
Qed.

Lemma numbered_snd s k n : map snd (numbered N s k n) = rev (ne (nod s k n)).
Proof.
  unfold numbered. rewrite map_rev. f_equal. generalize (ne (nod s k n)) as l. intros l. generalize 0%nat. induction l as [|a l IH]; intros j; cbn; auto. now rewrite IH.
Qed.
Lemma filter_map_snd {A B} (f : B -> bool) (l : list (A * B)) : map snd (filter (fun x => f (snd x)) l) = filter f (map snd l).
Proof. induction l as [|a l IH]; cbn; auto. destruct (f (snd a)); cbn; now rewrite IH. Qed.
Lemma filter_rev' {B} (f : B -> bool) l : filter f (rev l) = rev (filter f l).
Proof. induction l as [|a l IH]; cbn; auto. rewrite filter_app, IH. cbn. destruct (f a); cbn; auto. now rewrite app_nil_r. Qed.

(** The list of weights: that of the root, then for every node that can be reached without the edges of
    weight about zero, once and from the highest level downwards, those of its other edges, the last
    successor first.  Nothing changes. *)
Theorem weights_listed nq s V D k l x : reached nq s V D -> usr V D k l x ->
  exists L f0, NoDup L /\ (forall n, In n L <-> shown (fun s c => wapx0 s (ew c)) s k (ep x) (PNode n)) /\ downwards s k L /\
    forall fuel, (f0 <= fuel)%nat -> exportEdgeWeights N pop fuel k x s =
      Ok (cval s (ew x) :: flat_map (fun n => map (fun c => cval s (ew c)) (rev (filter (fun c => negb (wapx0 s (ew c))) (ne (nod s k n))))) L) s.
Proof.
  intros H (i & f & Lv & <-). pose proof (reached_sim G _ _ _ _ H) as S. destruct (sim_live _ _ _ _ _ _ _ _ _ S Lv) as (Ll & Tx & _). pose proof S as [Nq _ _ _ _]. destruct (reached_i _ _ _ G _ _ _ _ H) as (I & _).
  destruct (walk_ok s k l (var V i) (fun s c => wapx0 s (ew c)) (fun _ _ => []) (fun s _ _ c => cval s (ew c)) [cval s (ew (var V i))] I Tx) as (L & f0 & A1 & A2 & A3 & A4); [now rewrite Nq|].
  exists L, f0. split; auto. split; auto. split; auto. intros fuel Hf. unfold exportEdgeWeights, bind, get. rewrite A4 by auto. cbn [app]. f_equal. f_equal.
  apply flat_map_ext. intros n. unfold block. cbn [app]. rewrite <- (map_map snd (fun c => cval s (ew c))), (filter_map_snd (fun c => negb (wapx0 s (ew c)))), numbered_snd. now rewrite filter_rev'.
Qed.

Context (addr : nat -> Z).
(** What belongs to one node: its declaration and its edges, the last successor first. *)
Definition drawn_node s k (colored classic memory : bool) n : list (stmt (N * N)) :=
  let lb := nodeLabel (addr n) in let cs := ne (nod s k n) in
  SNode lb (nv (nod s k n)) (map (zeroMark N memory s) cs) ::
  flat_map (fun i => match nth_error cs i with
                     | Some c => if hidden N memory s c then [] else
                         [SEdge lb i (sideOf k memory classic i) (target addr (ep c)) (cval s (ew c)) (dashes N memory colored s (ew c))]
                     | None => [] end) (rev (seq 0 (length cs))).
Lemma block_drawn s k colored classic memory n :
  block (hidden N memory) (fun s n => [SNode (nodeLabel (addr n)) (nv (nod s k n)) (map (zeroMark N memory s) (ne (nod s k n)))])
    (fun s n i c => SEdge (nodeLabel (addr n)) i (sideOf k memory classic i) (target addr (ep c)) (cval s (ew c)) (dashes N memory colored s (ew c))) s k n = drawn_node s k colored classic memory n.
Proof.
  unfold block, drawn_node. cbn [app]. f_equal. unfold numbered. generalize (ne (nod s k n)) as cs. intros cs.
  assert (Gen: forall pre r, map (fun ic => SEdge (nodeLabel (addr n)) (fst ic) (sideOf k memory classic (fst ic)) (target addr (ep (snd ic))) (cval s (ew (snd ic))) (dashes N memory colored s (ew (snd ic))))
      (filter (fun ic => negb (hidden N memory s (snd ic))) (rev (combine (seq (length pre) (length r)) r))) =
    flat_map (fun i => match nth_error (pre ++ r) i with
                     | Some c => if hidden N memory s c then [] else
                         [SEdge (nodeLabel (addr n)) i (sideOf k memory classic i) (target addr (ep c)) (cval s (ew c)) (dashes N memory colored s (ew c))]
                     | None => [] end) (rev (seq (length pre) (length r)))).
  { intros pre r. revert pre. induction r as [|c r IH]; intros pre; [reflexivity|]. cbn [length seq combine rev].
    rewrite filter_app, map_app, flat_map_app. specialize (IH (pre ++ [c])). rewrite app_length in IH. cbn [length] in IH. rewrite Nat.add_1_r in IH. rewrite IH, <- app_assoc. cbn [app]. f_equal.
    cbn [filter flat_map]. rewrite nth_error_app2, Nat.sub_diag by auto. cbn [nth_error snd]. destruct (hidden N memory s c); reflexivity. }
  exact (Gen [] cs).
Qed.
(** The drawing: the arrow to the root, then the nodes that can be reached through drawn edges, once and
    from the highest level downwards, each with its edges.  Nothing changes. *)
Theorem graph_drawn nq s V D k l x colored classic memory : reached nq s V D -> usr V D k l x ->
  exists L f0, NoDup L /\ (forall n, In n L <-> shown (hidden N memory) s k (ep x) (PNode n)) /\ downwards s k L /\
    forall fuel, (f0 <= fuel)%nat -> toDot N addr pop fuel k x colored classic memory s =
      Ok (SRoot (target addr (ep x)) (cval s (ew x)) (dashes N memory colored s (ew x)) :: flat_map (drawn_node s k colored classic memory) L) s.
Proof.
  intros H (i & f & Lv & <-). pose proof (reached_sim G _ _ _ _ H) as S. destruct (sim_live _ _ _ _ _ _ _ _ _ S Lv) as (Ll & Tx & _). pose proof S as [Nq _ _ _ _]. destruct (reached_i _ _ _ G _ _ _ _ H) as (I & _).
  destruct (walk_ok s k l (var V i) (hidden N memory)
    (fun s n => [SNode (nodeLabel (addr n)) (nv (nod s k n)) (map (zeroMark N memory s) (ne (nod s k n)))])
    (fun s n i c => SEdge (nodeLabel (addr n)) i (sideOf k memory classic i) (target addr (ep c)) (cval s (ew c)) (dashes N memory colored s (ew c)))
    [SRoot (target addr (ep (var V i))) (cval s (ew (var V i))) (dashes N memory colored s (ew (var V i)))] I Tx) as (L & f0 & A1 & A2 & A3 & A4); [now rewrite Nq|].
  exists L, f0. split; [exact A1|]. split; [exact A2|]. split; [exact A3|]. intros fuel Hf. unfold toDot, bind, get. rewrite A4 by auto. cbn [app]. f_equal. f_equal.
  apply flat_map_ext. intros n. apply block_drawn.
Qed.

(** ** What a reader of the drawing can rely on *)
Lemma drawn_edge s k colored classic memory n a i sd t w d : In (SEdge a i sd t w d) (drawn_node s k colored classic memory n) <->
  exists c, nth_error (ne (nod s k n)) i = Some c /\ hidden N memory s c = false /\ a = nodeLabel (addr n) /\ sd = sideOf k memory classic i /\
    t = target addr (ep c) /\ w = cval s (ew c) /\ d = dashes N memory colored s (ew c).
Proof.
  unfold drawn_node. cbn [In]. rewrite in_flat_map. split.
  - intros [H|(j & _ & H)]; [discriminate|]. destruct (nth_error _ j) as [c|] eqn:E; [|contradiction]. destruct (hidden N memory s c) eqn:Hc; [contradiction|].
    destruct H as [H|[]]. injection H as <- <- <- <- <- <-. exists c. repeat split; auto.
  - intros (c & E & Hc & -> & -> & -> & -> & ->). right. exists i. split; [apply in_rev; rewrite rev_involutive; apply in_seq; split; [lia|]; apply nth_error_Some; congruence|].
    rewrite E, Hc. now left.
Qed.
Lemma drawn_decl s k colored classic memory n a v z : In (SNode a v z) (drawn_node s k colored classic memory n) <->
  a = nodeLabel (addr n) /\ v = nv (nod s k n) /\ z = map (zeroMark N memory s) (ne (nod s k n)).
Proof.
  unfold drawn_node. cbn [In]. rewrite in_flat_map. split.
  - intros [H|(j & _ & H)]; [injection H as <- <- <-; auto|]. destruct (nth_error _ j) as [c|]; [|contradiction]. destruct (hidden N memory s c); [contradiction|]. destruct H as [H|[]]. discriminate.
  - intros (-> & -> & ->). now left.
Qed.

Lemma shown_kid nq s V D k l x skip n c : reached nq s V D -> usr V D k l x -> shown skip s k (ep x) (PNode n) -> In c (ne (nod s k n)) -> tedge (co s) k (nv (nod s k n) - 1) c.
Proof.
  intros H (i0 & f & Lv & <-) Sh. pose proof (reached_sim G _ _ _ _ H) as S. destruct (sim_live _ _ _ _ _ _ _ _ _ S Lv) as (Ll & Tx & _). destruct (reached_i _ _ _ G _ _ _ _ H) as (I & _).
  assert (Rn: DelL.reach s k (ep (var V i0)) (PNode n)).
  { clear - Sh. induction Sh as [p|m' d p Hd Sd Sh IH]; [constructor|]. econstructor; eauto. }
  assert (Ln: linked N (co s) k n).
  { apply (reach_linked s k _ _ I Rn); auto; pose proof (te_n _ _ _ _ _ _ _ Tx) as Tn; destruct (ep (var V i0)); try contradiction; try discriminate. intros m' [= <-]. apply Tn. }
  apply (kids s k n I Ln).
Qed.
(** Every arrow starts and ends at a declared node or ends at the terminal; an arrow that ends at a node
    leads to the level below. *)
Theorem graph_closed nq s V D k l x colored classic memory : reached nq s V D -> usr V D k l x ->
  exists out f0, (forall fuel, (f0 <= fuel)%nat -> toDot N addr pop fuel k x colored classic memory s = Ok out s) /\
    (forall t w d, In (SRoot (Some t) w d) out -> exists v z, In (SNode t v z) out) /\
    (forall a i sd w d t, In (SEdge a i sd t w d) out -> exists v z, In (SNode a v z) out /\
       forall b, t = Some b -> exists z', In (SNode b (v - 1) z') out).
Proof.
  intros H U. destruct (graph_drawn _ _ _ _ _ _ _ colored classic memory H U) as (L & f0 & A1 & A2 & A3 & A4).
  eexists. exists f0. split; [exact A4|]. cbn [In]. split.
  - intros t w d [E|Hin].
    + destruct (ep x) as [| |n] eqn:Ex; try discriminate. injection E as <- <- <-. exists (nv (nod s k n)), (map (zeroMark N memory s) (ne (nod s k n))). right.
      apply in_flat_map. exists n. split; [apply A2; constructor|]. apply drawn_decl; auto.
    + exfalso. apply in_flat_map in Hin. destruct Hin as (n & _ & Hin). unfold drawn_node in Hin. destruct Hin as [Hin|Hin]; [discriminate|].
      apply in_flat_map in Hin. destruct Hin as (j & _ & Hin). destruct (nth_error _ j); [|contradiction]. destruct (hidden _ _ _ _); [contradiction|]. destruct Hin as [Hin|[]]; discriminate.
  - intros a i sd w d t [E|Hin]; [discriminate|]. apply in_flat_map in Hin. destruct Hin as (n & Hn & Hin). apply drawn_edge in Hin.
    destruct Hin as (c & Hc & Sc & -> & -> & -> & -> & ->). exists (nv (nod s k n)), (map (zeroMark N memory s) (ne (nod s k n))).
    split; [right; apply in_flat_map; exists n; split; auto; apply drawn_decl; auto|].
    intros b Eb. destruct (ep c) as [| |m] eqn:Ec; try discriminate. injection Eb as <-. apply nth_error_In in Hc.
    pose proof (proj1 (A2 n) Hn) as Sh. assert (Hm: In m L) by (apply A2; rewrite <- Ec; apply (shown_right _ _ _ _ n); auto).
    exists (map (zeroMark N memory s) (ne (nod s k m))). right. apply in_flat_map. exists m. split; auto. apply drawn_decl. split; auto. split; auto.
    pose proof (te_n _ _ _ _ _ _ _ (shown_kid _ _ _ _ _ _ _ _ _ _ H U Sh Hc)) as T. rewrite Ec in T. symmetry. apply T.
Qed.

(** The nodes declared *)
Definition declared {W} (out : list (stmt W)) : list Z := flat_map (fun x => match x with SNode a _ _ => [a] | _ => [] end) out.
Lemma declared_all s k colored classic memory L : declared (flat_map (drawn_node s k colored classic memory) L) = map (fun n => nodeLabel (addr n)) L.
Proof.
  unfold declared. induction L as [|n L IH]; [reflexivity|]. cbn [flat_map map]. rewrite flat_map_app, IH. unfold drawn_node at 1. cbn [flat_map app]. f_equal.
  match goal with |- ?x ++ _ = _ => replace x with (@nil Z); [reflexivity|] end. symmetry. induction (rev _) as [|i r IHr]; [reflexivity|]. cbn [flat_map]. rewrite flat_map_app, IHr, app_nil_r.
  destruct (nth_error _ i); [|reflexivity]. destruct (hidden _ _ _ _); reflexivity.
Qed.
(** Addresses that the drawing tells apart *)
Definition told_apart (L : list nat) : Prop := forall a b, In a L -> In b L -> nodeLabel (addr a) = nodeLabel (addr b) -> a = b.
(** If it tells the nodes apart, each node is declared once, and the zeros shown at a node are at the successors
    without an arrow (with exact numbers in drawings of the memory, too). *)
Theorem graph_zeros nq s V D k l x colored classic memory : reached nq s V D -> usr V D k l x -> (memory = true -> ex X) ->
  exists out f0 L, (forall fuel, (f0 <= fuel)%nat -> toDot N addr pop fuel k x colored classic memory s = Ok out s) /\
    (forall n, In n L <-> shown (hidden N memory) s k (ep x) (PNode n)) /\
    (told_apart L -> NoDup (declared out) /\ forall a v z i, In (SNode a v z) out -> (i < length z)%nat ->
       (nth_error z i = Some true <-> ~ exists sd t w d, In (SEdge a i sd t w d) out)).
Proof.
  intros H U Mx. destruct (graph_drawn _ _ _ _ _ _ _ colored classic memory H U) as (L & f0 & A1 & A2 & A3 & A4).
  eexists. exists f0, L. split; [exact A4|]. split; [exact A2|]. intros TA. split.
  { change (NoDup (declared (flat_map (drawn_node s k colored classic memory) L))). rewrite declared_all. clear - A1 TA. unfold told_apart in TA. induction A1 as [|n L Hn Nd IH]; cbn [map]; [constructor|]. constructor.
    - intros Hin. apply in_map_iff in Hin. destruct Hin as (m & E & Hm). apply Hn. rewrite <- (TA m n); auto; [now right|now left].
    - apply IH. intros a b Ha Hb. apply TA; now right. }
  intros a v z i Hin Hi. destruct Hin as [E|Hin]; [discriminate|].
  apply in_flat_map in Hin. destruct Hin as (n & Hn & Hin). apply drawn_decl in Hin. destruct Hin as (-> & -> & ->). rewrite map_length in Hi.
  destruct (nth_error (ne (nod s k n)) i) as [c|] eqn:Ec; [|apply nth_error_None in Ec; lia]. rewrite (map_nth_error _ _ _ Ec).
  assert (Zh: zeroMark N memory s c = hidden N memory s c).
  { unfold zeroMark, hidden. destruct memory; cbn [negb andb orb].
    - specialize (Mx eq_refl). destruct (reached_i _ _ _ G _ _ _ _ H) as (I & _). apply (proj1 (A2 n)) in Hn. pose proof (shown_kid _ _ _ _ _ _ _ _ _ _ H U Hn (nth_error_In _ _ Ec)) as T.
      apply eq_true_iff_eq. unfold edge_eqb. rewrite andb_true_iff, ceqb_spec. split.
      + intros [_ W]. apply (zero_w (g:=g) (nb:=nb) (X:=X) s I Mx); [apply T|]. rewrite (x_wapx (X:=X)) in W by exact Mx. rewrite (x_wapx0 (X:=X)) by exact Mx. rewrite W. cbn [Ezero ew].
        apply (x_wapx0 (X:=X) s Czero Mx). reflexivity.
      + intros E. rewrite (te_z _ _ _ _ _ _ _ T Mx E), E. split; [reflexivity|]. now apply (x_wapx (X:=X)).
    - destruct (ceqb (ew c) Czero) eqn:E; [|now rewrite orb_false_r]. apply ceqb_spec in E. rewrite E. rewrite orb_true_r. reflexivity. }
  rewrite Zh. split.
  - intros [= Hh] (sd & t & w & d & [E|Hin]); [discriminate|]. apply in_flat_map in Hin. destruct Hin as (m & Hm & Hin). apply drawn_edge in Hin.
    destruct Hin as (c' & Ec' & Hc' & El & _). apply TA in El; auto. subst m. congruence.
  - intros Nh. destruct (hidden N memory s c) eqn:Hh; auto. exfalso. apply Nh. do 4 eexists. right. apply in_flat_map. exists n. split; auto.
    apply drawn_edge. exists c. split; [exact Ec|]. split; [exact Hh|]. repeat split.
Qed.

(** With exact numbers all nodes are drawn and the weights of all edges but those to zero are listed. *)
Lemma shown_all s k p n (skip : st N -> edge -> bool) : ex X -> inv s -> (forall c, wtab N g X (co s) (ew c) -> skip s c = true -> ew c = Czero) ->
  (forall m, p = PNode m -> linked N (co s) k m) -> shown skip s k p (PNode n) <-> DelL.reach s k p (PNode n).
Proof.
  intros Ex I Hs Hp. split.
  - clear. intros Sh. induction Sh as [p|m' d p Hd Sd Sh IH]; [constructor|]. econstructor; eauto.
  - intros R. remember (PNode n) as t eqn:E. induction R as [p|m c p Hc R IH]; subst; [constructor|].
    destruct (kids s k m I (Hp m eq_refl)) as (_ & _ & K). specialize (K c Hc). pose proof (te_n _ _ _ _ _ _ _ K) as Tn.
    destruct (skip s c) eqn:Sc.
    + apply Hs in Sc; [|apply K]. apply (te_z _ _ _ _ _ _ _ K Ex) in Sc. rewrite Sc in R. inversion R.
    + apply (sh_step _ _ _ m c); auto. apply IH; auto. intros m' Em. rewrite Em in Tn. apply Tn.
Qed.
Theorem graph_complete nq s V D k l x memory n : ex X -> reached nq s V D -> usr V D k l x ->
  (shown (hidden N memory) s k (ep x) (PNode n) <-> reachable s k (ep x) (PNode n)) /\
  (shown (fun s c => wapx0 s (ew c)) s k (ep x) (PNode n) <-> reachable s k (ep x) (PNode n)).
Proof.
  intros Ex H (i & f & Lv & <-). pose proof (reached_sim G _ _ _ _ H) as S. destruct (sim_live _ _ _ _ _ _ _ _ _ S Lv) as (Ll & Tx & _). destruct (reached_i _ _ _ G _ _ _ _ H) as (I & _).
  assert (Lx: forall m, ep (var V i) = PNode m -> linked N (co s) k m) by (intros m Em; pose proof (te_n _ _ _ _ _ _ _ Tx) as Tn; rewrite Em in Tn; apply Tn).
  assert (RR: DelL.reach s k (ep (var V i)) (PNode n) <-> reachable s k (ep (var V i)) (PNode n)).
  { clear. split; intros R.
    - induction R as [|m e p Hin R IH]; [constructor|]. apply In_nth_error in Hin. destruct Hin as [j Hin]. econstructor; eauto.
    - induction R as [|m j e p Hin R IH]; [constructor|]. apply nth_error_In in Hin. econstructor; eauto. }
  assert (Z0: forall c, wtab N g X (co s) (ew c) -> wapx0 s (ew c) = true -> ew c = Czero).
  { intros c T Hz. apply (SerialW.zero_w (g:=g) (nb:=nb) (X:=X) s I Ex) in Hz; auto. }
  split; (rewrite (shown_all s k _ n) by (auto; try (intros c T Hz; unfold hidden in Hz; apply orb_true_iff in Hz; destruct Hz as [Hz|Hz]; [apply andb_true_iff in Hz; apply Z0; [exact T|apply Hz]|now apply ceqb_spec])); exact RR).
Qed.
End DrawP.

(** ** Sides *)
(** The two arrows of a node of a vector leave from different sides. The four of a node of a matrix: in drawings
    with circles those of successors 1 and 2 share a side, in the others those of 2 and 3.  In drawings of
    the memory all leave at the bottom. *)
Theorem sides k memory classic i j : (i < arity k)%nat -> (j < arity k)%nat ->
  (sideOf k memory classic i = sideOf k memory classic j <->
   i = j \/ memory = true \/ (k <> KV /\ ((classic = true /\ (1 <= i <= 2)%nat /\ (1 <= j <= 2)%nat) \/ (classic = false /\ (2 <= i)%nat /\ (2 <= j)%nat)))).
Proof.
  intros Hi Hj. destruct memory; [split; auto|]. 
  destruct k, classic, i as [|[|[|[|i]]]], j as [|[|[|[|j]]]]; cbn in *; try lia; split; intros Hx; auto; try discriminate; try (exfalso; intuition (congruence || lia));
    right; right; (split; [discriminate|]); (left; repeat split; lia) || (right; repeat split; lia).
Qed.
Example sides_ex : sideOf KM false false 2 = sideOf KM false false 3 /\ sideOf KM false true 2 <> sideOf KM false true 3 /\ sideOf KV false true 0 <> sideOf KV false true 1.
Proof. repeat split; discriminate. Qed.
(** Dashed are the arrows of drawings in black and white with a weight that is not about one. *)
Theorem dashed {N : num} memory colored (s : st N) w : dashes N memory colored s w = true <-> memory = false /\ colored = false /\ wapx1 s w = false.
Proof. unfold dashes. rewrite !andb_true_iff, !negb_true_iff. intuition. Qed.
(** Left out are the arrows of weight about zero, in drawings of the memory only those of weight zero. *)
Theorem left_out {N : num} memory (s : st N) c : hidden N memory s c = true <-> ew c = Czero \/ memory = false /\ wapx0 s (ew c) = true.
Proof. unfold hidden. rewrite orb_true_iff, andb_true_iff, negb_true_iff, ceqb_spec. intuition. Qed.

(** ** The numbers standing for nodes *)
Theorem labels_range a : 0 <= nodeLabel a < 2 ^ 20.
Proof.
  unfold nodeLabel. change 2097151 with (Z.ones 21). rewrite Z.land_ones, Z.shiftr_div_pow2 by lia. change (2 ^ 21) with 2097152. change (2 ^ 1) with 2. change (2 ^ 20) with 1048576.
  pose proof (Z.mod_pos_bound a 2097152). split; [apply Z.div_pos; lia|apply Z.div_lt_upper_bound; lia].
Qed.
(** Nodes at even addresses within one range of 2 MiB are told apart. *)
Theorem labels_distinct (b a a' : Z) : b <= a < b + 2097152 -> b <= a' < b + 2097152 -> Z.even a = true -> Z.even a' = true -> nodeLabel a = nodeLabel a' -> a = a'.
Proof.
  unfold nodeLabel. change 2097151 with (Z.ones 21). rewrite !Z.land_ones, !Z.shiftr_div_pow2 by lia. change (2 ^ 21) with 2097152. change (2 ^ 1) with 2. intros H1 H2 E1 E2 E.
  apply Zeven_bool_iff in E1, E2. apply Zeven_ex in E1, E2. destruct E1 as [m ->], E2 as [m' ->].
  change 2097152 with (2 * 1048576) in E. rewrite !Z.mul_mod_distr_l, !(Z.mul_comm 2 (_ mod _)), !Z.div_mul in E by lia.
  pose proof (Z.div_mod m 1048576) as D1. pose proof (Z.div_mod m' 1048576) as D2. lia.
Qed.
(** Addresses that differ by a multiple of 2 MiB are not. *)
Theorem labels_repeat (a j : Z) : nodeLabel (a + 2097152 * j) = nodeLabel a.
Proof.
  unfold nodeLabel. change 2097151 with (Z.ones 21). rewrite !Z.land_ones by lia. change (2 ^ 21) with 2097152. now rewrite (Z.mul_comm 2097152 j), Z.mod_add by lia.
Qed.

(** ** Examples *)
(** Nodes of 64 bytes one after another *)
Definition addrS (n : nat) : Z := 4096 + 64 * Z.of_nat n.
Lemma usrS_v : usr VS DS KV 1 (var VS 0).
Proof. exists 0%nat, (Some fS). split; [exists 2%nat; reflexivity|reflexivity]. Qed.
Lemma usrS_m : usr VS DS KM 1 (var VS 2).
Proof. exists 2%nat, (Some idm). split; [exists 1%nat; reflexivity|reflexivity]. Qed.
(** The vector (1, 2, 2, 1+i) in doubles: three nodes, six edges and the root. *)
Example weights_listed_ex : (exists L f0, NoDup L /\ (forall n, In n L <-> shown (fun s c => wapx0 s (ew c)) sS KV (ep (var VS 0)) (PNode n)) /\ downwards sS KV L /\
    forall fuel, (f0 <= fuel)%nat -> exportEdgeWeights NumF (popFirst NumF) fuel KV (var VS 0) sS =
      Ok (cval sS (ew (var VS 0)) :: flat_map (fun n => map (fun c => cval sS (ew c)) (rev (filter (fun c => negb (wapx0 sS (ew c))) (ne (nod sS KV n))))) L) sS) /\
  match exportEdgeWeights NumF (popFirst NumF) 8 KV (var VS 0) sS with Ok r _ => length r = 7%nat | _ => False end.
Proof. split; [eapply (weights_listed gS nbS XS gS_ok _ popFirst_queue); [apply reachS|apply usrS_v]|vm_compute; reflexivity]. Qed.
(** The identity on two qubits: its two nodes with two arrows each, zeros at the other successors *)
Definition shapeS (out : list (stmt (NumF * NumF))) : list (stmt unit) :=
  map (fun x => match x with SRoot t _ d => SRoot t tt d | SNode a v z => SNode a v z | SEdge a i p t _ d => SEdge a i p t tt d end) out.
Example graph_drawn_ex : match toDot NumF addrS (popFirst NumF) 6 KM (var VS 2) false true false sS with Ok r _ => shapeS r | _ => [] end =
  [SRoot (Some 2080) tt false;
   SNode 2080 1 [false; true; true; false]; SEdge 2080 3 SE (Some 2048) tt false; SEdge 2080 0 SW (Some 2048) tt false;
   SNode 2048 0 [false; true; true; false]; SEdge 2048 3 SE None tt false; SEdge 2048 0 SW None tt false].
Proof. vm_compute. reflexivity. Qed.
Example graph_drawn_ex2 : exists L f0, NoDup L /\ (forall n, In n L <-> shown (hidden NumF true) sS KM (ep (var VS 2)) (PNode n)) /\ downwards sS KM L /\
    forall fuel, (f0 <= fuel)%nat -> toDot NumF addrS (popFirst NumF) fuel KM (var VS 2) true false true sS =
      Ok (SRoot (target addrS (ep (var VS 2))) (cval sS (ew (var VS 2))) (dashes NumF true true sS (ew (var VS 2))) :: flat_map (drawn_node addrS sS KM true false true) L) sS.
Proof. eapply (graph_drawn gS nbS XS gS_ok _ popFirst_queue); [apply reachS|apply usrS_m]. Qed.
Example graph_closed_ex : exists out f0, (forall fuel, (f0 <= fuel)%nat -> toDot NumF addrS (popFirst NumF) fuel KV (var VS 0) false false false sS = Ok out sS) /\
    (forall t w d, In (SRoot (Some t) w d) out -> exists v z, In (SNode t v z) out) /\
    (forall a i sd w d t, In (SEdge a i sd t w d) out -> exists v z, In (SNode a v z) out /\ forall b, t = Some b -> exists z', In (SNode b (v - 1) z') out).
Proof. eapply (graph_closed gS nbS XS gS_ok _ popFirst_queue); [apply reachS|apply usrS_v]. Qed.
(** The nodes of the vector are told apart. *)
Example graph_zeros_ex : told_apart addrS [2%nat; 1%nat; 0%nat].
Proof.
  intros a b Ha Hb E. assert (A: addrS a = addrS b).
  { apply (labels_distinct 4096); auto; unfold addrS; cbn [In] in *; try (rewrite Z.even_add, Z.even_mul; reflexivity); lia. }
  unfold addrS in A. lia.
Qed.
Example graph_zeros_ex2 : exists out f0 L, (forall fuel, (f0 <= fuel)%nat -> toDot NumF addrS (popFirst NumF) fuel KM (var VS 2) false false false sS = Ok out sS) /\
    (forall n, In n L <-> shown (hidden NumF false) sS KM (ep (var VS 2)) (PNode n)) /\
    (told_apart addrS L -> NoDup (declared out) /\ forall a v z i, In (SNode a v z) out -> (i < length z)%nat ->
       (nth_error z i = Some true <-> ~ exists sd t w d, In (SEdge a i sd t w d) out)).
Proof. eapply (graph_zeros gS nbS XS gS_ok _ popFirst_queue); [apply reachS|apply usrS_m|discriminate]. Qed.
(** Exact numbers: the vector (1, i, 2, 0) of the sample state of PropBase *)
Example graph_complete_ex : exists s V, reachedR gR nbdef GR 3 s V D0 /\ usr V D0 KV 1 (var V 1) /\
  forall n, shown (hidden R0 false) s KV (ep (var V 1)) (PNode n) <-> reachable s KV (ep (var V 1)) (PNode n).
Proof.
  destruct reached0 as (s & V & H). exists s, V. split; auto. split; [apply usr0_v|]. intros n. eapply (graph_complete gR nbdef (XR gR GR) GR); [exact Logic.I|exact H|apply usr0_v].
Qed.

(** Drawings of the memory with exact numbers *)
Example graph_zeros_ex3 : exists s V, reachedR gR nbdef GR 3 s V D0 /\ exists out f0 L, (forall fuel, (f0 <= fuel)%nat -> toDot R0 addrS (popFirst R0) fuel KV (var V 1) false false true s = Ok out s) /\
    (forall n, In n L <-> shown (hidden R0 true) s KV (ep (var V 1)) (PNode n)) /\
    (told_apart addrS L -> NoDup (declared out) /\ forall a v z i, In (SNode a v z) out -> (i < length z)%nat ->
       (nth_error z i = Some true <-> ~ exists sd t w d, In (SEdge a i sd t w d) out)).
Proof.
  destruct reached0 as (s & V & H). exists s, V. split; [exact H|]. eapply (graph_zeros gR nbdef (XR gR GR) GR _ popFirst_queue); [exact H|apply usr0_v|intros _; exact Logic.I].
Qed.

(** The comment at the labels promises 2^20 different nodes.  Two nodes of one diagram get the same label when
    their addresses are 2 MiB apart, after 32768 nodes of 64 bytes: the drawing shows one node with the edges
    of both. *)
Definition addrFar (n : nat) : Z := 4096 + 64 * (if Z.of_nat n =? 1 then 32768 else if Z.of_nat n =? 32768 then 1 else Z.of_nat n).
Theorem labels_unique_refuted : exists addr fuel out s', (forall a b, addr a = addr b -> a = b) /\ (forall n, addr n mod 64 = 0) /\
  toDot NumF addr (popFirst NumF) fuel KV (var VS 0) true false false sS = Ok out s' /\ ~ NoDup (declared out).
Proof.
  assert (H: match toDot NumF addrFar (popFirst NumF) 8 KV (var VS 0) true false false sS with Ok out _ => declared out = [2112; 2048; 2048] | _ => False end) by (vm_compute; reflexivity).
  exists addrFar, 8%nat. destruct (toDot NumF addrFar (popFirst NumF) 8 KV (var VS 0) true false false sS) as [out s'| |]; try contradiction. exists out, s'.
  split; [|split; [|split; [reflexivity|]]].
  - intros a b E. unfold addrFar in E. destruct (Z.eqb_spec (Z.of_nat a) 1), (Z.eqb_spec (Z.of_nat a) 32768), (Z.eqb_spec (Z.of_nat b) 1), (Z.eqb_spec (Z.of_nat b) 32768); lia.
  - intros n. unfold addrFar. generalize (if Z.of_nat n =? 1 then 32768 else if Z.of_nat n =? 32768 then 1 else Z.of_nat n). intros z. replace (4096 + 64 * z) with ((64 + z) * 64) by lia. apply Z.mod_mul. lia.
  - rewrite H. intros Nd. inversion Nd as [|? ? _ Nd2]; subst. inversion Nd2 as [|? ? Ni _]; subst. apply Ni. now left.
Qed.

Print Assumptions popFirst_queue.
Print Assumptions weights_listed.
Print Assumptions graph_drawn.
Print Assumptions graph_closed.
Print Assumptions graph_zeros.
Print Assumptions graph_complete.
Print Assumptions labels_distinct.
Print Assumptions labels_repeat.
Print Assumptions labels_range.
Print Assumptions sides.
Print Assumptions dashed.
Print Assumptions left_out.
Print Assumptions labels_unique_refuted.
