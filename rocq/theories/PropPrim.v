(** Signs, zero, the cache of temporaries and the operation caches (C06-C09). *)
From Coq Require Import ZArith List Bool Lia Arith Reals Lra Permutation.
From Verif Require Import Num Base CTable CTableWf Cx State Pkg Inv InvL PrimL Inst PropBase.
Import ListNotations.
Local Open Scope Z_scope.

(** * C06: sign-tagged pointers *)

Section Sign.
Context {N : num}.
Implicit Types (p : eptr) (w : complex) (s : st N).

(** Negating twice, and negation keeps the entry; the shared zero is its own negation. *)
Theorem flip_twice p : ep_at p <> AZero -> ep_flip (ep_flip p) = p.
Proof.
  intros H. unfold ep_flip. destruct p as [b a]. destruct (eptr_eqb (EP b a) (EP false AZero)) eqn:E.
  - rewrite E. reflexivity.
  - cbn [ep_neg ep_at]. destruct (eptr_eqb (EP (negb b) a) (EP false AZero)) eqn:F.
    + exfalso. apply H. unfold eptr_eqb in F. cbn in F. destruct b, a; cbn in F; (reflexivity || discriminate).
    + cbn. now rewrite negb_involutive.
Qed.
Theorem flip_entry p : ep_at (ep_flip p) = ep_at p.
Proof. unfold ep_flip. now destruct (eptr_eqb _ _). Qed.
Theorem negate_twice w : ep_at (cr w) <> AZero -> ep_at (ci w) <> AZero -> wneg (wneg w) = w.
Proof. intros A B. destruct w as [r i]. unfold wneg. cbn [cr ci] in *. now rewrite !flip_twice. Qed.
Theorem zero_negation : wneg Czero = Czero /\ wconj Czero = Czero.
Proof. split; reflexivity. Qed.
Theorem negation_entries w : ep_at (cr (wneg w)) = ep_at (cr w) /\ ep_at (ci (wneg w)) = ep_at (ci w) /\
  cr (wconj w) = cr w /\ ep_at (ci (wconj w)) = ep_at (ci w).
Proof. unfold wneg, wconj. cbn. now rewrite !flip_entry. Qed.
(** A zero component keeps its value or has its sign dropped. *)
Theorem zero_component b : ep_at (ep_flip (EP b AZero)) = AZero /\ ep_flip (ep_flip (EP b AZero)) = EP false AZero.
Proof. destruct b; split; reflexivity. Qed.

(** Negation negates the value; only the positive zero keeps its value [n0].  The hypothesis
    holds for IEEE doubles and for the reals. *)
Theorem flip_value (Hn : forall x : N, nneg (nneg x) = x) s p :
  val s (ep_flip p) = nneg (val s p) \/ (p = EP false AZero /\ val s (ep_flip p) = n0 /\ val s p = n0).
Proof.
  unfold ep_flip. destruct (eptr_eqb p (EP false AZero)) eqn:E.
  - right. destruct p as [b a]. unfold eptr_eqb in E. cbn in E. destruct b, a; cbn in E; try discriminate; auto.
  - left. unfold val. cbn [ep_neg ep_at]. destruct (ep_neg p); cbn; auto.
Qed.
Theorem negate_value (Hn : forall x : N, nneg (nneg x) = x) s w : ep_at (cr w) <> AZero -> ep_at (ci w) <> AZero ->
  cval s (wneg w) = (nneg (fst (cval s w)), nneg (snd (cval s w))) /\ cval s (wconj w) = (fst (cval s w), nneg (snd (cval s w))).
Proof.
  intros A B. destruct (flip_value Hn s (cr w)) as [E|(E & _)]; [|rewrite E in A; now destruct A].
  destruct (flip_value Hn s (ci w)) as [F|(F & _)]; [|rewrite F in B; now destruct B].
  unfold cval, wneg, wconj. cbn [cr ci fst snd]. now rewrite E, F.
Qed.
End Sign.

(** In exact arithmetic negation and conjugation are exact for every number. *)
Theorem negate_exact (s : st R0) w :
  cval s (wneg w) = (- fst (cval s w), - snd (cval s w))%R /\ cval s (wconj w) = (fst (cval s w), - snd (cval s w))%R.
Proof.
  assert (F: forall p, val s (ep_flip p) = (- val s p)%R).
  { intros p. destruct (flip_value (N:=R0) Ropp_involutive s p) as [E|(_ & E1 & E2)]; [exact E|]. rewrite E1, E2. cbn. ring. }
  unfold cval, wneg, wconj. cbn [cr ci fst snd]. now rewrite !F.
Qed.
Lemma negF x : nneg (n:=NumF) (nneg (n:=NumF) x) = x.
Proof. destruct x as [b|b| |b m e]; try destruct b; reflexivity. Qed.
Example negate_ex : forall s : st NumF, cval s (wneg (CX (EP true ASqrt2) (EP false AOne))) = (Fsq2, nneg (n:=NumF) F1).
Proof. reflexivity. Qed.

(** * C07: zero *)

Section Zero.
Context {N : num} (g : cfg N).

(** A component within tolerance of zero, unless it is exactly minus the tolerance. *)
Definition tiny (v : N) : Prop := if nsign v then nltb (nabs v) ntol = true else approx_zero v = true /\ nleb n0 v = true.
Theorem zero_lookup_partial (s : st N) r i : tiny r -> tiny i -> exists s', cn_lookup g r i s = Ok Czero s' /\ ct_tab (s_ct s') = ct_tab (s_ct s).
Proof.
  assert (L: forall v s, tiny v -> exists s', cn_lookup1 g v s = Ok (EP false AZero) s' /\ ct_tab (s_ct s') = ct_tab (s_ct s)).
  { intros v s0 H. unfold tiny in H. unfold cn_lookup1. destruct (nsign v).
    - rewrite H. eauto.
    - destruct H as [A B]. unfold ct_lookup. rewrite B, A. cbn. eauto. }
  intros Hr Hi. destruct (L r s Hr) as (s1 & E1 & T1). destruct (L i s1 Hi) as (s2 & E2 & T2). exists s2. split; [|congruence].
  unfold cn_lookup, bind, ret. now rewrite E1, E2.
Qed.
End Zero.
(** For real arithmetic with tolerance [t] these are the numbers above [-t] and up to [t]. *)
Lemma tiny_R t (x : NumR t) : (0 < t)%R -> tiny x <-> (- t < x <= t)%R.
Proof.
  intros Ht. unfold tiny, approx_zero. cbn. destruct (Rltb x 0) eqn:E.
  - apply Rltb_iff in E. rewrite Rltb_iff, Rabs_left by exact E. split; intros; lra.
  - apply Rltb_false in E. rewrite !Rleb_iff, Rabs_right by lra. split; intros; lra.
Qed.
Definition Ftol' : NumF := SpecFloat.S754_finite false 4503599627370496 (-95). (* below the tolerance *)
Example zero_lookup_ex : tiny (N:=NumF) Ftol /\ tiny (N:=NumF) (nneg (n:=NumF) Ftol').
Proof. split; vm_compute; auto. Qed.
(** Minus the tolerance is within tolerance of zero, and its lookup is not the zero constant:
    the multiplication and addition shortcuts that compare with it do not recognise it
    (ComplexNumbers.hpp:159-170). *)
Theorem zero_lookup_refuted : exists (r i : NumF), approx_zero r = true /\ approx_zero i = true /\
  exists w s', cn_lookup (gdef NumF) r i (pkg_init NumF (gdef NumF) 1) = Ok w s' /\ wzero w = false /\ wapx0 s' w = true.
Proof.
  exists (nneg (n:=NumF) Ftol), F0. split; [vm_compute; reflexivity|]. split; [vm_compute; reflexivity|].
  assert (E: match cn_lookup (gdef NumF) (nneg (n:=NumF) Ftol) F0 (pkg_init NumF (gdef NumF) 1) with Ok w s' => wzero w = false /\ wapx0 s' w = true | _ => False end)
    by (vm_compute; auto).
  destruct (cn_lookup _ _ _ _) as [w s'| |]; [|contradiction|contradiction]. exists w, s'. auto.
Qed.

(** * C08: temporaries *)

Section Cache.
Context {N : num} (g : cfg N) (G : gok g).
Implicit Types (s : st N) (H : list complex).

(** Uses of the cache that return every number at most once; [H] are the numbers handed out and
    not returned. *)
Inductive cuse : list complex -> st N -> Prop :=
  | cu_new s : s_cc s = cc_init N g -> cuse [] s
  | cu_get H s c s' : cuse H s -> getCached0 g s = Ok c s' -> cuse (c :: H) s'
  | cu_temp H s c s' : cuse H s -> getTemp g s = Ok c s' -> cuse H s'
  | cu_return H1 c H2 s s' : cuse (H1 ++ c :: H2) s -> retCache c s = Ok tt s' -> cuse (H1 ++ H2) s'
  | cu_write H s p v s' : cuse H s -> wr p v s = Ok tt s' -> cuse H s'
  | cu_clear H s : cuse H s -> cuse [] (set_cc s (cc_clear N g (s_cc s))).

(** The entries a number occupies. *)
Definition entries (c : complex) : list eaddr := [ep_at (cr c); ep_at (ci c)].
Definition pair_of (c : complex) : Prop := exists a b, c = cslot a b.

Lemma init_owns (s : st N) : owns N (CC (cc_val (s_cc s)) [] 0 (g_ccinit g) (g_ccinit g * g_ccgrow g) 0 0) [].
Proof.
  destruct G as (_ & G1 & G2 & (z & G3)). constructor; cbn; try (now constructor); try lia; try now exists 0%nat.
  - exists z. lia.
  - split; [nia|]. exists (z * g_ccgrow g). rewrite G3. ring.
Qed.
Lemma wr_sp s p v s' : wr p v s = Ok tt s' -> exists a, p = EP false (ACache a) /\ s' = set_cc s (CC (upd (cc_val (s_cc s)) a v) (cc_avail (s_cc s)) (cc_next (s_cc s)) (cc_allocs (s_cc s)) (cc_allocsz (s_cc s)) (cc_count (s_cc s)) (cc_peak (s_cc s))).
Proof. unfold wr. destruct p as [[] [| | | |a]]; try discriminate. intros [= <-]. now exists a. Qed.
Lemma owns_perm c O O' : Permutation O O' -> owns N c O -> owns N c O'.
Proof.
  intros P [A1 A2 A3 A4 A5 A6 A7 A8 A9 A10]. constructor; auto.
  - eapply Permutation_NoDup; eauto.
  - intros a. rewrite <- A4. split; apply Permutation_in; auto using Permutation_sym.
  - now rewrite A10, (Permutation_length P).
Qed.
Lemma perm2 {A} (a b : A) l1 l2 : Permutation (l1 ++ a :: b :: l2) (a :: b :: l1 ++ l2).
Proof. apply Permutation_sym. apply Permutation_cons_app, Permutation_cons_app, Permutation_refl. Qed.
Lemma slots_flat H : Forall pair_of H -> flat_map entries H = map ACache (flat_map wslots H).
Proof. induction 1 as [|c H (a & b & ->) F IH]; auto. cbn. now rewrite IH. Qed.
Lemma cuse_owns H s : cuse H s -> Forall pair_of H /\ owns N (s_cc s) (flat_map wslots H).
Proof.
  induction 1 as [s E|H s c s' U [F O] E|H s c s' U [F O] E|H1 c H2 s s' U [F O] E|H s p v s' U [F O] E|H s U [F O]].
  - split; [constructor|]. rewrite E. apply (init_owns (pkg_init N g 0)).
  - destruct (getCached0_sp (g:=g) G s _ O) as (a & b & c' & E' & _ & O'). rewrite E in E'. injection E' as -> ->.
    split; [constructor; auto; now exists a, b|]. exact O'.
  - destruct (getTemp_sp (g:=g) G s _ O) as (a & b & c' & E' & _ & O' & _). rewrite E in E'. injection E' as -> ->. split; auto.
  - assert (Pc: pair_of c) by (rewrite Forall_forall in F; apply F, in_or_app; right; now left).
    assert (F': Forall pair_of (H1 ++ H2)).
    { rewrite Forall_forall in *. intros x Hx. apply F. apply in_app_or in Hx. apply in_or_app. destruct Hx; [left|right; right]; auto. }
    split; auto. destruct Pc as (a & b & ->).
    assert (O2: owns N (s_cc s) (a :: b :: flat_map wslots (H1 ++ H2))).
    { eapply owns_perm; [|exact O]. rewrite !flat_map_app. cbn. apply perm2. }
    destruct (retCache_sp s a b _ O2) as (c' & E' & _ & O3 & _). rewrite E in E'. injection E' as ->. exact O3.
  - destruct (wr_sp _ _ _ _ E) as (a & -> & ->). split; auto. destruct O. constructor; auto.
  - split; [constructor|]. apply init_owns.
Qed.

(** Outstanding numbers occupy different entries, which are all in the cache. *)
Theorem outstanding_distinct H s : cuse H s -> NoDup (flat_map entries H) /\ forall c a, In c H -> In a (entries c) -> exists n, a = ACache n.
Proof.
  intros U. destruct (cuse_owns _ _ U) as [F O]. rewrite slots_flat by auto. split.
  - apply FinFun.Injective_map_NoDup; [intros x y [=]; auto|apply O].
  - rewrite Forall_forall in F. intros c a Hc Ha. destruct (F c Hc) as (x & y & ->). cbn in Ha. destruct Ha as [<-|[<-|[]]]; eauto.
Qed.
(** The count is the number of entries handed out. *)
Theorem outstanding_count H s : cuse H s -> cc_count (s_cc s) = Z.of_nat (length (flat_map entries H)).
Proof.
  intros U. destruct (cuse_owns _ _ U) as [F O]. rewrite slots_flat, map_length by auto. apply O.
Qed.
(** A number can always be obtained; it is new. *)
Theorem get_new H s : cuse H s -> exists c s', getCached0 g s = Ok c s' /\ forall a, In a (entries c) -> ~ In a (flat_map entries H).
Proof.
  intros U. destruct (cuse_owns _ _ U) as [F O]. destruct (getCached0_sp (g:=g) G s _ O) as (a & b & c' & E & _ & O').
  exists (cslot a b), (set_cc s c'). split; auto. pose proof (cu_get _ _ _ _ U E) as U'. apply outstanding_distinct in U'. destruct U' as [D _]. cbn in D.
  inversion D as [|x l A B]; subst. inversion B as [|x l C D']; subst. intros x [<-|[<-|[]]]; auto. intros Hi. apply A. now right.
Qed.
(** A temporary can always be obtained; writing to it changes no outstanding number. *)
Theorem temp_new H s : cuse H s -> exists c s', getTemp g s = Ok c s' /\ (forall a, In a (entries c) -> ~ In a (flat_map entries H)) /\
  forall v, exists s2, bind (wr (cr c) (fst v)) (fun _ => wr (ci c) (snd v)) s' = Ok tt s2 /\ cval s2 c = v /\ forall d, In d H -> cval s2 d = cval s d.
Proof.
  intros U. destruct (cuse_owns _ _ U) as [F O]. destruct (getTemp_sp (g:=g) G s _ O) as (a & b & c' & E & V & O' & Dab & Ha & Hb & _).
  exists (cslot a b), (set_cc s c'). split; auto. split.
  - rewrite slots_flat by auto. intros x [<-|[<-|[]]] Hx; cbn [cslot cr ci ep_at] in Hx; apply in_map_iff in Hx; destruct Hx as (z & [= ->] & Hz); auto.
  - intros v. eexists. split; [unfold bind; reflexivity|]. rewrite Forall_forall in F. split.
    + unfold cval, val, aval, upd. cbn. destruct (Nat.eqb_spec a b); [congruence|]. destruct v. rewrite !Nat.eqb_refl.
      repeat match goal with |- context [Nat.eqb ?x ?y] => destruct (Nat.eqb_spec x y); try congruence end. reflexivity.
    + intros d Hd. destruct (F d Hd) as (x & y & ->). assert (In x (flat_map wslots H) /\ In y (flat_map wslots H)) as [Hx Hy].
      { split; apply in_flat_map; exists (cslot x y); (split; [auto|cbn; auto]). }
      unfold cval, val, aval, upd. cbn. rewrite V.
      repeat match goal with |- context [Nat.eqb ?x ?y] => destruct (Nat.eqb_spec x y); try (subst; contradiction) end. reflexivity.
Qed.
(** Writing to one outstanding number changes no other one. *)
Theorem write_separate H1 c H2 s p v s' d : cuse (H1 ++ c :: H2) s -> p = cr c \/ p = ci c -> wr p v s = Ok tt s' -> In d (H1 ++ H2) -> cval s' d = cval s d.
Proof.
  intros U Hp E Hd. destruct (cuse_owns _ _ U) as [F O]. destruct (wr_sp _ _ _ _ E) as (a & Pa & ->). rewrite Forall_forall in F.
  assert (Pd: pair_of d) by (apply F; apply in_app_or in Hd; apply in_or_app; destruct Hd; [left|right; right]; auto). destruct Pd as (x & y & ->).
  destruct (F c) as (c1 & c2 & ->); [apply in_or_app; right; now left|]. pose proof (ow_nd _ _ _ O) as D. rewrite flat_map_app in D. cbn in D.
  assert (D': NoDup (c1 :: c2 :: flat_map wslots (H1 ++ H2))).
  { eapply Permutation_NoDup; [|exact D]. rewrite flat_map_app. apply perm2. }
  assert (In x (flat_map wslots (H1 ++ H2)) /\ In y (flat_map wslots (H1 ++ H2))) as [Hx Hy] by (split; apply in_flat_map; exists (cslot x y); (split; [auto|cbn; auto])).
  inversion D' as [|z l A B]; subst. inversion B as [|z l A' B']; subst.
  assert (Ha: ~ In a (flat_map wslots (H1 ++ H2))).
  { destruct Hp as [Hp|Hp]; cbn in Hp; injection Hp as ->; auto. intros Hi. apply A. now right. }
  unfold cval, val, aval, upd. cbn.
  repeat match goal with |- context [Nat.eqb ?x ?y] => destruct (Nat.eqb_spec x y); try (subst; contradiction) end. reflexivity.
Qed.
(** Returning a number succeeds and makes its storage the next to be handed out. *)
Theorem return_reuse H1 c H2 s : cuse (H1 ++ c :: H2) s -> exists s1 s2, retCache c s = Ok tt s1 /\ getCached0 g s1 = Ok c s2.
Proof.
  intros U. destruct (cuse_owns _ _ U) as [F O]. rewrite Forall_forall in F. destruct (F c) as (a & b & ->); [apply in_or_app; right; now left|].
  assert (O2: owns N (s_cc s) (a :: b :: flat_map wslots (H1 ++ H2))).
  { eapply owns_perm; [|exact O]. rewrite !flat_map_app. cbn. apply perm2. }
  destruct (retCache_sp s a b _ O2) as (c' & E & _ & O3 & (r & Er)). exists (set_cc s c').
  unfold getCached0. cbn [s_cc set_cc]. rewrite Er. eauto.
Qed.
End Cache.

(** Two numbers are taken. *)
Example cuse_ex : exists s, cuse (gdef NumF) ([] ++ cslot 2 3 :: [cslot 0 1]) s.
Proof.
  eexists. cbn [app].
  eapply cu_get; [eapply cu_get; [apply (cu_new (gdef NumF) (pkg_init NumF (gdef NumF) 1)); reflexivity|reflexivity]|reflexivity].
Qed.

(** * C09: compute tables *)

Section Table.
Context {K R : Type} (hash : K -> Z) (isn : R -> bool) (stats : bool).

(** The calls made on a compute table. *)
Inductive tcall := TIns (k : K) (r : R) | TLook (k : K) (eq : K -> K -> bool) | TClear.
(** Answers of the lookups, in order, and the table left behind. *)
Fixpoint trun (cs : list tcall) (t : tbl K R) : list (option R) * tbl K R :=
  match cs with
  | [] => ([], t)
  | TIns k r :: cs => trun cs (tb_insert isn t (hash k) k r)
  | TLook k eq :: cs => let '(a, t1) := tb_lookup (fun k' => eq k' k) t (hash k) in let '(l, t2) := trun cs t1 in (a :: l, t2)
  | TClear :: cs => trun cs (tb_clear stats t)
  end.
(** [k] with [r] was inserted, and since then there was neither a clear nor an insertion with the
    same hash. *)
Definition current (cs : list tcall) (k : K) (r : R) : Prop :=
  exists before after, cs = before ++ TIns k r :: after /\
    forall c, In c after -> c <> TClear /\ forall k' r', c = TIns k' r' -> hash k' <> hash k.

(** The entries hold exactly the current insertions of non-null results; entries exist only if the count
    of insertions since the last clear is positive. *)
Lemma trun_app cs ds t : trun (cs ++ ds) t = let '(a, t1) := trun cs t in let '(b, t2) := trun ds t1 in (a ++ b, t2).
Proof.
  revert t. induction cs as [|c cs IH]; intros t; cbn.
  - now destruct (trun ds t).
  - destruct c as [k r|k eq|]; auto. destruct (tb_lookup _ t (hash k)) as [a t1]. rewrite IH. destruct (trun cs t1) as [l t2]. destruct (trun ds t2) as [l' t3]. reflexivity.
Qed.
Lemma current_snoc cs c k r : current (cs ++ [c]) k r <->
  (c = TIns k r) \/ (current cs k r /\ c <> TClear /\ forall k' r', c = TIns k' r' -> hash k' <> hash k).
Proof.
  split.
  - intros (b & a & E & H). destruct a as [|x a] using rev_ind.
    + apply app_inj_tail in E. left. apply E.
    + clear IHa. rewrite app_comm_cons, app_assoc in E. apply app_inj_tail in E. destruct E as [-> ->]. right. split.
      * exists b, a. split; auto. intros c Hc. apply H, in_or_app. now left.
      * apply H, in_or_app. right. now left.
  - intros [->|((b & a & -> & H) & H1 & H2)].
    + exists cs, []. split; [reflexivity|intros c []].
    + exists b, (a ++ [c]). split; [now rewrite <- app_assoc|]. intros x Hx. apply in_app_or in Hx. destruct Hx as [Hx|[<-|[]]]; auto.
Qed.
Lemma trun_entries cs t l : trun cs tb_empty = (l, t) ->
  (forall h k r, tb_ent t h = Some (k, r) <-> hash k = h /\ current cs k r /\ isn r = false) /\ 0 <= tb_count t /\ (tb_count t = 0 -> forall h, tb_ent t h = None).
Proof.
  revert t l. induction cs as [|c cs IH] using rev_ind; intros t l E.
  - injection E as <- <-. cbn. split; [|split; [lia|auto]]. intros h k r. split; [discriminate|]. intros (_ & (b & a & E & _) & _). now destruct b.
  - rewrite trun_app in E. destruct (trun cs tb_empty) as [l0 t0] eqn:E0. destruct (IH _ _ eq_refl) as (I1 & I2 & I3). clear IH.
    destruct c as [k r|k eq|]; cbn in E.
    + injection E as <- <-. cbn. split; [|split; [lia|intros; lia]]. intros h k' r'. rewrite current_snoc. unfold updZ.
      destruct (Z.eqb_spec h (hash k)) as [->|Hh].
      * destruct (isn r) eqn:Er.
        -- split; [discriminate|]. intros (A & [B|(_ & _ & B)] & C); [injection B as -> ->; congruence|]. destruct (B k r eq_refl). congruence.
        -- split; [intros [= -> ->]; auto|]. intros (A & [B|(_ & _ & B)] & C); [now injection B as -> ->|]. destruct (B k r eq_refl). congruence.
      * rewrite I1. split.
        -- intros (A & B & C). split; auto. split; auto. right. split; auto. split; [discriminate|]. intros k2 r2 [= -> ->]. congruence.
        -- intros (A & [B|(B & _)] & C); [injection B as -> ->; congruence|]. auto.
    + destruct (tb_lookup _ t0 (hash k)) as [a t1] eqn:E1. injection E as <- <-. assert (Q: tb_ent t1 = tb_ent t0 /\ tb_count t1 = tb_count t0).
      { unfold tb_lookup in E1. destruct (tb_ent t0 (hash k)) as [[k0 r0]|]; [destruct (eq k0 k)|]; injection E1 as <- <-; auto. }
      destruct Q as [-> ->]. split; [|split; auto]. intros h k' r'. rewrite I1, current_snoc. split.
      * intros (A & B & C). split; auto. split; auto. right. split; auto. split; [discriminate|]. intros; discriminate.
      * intros (A & [B|(B & _)] & C); [discriminate|]. auto.
    + injection E as <- <-. cbn. assert (Z0: forall h, (if 0 <? tb_count t0 then fun _ => None else tb_ent t0) h = None).
      { intros h. destruct (Z.ltb_spec 0 (tb_count t0)); auto. apply I3. lia. }
      split; [|split; [lia|auto]]. intros h k' r'. rewrite Z0, current_snoc. split; [discriminate|]. intros (_ & [B|(_ & B & _)] & _); [discriminate|congruence].
Qed.

(** A lookup in a table with any history answers with the result of a current insertion for
    operands that compare equal, or misses.  It misses only if there is no such insertion. *)
Theorem table_answers cs l t k eq a t1 : trun cs tb_empty = (l, t) -> tb_lookup (fun k' => eq k' k) t (hash k) = (a, t1) ->
  (forall r, a = Some r -> exists k', hash k' = hash k /\ eq k' k = true /\ current cs k' r) /\
  (a = None -> forall k' r, hash k' = hash k -> eq k' k = true -> isn r = false -> ~ current cs k' r).
Proof.
  intros E L. destruct (trun_entries _ _ _ E) as (I & _). unfold tb_lookup in L. destruct (tb_ent t (hash k)) as [[k0 r0]|] eqn:T.
  - apply I in T as T'. destruct T' as (A & B & C). destruct (eq k0 k) eqn:Q; injection L as <- <-.
    + split; [|discriminate]. intros r [= <-]. eauto.
    + split; [discriminate|]. intros _ k' r H1 H2 H3 H4. assert (T2: tb_ent t (hash k) = Some (k', r)) by (apply I; auto). rewrite T in T2. injection T2 as -> ->. congruence.
  - injection L as <- <-. split; [discriminate|]. intros _ k' r H1 H2 H3 H4. assert (T2: tb_ent t (hash k) = Some (k', r)) by (apply I; auto). congruence.
Qed.
(** If equal operands have equal hashes, the answer is the most recent insertion for equal operands
    since the last clear. *)
Theorem table_most_recent cs l t k eq r t1 : (forall a b, eq a b = true -> hash a = hash b) ->
  trun cs tb_empty = (l, t) -> tb_lookup (fun k' => eq k' k) t (hash k) = (Some r, t1) ->
  exists (before : list tcall) k' (after : list tcall), cs = (before ++ TIns k' r :: after)%list /\ eq k' k = true /\ ~ In TClear after /\
    forall k2 r2, In (TIns k2 r2) after -> eq k2 k = false.
Proof.
  intros Hq E L. destruct (table_answers _ _ _ _ _ _ _ E L) as [A _]. destruct (A r eq_refl) as (k' & H1 & H2 & (b & a & H3 & H4)).
  exists b, k', a. split; auto. split; auto. split; [intros Hi; now destruct (H4 _ Hi)|]. intros k2 r2 Hi. destruct (H4 _ Hi) as [_ H5].
  specialize (H5 _ _ eq_refl). destruct (eq k2 k) eqn:Q; auto. apply Hq in Q. congruence.
Qed.
(** After a clear every lookup misses until something is inserted. *)
Theorem clear_forgets cs l t k eq : trun (cs ++ [TClear]) tb_empty = (l, t) -> fst (tb_lookup (fun k' => eq k' k) t (hash k)) = None.
Proof.
  intros E. destruct (tb_lookup _ _ _) as [a t1] eqn:L. cbn. destruct a as [r|]; auto. destruct (table_answers _ _ _ _ _ _ _ E L) as [A _].
  destruct (A r eq_refl) as (k' & _ & _ & H). apply current_snoc in H. destruct H as [H|(_ & H & _)]; [discriminate|congruence].
Qed.
End Table.

(** Two insertions that collide: the second one is found, the first one is not. *)
Example table_ex : let h (k : Z) := k mod 4 in
  fst (trun h (fun r : Z => r =? 0) false [TIns 1 10; TIns 5 50; TLook 5 Z.eqb; TLook 1 Z.eqb; TIns 2 20; TLook 2 Z.eqb; TClear; TLook 2 Z.eqb] tb_empty)
  = [Some 50; None; Some 20; None].
Proof. reflexivity. Qed.

Print Assumptions flip_twice.
Print Assumptions flip_entry.
Print Assumptions negate_twice.
Print Assumptions zero_negation.
Print Assumptions negation_entries.
Print Assumptions zero_component.
Print Assumptions flip_value.
Print Assumptions negate_value.
Print Assumptions negate_exact.
Print Assumptions zero_lookup_partial.
Print Assumptions zero_lookup_refuted.
Print Assumptions outstanding_distinct.
Print Assumptions outstanding_count.
Print Assumptions get_new.
Print Assumptions temp_new.
Print Assumptions write_separate.
Print Assumptions return_reuse.
Print Assumptions table_answers.
Print Assumptions table_most_recent.
Print Assumptions clear_forgets.
