(** The Toffoli table, the result of garbage collection and the statistics (C14, C43, C48, C55). *)
From Coq Require Import ZArith List Bool Lia Arith Reals Lra Permutation.
From Verif Require Import Num Base CTable CTableWf Cx State Pkg Control Toffoli Inv InvL PrimL GcL RefL Run Inst PropBase PropStruct PropPrim.
Import ListNotations.
Local Open Scope Z_scope.

Section Tables.
Context {N : num} (g : cfg N) (nb : kind -> Z) (X : numx N (g_ct g)) (G : gok g).
Local Notation reached := (reached (g:=g) (nb:=nb) (X:=X)).
Local Notation co := (co N).

(** Counts of lists without repetition. *)
Lemma shrink_iff (l l' : list nat) : NoDup l -> NoDup l' -> (forall a, In a l' -> In a l) ->
  (length l' < length l)%nat <-> exists a, In a l /\ ~ In a l'.
Proof.
  intros D D' Hs. split.
  - intros Lt. destruct (Exists_dec (fun a => ~ In a l') l) as [E|E].
    + intros a. destruct (in_dec Nat.eq_dec a l'); [right|left]; tauto.
    + apply Exists_exists in E. destruct E as (a & A & B). eauto.
    + exfalso. assert (I: incl l l').
      { intros a Ha. destruct (in_dec Nat.eq_dec a l') as [|Hn]; auto. exfalso. apply E, Exists_exists. eauto. }
      pose proof (NoDup_incl_length D I). lia.
  - intros (a & A & B). assert (D2: NoDup (a :: l')) by (constructor; auto).
    assert (I: incl (a :: l') l) by (intros x [<-|Hx]; auto). pose proof (NoDup_incl_length D2 I) as L. cbn in L. lia.
Qed.
(** The stored numbers. *)
Definition ct_list (c : ctab N) : list nat := flat_map (ct_tab c) (ct_keys (g_ct g)).
Lemma ct_list_sp (c : ctab N) : ctwf (g_ct g) c -> NoDup (ct_list c) /\ (forall a, In a (ct_list c) <-> exists b, In a (ct_tab c b)) /\ ct_count c = Z.of_nat (length (ct_list c)).
Proof.
  intros W. split; [|split].
  - apply flat_map_NoDup; [apply ct_keys_NoDup|intros b _; apply (wf_nodup _ _ W)|]. intros b b' a _ _ H H'. eapply (wf_disj _ _ W); eauto.
  - intros a. unfold ct_list. rewrite in_flat_map. split; [intros (b & _ & H); eauto|]. intros (b & H). exists b. split; auto.
    apply ct_keys_In. pose proof (wf_range _ _ W _ _ H). unfold ct_mask in *. lia.
  - rewrite (wf_count _ _ W). unfold ct_list. induction (ct_keys (g_ct g)) as [|b l IH]; auto. cbn. rewrite app_length, Nat2Z.inj_add, IH. reflexivity.
Qed.
Lemma ut_list_sp (s : st N) k : inv N g nb X s -> NoDup (ut_allq N nb (co s) k) /\ (forall n, In n (ut_allq N nb (co s) k) <-> nstored s k n) /\
  ut_count (s_ut s k) = Z.of_nat (length (ut_allq N nb (co s) k)).
Proof.
  intros I. pose proof (iv_c _ _ _ _ _ I) as C. split; [eapply allq_NoDup; eauto|]. split; [intros n; apply (allq_In (g:=g) (nb:=nb) (X:=X)); auto|].
  apply (ui_count _ _ _ _ _ _ (ci_ut _ _ _ _ _ C k)).
Qed.

(** * C43 *)

(** garbageCollect returns true exactly if a vector node, a matrix node or a number was collected.
    Missing: collected density nodes, see [collection_reports_refuted]. *)
Theorem collection_reports_partial nq s V D force b s' : reached nq s V D -> garbageCollect N g nb force s = Ok b s' ->
  b = true <-> (exists k n, k <> KD /\ nstored s k n /\ ~ nstored s' k n) \/ (exists a, estored s a /\ ~ estored s' a).
Proof.
  intros H E. pose proof (reached_sim G _ _ _ _ H) as Sm. destruct (reached_i _ _ _ G _ _ _ _ H) as (I & _). destruct (si_rc _ _ _ _ _ Sm) as (pin & _ & R).
  pose proof (rcok_rcact (g:=g) (nb:=nb) (X:=X) _ _ _ I R) as Ac.
  destruct (gc_sp' (g:=g) (nb:=nb) (X:=X) G force s I Ac) as (b1 & s1 & E1 & Sf & _ & Rt). rewrite E in E1. injection E1 as <- <-.
  pose proof (gs_inv _ _ Sf) as I'.
  assert (Kn: forall k, ut_count (s_ut s' k) < ut_count (s_ut s k) <-> exists n, nstored s k n /\ ~ nstored s' k n).
  { intros k. destruct (ut_list_sp s k I) as (A1 & A2 & A3). destruct (ut_list_sp s' k I') as (B1 & B2 & B3). rewrite A3, B3.
    rewrite <- Nat2Z.inj_lt. rewrite shrink_iff; auto.
    - split; intros (n & P & Q); exists n; rewrite ?A2, ?B2 in *; auto.
    - intros n. rewrite A2, B2. intros Hn. now apply (gs_lk _ _ Sf). }
  assert (Kc: ct_count (s_ct s') < ct_count (s_ct s) <-> exists a, estored s a /\ ~ estored s' a).
  { destruct (ct_list_sp (s_ct s) (ci_ct _ _ _ _ _ (iv_c _ _ _ _ _ I))) as (A1 & A2 & A3). destruct (ct_list_sp (s_ct s') (ci_ct _ _ _ _ _ (iv_c _ _ _ _ _ I'))) as (B1 & B2 & B3). rewrite A3, B3.
    rewrite <- Nat2Z.inj_lt. rewrite shrink_iff; auto.
    - split; intros (n & P & Q); exists n; rewrite ?A2, ?B2 in *; auto.
    - intros n. rewrite A2, B2. intros Hn. now apply (gs_live _ _ Sf). }
  destruct Rt as [[-> ->]|(cC & vC & mC & dC & s3 & _ & _ & -> & Hc & Hv & Hm & _)].
  - split; [discriminate|]. intros [(k & n & _ & A & B)|(a & A & B)]; contradiction.
  - rewrite !orb_true_iff, !Z.ltb_lt. split.
    + intros [[L|L]|L].
      * left. destruct (proj1 (Kn KV)) as (n & A & B); [lia|]. exists KV, n. split; [discriminate|auto].
      * left. destruct (proj1 (Kn KM)) as (n & A & B); [lia|]. exists KM, n. split; [discriminate|auto].
      * right. apply Kc. lia.
    + intros [(k & n & Hk & A & B)|Ha].
      * assert (L: ut_count (s_ut s' k) < ut_count (s_ut s k)) by (apply Kn; eauto). destruct k; [left; left|left; right|congruence]; lia.
      * apply Kc in Ha. right. lia.
Qed.

(** * C48 *)

(** The node count is the number of stored nodes, at most the peak. *)
Theorem node_statistics nq s V D k L : reached nq s V D -> enumerates s k L ->
  ut_count (s_ut s k) = Z.of_nat (length L) /\ ut_count (s_ut s k) <= ut_peak (s_ut s k).
Proof.
  intros H E. destruct (reached_i _ _ _ G _ _ _ _ H) as (I & _). destruct (ut_list_sp s k I) as (_ & _ & ->).
  split; [|rewrite <- (ui_count _ _ _ _ _ _ (ci_ut _ _ _ _ _ (iv_c _ _ _ _ _ I) k)); apply (ui_peak _ _ _ _ _ _ (ci_ut _ _ _ _ _ (iv_c _ _ _ _ _ I) k))].
  f_equal. symmetry. apply Permutation_length. eapply enum_perm; eauto.
Qed.
(** The number count likewise; every lookup was a hit or an insertion. *)
Theorem number_statistics nq s V D L : reached nq s V D -> NoDup L -> (forall a, In a L <-> estored s a) ->
  ct_count (s_ct s) = Z.of_nat (length L) /\ ct_count (s_ct s) <= ct_peak (s_ct s) /\ ct_lookups (s_ct s) = ct_hits (s_ct s) + ct_inserts (s_ct s).
Proof.
  intros H ND E. destruct (reached_i _ _ _ G _ _ _ _ H) as (I & _). pose proof (ci_ct _ _ _ _ _ (iv_c _ _ _ _ _ I)) as W. change (c_ct N (co s)) with (s_ct s) in W.
  split; [|split; [apply (wf_peak _ _ W)|apply (wf_stats _ _ W)]]. destruct (ct_list_sp _ W) as (A & B & ->). f_equal. apply Permutation_length.
  apply NoDup_Permutation; auto. intros a. rewrite B, E. reflexivity.
Qed.

(** * C14 *)

(** If the table holds edges to stored nodes whose weights are constants (as those of gates with
    entries 0 and 1 are), it returns only such edges after a collection.  Missing: weights that
    the table of numbers holds, see [toffoli_refuted]. *)
Definition const_weight (w : complex) : Prop := forall p, p = cr w \/ p = ci w -> match ep_at p with AZero | AOne | ASqrt2 => True | _ => False end.
Definition tof_stored (s : st N) (t : tof) : Prop := forall k e, fst (tof_lookup t k) = Some e -> ptr_stored s KM (ep e) /\ const_weight (ew e).
Lemma tof_look t k e : fst (tof_lookup t k) = Some e <-> exists k', tb_ent t (tof_hash k) = Some (k', e) /\ tk_eqb k' k = true.
Proof.
  unfold tof_lookup, tb_lookup. destruct (tb_ent t (tof_hash k)) as [[k' r]|] eqn:E; [destruct (tk_eqb k' k) eqn:Q|]; cbn; split.
  - intros [= <-]. eauto.
  - intros (k2 & [= <- <-] & _). reflexivity.
  - discriminate.
  - intros (k2 & [= <- <-] & A). congruence.
  - discriminate.
  - intros (k2 & [=] & _).
Qed.
Theorem toffoli_partial nq s V D force t b t' s' : reached nq s V D -> tof_stored s t -> (tb_count t <= 0 -> forall h, tb_ent t h = None) ->
  gcToffoli N g nb force s t = Ok (b, t') s' -> tof_stored s' t'.
Proof.
  intros H St Tc E. pose proof (reached_sim G _ _ _ _ H) as Sm. destruct (reached_i _ _ _ G _ _ _ _ H) as (I & _). destruct (si_rc _ _ _ _ _ Sm) as (pin & _ & R).
  pose proof (rcok_rcact (g:=g) (nb:=nb) (X:=X) _ _ _ I R) as Ac.
  destruct (gc_sp' (g:=g) (nb:=nb) (X:=X) G force s I Ac) as (b1 & s1 & E1 & Sf & _ & Rt). unfold gcToffoli in E. rewrite E1 in E. injection E as <- <- <-.
  pose proof (gs_inv _ _ Sf) as I'.
  assert (Kn: forall k, ut_count (s_ut s1 k) = ut_count (s_ut s k) -> forall n, nstored s k n -> nstored s1 k n).
  { intros k Q n Hn. destruct (ut_list_sp s k I) as (A1 & A2 & A3). destruct (ut_list_sp s1 k I') as (B1 & B2 & B3).
    apply B2. apply (NoDup_length_incl (l':=ut_allq N nb (co s) k) B1); [lia| |now apply A2]. intros m Hm. apply A2. apply B2 in Hm. now apply (gs_lk _ _ Sf). }
  assert (Same: ut_count (s_ut s1 KM) = ut_count (s_ut s KM) -> tof_stored s1 t).
  { intros Q k e He. destruct (St k e He) as [[P|(n & P & Hn)] Cw]; split; auto; [now left|]. right. exists n. split; auto. }
  destruct Rt as [[_ ->]|(cC & vC & mC & dC & s3 & EC & _ & _ & _ & _ & Hm & Hd)].
  - destruct (_ && _); [exact St|]. destruct (gcCounts N g nb force s) as [[[[c v] m] d] s3|x s3|bb] eqn:EC; try exact St.
    destruct (_ || _); [|exact St]. intros k e He. apply tof_look in He. destruct He as (k' & He & _). unfold tof_clear, tb_clear in He. cbn in He.
    destruct (Z.ltb_spec 0 (tb_count t)); [discriminate|]. rewrite Tc in He by lia. discriminate.
  - destruct (_ && _) eqn:B.
    + unfold garbageCollect, bind, get in E1. rewrite B in E1. injection E1 as _ ->. exact St.
    + rewrite EC. destruct ((0 <? mC) || (0 <? dC)) eqn:Q.
      * intros k e He. apply tof_look in He. destruct He as (k' & He & _). unfold tof_clear, tb_clear in He. cbn in He.
        destruct (Z.ltb_spec 0 (tb_count t)); [discriminate|]. rewrite Tc in He by lia. discriminate.
      * apply orb_false_iff in Q. destruct Q as [Q _]. apply Z.ltb_ge in Q. apply Same.
        destruct (ut_list_sp s KM I) as (A1 & A2 & A3). destruct (ut_list_sp s1 KM I') as (B1 & B2 & B3).
        assert (Le: (length (ut_allq N nb (co s1) KM) <= length (ut_allq N nb (co s) KM))%nat).
        { apply NoDup_incl_length; auto. intros n Hn. apply A2. apply B2 in Hn. now apply (gs_lk _ _ Sf). }
        lia.
Qed.
End Tables.

(** ** Instances and counterexamples *)

(** In the sample state of PropStruct a forced collection removes a vector node. *)
Example collection_reports_ex : match garbageCollect NumF gS nbS true sS with Ok b _ => b = true | _ => False end.
Proof. vm_compute. reflexivity. Qed.
Example node_statistics_ex : enumerates sS KV (LS KV) /\ ut_count (s_ut sS KV) = 4 /\ ut_peak (s_ut sS KV) = 4.
Proof. split; [apply enumS|]. vm_compute. auto. Qed.
Example number_statistics_ex : ct_count (s_ct sS) = 10 /\ ct_lookups (s_ct sS) = ct_hits (s_ct sS) + ct_inserts (s_ct sS) /\ 0 < ct_hits (s_ct sS).
Proof. split; [|split]; vm_compute; reflexivity. Qed.

(** A collection that removes only a density node, which moves it from its bucket to the free
    list, returns false (Package.hpp:983). *)
Theorem collection_reports_refuted : exists (s : st NumF) s' n v b,
  In n (ut_tab (s_ut s KD) v b) /\ garbageCollect NumF gS nbS true s = Ok false s' /\ ~ In n (ut_tab (s_ut s' KD) v b) /\ In n (ut_avail (s_ut s' KD)).
Proof.
  pose (r := makeDDNode NumF gS nbS KD 0 [Eone; Ezero; Ezero; Ezero] false (pkg_init NumF gS 1)).
  pose (s := after r (pkg_init NumF gS 1)). exists s, (after (garbageCollect NumF gS nbS true s) s), 0%nat, 0, 0.
  split; [vm_compute; auto|]. split; [|split; vm_compute; [intros []|auto]].
  assert (Q: match garbageCollect NumF gS nbS true s with Ok b _ => b = false | _ => False end) by (vm_compute; reflexivity).
  destruct (garbageCollect _ _ _ _ _) as [b s'| |]; [now rewrite Q|contradiction|contradiction].
Qed.

(** The peak of the cache of temporaries stays 0 (ComplexCache.hpp:39-66 never assigns it). *)
Theorem cache_peak_refuted : exists (H : list complex) (s : st NumF), cuse (gdef NumF) H s /\ cc_peak (s_cc s) < cc_count (s_cc s).
Proof.
  exists [cslot 0 1], (after (getCached0 (gdef NumF) (pkg_init NumF (gdef NumF) 1)) (pkg_init NumF (gdef NumF) 1)). split.
  - eapply cu_get; [apply (cu_new (gdef NumF) (pkg_init NumF (gdef NumF) 1)); reflexivity|reflexivity].
  - vm_compute. reflexivity.
Qed.

(** A matrix whose weight 3 only the Toffoli table refers to: the collection removes the number and
    keeps the entry (Package.hpp:969-982 does not clear the Toffoli table). *)
Definition f3 : NumF := nadd f2 f1.
Definition progT : list (ins NumF) := [IMat [[(f3, f0); (f0, f0)]; [(f0, f0); (f3, f0)]]; IIdent 0; IInc KM 1].
Definition keyT : tkey := TK 1 [] 0.
Definition sT : st NumF := fst (endS progT).
Definition eT : edge := nth 0 (snd (endS progT)) Enull.
Definition tT : tof := tof_insert tb_empty keyT eT.
Definition gcT : res NumF (bool * tof) := gcToffoli NumF gS nbS true sT tT.
Theorem toffoli_refuted : exists b (t' : tof) s' e a i, gcT = Ok (b, t') s' /\ fst (tof_lookup t' keyT) = Some e /\ ep_at (cr (ew e)) = ATab a /\
  In a (ct_tab (s_ct sT) i) /\ ~ In a (ct_tab (s_ct s') i) /\ In a (ct_avail (s_ct s')).
Proof.
  assert (Q: match gcT with Ok (b, t') s' => match fst (tof_lookup t' keyT) with Some e => e = eT | None => False end | _ => False end) by (vm_compute; reflexivity).
  assert (Q2: match gcT with Ok _ s' => ~ In 1%nat (ct_tab (s_ct s') 64) /\ In 1%nat (ct_avail (s_ct s')) | _ => False end).
  { vm_compute. split; [intros []|left; reflexivity]. }
  destruct gcT as [[b t'] s'| |]; [|contradiction|contradiction]. destruct (fst (tof_lookup t' keyT)) as [e|] eqn:L; [|contradiction]. subst e.
  exists b, t', s', eT, 1%nat, 64. split; [reflexivity|]. split; [exact L|]. split; [vm_compute; reflexivity|]. split; [vm_compute; left; reflexivity|exact Q2].
Qed.
(** The partial theorem applies to the table holding the identity. *)
Example toffoli_partial_ex : let t := tof_insert tb_empty keyT (nth 1 (snd (endS progT)) Enull) in
  fst (tof_lookup t keyT) = Some (Ed (PNode 0) Cone) /\ tb_count t = 1.
Proof. vm_compute. auto. Qed.

(** ** What the Toffoli table returns (C55) *)
(** The calls on the table (ToffoliTable.hpp:34-84). *)
Inductive tcall := TIns (n : Z) (cs : list control) (t : Z) (e : edge) | TLook (n : Z) (cs : list control) (t : Z) | TClear.
(** A sequence of calls, last call first (ToffoliTable.hpp:34-84). *)
Fixpoint tof_after (l : list tcall) : tof :=
  match l with
  | [] => tb_empty
  | TIns n cs t e :: l => tof_insert (tof_after l) (TK n cs t) e
  | TLook n cs t :: l => snd (tof_lookup (tof_after l) (TK n cs t))
  | TClear :: l => tof_clear (tof_after l)
  end.
(** Equality of controls (Control.hpp:26-28). *)
Definition ctl_dec (a b : control) : {a = b} + {a <> b}.
Proof. decide equality; [apply bool_dec|apply Z.eq_dec]. Defined.
(** What a reader of the calls expects: the edge last stored for exactly this gate since the last clear. *)
Fixpoint last_stored (l : list tcall) (n : Z) (cs : list control) (t : Z) : option edge :=
  match l with
  | [] | TClear :: _ => None
  | TIns n' cs' t' e :: l => if (n' =? n) && (t' =? t) && (if list_eq_dec ctl_dec cs' cs then true else false) then Some e else last_stored l n cs t
  | TLook _ _ _ :: l => last_stored l n cs t
  end.
Lemma tof_count l : 0 <= tb_count (tof_after l) /\ (tb_count (tof_after l) = 0 -> forall h, tb_ent (tof_after l) h = None).
Proof.
  induction l as [|[n cs t e|n cs t|] l [A B]]; cbn; [split; auto; lia| | |].
  - split; lia.
  - unfold tof_lookup, tb_lookup. destruct (tb_ent _ _) as [[k r]|]; [destruct (tk_eqb _ _)|]; cbn; auto.
  - split; [lia|]. intros _ h. destruct (Z.ltb_spec 0 (tb_count (tof_after l))); auto. apply B. lia.
Qed.
Lemma tof_ent_last l : forall h k e, tb_ent (tof_after l) h = Some (k, e) ->
  h = tof_hash k /\ last_stored l (tk_n k) (tk_c k) (tk_t k) = Some e /\ ep e <> PNull.
Proof.
  induction l as [|[n cs t e0|n cs t|] l IH]; cbn [tof_after last_stored]; intros h k e E; [discriminate| | |].
  - unfold tof_insert, tb_insert in E. cbn in E. unfold updZ in E. destruct (Z.eqb_spec h (tof_hash (TK n cs t))) as [->|Nh].
    + destruct (isnull (ep e0)) eqn:Nl; [discriminate|]. injection E as <- <-. split; auto. cbn. rewrite !Z.eqb_refl. destruct (list_eq_dec _ cs cs) as [_|[]]; auto. cbn. split; auto. intros Q. now rewrite Q in Nl.
    + destruct (IH _ _ _ E) as (A & B & C). split; auto. split; auto.
      destruct (Z.eqb_spec n (tk_n k)), (Z.eqb_spec t (tk_t k)), (list_eq_dec ctl_dec cs (tk_c k)); cbn; auto. destruct Nh. subst. now destruct k.
  - apply IH. unfold tof_lookup, tb_lookup in E. destruct (tb_ent (tof_after l) (tof_hash _)) as [[k' r]|]; [destruct (tk_eqb _ _)|]; exact E.
  - unfold tof_clear, tb_clear in E. cbn in E. destruct (Z.ltb_spec 0 (tb_count (tof_after l))) as [|Le]; [discriminate|]. destruct (tof_count l) as [A B]. rewrite B in E by lia. discriminate.
Qed.
(** Whatever the calls before: a hit is the edge last stored for these arguments, and right after an
    edge was stored it is found. *)
Theorem toffoli_hit l n cs t e : fst (tof_lookup (tof_after l) (TK n cs t)) = Some e -> last_stored l n cs t = Some e /\ ep e <> PNull.
Proof.
  unfold tof_lookup, tb_lookup. destruct (tb_ent _ _) as [[k r]|] eqn:E; [|discriminate]. destruct (tk_eqb k (TK n cs t)) eqn:Q; [|discriminate]. cbn. intros [= <-].
  destruct (tof_ent_last _ _ _ _ E) as (_ & B & C). unfold tk_eqb in Q. rewrite !andb_true_iff, !Z.eqb_eq, cs_eqb_spec in Q. cbn in Q. destruct Q as [[<- <-] <-]. auto.
Qed.
Theorem toffoli_found l n cs t e : ep e <> PNull -> fst (tof_lookup (tof_after (TIns n cs t e :: l)) (TK n cs t)) = Some e.
Proof.
  intros Ne. unfold tof_lookup, tb_lookup. cbn. unfold updZ. rewrite Z.eqb_refl. destruct (ep e) eqn:P; [destruct (Ne eq_refl)| |]; cbn;
  unfold tk_eqb; cbn; rewrite !Z.eqb_refl; (replace (cs_eqb cs cs) with true by (symmetry; now apply cs_eqb_spec)); reflexivity.
Qed.
(** Two gates whose controls include qubit 0 share a slot: the second replaces the first. *)
Example toffoli_hit_example : let e := Ed (PNode 3) Cone in let e' := Ed (PNode 4) Cone in let c := [Ctl 0 true] in
  let l := [TLook 3 c 2; TIns 3 c 2 e'; TIns 3 c 1 e] in
  fst (tof_lookup (tof_after l) (TK 3 c 2)) = Some e' /\ last_stored l 3 c 1 = Some e /\ fst (tof_lookup (tof_after l) (TK 3 c 1)) = None.
Proof. vm_compute. auto. Qed.

Print Assumptions collection_reports_partial.
Print Assumptions collection_reports_refuted.
Print Assumptions node_statistics.
Print Assumptions number_statistics.
Print Assumptions cache_peak_refuted.
Print Assumptions toffoli_partial.
Print Assumptions toffoli_refuted.
Print Assumptions toffoli_hit.
Print Assumptions toffoli_found.
