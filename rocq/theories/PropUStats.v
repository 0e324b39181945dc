(** Statistics of the unique tables and of the table of real numbers (C76). *)
From Coq Require Import ZArith List Bool Lia.
From Verif Require Import Num Base CTable CTableWf State Pkg Read Inv InvL PrimL Run PropBase PropStruct.
Import ListNotations.
Local Open Scope Z_scope.

Section U.
Context {N : num} (g : cfg N) (nb : kind -> Z).
Implicit Types s : st N.

Lemma children_same k var es s a s1 : checkChildren N k var es s = Ok a s1 -> s1 = s.
Proof.
  unfold checkChildren. induction es as [|e es IH]; [now intros [= _ <-]|]. destruct (chkchild _ _ _ _ _); [discriminate|auto].
Qed.
(** The search stops at the first node that compares equal; the others before it are the
    collisions. *)
Lemma search_steps s k es den chain : match ut_search N s k es den chain with
  | (Some p, c) => exists a b, chain = a ++ p :: b /\ c = Z.of_nat (length a) /\ nodes_eqb N s k es den (nod s k p) = true /\
      forall q, In q a -> nodes_eqb N s k es den (nod s k q) = false
  | (None, c) => c = Z.of_nat (length chain) /\ forall q, In q chain -> nodes_eqb N s k es den (nod s k q) = false
  end.
Proof.
  induction chain as [|p r IH]; cbn; [split; [reflexivity|contradiction]|].
  destruct (nodes_eqb N s k es den (nod s k p)) eqn:E.
  - exists [], r. split; [reflexivity|]. split; [reflexivity|]. split; [exact E|]. intros q [].
  - destruct (ut_search N s k es den r) as [[x|] c].
    + destruct IH as (a & b & -> & -> & H & H2). exists (p :: a), b. split; [reflexivity|]. split; [cbn [length]; lia|]. split; [exact H|].
      intros q [<-|Q]; auto.
    + destruct IH as [-> H]. split; [lia|]. intros q [<-|Q]; auto.
Qed.

(** * C76 *)

(** A lookup counts as one; it is a hit with as many collisions as nodes precede the one
    found in its bucket, or the node is new, after as many collisions as the bucket has nodes. *)
Theorem lookup_counted k n var es den s l s' : ut_lookup N g nb k n var es den s = Ok l s' ->
  let u := s_ut s k in let u' := s_ut s' k in let chain := ut_tab u var (ukey N g nb k es) in
  ut_lookups u' = ut_lookups u + 1 /\
  ((exists a b, chain = a ++ l :: b /\ ut_hits u' = ut_hits u + 1 /\ ut_coll u' = ut_coll u + Z.of_nat (length a) /\
      ut_count u' = ut_count u /\ ut_peak u' = ut_peak u /\ ut_tab u' = ut_tab u) \/
   (l = n /\ ut_hits u' = ut_hits u /\ ut_coll u' = ut_coll u + Z.of_nat (length chain) /\
      ut_count u' = ut_count u + 1 /\ ut_peak u' = Z.max (ut_peak u) (ut_count u + 1) /\
      ut_tab u' var (ukey N g nb k es) = n :: chain)).
Proof.
  unfold ut_lookup, bind, get. destruct (checkChildren N k var es _) as [[] s1|e s1|] eqn:E1; try discriminate.
  apply children_same in E1. destruct ((var <? 0) || _); [discriminate|].
  assert (Eu: s_ut s1 k = ut_stat (s_ut s k) (ut_lookups (s_ut s k) + 1) (ut_hits (s_ut s k)) (ut_coll (s_ut s k))).
  { rewrite E1. cbn. now rewrite kind_eqb_refl. }
  rewrite Eu. cbn [ut_stat ut_tab].
  pose proof (search_steps s1 k es den (ut_tab (s_ut s k) var (ukey N g nb k es))) as SP.
  destruct (ut_search N s1 k es den _) as [[p|] col].
  - destruct SP as (a & b & Ec & -> & _). destruct (negb _); [discriminate|]. unfold returnNode. destruct (memb _ _); [discriminate|].
    intros [= <- <-]. cbn. rewrite !kind_eqb_refl. cbn. split; [reflexivity|]. left. exists a, b. repeat split; auto.
  - destruct SP as [-> _]. intros [= <- <-]. cbn. rewrite !kind_eqb_refl. cbn. split; [reflexivity|]. right. rewrite !updZ_eq. repeat split; auto.
Qed.

(** Requests for nodes, one after the other, as makeDDNode makes them: a node is taken, then
    looked up. *)
Fixpoint asks (k : kind) (l : list (Z * list edge * bool)) : M N (list nat) :=
  match l with
  | [] => ret []
  | (var, es, den) :: r =>
      let* n := getNode N k in let* p := ut_lookup N g nb k n var es den in let* ps := asks k r in ret (p :: ps)
  end.
Lemma getNode_stats k s n s1 : getNode N k s = Ok n s1 ->
  ut_lookups (s_ut s1 k) = ut_lookups (s_ut s k) /\ ut_hits (s_ut s1 k) = ut_hits (s_ut s k) /\ ut_count (s_ut s1 k) = ut_count (s_ut s k).
Proof.
  unfold getNode. destruct (ut_avail _); [destruct (_ =? _); [|discriminate]|]; intros [= <- <-]; cbn; rewrite kind_eqb_refl; cbn; auto.
Qed.
(** Every request is a hit or a new node. *)
Theorem requests_counted k l s ps s' : asks k l s = Ok ps s' ->
  let u := s_ut s k in let u' := s_ut s' k in
  ut_lookups u' - ut_lookups u = Z.of_nat (length l) /\
  (ut_hits u' - ut_hits u) + (ut_count u' - ut_count u) = Z.of_nat (length l) /\
  ut_hits u <= ut_hits u' /\ ut_count u <= ut_count u'.
Proof.
  cbv zeta. revert s ps. induction l as [|[[var es] den] r IH]; intros s ps; [intros [= <- <-]; cbn; lia|].
  cbn [asks]. unfold bind at 1. destruct (getNode N k s) as [n s1|e s1|] eqn:E1; try discriminate.
  unfold bind at 1. destruct (ut_lookup N g nb k n var es den s1) as [p s2|e s2|] eqn:E2; try discriminate.
  unfold bind at 1. destruct (asks k r s2) as [qs s3|e s3|] eqn:E3; try discriminate. intros [= <- <-].
  apply getNode_stats in E1. apply lookup_counted in E2. apply IH in E3. cbv zeta in E2. cbn [length].
  destruct E2 as [L [(a & b & _ & H & _ & C & _)|(_ & H & _ & C & _)]]; lia.
Qed.
End U.

(** * The table of real numbers *)
Section T.
Context {N : num} (cf : ctcfg).
Implicit Types c : ctab N.

(** A lookup counts as one; it is a hit and leaves buckets and entries as they were, or
    one entry is inserted, which is returned. *)
Theorem number_lookup_counted c v a c' : ct_lookup cf c v = inl (a, c') ->
  ct_lookups c' = ct_lookups c + 1 /\
  ((ct_hits c' = ct_hits c + 1 /\ ct_inserts c' = ct_inserts c /\ ct_count c' = ct_count c /\ ct_tab c' = ct_tab c /\ ct_heap c' = ct_heap c) \/
   (ct_hits c' = ct_hits c /\ ct_inserts c' = ct_inserts c + 1 /\ ct_count c' = ct_count c + 1 /\
      exists n key, a = ATab n /\ In n (ct_tab c' key) /\ ct_value c' n = v)).
Proof.
  assert (SP: forall d key pre post n d', ct_splice cf d key pre post v = (n, d') ->
    ct_lookups d' = ct_lookups d /\ ct_hits d' = ct_hits d /\ ct_inserts d' = ct_inserts d + 1 /\ ct_count d' = ct_count d + 1 /\
    In n (ct_tab d' key) /\ ct_value d' n = v).
  { intros d key pre post n d'. unfold ct_splice, ct_getEntry, ct_value. destruct (ct_avail d); intros [= <- <-]; cbn; rewrite upd_eq, updZ_eq; cbn;
      repeat split; auto; apply in_or_app; right; now left. }
  unfold ct_lookup. destruct (negb _); [discriminate|]. cbv zeta.
  destruct (approx_zero v); [intros [= <- <-]; cbn; split; [|left]; auto|].
  destruct (approx_one v); [intros [= <- <-]; cbn; split; [|left]; auto|].
  destruct (approx_eq v nsq2); [intros [= <- <-]; cbn; split; [|left]; auto|].
  destruct (ct_hash _ (nsub v ntol)) as [lk|]; [|discriminate]. destruct (ct_hash _ (nadd v ntol)) as [uk|]; [|discriminate].
  destruct (uk =? lk).
  - unfold ct_findOrInsert. destruct (ct_scan _ _ _ _ _) as [n|[pre post]].
    + intros [= <- <-]. cbn. split; [|left]; auto.
    + destruct (ct_splice _ _ _ _ _ _) as [n d] eqn:E. intros [= <- <-]. apply SP in E. cbn in E. destruct E as (A & B & C & D & F & G).
      split; [lia|]. right. split; [lia|]. split; [lia|]. split; [lia|]. eauto.
  - destruct (ct_hash _ v) as [key|]; [|discriminate].
    assert (IN: forall r, (let '(n, d) := ct_insert cf (ct_tick_lookup c) key v in inl (ATab n, d)) = r -> r = @inl _ bad (a, c') ->
      ct_lookups c' = ct_lookups c + 1 /\ ct_hits c' = ct_hits c /\ ct_inserts c' = ct_inserts c + 1 /\ ct_count c' = ct_count c + 1 /\
      exists n key, a = ATab n /\ In n (ct_tab c' key) /\ ct_value c' n = v).
    { intros r <-. unfold ct_insert. destruct (ct_insertPos _ _ _ _) as [pre post]. destruct (ct_splice _ _ _ _ _ _) as [n d] eqn:E. intros [= <- <-].
      apply SP in E. cbn in E. destruct E as (A & B & C & D & F & G). split; [lia|]. split; [lia|]. split; [lia|]. split; [lia|]. eauto. }
    repeat match goal with
    | |- context [if ?b then _ else _] => destruct b
    | |- context [ct_match _ _ ?o] => destruct (ct_match _ _ o)
    | |- context [match ?o with Some _ => _ | None => _ end] => destruct o
    end; intros H; try (injection H as <- <-; cbn; split; [|left]; now auto);
      destruct (IN _ eq_refl H) as (A & B); split; auto.
Qed.

(** A history of the table *)
Inductive tcall := TLook (v : N) | TInc (p : eptr) | TDec (p : eptr) | TGc (force : bool) | TClear.
(** The table after the calls, the last one first, and the number of lookups since it was
    last cleared; [None] when a call failed *)
Fixpoint history (l : list tcall) : option (ctab N * Z) :=
  match l with
  | [] => Some (ct_empty cf, 0)
  | x :: l =>
      match history l with
      | None => None
      | Some (c, n) =>
          match x with
          | TLook v => match ct_lookup cf c v with inl (_, c') => Some (c', n + 1) | inr _ => None end
          | TInc p => Some (ct_incRef c p, n)
          | TDec p => match ct_decRef c p with Some c' => Some (c', n) | None => None end
          | TGc force => Some (snd (ct_gc cf force c), n)
          | TClear => Some (ct_clear cf c, 0)
          end
      end
  end.
(** Every lookup is a hit or an insertion. *)
Theorem number_table_counters l c n : history l = Some (c, n) ->
  ct_lookups c = n /\ ct_hits c + ct_inserts c = n /\ 0 <= ct_hits c <= n /\ 0 <= ct_inserts c.
Proof.
  revert c n. induction l as [|x l IH]; intros c n; cbn [history]; [intros [= <- <-]; cbn; lia|].
  destruct (history l) as [[d m]|]; [|discriminate]. specialize (IH _ _ eq_refl). destruct x as [v|p|p|f|].
  - destruct (ct_lookup cf d v) as [[a d']|] eqn:E; [|discriminate]. apply number_lookup_counted in E. intros [= <- <-]. lia.
  - intros [= <- <-]. unfold ct_incRef. destruct (ep_at p); exact IH.
  - unfold ct_decRef. destruct (ep_at p); try (intros [= <- <-]; exact IH). destruct (rc_dec _); [|discriminate]. intros [= <- <-]. exact IH.
  - intros [= <- <-]. unfold ct_gc. destruct (_ || _); [exact IH|]. destruct (gc_buckets _ _ _ _ _ _ _) as [[[[? ?] ?] ?] ?]. exact IH.
  - intros [= <- <-]. cbn. lia.
Qed.

(** A use of the table in which only entries in it are referenced, with the number of
    entries that collections reported since it was last cleared *)
Inductive used : ctab N -> Z -> Prop :=
| u_new : used (ct_empty cf) 0
| u_look c n v a c' : used c n -> ct_lookup cf c v = inl (a, c') -> used c' n
| u_inc c n p : used c n -> alive c (ep_at p) -> used (ct_incRef c p) n
| u_dec c n p c' : used c n -> alive c (ep_at p) -> ct_decRef c p = Some c' -> used c' n
| u_gc c n force m c' : used c n -> ct_gc cf force c = (m, c') -> used c' (n + m)
| u_clear c n : used c n -> used (ct_clear cf c) 0.
(** Every entry ever inserted is counted as present or was reported as collected; the peak
    is not below the number present. *)
Theorem entries_accounted (Hcf : cfgok cf) c n : used c n -> ct_inserts c = ct_count c + n /\ ct_count c <= ct_peak c.
Proof.
  intros H. enough (ctwf cf c /\ ct_inserts c = ct_count c + n) as [W E] by (split; [exact E|apply (wf_peak _ _ W)]).
  induction H as [|c n v a c' H [W E] L|c n p H [W E] A|c n p c' H [W E] A D|c n f m c' H [W E] G|c n H [W E]].
  - split; [now apply ctwf_empty|reflexivity].
  - split; [now apply (ct_lookup_wf cf Hcf _ _ _ _ W L)|]. apply number_lookup_counted in L. lia.
  - split; [now apply ct_incRef_wf|]. unfold ct_incRef. destruct (ep_at p); exact E.
  - split; [now apply (ct_decRef_wf cf _ _ _ W A D)|]. unfold ct_decRef in D. destruct (ep_at p); try (injection D as <-; exact E).
    destruct (rc_dec _); [|discriminate]. injection D as <-. exact E.
  - destruct (ct_gc_spec cf _ _ _ _ W G) as (W' & _ & S & _). split; [exact W'|].
    assert (ct_inserts c' = ct_inserts c) as -> by (unfold ct_gc in G; destruct (_ || _); [injection G as <- <-; reflexivity|];
      destruct (gc_buckets _ _ _ _ _ _ _) as [[[[? ?] ?] ?] ?]; injection G as <- <-; reflexivity).
    destruct S as [(-> & _ & _ & _ & -> & _)|(_ & -> & _)]; lia.
  - split; [now apply ct_clear_wf|reflexivity].
Qed.
End T.

(** In every state of the package that a user can reach *)
Theorem package_numbers_counted {N : num} (g : cfg N) nb (X : numx N (g_ct g)) (G : gok g) nq s V D :
  reached (g:=g) (nb:=nb) (X:=X) nq s V D -> ct_lookups (s_ct s) = ct_hits (s_ct s) + ct_inserts (s_ct s).
Proof. intros H. apply (reached_i g nb X G) in H. destruct H as [I _]. apply (wf_stats (g_ct g)). apply I. Qed.

(** Two different nodes and the first again: three lookups, one hit, two nodes. *)
Definition exAsks : list (Z * list edge * bool) :=
  [(0, [Eone; Ezero], false); (0, [Ezero; Eone], false); (0, [Eone; Ezero], false)].
Example requests_counted_example :
  match asks (gdef NumF) nbdef KV exAsks (pkg_init NumF (gdef NumF) 1) with
  | Ok ps s => ut_lookups (s_ut s KV) = 3 /\ ut_hits (s_ut s KV) = 1 /\ ut_count (s_ut s KV) = 2 /\ nth 0 ps 0%nat = nth 2 ps 1%nat
  | _ => False
  end.
Proof. vm_compute. repeat split. Qed.

(** 1/2 twice and 1 after the table was cleared: one insertion, two hits. *)
Example number_table_counters_example :
  match history (N:=NumF) (g_ct (gdef NumF)) [TLook n1; TGc true; TLook nhalf; TInc (EP false (ATab 0)); TLook nhalf; TClear; TLook nhalf] with
  | Some (c, n) => n = 3 /\ ct_hits c = 2 /\ ct_inserts c = 1 /\ ct_count c = 1
  | None => False
  end.
Proof. vm_compute. repeat split. Qed.

(** Two numbers are inserted into a table with 8 buckets, one is referenced, the other collected. *)
Definition cf8 : ctcfg := CTcfg 8 10 2 5.
Definition look8 (c : ctab NumF) v := match ct_lookup cf8 c v with inl (_, c') => c' | inr _ => c end.
Lemma look8_used c n v : used cf8 c n -> match ct_lookup cf8 c v with inl _ => True | inr _ => False end -> used cf8 (look8 c v) n.
Proof. unfold look8. destruct (ct_lookup cf8 c v) as [[a c']|] eqn:E; [|contradiction]. intros H _. eapply u_look; eauto. Qed.
Example entries_accounted_example : cfgok cf8 /\ exists c : ctab NumF, used cf8 c 1 /\ ct_inserts c = 2 /\ ct_count c = 1 /\ ct_peak c = 2.
Proof.
  split; [unfold cfgok; cbn; lia|].
  pose (c2 := look8 (look8 (ct_empty cf8) nhalf) (@nadd NumF n1 n1)). pose (c3 := ct_incRef c2 (EP false (ATab 0))).
  exists (snd (ct_gc cf8 true c3)). split; [|vm_compute; auto].
  replace 1 with (0 + fst (ct_gc cf8 true c3)) by (vm_compute; reflexivity).
  eapply u_gc; [|apply surjective_pairing]. apply u_inc.
  - apply look8_used; [|vm_compute; exact Logic.I]. apply look8_used; [apply u_new|vm_compute; exact Logic.I].
  - exists (match ct_hash (N:=NumF) cf8 nhalf with inl k => k | _ => 0 end). vm_compute. auto.
Qed.

(** The program of [reached0] *)
Example package_numbers_counted_example : exists s V, reachedR gR nbdef GR 3 s V D0 /\ ct_lookups (s_ct s) = ct_hits (s_ct s) + ct_inserts (s_ct s).
Proof. destruct reached0 as (s & V & H). exists s, V. split; [exact H|]. exact (package_numbers_counted gR nbdef (XR gR GR) GR _ _ _ _ H). Qed.

Print Assumptions lookup_counted.
Print Assumptions requests_counted.
Print Assumptions number_lookup_counted.
Print Assumptions number_table_counters.
Print Assumptions entries_accounted.
Print Assumptions package_numbers_counted.
