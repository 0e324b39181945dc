(** The tables for noise operations: what they return, and garbage collection (C58). *)
From Coq Require Import ZArith List Bool Lia Arith Reals Permutation.
From Verif Require Import Num Base CTable CTableWf Cx State Pkg Density DensMul Noise Inv InvL MkL PrimL GcL RefL Run Inst PropBase PropStruct PropPrim PropTables.
Import ListNotations.
Local Open Scope Z_scope.

(** ** The table of stochastic noise operations *)

(** The calls on the table (StochasticNoiseOperationTable.hpp:28-60). *)
Inductive scall := SIns (kd : nat) (q : Z) (e : edge) | SLook (kd : nat) (q : Z) | SClear | SResize (n : nat).
(** The table a call leaves behind, whether it returns or throws (StochasticNoiseOperationTable.hpp:28-60). *)
Definition sleft {A} (r : sres A) : option snt := match r with SOk _ t | SThr _ t => Some t | SBad _ => None end.
(** A sequence of calls on a new table, last call first (StochasticNoiseOperationTable.hpp:22-60);
    [None]: an assertion failed. *)
Fixpoint sn_after (ops nq : nat) (l : list scall) : option snt :=
  match l with
  | [] => Some (sn_new ops nq)
  | c :: l =>
      match sn_after ops nq l with
      | None => None
      | Some t => match c with
                  | SIns kd q e => sleft (sn_insert ops t kd q e)
                  | SLook kd q => sleft (sn_lookup ops t kd q)
                  | SClear => Some (sn_clear t)
                  | SResize n => Some (sn_resize ops n t)
                  end
      end
  end.
(** What a reader of the calls expects.  The number of qubits: that of the last resize. *)
Fixpoint qubits_of (nq : nat) (l : list scall) : nat :=
  match l with
  | [] => nq
  | SResize n :: _ => n
  | _ :: l => qubits_of nq l
  end.
(** The edge last stored for this operation and qubit since the last clear, if the qubit has been there
    ever since. *)
Fixpoint last_op (nq : nat) (l : list scall) (kd : nat) (q : Z) : option edge :=
  match l with
  | [] | SClear :: _ => None
  | SLook _ _ :: l => last_op nq l kd q
  | SResize n :: l => if q <? Z.of_nat n then last_op nq l kd q else None
  | SIns kd' q' e :: l =>
      if Nat.eqb kd' kd && (q' =? q) && (0 <=? q) && (q <? Z.of_nat (qubits_of nq l)) then match ep e with PNull => None | _ => Some e end
      else last_op nq l kd q
  end.

Lemma setnth_len {A} (l : list A) i a : length (setnth l i a) = length l.
Proof. revert i; induction l as [|b l IH]; intros [|i]; cbn; auto. Qed.
Lemma setnth_nth {A} (l : list A) i j a d : nth j (setnth l i a) d = if Nat.eqb i j && Nat.ltb j (length l) then a else nth j l d.
Proof.
  revert i j; induction l as [|b l IH]; intros [|i] [|j]; cbn; auto.
  - rewrite andb_comm. reflexivity.
  - now rewrite IH.
Qed.
Lemma nth_repeat_lt {A} (a d : A) n i : (i < n)%nat -> nth i (repeat a n) d = a.
Proof. revert i; induction n as [|n IH]; intros [|i] L; cbn; auto; try lia. apply IH. lia. Qed.
Lemma nth_repeat_ge {A} (a d : A) n i : (n <= i)%nat -> nth i (repeat a n) d = d.
Proof. intros L. apply nth_overflow. now rewrite repeat_length. Qed.
(** Element [kd] of row [q]. *)
Definition cell (t : snt) (kd q : nat) : edge := nth kd (nth q (sn_rows t) []) Enull.
Definition shape (ops : nat) (t : snt) (n : nat) : Prop := length (sn_rows t) = n /\ Forall (fun r => length r = ops) (sn_rows t).
Lemma shape_row ops t n q : shape ops t n -> (q < n)%nat -> length (nth q (sn_rows t) []) = ops.
Proof. intros [L F] Lt. rewrite Forall_forall in F. apply F, nth_In. lia. Qed.
Lemma sn_at_sp t q : sn_at t q = if (0 <=? q) && (q <? Z.of_nat (length (sn_rows t))) then Some (nth (Z.to_nat q) (sn_rows t) []) else None.
Proof.
  unfold sn_at. destruct (Z.ltb_spec q 0), (Z.leb_spec 0 q); try lia; auto. cbn [andb].
  destruct (Z.ltb_spec q (Z.of_nat (length (sn_rows t)))) as [L|L].
  - apply nth_error_nth'. lia.
  - apply nth_error_None. lia.
Qed.
Lemma Forall_setnth {A} (P : A -> Prop) l i a : Forall P l -> P a -> Forall P (setnth l i a).
Proof. intros F Pa. revert i; induction F; intros [|i]; cbn; auto. Qed.

Definition seen (e : edge) : option edge := match ep e with PNull => None | _ => Some e end.
Lemma sn_inv ops nq l t : sn_after ops nq l = Some t ->
  shape ops t (qubits_of nq l) /\ 0 <= sn_count t /\ (sn_count t = 0 -> forall kd q, seen (cell t kd q) = None) /\
  forall kd q, (kd < ops)%nat -> (q < qubits_of nq l)%nat -> seen (cell t kd q) = last_op nq l kd (Z.of_nat q).
Proof.
  revert t; induction l as [|c l IH]; cbn [sn_after qubits_of last_op]; intros t E.
  { injection E as <-. assert (Z: forall kd q, cell (sn_new ops nq) kd q = Enull).
    { intros kd q. unfold cell, sn_new, sn_resize, rows_resize. cbn. rewrite firstn_nil, Nat.sub_0_r. cbn.
      destruct (Nat.lt_ge_cases q nq) as [L|L].
      - rewrite nth_repeat_lt by auto. unfold sn_row. destruct (Nat.lt_ge_cases kd ops); [now rewrite nth_repeat_lt|now rewrite nth_repeat_ge].
      - rewrite nth_repeat_ge by auto. now destruct kd. }
    split; [|split; [cbn; lia|split; [intros _|]; intros; now rewrite Z]].
    unfold sn_new, sn_resize, rows_resize, shape. cbn. rewrite firstn_nil, Nat.sub_0_r. cbn [app]. split; [apply repeat_length|].
    apply Forall_forall. intros r Hr. apply repeat_spec in Hr. subst. apply repeat_length. }
  destruct (sn_after ops nq l) as [u|] eqn:U; [|discriminate]. destruct (IH u eq_refl) as (Sh & C0 & Cz & Ce). clear IH.
  destruct c as [kd q e|kd q| |n].
  - unfold sn_insert in E. destruct (Nat.ltb_spec kd ops) as [Lk|]; [|discriminate]. cbn [negb] in E. rewrite sn_at_sp in E. rewrite (proj1 Sh) in E.
    destruct ((0 <=? q) && (q <? Z.of_nat (qubits_of nq l))) eqn:Q; cbn [sleft] in E; injection E as <-.
    + apply andb_true_iff in Q. rewrite Z.leb_le, Z.ltb_lt in Q. destruct Q as [Q1 Q2].
      assert (Cell: forall kd' q', cell (SNT (setnth (sn_rows u) (Z.to_nat q) (setnth (nth (Z.to_nat q) (sn_rows u) []) kd e)) (sn_hits u) (sn_looks u) (sn_count u + 1)) kd' q' =
        if Nat.eqb kd kd' && Nat.eqb (Z.to_nat q) q' then e else cell u kd' q').
      { intros kd' q'. unfold cell. cbn [sn_rows]. rewrite setnth_nth. destruct (Nat.eqb_spec (Z.to_nat q) q') as [<-|]; cbn [andb]; [|now rewrite andb_false_r].
        rewrite (proj1 Sh). destruct (Nat.ltb_spec (Z.to_nat q) (qubits_of nq l)); [|lia]. rewrite setnth_nth, (shape_row _ _ _ _ Sh) by lia.
        destruct (Nat.eqb_spec kd kd'); cbn [andb]; auto. destruct (Nat.ltb_spec kd' ops); [auto|lia]. }
      split; [|split; [cbn; lia|split; [cbn; lia|]]].
      * split; cbn [sn_rows]; [rewrite setnth_len; apply Sh|]. apply Forall_setnth; [apply Sh|]. rewrite setnth_len. apply shape_row with (n := qubits_of nq l); [auto|lia].
      * intros kd' q' H1 H2. rewrite Cell. destruct (Nat.eqb_spec kd kd') as [<-|]; cbn [andb]; [|now apply Ce].
        destruct (Nat.eqb_spec (Z.to_nat q) q') as [<-|Nq].
        -- rewrite Z2Nat.id by lia. rewrite Z.eqb_refl. destruct (Z.leb_spec 0 q), (Z.ltb_spec q (Z.of_nat (qubits_of nq l))); try lia. reflexivity.
        -- destruct (Z.eqb_spec q (Z.of_nat q')); [lia|]. cbn [andb]. now apply Ce.
    + split; auto. split; auto. split; auto. intros kd' q' H1 H2. rewrite (Ce _ _ H1 H2).
      replace (Nat.eqb kd kd' && (q =? Z.of_nat q') && (0 <=? Z.of_nat q') && (Z.of_nat q' <? Z.of_nat (qubits_of nq l))) with false; auto.
      symmetry. destruct (Nat.eqb kd kd'); auto. cbn [andb]. destruct (Z.eqb_spec q (Z.of_nat q')) as [->|]; auto.
  - unfold sn_lookup in E. destruct (negb _); [discriminate|]. destruct (sn_at u q) as [row|]; cbn [sleft] in E.
    + destruct (isnull _); cbn [sleft] in E; injection E as <-; auto.
    + injection E as <-. auto.
  - injection E as <-. assert (Z: forall kd q, seen (cell (sn_clear u) kd q) = None).
    { intros kd q. unfold sn_clear. destruct (Z.ltb_spec 0 (sn_count u)); [|unfold cell in *; cbn; apply Cz; lia]. unfold cell. cbn [sn_rows].
      change (@nil edge) with (map (fun e : edge => Ed PNull (ew e)) []). rewrite map_nth.
      destruct (Nat.lt_ge_cases kd (length (nth q (sn_rows u) []))) as [L|L].
      - rewrite nth_indep with (d' := Ed PNull (ew Enull)) by now rewrite map_length. change (Ed PNull (ew Enull)) with ((fun e : edge => Ed PNull (ew e)) Enull). now rewrite map_nth.
      - now rewrite nth_overflow by now rewrite map_length. }
    split; [|split; [cbn; lia|split; intros; apply Z]]. unfold sn_clear. destruct (0 <? sn_count u); [|exact Sh]. split; cbn [sn_rows]; [rewrite map_length; apply Sh|].
    apply Forall_forall. intros r Hr. apply in_map_iff in Hr. destruct Hr as (r' & <- & Hr). rewrite map_length. destruct Sh as [_ F]. rewrite Forall_forall in F. auto.
  - injection E as <-.
    assert (Cell: forall kd q, cell (sn_resize ops n u) kd q = if Nat.ltb q n then cell u kd q else Enull).
    { intros kd q. unfold cell, sn_resize, rows_resize. cbn [sn_rows]. destruct Sh as [L _].
      destruct (Nat.lt_ge_cases q (length (firstn n (sn_rows u)))) as [A|A].
      - rewrite app_nth1 by auto. rewrite firstn_length in A. destruct (Nat.ltb_spec q n); [|lia]. f_equal. rewrite <- (firstn_skipn n (sn_rows u)) at 2. rewrite app_nth1; auto. rewrite firstn_length; lia.
      - rewrite app_nth2 by auto. rewrite firstn_length in A. 
        replace (nth kd (nth (q - length (firstn n (sn_rows u))) (repeat (sn_row ops) (n - length (sn_rows u))) []) Enull) with Enull.
        + destruct (Nat.ltb_spec q n); auto. rewrite (nth_overflow (sn_rows u)) by lia. now destruct kd.
        + set (j := (q - _)%nat). destruct (Nat.lt_ge_cases j (n - length (sn_rows u))) as [B|B].
          * rewrite nth_repeat_lt by auto. unfold sn_row. destruct (Nat.lt_ge_cases kd ops); [now rewrite nth_repeat_lt|now rewrite nth_repeat_ge].
          * rewrite nth_repeat_ge by auto. now destruct kd. }
    split; [|split; [exact C0|split]].
    + split; unfold sn_resize, rows_resize; cbn [sn_rows].
      * rewrite app_length, firstn_length, repeat_length. lia.
      * apply Forall_app. split; [|apply Forall_forall; intros r Hr; apply repeat_spec in Hr; subst; apply repeat_length].
        destruct Sh as [_ F]. rewrite Forall_forall in *. intros r Hr. apply F. rewrite <- (firstn_skipn n (sn_rows u)). apply in_or_app. now left.
    + intros Z kd q. rewrite Cell. destruct (Nat.ltb q n); auto.
    + intros kd q H1 H2. rewrite Cell. destruct (Nat.ltb_spec q n); [|lia]. destruct (Z.ltb_spec (Z.of_nat q) (Z.of_nat n)); [|lia].
      destruct (Nat.lt_ge_cases q (qubits_of nq l)) as [A|A]; [now apply Ce|].
      destruct Sh as [L _]. replace (cell u kd q) with Enull by (unfold cell; rewrite (nth_overflow (sn_rows u)) by lia; now destruct kd).
      cbn. symmetry. clear - A. revert A. induction l as [|[kd' q' e|kd' q'| |m] l IH]; cbn [last_op qubits_of]; intros A; auto.
      * destruct (Z.ltb_spec (Z.of_nat q) (Z.of_nat (qubits_of nq l))); [lia|]. rewrite andb_false_r. auto.
      * destruct (Z.ltb_spec (Z.of_nat q) (Z.of_nat m)); [lia|auto].
Qed.

(** Whatever the calls before, lookup returns exactly the edge last stored for this operation and qubit
    since the last clear; for a qubit the table does not have it throws. *)
Theorem stochastic_lookup ops nq l t kd q : sn_after ops nq l = Some t -> (kd < ops)%nat ->
  if (0 <=? q) && (q <? Z.of_nat (qubits_of nq l)) then exists t', sn_lookup ops t kd q = SOk (last_op nq l kd q) t'
  else exists t', sn_lookup ops t kd q = SThr EOutOfRange t'.
Proof.
  intros E Lk. destruct (sn_inv _ _ _ _ E) as (Sh & _ & _ & Ce). unfold sn_lookup. destruct (Nat.ltb_spec kd ops); [|lia]. cbn [negb].
  rewrite sn_at_sp, (proj1 Sh). destruct ((0 <=? q) && (q <? Z.of_nat (qubits_of nq l))) eqn:Q; [|eauto].
  apply andb_true_iff in Q. rewrite Z.leb_le, Z.ltb_lt in Q. specialize (Ce kd (Z.to_nat q) Lk). rewrite Z2Nat.id in Ce by lia. rewrite <- Ce by lia.
  unfold seen, cell. destruct (ep (nth kd _ Enull)); cbn; eauto.
Qed.
(** Two qubits, one operation: stored, replaced and kept over a resize to three qubits. *)
Example stochastic_lookup_ex : let e := Ed (PNode 3) Cone in let e' := Ed (PNode 4) Cone in
  let l := [SLook 0 1; SResize 3; SIns 0 7 e; SIns 0 1 e'; SIns 0 0 e; SIns 0 1 e] in
  (exists t, sn_after 1 2 l = Some t /\ sn_count t = 3) /\ last_op 2 l 0 1 = Some e' /\ last_op 2 l 0 0 = Some e /\ last_op 2 l 0 2 = None /\
  last_op 2 (SResize 2 :: SResize 1 :: l) 0 1 = None.
Proof. split; [eexists; split; reflexivity|auto]. Qed.

(** The lookups so far and those among them that found an edge, as a reader of the calls counts them. *)
Fixpoint looks_of (l : list scall) : Z := match l with [] => 0 | SLook _ _ :: l => 1 + looks_of l | _ :: l => looks_of l end.
Fixpoint hits_of (nq : nat) (l : list scall) : Z :=
  match l with
  | [] => 0
  | SLook kd q :: l => (if (0 <=? q) && (q <? Z.of_nat (qubits_of nq l)) then match last_op nq l kd q with Some _ => 1 | None => 0 end else 0) + hits_of nq l
  | _ :: l => hits_of nq l
  end.
(** The statistics (StochasticNoiseOperationTable.hpp:62-67) count the lookups and the successful ones. *)
Theorem stochastic_statistics ops nq l t : sn_after ops nq l = Some t -> sn_looks t = looks_of l /\ sn_hits t = hits_of nq l /\ 0 <= sn_hits t <= sn_looks t.
Proof.
  revert t; induction l as [|c l IH]; cbn [sn_after looks_of hits_of]; intros t E; [injection E as <-; cbn; lia|].
  destruct (sn_after ops nq l) as [u|] eqn:U; [|discriminate]. destruct (IH u eq_refl) as (A & B & C).
  destruct c as [kd q e|kd q| |n].
  - unfold sn_insert in E. destruct (Nat.ltb kd ops); [|discriminate]. cbn [negb] in E. destruct (sn_at u q); injection E as <-; cbn [sn_looks sn_hits]; lia.
  - destruct (Nat.lt_ge_cases kd ops) as [Lk|Lk]; [|unfold sn_lookup in E; destruct (Nat.ltb_spec kd ops); [lia|discriminate]].
    pose proof (stochastic_lookup _ _ _ _ kd q U Lk) as S. unfold sn_lookup in *. destruct (Nat.ltb_spec kd ops); [|lia]. cbn [negb] in *.
    destruct (sn_at u q) as [row|]; destruct (_ && _); destruct S as [t' S]; try discriminate.
    + destruct (isnull (ep (nth kd row Enull))); injection S as Sl _; rewrite <- Sl; injection E as <-; cbn [sn_looks sn_hits]; lia.
    + destruct (isnull (ep (nth kd row Enull))); discriminate.
    + injection E as <-. cbn [sn_looks sn_hits sn_clear sn_resize]. lia.
  - injection E as <-. cbn [sn_looks sn_hits sn_clear sn_resize]. lia.
  - injection E as <-. cbn [sn_looks sn_hits sn_clear sn_resize]. lia.
Qed.
Example stochastic_statistics_ex : let e := Ed (PNode 3) Cone in let l := [SLook 0 5; SLook 0 0; SLook 0 1; SIns 0 1 e] in
  exists t, sn_after 1 2 l = Some t /\ sn_looks t = 3 /\ sn_hits t = 1.
Proof. eexists; repeat split; reflexivity. Qed.

(** The number of qubits is not part of the key: after Package::resize (Package.hpp:103-115) the table
    still answers with the edge stored for the smaller diagrams, here an identity on one qubit for a
    request after the resize to two. *)
Theorem stochastic_resize_refuted : exists l t e t',
  sn_after 1 1 (SResize 2 :: l) = Some t /\ sn_lookup 1 t 0 0 = SOk (Some e) t' /\
  qubits_of 1 (SResize 2 :: l) = 2%nat /\ qubits_of 1 l = 1%nat /\ last_op 1 l 0 0 = Some e.
Proof. exists [SIns 0 0 (Ed (PNode 0) Cone)]. do 3 eexists. repeat split; reflexivity. Qed.

(** ** The table of density noise *)

Section Dens.
Context {N : num} (hd : nptr -> complex -> Z) (nbk : Z).
(** The calls on the table (DensityNoiseTable.hpp:46-80), with the marks of the nodes at the time and
    for a lookup also the state. *)
Inductive dcall := DIns (k : mkst) (e r : DensMul.hedge) (qs : list Z) | DLook (s : st N) (k : mkst) (e : DensMul.hedge) (qs : list Z) | DClear.
(** A sequence of calls, last call first (DensityNoiseTable.hpp:46-80); [None]: an assertion failed. *)
Fixpoint dn_after (l : list dcall) : option dnt :=
  match l with
  | [] => Some tb_empty
  | c :: l =>
      match dn_after l with
      | None => None
      | Some t => match c with
                  | DIns k e r qs => dn_insert hd nbk k t e r qs
                  | DLook s k e qs => option_map snd (dn_lookup N hd nbk s k t e qs)
                  | DClear => Some (dn_clear t)
                  end
      end
  end.
(** Same address with the same marks on node and pointer, same weight, same qubits. *)
Definition samekey (k : mkst) (e : DensMul.hedge) (qs : list Z) (c : dcall) : Prop :=
  match c with
  | DIns k' e' _ qs' => e' = e /\ hmarks k' (hp e') = hmarks k (hp e) /\ qs' = qs
  | _ => False
  end.
Lemma dn_look_ent s k t e qs r t' : dn_lookup N hd nbk s k t e qs = Some (r, t') -> tb_ent t' = tb_ent t /\ tb_count t' = tb_count t.
Proof.
  unfold dn_lookup. destruct (dn_hash _ _ _ _ _) as [h|]; [|discriminate]. intros [= E]. unfold tb_lookup in E.
  destruct (tb_ent t h) as [[x y]|]; [destruct (_ && _)|]; injection E as <- <-; auto.
Qed.
Lemma dn_count l t : dn_after l = Some t -> 0 <= tb_count t /\ (tb_count t = 0 -> forall h, tb_ent t h = None).
Proof.
  revert t; induction l as [|c l IH]; cbn [dn_after]; intros t E; [injection E as <-; split; [cbn; lia|auto]|].
  destruct (dn_after l) as [u|]; [|discriminate]. destruct (IH u eq_refl) as [A B]. destruct c as [k e r qs|s k e qs|].
  - unfold dn_insert in E. destruct (dn_hash _ _ _ _ _); [|discriminate]. injection E as <-. cbn. split; lia.
  - destruct (dn_lookup _ _ _ _ _ _ _ _) as [[r t']|] eqn:L; [|discriminate]. injection E as <-. destruct (dn_look_ent _ _ _ _ _ _ _ L) as [-> ->]. auto.
  - injection E as <-. unfold dn_clear, tb_clear. cbn. split; [lia|]. intros _ h. destruct (Z.ltb_spec 0 (tb_count u)); auto. apply B. lia.
Qed.
Lemma dn_ent l t : dn_after l = Some t -> forall h e qs r, tb_ent t h = Some (NK e qs, r) ->
  hnull (hp r) = false /\ exists l1 k l2, l = l1 ++ DIns k e r qs :: l2 /\ ~ In DClear l1 /\ dn_hash hd nbk k e qs = Some h /\
  forall k' e' r' qs', In (DIns k' e' r' qs') l1 -> dn_hash hd nbk k' e' qs' <> Some h.
Proof.
  revert t; induction l as [|c l IH]; cbn [dn_after]; intros t E h e qs r T; [injection E as <-; discriminate|].
  destruct (dn_after l) as [u|] eqn:U; [|discriminate]. specialize (IH u eq_refl).
  destruct c as [k0 e0 r0 qs0|s0 k0 e0 qs0|].
  - unfold dn_insert in E. destruct (dn_hash _ _ k0 e0 qs0) as [h0|] eqn:H0; [|discriminate]. injection E as <-. cbn in T. unfold updZ in T.
    destruct (Z.eqb_spec h h0) as [->|Nh].
    + unfold hisnull in T. destruct (hnull (hp r0)) eqn:Nl; [discriminate|]. injection T as <- <- <-. split; auto.
      exists [], k0, l. repeat split; auto.
    + destruct (IH _ _ _ _ T) as (A & l1 & k & l2 & -> & B & C & D). split; auto. exists (DIns k0 e0 r0 qs0 :: l1), k, l2. split; auto.
      split; [intros [Q|Q]; [discriminate|contradiction]|]. split; auto. intros k' e' r' qs' [[= <- <- <- <-]|Q]; [congruence|eauto].
  - destruct (dn_lookup _ _ _ _ _ _ _ _) as [[rr t']|] eqn:L; [|discriminate]. injection E as <-. destruct (dn_look_ent _ _ _ _ _ _ _ L) as [Te _]. rewrite Te in T.
    destruct (IH _ _ _ _ T) as (A & l1 & k & l2 & -> & B & C & D). split; auto. exists (DLook s0 k0 e0 qs0 :: l1), k, l2. split; auto.
    split; [intros [Q|Q]; [discriminate|contradiction]|]. split; auto. intros k' e' r' qs' [Q|Q]; [discriminate|eauto].
  - injection E as <-. unfold dn_clear, tb_clear in T. cbn in T. destruct (Z.ltb_spec 0 (tb_count u)); [discriminate|].
    destruct (dn_count _ _ U) as [A B]. rewrite B in T by lia. discriminate.
Qed.
Lemma qs_eqb_spec a b : qs_eqb a b = true <-> a = b.
Proof.
  revert b; induction a as [|x a IH]; intros [|y b]; cbn; split; intros H; try discriminate; auto.
  - apply andb_true_iff in H. destruct H as [H1 H2]. apply Z.eqb_eq in H1. apply IH in H2. congruence.
  - injection H as -> ->. rewrite Z.eqb_refl. now apply IH.
Qed.
Lemma mkbits_inj a b : mkbits a = mkbits b -> a = b.
Proof. destruct a as [[] [] []], b as [[] [] []]; cbn; intros H; try discriminate; auto. Qed.
Lemma mkbits_lt a : (mkbits a < 8)%nat.
Proof. destruct a as [[] [] []]; cbn; lia. Qed.
Lemma hcode_inj p q a b : hnull p = false -> hcode p (mkbits a) = hcode q (mkbits b) -> p = q /\ ((exists n, p = HM (PNode n) \/ p = HD (PNode n)) -> a = b).
Proof.
  pose proof (mkbits_lt a). pose proof (mkbits_lt b).
  destruct p as [[| |n]|[| |n]], q as [[| |m]|[| |m]]; cbn; intros Nl E; try discriminate; try (injection E as E); try (exfalso; lia);
    (split; [f_equal; f_equal; lia|intros _; apply mkbits_inj; lia]) || (split; [reflexivity|intros (n & [Q|Q]); discriminate]).
Qed.

(** Whatever the calls before: a hit is the result of an earlier insertion since the last clear, for the
    same node, the same qubits and a weight equal up to the tolerance, and no insertion for the very
    same key came later. *)
Theorem density_noise_hit l t s k e qs r t' : dn_after l = Some t -> dn_lookup N hd nbk s k t e qs = Some (Some r, t') ->
  exists l1 k' e' l2, l = l1 ++ DIns k' e' r qs :: l2 /\ ~ In DClear l1 /\ hnull (hp r) = false /\
  hp e' = hp e /\ ((exists n, hp e = HM (PNode n) \/ hp e = HD (PNode n)) -> hk e' = hk e) /\ wapx s (hw e') (hw e) = true /\ forall c, In c l1 -> ~ samekey k' e' qs c.
Proof.
  intros E L. unfold dn_lookup in L. destruct (dn_hash hd nbk k e qs) as [h|] eqn:H; [|discriminate]. injection L as L. unfold tb_lookup in L.
  destruct (tb_ent t h) as [[[e' q'] r']|] eqn:T; [|discriminate]. cbn [nk_op nk_q] in L. destruct (_ && _) eqn:Q; [|discriminate]. injection L as <- <-.
  apply andb_true_iff in Q. destruct Q as [Q1 Q2]. apply qs_eqb_spec in Q2. subst q'.
  destruct (dn_ent _ _ E _ _ _ _ T) as (Nl & l1 & k' & l2 & -> & A & B & C). exists l1, k', e', l2. split; auto. split; auto. split; auto.
  unfold hedge_eqb, edge_eqb in Q1. cbn [ep ew] in Q1. apply andb_true_iff in Q1. destruct Q1 as [Q1 Q3]. apply nptr_eqb_spec in Q1.
  assert (Ne: hnull (hp e') = false). { unfold dn_hash in B. destruct (hnull (hp e')); [discriminate|auto]. }
  destruct (hcode_inj _ _ _ _ Ne Q1) as [Ep Em]. split; auto. split; [now rewrite <- Ep|]. split; auto.
  intros [k2 e2 r2 qs2|?|] Hc Sk; cbn in Sk; auto. destruct Sk as (-> & Hm & ->). eapply C; [exact Hc|]. unfold dn_hash in *. now rewrite Hm.
Qed.
(** Insertion and lookup refuse, with a failed assertion (Node.hpp:222-223), exactly the operands with a
    null pointer or with the mark of a density matrix on the pointer. *)
Theorem density_noise_refused t s k e r qs :
  (dn_insert hd nbk k t e r qs = None <-> hnull (hp e) = true \/ mk_dm (hk e) = true) /\
  (dn_lookup N hd nbk s k t e qs = None <-> hnull (hp e) = true \/ mk_dm (hk e) = true).
Proof.
  assert (H: dn_hash hd nbk k e qs = None <-> hnull (hp e) = true \/ mk_dm (hk e) = true).
  { unfold dn_hash. destruct (hnull (hp e)), (mk_dm (hk e)); cbn [orb]; split; auto; try discriminate. now intros [?|?]. }
  unfold dn_insert, dn_lookup. rewrite <- H. destruct (dn_hash hd nbk k e qs); split; split; auto; discriminate.
Qed.
(** Right after an insertion the result is found. *)
Theorem density_noise_found l t s k e r qs : dn_after (DIns k e r qs :: l) = Some t -> hnull (hp r) = false ->
  exists t', dn_lookup N hd nbk s k t e qs = Some (Some r, t').
Proof.
  cbn [dn_after]. destruct (dn_after l) as [u|]; [|discriminate]. unfold dn_insert, dn_lookup. destruct (dn_hash hd nbk k e qs) as [h|]; [|discriminate].
  intros [= <-] Nl. unfold tb_lookup, tb_insert. cbn. unfold updZ, hisnull. rewrite Z.eqb_refl, Nl. cbn [nk_op nk_q]. unfold hedge_eqb. rewrite edge_eqb_refl.
  replace (qs_eqb qs qs) with true by (symmetry; now apply qs_eqb_spec). cbn. eauto.
Qed.
End Dens.

(** ** Garbage collection *)
Section Gc.
Context {N : num} (g : cfg N) (nb : kind -> Z) (X : numx N (g_ct g)) (G : gok g).
Local Notation reached := (reached (g:=g) (nb:=nb) (X:=X)).
Local Notation co := (co N).

(** A density edge that refers to a stored node or the terminal, with a stored weight. *)
Definition dstored (s : st N) (e : DensMul.hedge) : Prop := exists p, hp e = HD p /\ ptr_stored s KD p /\ weight_stored s (hw e).
(** Everything the two tables hold is stored: the results and, as they are compared, the operands. *)
Definition noise_stored (s : st N) (ops : nat) (t : snt) (u : dnt) : Prop :=
  (forall kd q e t', sn_lookup ops t kd q = SOk (Some e) t' -> ptr_stored s KM (ep e) /\ weight_stored s (ew e)) /\
  (forall h k r, tb_ent u h = Some (k, r) -> dstored s (nk_op k) /\ dstored s r).
Lemma sn_clear_none ops t kd q e t' : (sn_count t <= 0 -> forall kd q, seen (cell t kd q) = None) -> sn_lookup ops (sn_clear t) kd q <> SOk (Some e) t'.
Proof.
  intros Z E. assert (S0: forall kd q, seen (cell (sn_clear t) kd q) = None).
  { clear - Z. intros kd q. unfold sn_clear. destruct (Z.ltb_spec 0 (sn_count t)); [|unfold cell in *; cbn; apply Z; lia]. unfold cell. cbn [sn_rows].
    change (@nil edge) with (map (fun e : edge => Ed PNull (ew e)) []). rewrite map_nth.
    destruct (Nat.lt_ge_cases kd (length (nth q (sn_rows t) []))) as [L|L].
    - rewrite nth_indep with (d' := Ed PNull (ew Enull)) by now rewrite map_length. change (Ed PNull (ew Enull)) with ((fun e : edge => Ed PNull (ew e)) Enull). now rewrite map_nth.
    - now rewrite nth_overflow by now rewrite map_length. }
  unfold sn_lookup in E. destruct (negb _); [discriminate|]. rewrite sn_at_sp in E. destruct (_ && _); [|discriminate].
  specialize (S0 kd (Z.to_nat q)). unfold seen, cell in S0. destruct (ep (nth kd _ Enull)); cbn in E; discriminate.
Qed.
(** The same for a table cleared once more. *)
Lemma sn_clear_clear t : sn_clear (sn_clear t) = sn_clear t.
Proof. reflexivity. Qed.

(** After any calls on the tables, a collection leaves no entry in the two tables that refers to a collected node or number. *)
Theorem noise_collection nq s V D force ops n0 l hd nbk (l' : list (dcall (N:=N))) t u b t' u' s' : reached nq s V D -> noise_stored s ops t u ->
  sn_after ops n0 l = Some t -> dn_after hd nbk l' = Some u ->
  gcNoise N g nb force s t u = Ok (b, t', u') s' -> noise_stored s' ops t' u'.
Proof.
  intros H St Ht Hu E.
  assert (Tc: sn_count t <= 0 -> forall kd q, seen (cell t kd q) = None) by (intros; apply (sn_inv _ _ _ _ Ht); pose proof (sn_inv _ _ _ _ Ht); lia).
  assert (Uc: tb_count u <= 0 -> forall h, tb_ent u h = None) by (intros; apply (dn_count _ _ _ _ Hu); pose proof (dn_count _ _ _ _ Hu); lia). pose proof (reached_sim G _ _ _ _ H) as Sm. destruct (reached_i _ _ _ G _ _ _ _ H) as (I & _). destruct (si_rc _ _ _ _ _ Sm) as (pin & _ & R).
  pose proof (rcok_rcact (g:=g) (nb:=nb) (X:=X) _ _ _ I R) as Ac.
  destruct (gc_sp' (g:=g) (nb:=nb) (X:=X) G force s I Ac) as (b1 & s1 & E1 & Sf & _ & Rt). unfold gcNoise in E. rewrite E1 in E.
  pose proof (gs_inv _ _ Sf) as I'.
  assert (Kle: forall k, ut_count (s_ut s1 k) <= ut_count (s_ut s k)).
  { intros k. destruct (ut_list_sp g nb X s k I) as (A1 & A2 & A3). destruct (ut_list_sp g nb X s1 k I') as (B1 & B2 & B3). rewrite A3, B3.
    apply inj_le, NoDup_incl_length; auto. intros n Hn. apply A2. apply B2 in Hn. now apply (gs_lk _ _ Sf). }
  assert (Kn: forall k, ut_count (s_ut s k) <= ut_count (s_ut s1 k) -> forall n, nstored s k n -> nstored s1 k n).
  { intros k Q n Hn. destruct (ut_list_sp g nb X s k I) as (A1 & A2 & A3). destruct (ut_list_sp g nb X s1 k I') as (B1 & B2 & B3).
    apply B2. apply (NoDup_length_incl (l':=ut_allq N nb (co s) k) B1); [lia| |now apply A2]. intros m Hm. apply A2. apply B2 in Hm. now apply (gs_lk _ _ Sf). }
  assert (Kc: ct_count (s_ct s) <= ct_count (s_ct s1) -> forall a, estored s a -> estored s1 a).
  { intros Q a Ha. destruct (ct_list_sp g (s_ct s) (ci_ct _ _ _ _ _ (iv_c _ _ _ _ _ I))) as (A1 & A2 & A3). destruct (ct_list_sp g (s_ct s1) (ci_ct _ _ _ _ _ (iv_c _ _ _ _ _ I'))) as (B1 & B2 & B3).
    apply B2. apply (NoDup_length_incl (l':=ct_list g (s_ct s)) B1); [lia| |now apply A2]. intros m Hm. apply A2. apply B2 in Hm. now apply (gs_live _ _ Sf). }
  assert (Same: ut_count (s_ut s KM) <= ut_count (s_ut s1 KM) -> ut_count (s_ut s KD) <= ut_count (s_ut s1 KD) -> ct_count (s_ct s) <= ct_count (s_ct s1) -> noise_stored s1 ops t u).
  { intros Qm Qd Qc. assert (Pt: forall k p, ut_count (s_ut s k) <= ut_count (s_ut s1 k) -> ptr_stored s k p -> ptr_stored s1 k p).
    { intros k p Q [->|(n & -> & Hn)]; [now left|right; eauto]. }
    assert (Wt: forall w, weight_stored s w -> weight_stored s1 w).
    { assert (Nt: forall p, num_stored s p -> num_stored s1 p) by (intros p; unfold num_stored; destruct (ep_at p); auto). intros w [W1 W2]. split; auto. }
    destruct St as [S1 S2]. split.
    - intros kd q e t0 L. destruct (S1 _ _ _ _ L). split; auto.
    - intros h k r Eh. destruct (S2 _ _ _ Eh) as [(p & P1 & P2 & P3) (p' & P1' & P2' & P3')]. split; [exists p|exists p']; auto. }
  assert (Clr: noise_stored s1 ops (sn_clear t) (dn_clear u)).
  { split; [intros kd q e t0 L; destruct (sn_clear_none _ _ _ _ _ _ Tc L)|]. intros h k r Eh. unfold dn_clear, tb_clear in Eh. cbn in Eh.
    destruct (Z.ltb_spec 0 (tb_count u)); [discriminate|]. rewrite Uc in Eh by lia. discriminate. }
  assert (Clr2: dn_clear (dn_clear u) = dn_clear u).
  { reflexivity. }
  destruct (negb force && _ && _ && _ && _) eqn:B.
  - injection E as <- <- <- <-. unfold garbageCollect, bind, get in E1. rewrite B in E1. injection E1 as _ <-. exact St.
  - destruct Rt as [[Eb ->]|(cC & vC & mC & dC & s3 & EC & _ & _ & Hc & _ & Hm & Hd)].
    + destruct (gcCounts N g nb force s) as [[[[c v] m] d] s3|x s3|bb]; [|injection E as <- <- <- <-; exact St|injection E as <- <- <- <-; exact St].
      destruct (_ || _), (0 <? c); injection E as <- <- <- <-; rewrite ?sn_clear_clear, ?Clr2; auto.
    + rewrite EC in E. destruct (_ || _) eqn:Q, (Z.ltb_spec 0 cC); injection E as <- <- <- <-; rewrite ?sn_clear_clear, ?Clr2; auto.
      apply orb_false_iff in Q. destruct Q as [Q1 Q2]. apply Z.ltb_ge in Q1, Q2. apply Same; lia.
Qed.
End Gc.

(** ** Instances *)
(** With exact arithmetic the operand of a hit has the same value as the one stored. *)
Theorem density_noise_exact hd nbk (l : list (dcall (N:=R0))) t (s : st R0) k e qs r t' : dn_after hd nbk l = Some t -> dn_lookup R0 hd nbk s k t e qs = Some (Some r, t') ->
  exists l1 k' e' l2, l = l1 ++ DIns k' e' r qs :: l2 /\ ~ In DClear l1 /\ hp e' = hp e /\ cval s (hw e') = cval s (hw e).
Proof.
  intros E L. destruct (density_noise_hit _ _ _ _ _ _ _ _ _ _ E L) as (l1 & k' & e' & l2 & A & B & _ & C & _ & D & _). exists l1, k', e', l2.
  split; auto. split; auto. split; auto. apply (x_wapx (g:=gR) (X:=XR gR GR)) in D; [|exact Logic.I].
  unfold Cv, Cv2 in D. cbn in D. exact D.
Qed.

(** The table of density noise: two results for the same node and different qubits, in one bucket; the
    second replaces the first. *)
Definition kN : mkst := fun _ => mk0.
Definition opN : DensMul.hedge := hden (Ed (PNode 2) Cone).
Definition resN : DensMul.hedge := hden (Ed (PNode 5) Cone).
Definition resN' : DensMul.hedge := hden (Ed (PNode 6) Cone).
Definition lN : list (dcall (N:=NumF)) := [DIns kN opN resN' [1]; DIns kN opN resN [0]].
Definition lookN (qs : list Z) : option (option DensMul.hedge) :=
  match dn_after (fun _ _ => 5) 1 lN with
  | Some t => match dn_lookup NumF (fun _ _ => 5) 1 sT kN t opN qs with Some (r, _) => Some r | None => None end
  | None => None
  end.
(** The operand of the example, once marked, is refused. *)
Example density_noise_refused_ex : dn_lookup NumF (fun _ _ => 5) 1 sT kN tb_empty (HE (hp opN) (MK false false true) (hw opN)) [0] = None /\
  dn_lookup NumF (fun _ _ => 5) 1 sT kN tb_empty opN [0] <> None.
Proof. split; [reflexivity|discriminate]. Qed.
Example density_noise_ex : lookN [1] = Some (Some resN') /\ lookN [0] = Some None.
Proof. split; vm_compute; reflexivity. Qed.

(** A state with a matrix whose weight only the table refers to: the collection removes the number, and
    the table is emptied.  The Toffoli table keeps the entry, see [toffoli_refuted]. *)
Definition tN : option snt := sn_after 1 1 [SIns 0 0 eT].
Example noise_collection_ex : match tN with
  | Some t => match gcNoise NumF gS nbS true sT t tb_empty with
      | Ok (_, t', _) s' => match sn_lookup 1 t 0 0, sn_lookup 1 t' 0 0 with
          | SOk (Some e) _, SOk None _ => e = eT /\ ep e = PNode 0 /\ ~ In 1%nat (ct_tab (s_ct s') 64)
          | _, _ => False end
      | _ => False end
  | None => False end.
Proof. vm_compute. split; [reflexivity|]. split; [reflexivity|]. intros []. Qed.
(** With the matrix and its number referenced nothing of them is collected, and the entry stays. *)
Definition progN : list (ins NumF) := [IMat [[(f3, f0); (f0, f0)]; [(f0, f0); (f3, f0)]]; IInc KM 0].
Definition sN : st NumF := fst (endS progN).
Definition eN : edge := nth 0 (snd (endS progN)) Enull.
Example noise_kept_ex : match sn_after 1 1 [SIns 0 0 eN] with
  | Some t => match gcNoise NumF gS nbS true sN t tb_empty with
      | Ok (_, t', _) s' => match sn_lookup 1 t' 0 0 with SOk (Some e) _ => e = eN | _ => False end
      | _ => False end
  | None => False end.
Proof. vm_compute. reflexivity. Qed.

(** The hypotheses of [noise_collection]: the sample state of PropStruct and its identity matrix. *)
Example noise_hypotheses_ex : exists t, sn_after 1 3 [SIns 0 2 (nth 2 VS Enull)] = Some t /\ reachedS 3 sS VS DS /\
  noise_stored sS 1 t tb_empty /\ (exists t', sn_lookup 1 t 0 2 = SOk (Some (Ed (PNode 1) Cone)) t').
Proof.
  assert (Ev: nth 2 VS Enull = Ed (PNode 1) Cone) by (vm_compute; reflexivity). rewrite Ev. eexists. split; [reflexivity|]. split; [apply reachS|].
  split; [|eexists; reflexivity]. split; [|discriminate].
  intros kd q e t' E. assert (A: e = Ed (PNode 1) Cone).
  { pose proof (stochastic_lookup 1 3 [SIns 0 2 (Ed (PNode 1) Cone)] _ kd q eq_refl) as Q. destruct kd as [|kd]; [|discriminate]. specialize (Q ltac:(lia)).
    destruct (_ && _); destruct Q as (t2 & Q); cbn [sn_insert] in Q; rewrite Q in E; [|discriminate]. injection E as E _. unfold last_op in E. destruct (_ && _); [|discriminate]. now injection E as <-. }
  subst e. split.
  - right. exists 1%nat. split; auto. apply (enumS KM). cbn. auto.
  - split; exact Logic.I.
Qed.

Print Assumptions stochastic_lookup.
Print Assumptions stochastic_resize_refuted.
Print Assumptions density_noise_hit.
Print Assumptions density_noise_found.
Print Assumptions density_noise_refused.
Print Assumptions stochastic_statistics.
Print Assumptions density_noise_exact.
Print Assumptions noise_collection.
