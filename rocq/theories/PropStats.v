(** Statistics of the compute tables (C75). *)
From Coq Require Import ZArith List Bool Lia Reals Lra SpecFloat.
From Verif Require Import Num Base CTable State Fraction Stats.
Import ListNotations.
Local Open Scope Z_scope.

(** * Histories of a table *)
Section H.
Context {K E : Type}.
(** A call: a lookup with the comparison with the wanted key, an insertion, clearing *)
Inductive call := CLook (eq : K -> bool) (h : Z) | CIns (isn : E -> bool) (h : Z) (k : K) (r : E) | CClear.
(** What an observer of the calls sees: whether a lookup was answered *)
Inductive event := Hit | Miss | Stored | Cleared.
(** The table and the events after the calls, the last one first; [stats] as for [tb_clear] *)
Fixpoint after (stats : bool) (l : list call) : tbl K E * list event :=
  match l with
  | [] => (tb_empty, [])
  | c :: l =>
      let (t, ev) := after stats l in
      match c with
      | CLook eq h => let (r, t') := tb_lookup eq t h in (t', (match r with Some _ => Hit | None => Miss end) :: ev)
      | CIns isn h k r => (tb_insert isn t h k r, Stored :: ev)
      | CClear => (tb_clear stats t, Cleared :: ev)
      end
  end.
(** The events that count: those since the last clearing, if it resets the statistics *)
Fixpoint recent (stats : bool) (ev : list event) : list event :=
  match ev with
  | [] => []
  | Cleared :: r => if stats then [] else recent stats r
  | e :: r => e :: recent stats r
  end.
Definition ev_dec (a b : event) : {a = b} + {a <> b}.
Proof. decide equality. Defined.
Definition hits_in (ev : list event) : Z := Z.of_nat (count_occ ev_dec ev Hit).
Definition misses_in (ev : list event) : Z := Z.of_nat (count_occ ev_dec ev Miss).

(** * C75 *)

(** The counters are the numbers of answered and of all lookups. *)
Theorem table_counters stats l : let (t, ev) := after stats l in
  tb_hits t = hits_in (recent stats ev) /\ tb_look t = hits_in (recent stats ev) + misses_in (recent stats ev).
Proof.
  induction l as [|c l IH]; [split; reflexivity|]. cbn [after]. destruct (after stats l) as [t ev]. destruct IH as [A B].
  unfold hits_in, misses_in in *. destruct c as [eq h|isn h k r|].
  - unfold tb_lookup. destruct (tb_ent t h) as [[k r]|]; [destruct (eq k)|]; cbn [recent count_occ ev_dec tb_hits tb_look event_rect event_rec];
      repeat (destruct (ev_dec _ _); try discriminate; try congruence); lia.
  - cbn [recent count_occ tb_insert tb_hits tb_look]. repeat (destruct (ev_dec _ _); try discriminate). auto.
  - cbn [recent tb_clear tb_hits tb_look]. destruct stats; [split; reflexivity|auto].
Qed.

(** The ratio is the fraction of the answered lookups, a number from 0 to 1, after a lookup that counts. *)
Theorem hit_ratio_partial stats l : let (t, ev) := after stats l in
  0 < hits_in (recent stats ev) + misses_in (recent stats ev) ->
  let r := hitRatio (NumR 0) IZR t in
  (r = IZR (hits_in (recent stats ev)) / IZR (hits_in (recent stats ev) + misses_in (recent stats ev)) /\ 0 <= r <= 1)%R.
Proof.
  pose proof (table_counters stats l) as C. destruct (after stats l) as [t ev]. destruct C as [A B]. intros P. unfold hitRatio. rewrite A, B.
  change (@ndiv (NumR 0)) with Rdiv. split; [reflexivity|].
  assert (Hh: 0 <= hits_in (recent stats ev)) by (unfold hits_in; lia). assert (Hm: 0 <= misses_in (recent stats ev)) by (unfold misses_in; lia).
  apply IZR_lt in P. apply IZR_le in Hh. apply IZR_le in Hm. rewrite plus_IZR in *. split.
  - apply Rmult_le_pos; [lra|]. left. now apply Rinv_0_lt_compat.
  - apply Rmult_le_reg_r with (IZR (hits_in (recent stats ev)) + IZR (misses_in (recent stats ev)))%R; auto. unfold Rdiv. rewrite Rmult_assoc, Rinv_l by lra. lra.
Qed.
End H.

(** A hit, a miss, and two lookups before the last clearing *)
Definition exCalls : list (@call nat nat) :=
  [CLook (Nat.eqb 5) 3; CLook (Nat.eqb 4) 3; CIns (fun _ => false) 3 5%nat 7%nat; CClear; CLook (Nat.eqb 1) 3; CIns (fun _ => false) 3 1%nat 7%nat; CLook (Nat.eqb 1) 3].
Example table_counters_example :
  (let (t, ev) := after true exCalls in tb_hits t = 1 /\ tb_look t = 2 /\ hits_in (recent true ev) = 1) /\
  (let (t, ev) := after false exCalls in tb_hits t = 2 /\ tb_look t = 4 /\ misses_in (recent false ev) = 2).
Proof. split; vm_compute; repeat split. Qed.
Example hit_ratio_example : let (t, ev) := after true exCalls in hitRatio (NumR 0) IZR t = (1 / 2)%R.
Proof.
  pose proof (hit_ratio_partial true exCalls) as H. destruct (after true exCalls) as [t ev] eqn:E. vm_compute in E. injection E as <- <-. destruct H as [-> _]; [reflexivity|].
  change (hits_in _) with 1. change (misses_in _) with 1. reflexivity.
Qed.
(** Without a lookup the ratio is not a number. *)
Theorem hit_ratio_fresh_refuted : exists l, hitRatio NumF ofZF (fst (@after nat nat true l)) = S754_nan.
Proof. exists [CClear; CLook (Nat.eqb 5) 3]. vm_compute. reflexivity. Qed.

Print Assumptions table_counters.
Print Assumptions hit_ratio_partial.
Print Assumptions hit_ratio_fresh_refuted.
