(** Printing vectors and matrices (C72). *)
From Coq Require Import String Ascii.
From Coq Require Import ZArith List Bool Lia Arith Reals Lra SpecFloat.
From Verif Require Import Num Base CTable CTableWf Cx State Pkg Read Text Print Inv InvL PrimL NormL MkL TrL AddL ReadL StateL Inst GateAct Run PropBase PropSem PropState PropRefute.
Import ListNotations.
Local Open Scope Z_scope.

(** * What a reader of the output expects *)
(** The digits of a path, top qubit first *)
Definition digits (p : list nat) : text := map (fun b => if Nat.eqb b 0 then "0"%char else "1"%char) p.
(** [r] is the text [t] with blanks in front, at least [w] characters wide and no wider than needed. *)
Definition padded (w : nat) (t r : text) : Prop :=
  exists b, r = repeat " "%char b ++ t /\ List.length r = Nat.max w (List.length t).

Lemma setw_padded w t : padded w t (setw w t).
Proof. exists (w - List.length t)%nat. split; auto. unfold setw. rewrite app_length, repeat_length. lia. Qed.
Lemma padded_fun w t r r' : padded w t r -> padded w t r' -> r = r'.
Proof.
  intros (b & -> & L) (b' & -> & L'). rewrite app_length, repeat_length in L, L'. f_equal. f_equal. lia.
Qed.
Lemma bitsText_digits n i : bitsText n (Z.of_nat i) = digits (pidx n i).
Proof.
  induction n as [|n IH]; cbn [bitsText pidx digits map]; auto. fold (digits (pidx n i)). rewrite <- IH.
  unfold bitText. pose proof (bitV_nat i n) as H. unfold bitV in H. rewrite <- H. destruct (Z.testbit _ _); reflexivity.
Qed.

Section P.
Context (g : cfg R0) (nb : kind -> Z) (G : gok g) (show : Z -> R0 -> text).
Local Notation entry := (entry g G).
Local Notation reachedR := (reachedR g nb G).
Local Notation unchanged := (unchanged g G).

Lemma unchanged_refl V D s : unchanged V D s s.
Proof. intros k l e _ p _. reflexivity. Qed.
Lemma unchanged_trans V D s1 s2 s3 : unchanged V D s1 s2 -> unchanged V D s2 s3 -> unchanged V D s1 s3.
Proof. intros A B k l e U p Vp. rewrite (B k l e U p Vp). exact (A k l e U p Vp). Qed.

Lemma usr_lvl nq s V D k l x : reachedR nq s V D -> usr V D k l x -> ep x <> PTerm -> lvl s k (ep x) = l.
Proof.
  intros H U Nt. destruct (usr_tt g nb G _ _ _ _ _ _ _ H U) as [L T]. destruct T as [A _ _ _].
  destruct (ep x) as [| |a]; [contradiction|contradiction|]. exact (proj2 A).
Qed.

Lemma mapM_reads {A B} (f : A -> M R0 B) (w : A -> B) nq V D s0 : forall l s,
  (forall a s, In a l -> reachedR nq s V D -> unchanged V D s0 s -> exists s', f a s = Ok (w a) s' /\ reachedR nq s' V D /\ unchanged V D s s') ->
  reachedR nq s V D -> unchanged V D s0 s ->
  exists s', mapM R0 f l s = Ok (map w l) s' /\ reachedR nq s' V D /\ unchanged V D s s'.
Proof.
  induction l as [|a l IH]; intros s F H U; cbn [mapM map].
  - exists s. split; auto. split; auto. apply unchanged_refl.
  - destruct (F a s (or_introl eq_refl) H U) as (s1 & E1 & H1 & U1).
    destruct (IH s1 (fun b t I => F b t (or_intror I)) H1 (unchanged_trans _ _ _ _ _ U U1)) as (s2 & E2 & H2 & U2).
    exists s2. unfold bind. rewrite E1, E2. split; auto. split; auto. eapply unchanged_trans; eauto.
Qed.

(** * C72 *)

(** The output lists the amplitudes in the order of their indices, one per line: the digits of the
    index with the top qubit first, a colon, and the text of the amplitude in a field of 13
    characters.  Printing changes no diagram. *)
Theorem printVector_lines_partial nq s V D n x q : reachedR nq s V D -> usr V D KV (Z.of_nat n - 1) x -> (0 < n <= 63)%nat ->
  vpath KV (Z.of_nat n - 1) q -> entry s KV x q <> C0 ->
  exists s' line, printVector R0 g show x s = Ok (concat (map line (seq 0 (2 ^ n)))) s' /\
    (forall i, (i < 2 ^ n)%nat -> exists f, line i = digits (pidx n i) ++ lit ": " ++ f ++ [newline] /\
       padded 13 (weightText R0 show 3 (entry s KV x (pidx n i))) f) /\
    reachedR nq s' V D /\ unchanged V D s s'.
Proof.
  intros H Hx Hn Vq Nq. destruct (usr_tt g nb G _ _ _ _ _ _ _ H Hx) as [L Tx].
  assert (Nt: ep x <> PTerm) by (eapply (nonzero_nt g nb G nq s V D); eauto; lia).
  set (line := fun i => digits (pidx n i) ++ lit ": " ++ setw 13 (weightText R0 show 3 (entry s KV x (pidx n i))) ++ [newline]).
  destruct (mapM_reads (vectorLine R0 g show x) line nq V D s (seq 0 (2 ^ n)) s) as (s' & E & H' & U'); auto using unchanged_refl.
  { intros i t Hi Ht Ut. apply in_seq in Hi.
    destruct (getValueByIndex_reads g nb G nq t V D n x i Ht Hx ltac:(lia) ltac:(lia)) as (t' & Et & H1 & U1).
    exists t'. split; auto. unfold vectorLine, bind. rewrite Et. unfold ret. f_equal. unfold line.
    rewrite (usr_lvl nq t' V D KV (Z.of_nat n - 1) x H1 Hx Nt). replace (Z.of_nat n - 1 + 1) with (Z.of_nat n) by lia.
    rewrite Nat2Z.id, bitsText_digits, (Ut KV _ x Hx) by apply pidx_vpath. reflexivity. }
  exists s', line. split; [|split; [|split; auto]].
  - unfold printVector, bind. rewrite (dimOf_sp (g:=g) (X:=XR g G) KV n) by (auto; lia). rewrite <- pow2_nat, Nat2Z.id, E. reflexivity.
  - intros i _. eexists. split; [reflexivity|apply setw_padded].
Qed.

(** One row per line, each entry in a field of 13 characters followed by a blank. *)
Theorem printMatrix_lines_partial nq s V D n x q : reachedR nq s V D -> usr V D KM (Z.of_nat n - 1) x -> (0 < n <= 63)%nat ->
  vpath KM (Z.of_nat n - 1) q -> entry s KM x q <> C0 ->
  exists s' cell, printMatrix R0 g show x s = Ok (concat (map (fun i => concat (map (fun j => cell i j ++ lit " ") (seq 0 (2 ^ n))) ++ [newline]) (seq 0 (2 ^ n)))) s' /\
    (forall i j, (i < 2 ^ n)%nat -> (j < 2 ^ n)%nat -> padded 13 (weightText R0 show 3 (entry s KM x (mp (pidx n i) (pidx n j)))) (cell i j)) /\
    reachedR nq s' V D /\ unchanged V D s s'.
Proof.
  intros H Hx Hn Vq Nq. destruct (usr_tt g nb G _ _ _ _ _ _ _ H Hx) as [L Tx].
  assert (Nt: ep x <> PTerm) by (eapply (nonzero_nt g nb G nq s V D); eauto; lia).
  set (cell := fun i j => setw 13 (weightText R0 show 3 (entry s KM x (mp (pidx n i) (pidx n j))))).
  destruct (mapM_reads (matrixLine R0 g show x (2 ^ n)) (fun i => concat (map (fun j => cell i j ++ lit " ") (seq 0 (2 ^ n))) ++ [newline]) nq V D s (seq 0 (2 ^ n)) s) as (s' & E & H' & U'); auto using unchanged_refl.
  { intros i t Hi Ht Ut. apply in_seq in Hi.
    destruct (mapM_reads (matrixCell R0 g show x i) (fun j => cell i j ++ lit " ") nq V D s (seq 0 (2 ^ n)) t) as (t' & Et & H1 & U1); auto.
    { intros j r Hj Hr Ur. apply in_seq in Hj.
      destruct (getValueByIndices_reads g nb G nq r V D n x i j Hr Hx ltac:(lia) ltac:(lia) ltac:(lia)) as (r' & Er & H1 & U1).
      exists r'. split; auto. unfold matrixCell, bind. rewrite Er. unfold ret. f_equal. unfold cell.
      rewrite (Ur KM _ x Hx); [reflexivity|]. apply vpath_mp; apply pidx_vpath. }
    exists t'. split; auto. unfold matrixLine, bind. rewrite Et. reflexivity. }
  exists s', cell. split; [|split; [|split; auto]].
  - unfold printMatrix, bind. rewrite (dimOf_sp (g:=g) (X:=XR g G) KM n) by (auto; lia). rewrite <- pow2_nat, Nat2Z.id, E. reflexivity.
  - intros i j _ _. apply setw_padded.
Qed.
End P.

(** * Cases meeting the hypotheses *)
Definition noShow (p : Z) (x : R0) : text := lit "x".
(** The vector (1, i, 2, 0): four lines, the third one for the index 10 and the amplitude 2. *)
Example printVector_example : exists s V s' line, reachedR gR nbdef GR 3 s V D0 /\
  printVector R0 gR noShow (var V 1) s = Ok (line 0 ++ line 1 ++ line 2 ++ line 3)%nat s' /\
  exists f, line 2%nat = lit "10: " ++ f ++ [newline] /\ padded 13 (weightText R0 noShow 3 (RtoC 2)) f.
Proof.
  destruct reached0 as (s & V & H).
  destruct (printVector_lines_partial gR nbdef GR noShow 3 s V D0 2 _ [1; 0]%nat H (usr0_v V)) as (s' & line & E & F & _); [lia|vp| |].
  { vals. cval. intros A. injection A. intros. lra. }
  exists s, V, s', line. split; auto. split; [cbn [seq Nat.pow Nat.mul Nat.add map concat] in E; rewrite app_nil_r in E; exact E|].
  destruct (F 2%nat ltac:(simpl; lia)) as (f & El & P). exists f. split; [exact El|].
  change (pidx 2 2) with [1; 0]%nat in P. revert P. vals. replace (fV [1; 0]%nat) with (RtoC 2) by cval. auto.
Qed.
(** The matrix [[1, 2], [3i, 4]]: the entry in row 1 and column 0. *)
Example printMatrix_example : exists s V s' cell, reachedR gR nbdef GR 3 s V D0 /\
  printMatrix R0 gR noShow (var V 7) s =
    Ok ((cell 0 0 ++ lit " ") ++ (cell 0 1 ++ lit " ") ++ [newline] ++ (cell 1 0 ++ lit " ") ++ (cell 1 1 ++ lit " ") ++ [newline])%nat s' /\
  padded 13 (weightText R0 noShow 3 (0, 3)%R) (cell 1 0)%nat.
Proof.
  destruct reached0 as (s & V & H).
  destruct (printMatrix_lines_partial gR nbdef GR noShow 3 s V D0 1 _ [0]%nat H (usr0_m V)) as (s' & cell & E & F & _); [lia|vp| |].
  { vals. cval. intros A. injection A. intros. lra. }
  exists s, V, s', cell. split; auto. split.
  - rewrite E. f_equal. cbn [seq Nat.pow Nat.mul Nat.add map concat]. rewrite !app_nil_r, <- !app_assoc. reflexivity.
  - pose proof (F 1 0 ltac:(simpl; lia) ltac:(simpl; lia))%nat as P. change (mp (pidx 1 1) (pidx 1 0)) with [2]%nat in P.
    revert P. vals. match goal with |- padded _ (weightText _ _ _ ?a) _ -> _ => replace a with ((0, 3)%R : R0 * R0) by (symmetry; cval) end. auto.
Qed.

(** * Doubles: the characters themselves, and where the claim fails *)

(** What is printed for the [i]-th diagram made by a program: the text, undefined behaviour, or an exception *)
Inductive shown := Shown (t : text) | ShownBad (b : bad) | ShownThrow.
Definition printed (k : kind) (nq : Z) (prog : list (ins NumF)) (i : nat) : shown :=
  match run NumF gF nbdef prog [] (pkg_init NumF gF nq) with
  | Ok (V, _) s =>
      match (match k with KV => printVector NumF gF showF (var V i) s | _ => printMatrix NumF gF showF (var V i) s end) with
      | Ok t _ => Shown t | Thr _ _ => ShownThrow | Bad b => ShownBad b
      end
  | Thr _ _ => ShownThrow | Bad b => ShownBad b
  end.
(** -1/2 *)
Definition fmh : NumF := SFdiv 53 1024 fm1 f2.
(** (1, 2i, 0, -1/2 + 2i) *)
Example printVector_text : printed KV 2 [IVec [(f1, f0); (f0, f2); (f0, f0); (fmh, f2)]] 0 = Shown
  (lit "00:             1" ++ newline :: lit "01:            2i" ++ newline :: lit "10:             0" ++ newline ::
   lit "11:       -0.5+2i" ++ [newline]).
Proof. vm_compute. reflexivity. Qed.
Example printMatrix_text : printed KM 1 [IMat [[(f1, f0); (f0, f2)]; [(f0, f0); (fmh, f2)]]] 0 = Shown
  (lit "            1            2i " ++ newline :: lit "            0       -0.5+2i " ++ [newline]).
Proof. vm_compute. reflexivity. Qed.

(** The zero vector and the zero matrix are not printed: the shift amount is negative. *)
Theorem print_zero_refuted : exists (v : list (NumF * NumF)) (m : list (list (NumF * NumF))),
  List.length v = 2%nat /\ List.length m = 2%nat /\
  printed KV 1 [IVec v] 0 = ShownBad BadShift /\ printed KM 1 [IMat m] 0 = ShownBad BadShift.
Proof. exists [(f0, f0); (f0, f0)], (diag f0). repeat split; vm_compute; reflexivity. Qed.
(** Nothing is printed for a vector on 64 qubits: the number of entries wraps to 0. *)
Theorem print_64_refuted : exists nq, printed KV nq [IZero 64] 0 = Shown [].
Proof. exists 64. vm_compute. reflexivity. Qed.
(** The field is not wide enough for all numbers (the comments in lines 2677-2678 and 2691-2692
    say that it is): the columns are shifted for amplitudes such as -2^-9 - 2^-9 i. *)
Definition fsm : NumF := S754_finite true 4503599627370496 (-61).
Theorem print_width_refuted : exists (a : NumF * NumF) f,
  nleb (nabs (fst a)) n1 = true /\ nleb (nabs (snd a)) n1 = true /\ padded 13 (weightText NumF showF 3 a) f /\ (13 < List.length f)%nat /\
  f = lit "-0.00195-0.00195i".
Proof.
  exists (fsm, fsm), (setw 13 (weightText NumF showF 3 (fsm, fsm))). split; [vm_compute; reflexivity|]. split; [vm_compute; reflexivity|]. split; [apply setw_padded|].
  replace (setw 13 (weightText NumF showF 3 (fsm, fsm))) with (lit "-0.00195-0.00195i") by (vm_compute; reflexivity). split; [cbn; lia|reflexivity].
Qed.

Print Assumptions printVector_lines_partial.
Print Assumptions printMatrix_lines_partial.
Print Assumptions print_zero_refuted.
Print Assumptions print_64_refuted.
Print Assumptions print_width_refuted.
