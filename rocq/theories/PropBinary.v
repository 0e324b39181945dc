(** The binary format of files (C69): every file written is read back unchanged, every file of the right length that is
    read was written like this, and what does not hold. *)
From Coq Require Import ZArith List Bool Lia Arith SpecFloat.
From Verif Require Import Num Base State Serial Text Binary BinaryL.
Import ListNotations.
Local Open Scope Z_scope.

(** A double; a weight *)
Definition double (x : spec_float) : Prop := valid_binary 53 1024 x = true.
Definition double2 (w : spec_float * spec_float) : Prop := double (fst w) /\ double (snd w).
(** What the code can write: 64-bit indices, levels of type Qubit, [n] successors *)
Definition wf_child (c : option (Z * (spec_float * spec_float))) : Prop :=
  match c with Some (i, w) => - 2 ^ 63 <= i < 2 ^ 63 /\ double2 w | None => False end.
Definition wf_node (n : nat) (r : frec (spec_float * spec_float)) : Prop :=
  - 2 ^ 63 <= fr_ix r < 2 ^ 63 /\ -128 <= fr_v r < 128 /\ length (fr_es r) = n /\ Forall wf_child (fr_es r).
Definition wf_bin (n : nat) (f : file (spec_float * spec_float)) : Prop := double2 (fl_w f) /\ Forall (wf_node n) (fl_rs f).
(** No part of a weight is NaN. *)
Definition num2 (w : spec_float * spec_float) : Prop := fst w <> S754_nan /\ snd w <> S754_nan.
Definition num_node (r : frec (spec_float * spec_float)) : Prop := Forall (fun c => match c with Some (_, w) => num2 w | None => True end) (fr_es r).
Definition num_file (f : file (spec_float * spec_float)) : Prop := num2 (fl_w f) /\ Forall num_node (fl_rs f).
Definition isbyte (b : Z) : Prop := 0 <= b < 256.

(** ** Reading when there are enough bytes *)
Lemma read_full old l r : length l = length old -> readInto old (l ++ r, true) = (l, (r, true)).
Proof.
  intros E. unfold readInto. cbn [fst snd]. rewrite <- E, firstn_app, firstn_all, Nat.sub_diag. cbn [firstn]. rewrite app_nil_r, E, skipn_all, app_nil_r.
  rewrite <- E, skipn_app, skipn_all, Nat.sub_diag. cbn [skipn app]. f_equal. f_equal. apply Nat.leb_le. rewrite app_length. lia.
Qed.
Lemma read_short old l : (length l < length old)%nat -> snd (snd (readInto old (l, true))) = false.
Proof. intros L. unfold readInto. cbn [fst snd]. now apply Nat.leb_gt. Qed.

(** The bytes of the parts of a node *)
Definition raw : Type := list Z * (list Z * list (list Z * cbytes)).
Definition okw (w : cbytes) : Prop := length (fst w) = 8%nat /\ length (snd w) = 8%nat.
Definition oke (c : list Z * cbytes) : Prop := length (fst c) = 8%nat /\ okw (snd c).
Definition okr (n : nat) (r : raw) : Prop := length (fst r) = 8%nat /\ length (fst (snd r)) = 1%nat /\ length (snd (snd r)) = n /\ Forall oke (snd (snd r)).
Definition rawW (w : cbytes) : list Z := fst w ++ snd w.
Definition rawE (c : list Z * cbytes) : list Z := fst c ++ rawW (snd c).
Definition rawB (r : raw) : list Z := fst r ++ fst (snd r) ++ flat_map rawE (snd (snd r)).
Definition toRec (r : raw) : frec (spec_float * spec_float) :=
  FR (leInt (fst r)) (leInt (fst (snd r))) (map (fun c => Some (leInt (fst c), weightOf (snd c))) (snd (snd r))).

Lemma readWeight_raw old w r : okw old -> okw w -> readWeight old (rawW w ++ r, true) = (w, (r, true)).
Proof.
  intros [A B] [C D]. unfold readWeight, rawW. rewrite <- app_assoc, read_full by congruence. rewrite read_full by congruence. now destruct w.
Qed.
Lemma readEdges_raw : forall old es r, length es = length old -> Forall oke old -> Forall oke es ->
  readEdges old (flat_map rawE es ++ r, true) = (es, (r, true)).
Proof.
  induction old as [|[i w] old IH]; intros [|[j u] es] r L Fo Fe; try discriminate; [reflexivity|]. inversion Fo as [|? ? [A B] Fo']; inversion Fe as [|? ? [C D] Fe']; subst.
  cbn [readEdges flat_map]. unfold rawE at 1. cbn [fst snd] in *. rewrite <- !app_assoc, read_full by congruence. rewrite readWeight_raw by auto.
  rewrite IH; auto.
Qed.
Lemma readRecs_raw n junk : (length junk < 8)%nat -> forall rs fuel ix v es, (length rs < fuel)%nat -> length ix = 8%nat -> length v = 1%nat -> length es = n -> Forall oke es ->
  Forall (okr n) rs -> readRecs fuel ix v es (flat_map rawB rs ++ junk, true) = map toRec rs.
Proof.
  intros J. induction rs as [|r rs IH]; intros fuel ix v es F Li Lv Le Fe Fr; destruct fuel as [|fuel]; cbn [length] in F; try lia; cbn [readRecs flat_map app map].
  - pose proof (read_short ix junk ltac:(lia)) as Q. destruct (readInto ix (junk, true)) as [a b]. cbn [snd] in Q. now rewrite Q.
  - apply Forall_cons_iff in Fr. destruct Fr as [(A & B & C & D) Fr']. unfold rawB at 1. rewrite <- !app_assoc, read_full by congruence. cbn [snd].
    rewrite read_full by congruence. rewrite readEdges_raw by (auto; congruence). unfold toRec at 1. f_equal. apply IH; auto.
    + lia.
    + destruct (_ =? _); rewrite ?map_length; congruence.
    + destruct (_ =? _); auto. apply Forall_forall. intros c Hc. apply in_map_iff in Hc. destruct Hc as (c' & <- & Hc). rewrite Forall_forall in D. split; [reflexivity|exact (proj2 (D c' Hc))].
Qed.
Lemma rawE_len c : oke c -> length (rawE c) = 24%nat.
Proof. intros [A [B C]]. unfold rawE, rawW. rewrite !app_length. lia. Qed.
Lemma rawB_len n r : okr n r -> length (rawB r) = (9 + 24 * n)%nat.
Proof.
  intros (A & B & C & D). unfold rawB. rewrite !app_length, A, B, <- C. clear A B C. enough (Q: length (flat_map rawE (snd (snd r))) = (24 * length (snd (snd r)))%nat) by lia.
  induction D as [|c l Hc _ IH]; [reflexivity|]. cbn [flat_map length]. rewrite app_length, IH, rawE_len by auto. lia.
Qed.
Lemma raws_len n rs : Forall (okr n) rs -> length (flat_map rawB rs) = (length rs * (9 + 24 * n))%nat.
Proof. induction 1 as [|r rs H _ IH]; [reflexivity|]. cbn [flat_map length]. rewrite app_length, IH, (rawB_len n) by auto. lia. Qed.
Lemma readBinary_raw n w rs junk : okw w -> Forall (okr n) rs -> (length junk < 8)%nat ->
  readBinary n (leBytes 8 1 ++ rawW w ++ flat_map rawB rs ++ junk) = TOk (FL (weightOf w) (map toRec rs)).
Proof.
  intros Hw Hr J. unfold readBinary. rewrite read_full by reflexivity. change (negb (leVal (leBytes 8 1) =? 1)) with false. cbn [snd].
  rewrite readWeight_raw by (auto; split; reflexivity). f_equal. f_equal. apply (readRecs_raw n); auto.
  - rewrite !app_length, (raws_len n) by auto. unfold rawW. lia.
  - apply repeat_length.
  - apply Forall_forall. intros c Hc. apply repeat_spec in Hc. subst. repeat split.
Qed.

(** ** Bytes of a file *)
Definition ofW (w : spec_float * spec_float) : cbytes := (leBytes 8 (bitsOf (fst w)), leBytes 8 (bitsOf (snd w))).
Definition ofE (c : option (Z * (spec_float * spec_float))) : list Z * cbytes :=
  match c with Some (i, w) => (leBytes 8 i, ofW w) | None => ([], ([], [])) end.
Definition ofR (r : frec (spec_float * spec_float)) : raw := (leBytes 8 (fr_ix r), (leBytes 1 (fr_v r), map ofE (fr_es r))).
Lemma weight_back w : double2 w -> weightOf (ofW w) = w.
Proof.
  intros [A B]. unfold weightOf, ofW. cbn [fst snd]. rewrite !leVal_bytes. change (8 * Z.of_nat 8) with 64. rewrite !Z.mod_small by now apply bits_range.
  rewrite !bits_back by auto. now destruct w.
Qed.
Lemma node_back n r : wf_node n r -> okr n (ofR r) /\ rawB (ofR r) = nodeBytes r /\ toRec (ofR r) = r.
Proof.
  intros (A & B & C & D). split; [|split].
  - split; [apply leBytes_len|]. split; [apply leBytes_len|]. split; [cbn [ofR snd]; now rewrite map_length|]. cbn [ofR snd].
    apply Forall_forall. intros c Hc. apply in_map_iff in Hc. destruct Hc as (c' & <- & Hc). rewrite Forall_forall in D. specialize (D c' Hc).
    destruct c' as [[i w]|]; [|destruct D]. repeat split; apply leBytes_len.
  - unfold rawB, nodeBytes, ofR. cbn [fst snd]. f_equal. f_equal. clear C. induction D as [|c l Hc _ IH]; [reflexivity|]. cbn [map flat_map]. rewrite IH. f_equal.
    destruct c as [[i w]|]; [reflexivity|destruct Hc].
  - unfold toRec, ofR. cbn [fst snd]. rewrite !leInt_bytes by (cbn; lia || discriminate). destruct r as [ix v es]. cbn [fr_ix fr_v fr_es] in *. f_equal.
    clear C. induction D as [|c l Hc _ IH]; [reflexivity|]. cbn [map]. rewrite IH. f_equal. destruct c as [[i w]|]; [|destruct Hc]. destruct Hc as [Hi Hw].
    cbn [ofE fst snd]. rewrite leInt_bytes, weight_back by (auto; discriminate). reflexivity.
Qed.
Lemma nodes_back n rs : Forall (wf_node n) rs -> Forall (okr n) (map ofR rs) /\ flat_map rawB (map ofR rs) = flat_map nodeBytes rs /\ map toRec (map ofR rs) = rs.
Proof.
  induction 1 as [|r rs H _ (A & B & C)]; [repeat split; constructor|]. destruct (node_back n r H) as (D & E & F). cbn [map flat_map]. rewrite B, C, E, F. split; [now constructor|]. split; reflexivity.
Qed.

(** ** Files of the right length *)
Lemma take n (l : list Z) : (n <= length l)%nat -> exists a b, l = a ++ b /\ length a = n.
Proof. intros H. exists (firstn n l), (skipn n l). split; [symmetry; apply firstn_skipn|now apply firstn_length_le]. Qed.
Lemma split_w l : length l = 16%nat -> exists w, okw w /\ l = rawW w.
Proof. intros L. destruct (take 8 l) as (a & b & -> & A); [lia|]. rewrite app_length in L. exists (a, b). split; [split; cbn; lia|reflexivity]. Qed.
Lemma split_es : forall n l, length l = (24 * n)%nat -> exists es, length es = n /\ Forall oke es /\ l = flat_map rawE es.
Proof.
  induction n as [|n IH]; intros l L.
  - exists []. split; auto. split; auto. destruct l; [auto|cbn in L; lia].
  - destruct (take 8 l) as (a & b & -> & A); [lia|]. rewrite app_length in L. destruct (take 16 b) as (c & d & -> & C); [lia|]. rewrite app_length in L.
    destruct (split_w c C) as (w & Ow & ->). destruct (IH d) as (es & E1 & E2 & ->); [lia|]. exists ((a, w) :: es). split; [cbn; now f_equal|].
    split; [constructor; auto; split; auto|]. cbn [flat_map]. unfold rawE. cbn [fst snd]. now rewrite <- !app_assoc.
Qed.
Lemma split_rs n : forall k l, length l = (k * (9 + 24 * n))%nat -> exists rs, length rs = k /\ Forall (okr n) rs /\ l = flat_map rawB rs.
Proof.
  induction k as [|k IH]; intros l L.
  - exists []. split; auto. split; auto. destruct l; [auto|cbn in L; lia].
  - destruct (take 8 l) as (a & b & -> & A); [lia|]. rewrite app_length in L. destruct (take 1 b) as (c & d & -> & C); [lia|]. rewrite app_length in L.
    destruct (take (24 * n) d) as (e & f & -> & E); [lia|]. rewrite app_length in L. destruct (split_es n e E) as (es & E1 & E2 & ->).
    destruct (IH f) as (rs & R1 & R2 & ->); [lia|]. exists ((a, (c, es)) :: rs). split; [cbn; now f_equal|]. split; [constructor; auto; split; auto; split; auto|].
    cbn [flat_map]. unfold rawB at 2. cbn [fst snd]. now rewrite <- !app_assoc.
Qed.
Lemma back_w w : okw w -> Forall isbyte (rawW w) -> num2 (weightOf w) -> ofW (weightOf w) = w.
Proof.
  intros [A B] F [C D]. unfold rawW in F. apply Forall_app in F. destruct F as [F G]. unfold weightOf, ofW in *. cbn [fst snd] in *.
  pose proof (leVal_range _ F) as R1. pose proof (leVal_range _ G) as R2. rewrite A in R1. rewrite B in R2. change (8 * Z.of_nat 8) with 64 in *.
  rewrite (proj2 (ofBits_valid _ R1) C), (proj2 (ofBits_valid _ R2) D). pose proof (leBytes_val _ F) as E1. pose proof (leBytes_val _ G) as E2. rewrite A in E1. rewrite B in E2.
  rewrite E1, E2. now destruct w.
Qed.
Lemma back_node n r : okr n r -> Forall isbyte (rawB r) -> num_node (toRec r) -> nodeBytes (toRec r) = rawB r.
Proof.
  intros (A & B & C & D) F Nm. unfold rawB in F. apply Forall_app in F. destruct F as [F1 F]. apply Forall_app in F. destruct F as [F2 F3].
  unfold nodeBytes, rawB, toRec. cbn [fr_ix fr_v fr_es]. pose proof (leInt_back _ F1) as E1. pose proof (leInt_back _ F2) as E2. rewrite A in E1. rewrite B in E2. rewrite E1, E2. f_equal. f_equal.
  unfold num_node, toRec in Nm. cbn [fr_es] in Nm. clear - D F3 Nm. induction D as [|c l Hc _ IH]; [reflexivity|]. cbn [map flat_map] in *. apply Forall_app in F3. destruct F3 as [F3 F4].
  apply Forall_cons_iff in Nm. destruct Nm as [Nm1 Nm2]. rewrite IH by auto. f_equal. destruct c as [i w]. destruct Hc as [Hi Hw]. unfold rawE in *. cbn [fst snd] in *.
  apply Forall_app in F3. destruct F3 as [G1 G2]. cbn [edgeBytes]. pose proof (leInt_back _ G1) as E. rewrite Hi in E. rewrite E. f_equal.
  pose proof (back_w w Hw G2 Nm1) as Q. unfold weightBytes. unfold ofW in Q. apply (f_equal rawW) in Q. exact Q.
Qed.

(** * C69 *)
(** What is written is read back; fewer than eight further bytes do not matter. *)
Theorem binary_read_back n f junk : wf_bin n f -> (length junk < 8)%nat -> readBinary n (fileBytes f ++ junk) = TOk f.
Proof.
  intros [W Rs] J. destruct (nodes_back n _ Rs) as (A & B & C). unfold fileBytes. rewrite <- B, <- !app_assoc.
  change (weightBytes (fl_w f)) with (rawW (ofW (fl_w f))). rewrite readBinary_raw; auto; [|split; apply leBytes_len].
  rewrite weight_back, C by auto. now destruct f.
Qed.
(** Files with the same bytes are the same. *)
Theorem binary_determines n f f' : wf_bin n f -> wf_bin n f' -> fileBytes f = fileBytes f' -> f = f'.
Proof.
  intros W W' E. pose proof (binary_read_back n f [] W ltac:(cbn; lia)) as A. pose proof (binary_read_back n f' [] W' ltac:(cbn; lia)) as B. rewrite E in A. congruence.
Qed.
(** The number of bytes *)
Theorem binary_size n f : wf_bin n f -> length (fileBytes f) = (24 + length (fl_rs f) * (9 + 24 * n))%nat /\ Forall isbyte (fileBytes f).
Proof.
  intros [W Rs]. destruct (nodes_back n _ Rs) as (A & B & _). unfold fileBytes, weightBytes. split.
  - rewrite !app_length, !leBytes_len, <- B, (raws_len n), map_length by auto. lia.
  - apply Forall_app. split; [apply leBytes_range|]. apply Forall_app. split; [apply Forall_app; split; apply leBytes_range|].
    apply Forall_flat_map. apply Forall_forall. intros r _. unfold nodeBytes. apply Forall_app. split; [apply leBytes_range|]. apply Forall_app. split; [apply leBytes_range|].
    apply Forall_flat_map. apply Forall_forall. intros [[i w]|] _; [|constructor]. cbn [edgeBytes]. unfold weightBytes. rewrite !Forall_app. repeat split; apply leBytes_range.
Qed.
(** Conversely, a file with the length for [k] nodes that is read and has no NaN consists of the bytes of what is read. *)
Theorem binary_accepted n k l f : Forall isbyte l -> length l = (24 + k * (9 + 24 * n))%nat -> readBinary n l = TOk f -> num_file f ->
  l = fileBytes f /\ length (fl_rs f) = k.
Proof.
  intros B L E Nf. destruct (take 8 l) as (v & l1 & -> & V); [lia|]. rewrite app_length in L. destruct (take 16 l1) as (wb & l2 & -> & W); [lia|]. rewrite app_length in L.
  destruct (split_w wb W) as (w & Ow & ->). destruct (split_rs n k l2) as (rs & R1 & R2 & ->); [lia|].
  apply Forall_app in B. destruct B as [B1 B]. apply Forall_app in B. destruct B as [B2 B3].
  assert (Vv: v = leBytes 8 1).
  { unfold readBinary in E. rewrite read_full in E by (rewrite V; reflexivity). destruct (Z.eqb_spec (leVal v) 1) as [Q|Q]; cbn [negb] in E; [|discriminate].
    rewrite <- Q, <- V. symmetry. now apply leBytes_val. }
  subst v. pose proof (readBinary_raw n w rs [] Ow R2 ltac:(cbn; lia)) as Q. rewrite app_nil_r in Q. rewrite Q in E. injection E as <-.
  destruct Nf as [Nw Nr]. cbn [fl_w fl_rs] in *. split; [|rewrite map_length; exact R1]. unfold fileBytes. cbn [fl_w fl_rs]. f_equal. f_equal.
  - pose proof (back_w w Ow B2 Nw) as P. apply (f_equal rawW) in P. symmetry. exact P.
  - clear - R2 B3 Nr. induction R2 as [|r rs H _ IH]; [reflexivity|]. cbn [map flat_map] in *. apply Forall_app in B3. destruct B3 as [B3 B4].
    apply Forall_cons_iff in Nr. destruct Nr as [Nr1 Nr2]. rewrite (back_node n) by auto. f_equal. now apply IH.
Qed.
(** Another version is refused. *)
Theorem binary_other_version n v l : 0 <= v < 2 ^ 64 -> v <> 1 -> readBinary n (leBytes 8 v ++ l) = TThr TRuntime.
Proof.
  intros R Ne. unfold readBinary. rewrite read_full by reflexivity. rewrite leVal_bytes. change (8 * Z.of_nat 8) with 64. rewrite Z.mod_small by auto.
  destruct (Z.eqb_spec v 1); [contradiction|reflexivity].
Qed.
(** Doubles have 64 bits, and all combinations of 64 bits are doubles. *)
Theorem bits_of_doubles x : double x -> 0 <= bitsOf x < 2 ^ 64 /\ ofBits (bitsOf x) = x.
Proof. intros H. split; [now apply bits_range|now apply bits_back]. Qed.
Theorem doubles_of_bits z : 0 <= z < 2 ^ 64 -> double (ofBits z) /\ (ofBits z = S754_nan \/ bitsOf (ofBits z) = z).
Proof. intros H. destruct (ofBits_valid z H) as [A B]. split; auto. destruct (ofBits z); auto; right; apply B; discriminate. Qed.

(** ** What does not hold *)
(** A vector of two qubits with two nodes *)
Definition exW (a : spec_float) : option (Z * (spec_float * spec_float)) := Some (-1, (a, F0)).
Definition exF : file (spec_float * spec_float) :=
  FL (F1, S754_zero true) [FR 0 0 [exW F1; Some (-1, (F0, F0))]; FR 1 1 [Some (0, (Fsq2, F0)); Some (0, (F0, Fsq2))]].
Lemma exF_wf : wf_bin 2 exF.
Proof. repeat (constructor || split); cbn; try lia; try reflexivity. Qed.
(** A file that ends within a node is read without an error: the variables keep what they had before.  Here the last node is
    on the level of the first. *)
Theorem binary_truncated_refuted : exists f l t f', wf_bin 2 f /\ fileBytes f = l ++ t /\ t <> [] /\ readBinary 2 l = TOk f' /\
  length (fl_rs f') = length (fl_rs f) /\ f' <> f /\ map fr_v (fl_rs f') = [0; 0].
Proof.
  exists exF, (firstn 89 (fileBytes exF)), (skipn 89 (fileBytes exF)).
  eexists. split; [apply exF_wf|]. split; [symmetry; apply firstn_skipn|]. split; [vm_compute; discriminate|]. split; [vm_compute; reflexivity|]. split; [reflexivity|].
  split; [vm_compute; discriminate|reflexivity].
Qed.
(** A single byte is a file: the first byte of the version number. *)
Theorem binary_one_byte_refuted : readBinary 2 [1] = TOk (FL (F0, F0) []).
Proof. vm_compute. reflexivity. Qed.
(** Nothing tells files of vectors and matrices apart: the bytes of a vector with two nodes are read as those of a matrix
    with two nodes, the second one cut off. *)
Theorem binary_kind_refuted : exists f f' l, wf_bin 2 f /\ fileBytes f = l /\ readBinary 4 l = TOk f' /\ f' <> f /\ fl_rs f' <> [].
Proof.
  exists exF. eexists. exists (fileBytes exF). split; [apply exF_wf|]. split; [reflexivity|]. split; [vm_compute; reflexivity|]. split; vm_compute; discriminate.
Qed.

(** ** Concrete cases *)
Example binary_read_back_example : wf_bin 2 exF /\ readBinary 2 (fileBytes exF ++ [7]) = TOk exF.
Proof. split; [apply exF_wf|vm_compute; reflexivity]. Qed.
Example binary_determines_example : wf_bin 2 exF /\ wf_bin 2 (FL (F1, F0) (fl_rs exF)) /\ fileBytes exF <> fileBytes (FL (F1, F0) (fl_rs exF)).
Proof. split; [apply exF_wf|]. split; [|vm_compute; discriminate]. repeat (constructor || split); cbn; try lia; try reflexivity. Qed.
Example binary_size_example : length (fileBytes exF) = 138%nat.
Proof. reflexivity. Qed.
Example binary_accepted_example : Forall isbyte (fileBytes exF) /\ length (fileBytes exF) = (24 + 2 * (9 + 24 * 2))%nat /\ readBinary 2 (fileBytes exF) = TOk exF /\ num_file exF.
Proof. split; [apply (binary_size 2), exF_wf|]. split; [reflexivity|]. split; [vm_compute; reflexivity|]. repeat (constructor || split); cbn; discriminate. Qed.
Example binary_other_version_example : readBinary 2 (leBytes 8 2 ++ fileBytes exF) = TThr TRuntime.
Proof. apply binary_other_version; [split|]; lia. Qed.
(** 1.0 is 0x3FF0000000000000, the smallest double is 1. *)
Example bits_of_doubles_example : bitsOf F1 = 0x3FF0000000000000 /\ bitsOf (S754_finite false 1 (-1074)) = 1 /\ bitsOf Fsq2 = 0x3FE6A09E667F3BCD.
Proof. repeat split. Qed.
Example doubles_of_bits_example : ofBits 0x3FE6A09E667F3BCD = Fsq2 /\ ofBits 0xFFF0000000000000 = S754_infinity true /\ ofBits 0x7FF0000000000001 = S754_nan.
Proof. repeat split. Qed.

Print Assumptions binary_read_back.
Print Assumptions binary_determines.
Print Assumptions binary_size.
Print Assumptions binary_accepted.
Print Assumptions binary_other_version.
Print Assumptions bits_of_doubles.
Print Assumptions doubles_of_bits.
Print Assumptions binary_truncated_refuted.
Print Assumptions binary_one_byte_refuted.
Print Assumptions binary_kind_refuted.
