(** Instances of the laws: any arithmetic with sane constants (the doubles among them),
    and the exact reals with tolerance zero. *)
From Coq Require Import ZArith List Bool Lia Arith Reals Lra SpecFloat.
From Verif Require Import Num Base CTable CTableWf CTableR CTableHist Cx State Pkg Inv.
Import ListNotations.
Local Open Scope Z_scope.

(** Four facts about the constants and the symmetry of comparison; all structural statements need no more. *)
Record sane (N : num) : Prop := {
  sn_az0 : approx_zero (N:=N) n0 = true;
  sn_ao0 : approx_one (N:=N) n0 = false;
  sn_sg0 : nsign (n:=N) n0 = false;
  sn_le0 : nleb (n:=N) n0 n0 = true;
  sn_sym : forall a b : N, approx_eq a b = approx_eq b a }.

Definition numG (N : num) (cf : ctcfg) (S : sane N) : numx N cf.
Proof.
  refine (NumX N cf False (fun _ => 0%R) (fun _ => True) _ _ _ _ _ _ _ _ _ _ _ _ _ _ _ _ _ _ _ _ _ _ _ _ _ _ _ _ _);
    try (now apply S); intros [].
Defined.

(** IEEE doubles with the default tolerance. *)
Lemma round_aux_abs p e m x l : SFabs (binary_round_aux p e false m x l) = SFabs (binary_round_aux p e true m x l).
Proof.
  unfold binary_round_aux. destruct (shr_fexp p e m x l). destruct (shr_fexp p e _ _ loc_Exact).
  destruct (shr_m s0); auto. destruct (_ <=? _); auto.
Qed.
Lemma round_abs p e m x : SFabs (binary_round p e false m x) = SFabs (binary_round p e true m x).
Proof. unfold binary_round. destruct (shl_align _ _ _). apply round_aux_abs. Qed.
Lemma normalize_abs p e m x z : SFabs (binary_normalize p e (- m) x z) = SFabs (binary_normalize p e m x z).
Proof. destruct m; cbn; auto; [symmetry|]; apply round_abs. Qed.
Lemma sub_abs p e x y : SFabs (SFsub p e x y) = SFabs (SFsub p e y x).
Proof.
  destruct x as [a|a| |a m i], y as [b|b| |b n j]; try reflexivity; try (destruct a, b; reflexivity).
  cbn [SFsub]. rewrite (Z.min_comm j i), <- normalize_abs. f_equal. f_equal. lia.
Qed.
Lemma saneF : sane NumF.
Proof.
  constructor; [vm_compute; reflexivity..|]. intros a b. unfold approx_eq. rewrite andb_comm.
  assert (E: nabs (n:=NumF) (nsub a b) = nabs (nsub b a)) by apply sub_abs. now rewrite E.
Qed.

Section R0.
Context (cf : ctcfg) (Hcf : cfgok cf).
Local Notation N := (NumR 0).

Lemma sm0 : (2 * 0 * IZR (ct_mask cf) < 1)%R.
Proof. rewrite Rmult_0_r, Rmult_0_l. lra. Qed.

Lemma saneR : sane N.
Proof.
  constructor.
  - unfold approx_zero. simpl. apply Rleb_iff. rewrite Rabs_R0. lra.
  - unfold approx_one. destruct (approx_eq (N:=NumR 0) n0 n1) eqn:E; auto. apply approx_eq_R in E; [|lra].
    simpl in E. rewrite Rminus_0_l, Rabs_Ropp, Rabs_R1 in E. lra.
  - simpl. unfold Rltb. destruct (Rlt_dec 0 0); auto. lra.
  - simpl. apply Rleb_iff. lra.
  - intros a b. unfold approx_eq. rewrite andb_comm. f_equal. f_equal. apply Rabs_minus_sym.
Qed.

Definition valR (c : ctab N) (a : eaddr) : R :=
  match a with AZero => n0 (n:=N) | AOne => n1 (n:=N) | ASqrt2 => nsq2 (n:=N) | ATab n => ct_value c n | ACache _ => n0 (n:=N) end.

Lemma valR_of c a : valR c a = valueof 0 c a.
Proof. destruct a; reflexivity. Qed.

Lemma abs0 x : (Rabs x <= 0 -> x = 0)%R.
Proof. unfold Rabs. destruct (Rcase_abs x); lra. Qed.

Lemma absne x y : (0 < Rabs (x - y) -> x <> y)%R.
Proof. intros H ->. rewrite Rminus_diag_eq, Rabs_R0 in H by auto. lra. Qed.

Lemma lookupR c v : ctwf cf c -> ctord cf 0 c -> (0 <= v)%R -> exists a c', ct_lookup cf c v = inl (a, c') /\ valR c' a = v.
Proof.
  intros W O P. destruct (ct_lookup_R cf Hcf 0 (Rle_refl 0) sm0 c v W O P) as (a & c' & E & _ & _ & _ & _ & B & _).
  exists a, c'. split; auto. rewrite valR_of. apply abs0 in B. lra.
Qed.
Lemma lookupR_ct c v a c' : ctwf cf c -> ctord cf 0 c -> ct_lookup cf c v = inl (a, c') -> ctord cf 0 c'.
Proof. intros W O E. eapply (ctstep_ord cf Hcf 0 (Rle_refl 0) sm0 c _ _ W O). econstructor; eauto. Qed.

Lemma sqrt2_bounds : (1 < sqrt 2 < 2)%R.
Proof.
  split.
  - rewrite <- sqrt_1 at 1. apply sqrt_lt_1_alt. lra.
  - replace 2%R with (sqrt 4) at 2. apply sqrt_lt_1_alt. lra. replace 4%R with (2 * 2)%R by ring. apply sqrt_square. lra.
Qed.

Lemma injR c a b : ctwf cf c -> ctord cf 0 c -> alive c a -> alive c b -> valR c a = valR c b -> a = b.
Proof.
  intros W O La Lb. pose proof sqrt2_bounds as S2.
  assert (Z: forall n, ctlive c n -> (valR c (ATab n) <> 0 /\ valR c (ATab n) <> 1 /\ valR c (ATab n) <> sqrt 2 / 2)%R).
  { intros n L. unfold valR. pose proof (co_zero _ _ _ O n L) as Z0. pose proof (co_one _ _ _ O n L) as Z1. pose proof (co_sq2 _ _ _ O n L) as Z2. unfold V in *.
    apply absne in Z0, Z1, Z2. auto. }
  destruct a as [| | |n|n], b as [| | |m|m]; try reflexivity; try (now destruct La); try (now destruct Lb); simpl; intros E; try (exfalso; lra);
    try (apply Z in La; simpl in La; exfalso; intuition lra); try (apply Z in Lb; simpl in Lb; exfalso; intuition lra).
  f_equal. destruct (Nat.eq_dec n m) as [|Nm]; auto. pose proof (co_sep _ _ _ O n m La Lb Nm) as Sp. apply absne in Sp. contradiction.
Qed.

Lemma posR c a : ctwf cf c -> ctord cf 0 c -> alive c a -> (0 <= valR c a)%R.
Proof.
  intros W O L. pose proof sqrt2_bounds. destruct a as [| | |n|n]; simpl; try lra. destruct L as (k & L). apply (co_hash _ _ _ O k n L).
Qed.

Definition numR0 : numx N cf.
Proof.
  refine (NumX N cf True (fun x => x) (ctord cf 0) (sn_az0 _ saneR) (sn_ao0 _ saneR) (sn_sg0 _ saneR) (sn_le0 _ saneR) (sn_sym _ saneR)
    (fun _ => eq_refl) (fun _ => eq_refl) (fun _ => eq_refl) (fun _ => eq_refl) (fun _ => eq_refl) (fun _ _ _ => eq_refl) (fun _ _ _ => eq_refl) (fun _ _ _ => eq_refl) (fun _ _ _ => eq_refl)
    (fun _ _ => eq_refl) (fun _ _ => eq_refl) (fun _ _ => eq_refl) _ _ _ _ _ _ _ _ _ _ _ _).
  - intros _ a b. apply Rleb_iff.
  - intros _ a b. apply Rltb_iff.
  - intros _ a. apply Rltb_iff.
  - intros _ c v. apply lookupR.
  - intros _ c v a c'. apply lookupR_ct.
  - intros _ c a b. apply injR.
  - intros _ c a. apply posR.
  - intros _ c p W O L. apply (ctstep_ord cf Hcf 0 (Rle_refl 0) sm0 c (OInc p) _ W O). now constructor.
  - intros _ c p c' W O L E. apply (ctstep_ord cf Hcf 0 (Rle_refl 0) sm0 c (ODec p) _ W O). now constructor.
  - intros _ c f n c' W O E. eapply (ctstep_ord cf Hcf 0 (Rle_refl 0) sm0 c (OGc f) _ W O). econstructor; eauto.
  - intros _ c W O. apply (ctstep_ord cf Hcf 0 (Rle_refl 0) sm0 c (OClear) _ W O). constructor.
  - intros _. apply ct_init_ord; auto using sm0, Rle_refl.
Defined.
End R0.
