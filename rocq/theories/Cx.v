(** Complex numbers as pairs of reals (specification side only). *)
From Coq Require Import Reals Lra List Ring Field.
Import ListNotations.
Local Open Scope R_scope.

(** Complex numbers as pairs of reals; mathematics, not code. *)
Definition C : Type := (R * R)%type.
(** zero *)
Definition C0 : C := (0, 0).
(** one *)
Definition C1 : C := (1, 0).
(** imaginary unit *)
Definition Ci : C := (0, 1).
(** embedding of the reals *)
Definition RtoC (x : R) : C := (x, 0).
(** sum *)
Definition Cadd (a b : C) : C := (fst a + fst b, snd a + snd b).
(** negation *)
Definition Copp (a : C) : C := (- fst a, - snd a).
(** difference *)
Definition Csub (a b : C) : C := Cadd a (Copp b).
(** product *)
Definition Cmul (a b : C) : C :=
  (fst a * fst b - snd a * snd b, fst a * snd b + snd a * fst b).
(** squared magnitude *)
Definition Cmag2 (a : C) : R := fst a * fst a + snd a * snd a.
(** inverse *)
Definition Cinv (a : C) : C := (fst a / Cmag2 a, - snd a / Cmag2 a).
(** quotient *)
Definition Cdiv (a b : C) : C := Cmul a (Cinv b).
(** conjugate *)
Definition Cconj (a : C) : C := (fst a, - snd a).

Declare Scope C_scope.
Delimit Scope C_scope with C.
Bind Scope C_scope with C.
Infix "+" := Cadd : C_scope.
Infix "-" := Csub : C_scope.
Infix "*" := Cmul : C_scope.
Infix "/" := Cdiv : C_scope.
Notation "- x" := (Copp x) : C_scope.

Lemma C_eq (a b : C) : fst a = fst b -> snd a = snd b -> a = b.
Proof. destruct a, b; simpl; intros; congruence. Qed.

Lemma Ceq_dec (a b : C) : {a = b} + {a <> b}.
Proof.
  destruct a as [x y], b as [u v].
  destruct (Req_EM_T x u) as [->|H]; [|right; congruence].
  destruct (Req_EM_T y v) as [->|H]; [left; auto|right; congruence].
Qed.

Ltac cx := intros; apply C_eq; simpl; try ring.

Lemma C_ring : ring_theory C0 C1 Cadd Cmul Csub Copp (@eq C).
Proof. constructor; cx. Qed.

Lemma Cmag2_nonneg a : 0 <= Cmag2 a.
Proof. unfold Cmag2. pose proof (Rle_0_sqr (fst a)). pose proof (Rle_0_sqr (snd a)). unfold Rsqr in *. lra. Qed.
Lemma Cmag2_zero a : Cmag2 a = 0 <-> a = C0.
Proof.
  split.
  - destruct a as [x y]. unfold Cmag2; simpl. intros H.
    pose proof (Rle_0_sqr x). pose proof (Rle_0_sqr y). unfold Rsqr in *.
    assert (x * x = 0) by lra. assert (y * y = 0) by lra.
    apply Rmult_integral in H2. apply Rmult_integral in H3.
    unfold C0. f_equal; tauto.
  - intros ->. unfold Cmag2, C0; simpl; ring.
Qed.
Lemma Cmag2_pos a : a <> C0 -> 0 < Cmag2 a.
Proof. intros H. destruct (Cmag2_nonneg a) as [|E]; auto. symmetry in E. apply Cmag2_zero in E. contradiction. Qed.

Lemma C1_neq_0 : C1 <> C0.
Proof. unfold C1, C0. intros [= H]. lra. Qed.

Lemma Cinv_l a : a <> C0 -> Cmul (Cinv a) a = C1.
Proof.
  intros H. apply Cmag2_pos in H. destruct a as [x y]. unfold Cinv, Cmul, C1, Cmag2 in *; simpl in *.
  f_equal; field; lra.
Qed.
Lemma C_field : field_theory C0 C1 Cadd Cmul Csub Copp Cdiv Cinv (@eq C).
Proof.
  constructor. apply C_ring. apply C1_neq_0. reflexivity. intros; now apply Cinv_l.
Qed.
Add Field C_Field : C_field.

Lemma Cmag2_mul a b : Cmag2 (a * b)%C = Cmag2 a * Cmag2 b.
Proof. destruct a, b; unfold Cmag2, Cmul; simpl; ring. Qed.
Lemma Cmag2_1 : Cmag2 C1 = 1.
Proof. unfold Cmag2, C1; simpl; ring. Qed.
Lemma Cmag2_0 : Cmag2 C0 = 0.
Proof. unfold Cmag2, C0; simpl; ring. Qed.
Lemma Cmag2_conj a : Cmag2 (Cconj a) = Cmag2 a.
Proof. destruct a; unfold Cmag2, Cconj; simpl; ring. Qed.
Lemma Cmag2_RtoC x : Cmag2 (RtoC x) = x * x.
Proof. unfold Cmag2, RtoC; simpl; ring. Qed.

Lemma Cmul_integral a b : (a * b)%C = C0 -> a = C0 \/ b = C0.
Proof.
  intros H. destruct (Ceq_dec a C0); auto. right.
  assert (E: (Cinv a * (a * b))%C = b) by (field; auto).
  rewrite H in E. rewrite <- E. ring.
Qed.
Lemma Cmul_neq a b : a <> C0 -> b <> C0 -> (a * b)%C <> C0.
Proof. intros Ha Hb H. apply Cmul_integral in H. tauto. Qed.
Lemma Cmul_cancel_l a b c : a <> C0 -> (a * b)%C = (a * c)%C -> b = c.
Proof.
  intros H E. assert (Q: (Cinv a * (a * b))%C = (Cinv a * (a * c))%C) by now rewrite E.
  replace (Cinv a * (a * b))%C with b in Q by (field; auto).
  replace (Cinv a * (a * c))%C with c in Q by (field; auto). auto.
Qed.

Lemma Cconj_mul a b : Cconj (a * b)%C = (Cconj a * Cconj b)%C.
Proof. destruct a, b; unfold Cconj, Cmul; simpl; f_equal; ring. Qed.
Lemma Cconj_add a b : Cconj (a + b)%C = (Cconj a + Cconj b)%C.
Proof. destruct a, b; unfold Cconj, Cadd; simpl; f_equal; ring. Qed.
Lemma Cconj_conj a : Cconj (Cconj a) = a.
Proof. destruct a; unfold Cconj; simpl; f_equal; ring. Qed.
Lemma Cconj_0 : Cconj C0 = C0.
Proof. unfold Cconj, C0; simpl; f_equal; ring. Qed.
Lemma Cconj_1 : Cconj C1 = C1.
Proof. unfold Cconj, C1; simpl; f_equal; ring. Qed.
Lemma Cmul_0_l a : (C0 * a)%C = C0. Proof. ring. Qed.
Lemma Cmul_0_r a : (a * C0)%C = C0. Proof. ring. Qed.
Lemma Cmul_1_l a : (C1 * a)%C = a. Proof. ring. Qed.
Lemma Cmul_1_r a : (a * C1)%C = a. Proof. ring. Qed.
Lemma RtoC_mul x y : (RtoC x * RtoC y)%C = RtoC (x * y).
Proof. unfold RtoC, Cmul; simpl; f_equal; ring. Qed.
Lemma RtoC_add x y : (RtoC x + RtoC y)%C = RtoC (x + y).
Proof. unfold RtoC, Cadd; simpl; f_equal; ring. Qed.
Lemma RtoC_neq x : x <> 0 -> RtoC x <> C0.
Proof. unfold RtoC, C0. congruence. Qed.
Lemma Cconj_RtoC x : Cconj (RtoC x) = RtoC x.
Proof. unfold Cconj, RtoC; simpl; f_equal; ring. Qed.
Lemma Cmul_conj a : (a * Cconj a)%C = RtoC (Cmag2 a).
Proof. destruct a; unfold Cmul, Cconj, RtoC, Cmag2; simpl; f_equal; ring. Qed.

(** Sums. *)
Fixpoint Csum {A} (f : A -> C) (l : list A) : C :=
  match l with [] => C0 | x :: r => (f x + Csum f r)%C end.

Lemma Csum_app {A} (f : A -> C) l r : Csum f (l ++ r) = (Csum f l + Csum f r)%C.
Proof. induction l; simpl; [ring|]. rewrite IHl. ring. Qed.
Lemma Csum_ext {A} (f g : A -> C) l : (forall x, In x l -> f x = g x) -> Csum f l = Csum g l.
Proof. induction l; simpl; intros H; auto. rewrite H, IHl; auto. Qed.
Lemma Csum_add {A} (f g : A -> C) l : Csum (fun x => f x + g x)%C l = (Csum f l + Csum g l)%C.
Proof. induction l; simpl; [ring|]. rewrite IHl. ring. Qed.
Lemma Csum_mul_l {A} (f : A -> C) a l : Csum (fun x => a * f x)%C l = (a * Csum f l)%C.
Proof. induction l; simpl; [ring|]. rewrite IHl. ring. Qed.
Lemma Csum_mul_r {A} (f : A -> C) a l : Csum (fun x => f x * a)%C l = (Csum f l * a)%C.
Proof. induction l; simpl; [ring|]. rewrite IHl. ring. Qed.
Lemma Csum_0 {A} (l : list A) : Csum (fun _ => C0) l = C0.
Proof. induction l; simpl; auto. rewrite IHl. ring. Qed.
Lemma Csum_map {A B} (g : A -> B) (f : B -> C) l : Csum f (map g l) = Csum (fun x => f (g x)) l.
Proof. induction l; simpl; auto. now rewrite IHl. Qed.
Lemma Csum_flat_map {A B} (g : A -> list B) (f : B -> C) l :
  Csum f (flat_map g l) = Csum (fun x => Csum f (g x)) l.
Proof. induction l; simpl; auto. rewrite Csum_app. now rewrite IHl. Qed.
Lemma Csum_swap {A B} (f : A -> B -> C) l m :
  Csum (fun x => Csum (f x) m) l = Csum (fun y => Csum (fun x => f x y) l) m.
Proof.
  induction l; simpl. now rewrite Csum_0. rewrite IHl.
  rewrite <- Csum_add. reflexivity.
Qed.
Lemma Csum_conj {A} (f : A -> C) l : Cconj (Csum f l) = Csum (fun x => Cconj (f x)) l.
Proof. induction l; simpl. apply Cconj_0. now rewrite Cconj_add, IHl. Qed.

Arguments Cmul : simpl never.
Arguments Cadd : simpl never.
Arguments Copp : simpl never.
Arguments Csub : simpl never.
Arguments Cinv : simpl never.
Arguments Cdiv : simpl never.
Arguments Cmag2 : simpl never.
Arguments Cconj : simpl never.
