(** Gaussian rationals: the coefficient type of the model.

    Models Python/numpy complex numbers wherever /repo/qosy uses them as
    coefficients.  Simplification: every finite double is a rational, rounding
    of sums and products is not modelled.  Equality is Leibniz equality. *)
From Coq Require Import QArith Qcanon Ring Field Bool.

Record GC : Type := mkGC { re : Qc; im : Qc }.

Definition g0 : GC := mkGC 0 0.
Definition g1 : GC := mkGC 1 0.
Definition gi : GC := mkGC 0 1.
Definition gadd (x y : GC) : GC := mkGC (re x + re y) (im x + im y).
Definition gmul (x y : GC) : GC :=
  mkGC (re x * re y - im x * im y) (re x * im y + im x * re y).
Definition gopp (x : GC) : GC := mkGC (- re x) (- im x).
Definition gsub (x y : GC) : GC := mkGC (re x - re y) (im x - im y).
Definition gconj (x : GC) : GC := mkGC (re x) (- im x).
Definition norm2 (x : GC) : Qc := re x * re x + im x * im x.
Definition ginv (x : GC) : GC := mkGC (re x / norm2 x) (- im x / norm2 x).
Definition gdiv (x y : GC) : GC := gmul x (ginv y).
Definition gq (q : Qc) : GC := mkGC q 0.
Definition gz (z : Z) : GC := gq (Q2Qc (inject_Z z)).

(** Boolean tests. *)
Definition qc_eqb (x y : Qc) : bool := if Qc_eq_dec x y then true else false.
Definition qc_ltb (x y : Qc) : bool := if Qclt_le_dec x y then true else false.
Definition gc_eqb (x y : GC) : bool := qc_eqb (re x) (re y) && qc_eqb (im x) (im y).

(** [abs z < tol] and [abs z > tol] for a non-negative tolerance. *)
Definition abs_ltb (z : GC) (tol : Qc) : bool := qc_ltb (norm2 z) (tol * tol).
Definition abs_gtb (z : GC) (tol : Qc) : bool := qc_ltb (tol * tol) (norm2 z).

Lemma GC_ext x y : re x = re y -> im x = im y -> x = y.
Proof. destruct x, y; simpl; congruence. Qed.

Lemma qc_eqb_eq x y : qc_eqb x y = true <-> x = y.
Proof. unfold qc_eqb; destruct (Qc_eq_dec x y); split; congruence. Qed.

Lemma qc_ltb_lt x y : qc_ltb x y = true <-> x < y.
Proof.
  unfold qc_ltb; destruct (Qclt_le_dec x y) as [H|H]; split; intros K; auto; try congruence.
  exfalso; exact (Qcle_not_lt _ _ H K).
Qed.

Lemma gc_eqb_eq x y : gc_eqb x y = true <-> x = y.
Proof.
  unfold gc_eqb; rewrite andb_true_iff, !qc_eqb_eq; split.
  - intros [H1 H2]; apply GC_ext; auto.
  - intros ->; auto.
Qed.

Lemma gc_eq_dec (x y : GC) : {x = y} + {x <> y}.
Proof.
  destruct (gc_eqb x y) eqn:E; [left | right].
  - apply gc_eqb_eq; auto.
  - intros H; apply gc_eqb_eq in H; congruence.
Defined.

Lemma GC_ring_theory : ring_theory g0 g1 gadd gmul gsub gopp (@eq GC).
Proof. constructor; intros; apply GC_ext; simpl; ring. Qed.

Lemma qc_sq_nonneg (x : Qc) : 0 <= x * x.
Proof.
  unfold Qcle, Qcmult.
  change (this 0) with 0%Q.
  change (this (Q2Qc (this x * this x))) with (Qred (this x * this x)).
  rewrite (Qred_correct (this x * this x)).
  destruct (Qlt_le_dec (this x) 0) as [H|H].
  - setoid_replace (this x * this x)%Q with ((- this x) * (- this x))%Q by ring.
    apply Qmult_le_0_compat; apply (Qopp_le_compat (this x) 0); apply Qlt_le_weak; auto.
  - apply Qmult_le_0_compat; auto.
Qed.

Lemma norm2_nonneg z : 0 <= norm2 z.
Proof.
  unfold norm2; change 0 with (0 + 0).
  apply Qcplus_le_compat; apply qc_sq_nonneg.
Qed.

Lemma qc_sq_zero (x : Qc) : x * x = 0 -> x = 0.
Proof. intros H; destruct (Qcmult_integral _ _ H); auto. Qed.

Lemma qc_add_nonneg_zero (x y : Qc) : 0 <= x -> 0 <= y -> x + y = 0 -> x = 0 /\ y = 0.
Proof.
  intros Hx Hy H; split; apply Qcle_antisym; auto.
  - assert (x + 0 <= x + y) by (apply Qcplus_le_compat; auto; apply Qcle_refl).
    rewrite H in H0; rewrite Qcplus_0_r in H0; auto.
  - assert (0 + y <= x + y) by (apply Qcplus_le_compat; auto; apply Qcle_refl).
    rewrite H in H0; rewrite Qcplus_0_l in H0; auto.
Qed.

Lemma norm2_zero z : norm2 z = 0 -> z = g0.
Proof.
  unfold norm2; intros H.
  apply qc_add_nonneg_zero in H; try apply qc_sq_nonneg.
  destruct H as [H1 H2]; apply qc_sq_zero in H1, H2; apply GC_ext; auto.
Qed.

Lemma g1_neq_g0 : g1 <> g0.
Proof. intros H; injection H; intros; discriminate. Qed.

Lemma GC_field_theory : field_theory g0 g1 gadd gmul gsub gopp gdiv ginv (@eq GC).
Proof.
  constructor.
  - exact GC_ring_theory.
  - exact g1_neq_g0.
  - reflexivity.
  - intros p Hp.
    assert (Hn : norm2 p <> 0) by (intros H; apply Hp, norm2_zero; auto).
    apply GC_ext; simpl; unfold norm2 in *; field; auto.
Qed.

Add Ring GC_ring : GC_ring_theory.
Add Field GC_field : GC_field_theory.

Declare Scope gc_scope.
Delimit Scope gc_scope with gc.
Infix "+" := gadd : gc_scope.
Infix "*" := gmul : gc_scope.
Infix "-" := gsub : gc_scope.
Infix "/" := gdiv : gc_scope.
Notation "- x" := (gopp x) : gc_scope.
Notation "0" := g0 : gc_scope.
Notation "1" := g1 : gc_scope.

Local Open Scope gc_scope.

Definition g2 : GC := 1 + 1.
Definition gm1 : GC := gopp g1.
Definition half : GC := ginv g2.

Lemma gi_sq : gi * gi = gm1.
Proof. apply GC_ext; reflexivity. Qed.

Lemma gconj_add x y : gconj (x + y) = gconj x + gconj y.
Proof. apply GC_ext; simpl; ring. Qed.
Lemma gconj_sub x y : gconj (x - y) = gconj x - gconj y.
Proof. apply GC_ext; simpl; ring. Qed.
Lemma gconj_opp x : gconj (- x) = - gconj x.
Proof. apply GC_ext; simpl; ring. Qed.
Lemma gconj_mul x y : gconj (x * y) = gconj x * gconj y.
Proof. apply GC_ext; simpl; ring. Qed.
Lemma gconj_conj x : gconj (gconj x) = x.
Proof. apply GC_ext; simpl; ring. Qed.
Lemma gconj_0 : gconj 0 = 0. Proof. apply GC_ext; reflexivity. Qed.
Lemma gconj_1 : gconj 1 = 1. Proof. apply GC_ext; reflexivity. Qed.
Lemma gconj_i : gconj gi = - gi. Proof. apply GC_ext; reflexivity. Qed.

Lemma g2_neq_g0 : g2 <> 0.
Proof. intros H; injection H; intros; discriminate. Qed.
Lemma gi_neq_g0 : gi <> 0.
Proof. intros H; injection H; intros; discriminate. Qed.

Lemma gmul_conj z : gconj z * z = gq (norm2 z).
Proof. apply GC_ext; unfold norm2; simpl; ring. Qed.

Lemma gmul_integral x y : x * y = 0 -> x = 0 \/ y = 0.
Proof.
  intros H; destruct (gc_eq_dec x 0) as [E|E]; [left; auto | right].
  replace y with (ginv x * (x * y)) by (field; auto).
  rewrite H; ring.
Qed.

(** Signs. *)
Definition gsgn (b : bool) : GC := if b then gm1 else 1.
Lemma gsgn_xorb a b : gsgn (xorb a b) = gsgn a * gsgn b.
Proof. destruct a, b; apply GC_ext; reflexivity. Qed.
Lemma gsgn_sq a : gsgn a * gsgn a = 1.
Proof. destruct a; apply GC_ext; reflexivity. Qed.
Lemma gsgn_conj a : gconj (gsgn a) = gsgn a.
Proof. destruct a; apply GC_ext; reflexivity. Qed.
Lemma gsgn_neq0 a : gsgn a <> 0.
Proof. destruct a; intros H; injection H; intros; discriminate. Qed.
