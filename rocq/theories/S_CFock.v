(** The representation of S_Fock over the complex numbers: a *-algebra with real scalars that has
    Majorana operators and 1 <> 0. *)
From Coq Require Import List ZArith NArith Bool Setoid Morphisms Reals QArith Qreals Qcanon Lra.
From Coquelicot Require Import Complex.
From Verif Require Import GC S_Alg M_OpString S_Den S_Fock S_RScal.
Import ListNotations.
Local Open Scope C_scope.

Definition qr (q : Qc) : R := Q2R (this q).
Lemma qr_add p q : qr (p + q)%Qc = (qr p + qr q)%R.
Proof. unfold qr. rewrite <- Q2R_plus. apply Qeq_eqR. apply Qred_correct. Qed.
Lemma qr_mul p q : qr (p * q)%Qc = (qr p * qr q)%R.
Proof. unfold qr. rewrite <- Q2R_mult. apply Qeq_eqR. apply Qred_correct. Qed.
Lemma qr_opp q : qr (- q)%Qc = (- qr q)%R.
Proof. unfold qr. rewrite <- Q2R_opp. apply Qeq_eqR. apply Qred_correct. Qed.
Lemma qr_0 : qr 0 = 0%R. Proof. unfold qr, Q2R. cbn. lra. Qed.
Lemma qr_1 : qr 1 = 1%R. Proof. unfold qr, Q2R. cbn. lra. Qed.

(** The Gaussian rationals among the complex numbers. *)
Definition emb (z : GC) : C := (qr (re z), qr (im z)).
Lemma C_eq (x y : C) : fst x = fst y -> snd x = snd y -> x = y.
Proof. destruct x, y; cbn; congruence. Qed.
Lemma emb_add x y : emb (gadd x y) = emb x + emb y.
Proof. apply C_eq; cbn; apply qr_add. Qed.
Lemma emb_mul x y : emb (gmul x y) = emb x * emb y.
Proof. apply C_eq; cbn; unfold Qcminus; rewrite qr_add, ?qr_opp, !qr_mul; ring. Qed.
Lemma emb_conj x : emb (gconj x) = Cconj (emb x).
Proof. apply C_eq; cbn; auto. apply qr_opp. Qed.
Lemma emb_0 : emb g0 = RtoC 0. Proof. apply C_eq; cbn; apply qr_0. Qed.
Lemma emb_1 : emb g1 = RtoC 1. Proof. apply C_eq; cbn; [apply qr_1 | apply qr_0]. Qed.
Lemma emb_gq q : emb (gq q) = RtoC (qr q). Proof. apply C_eq; cbn; auto. apply qr_0. Qed.
Lemma conj_add x y : Cconj (x + y) = Cconj x + Cconj y.
Proof. apply C_eq; cbn; ring. Qed.
Lemma conj_mul x y : Cconj (x * y) = Cconj x * Cconj y.
Proof. apply C_eq; cbn; ring. Qed.
Lemma conj_conj x : Cconj (Cconj x) = x.
Proof. apply C_eq; cbn; ring. Qed.
Lemma conj_R r : Cconj (RtoC r) = RtoC r.
Proof. apply C_eq; cbn; ring. Qed.

Definition cwave := N -> C.
Record clinear (f : cwave -> cwave) : Prop := {
  cl_ext : forall u v, (forall s, u s = v s) -> forall s, f u s = f v s;
  cl_add : forall u v s, f (fun t => u t + v t) s = f u s + f v s;
  cl_scal : forall a u s, f (fun t => a * u t) s = a * f u s
}.
Record cfock_op : Type := mkCFock {
  co : cwave -> cwave; co_adj : cwave -> cwave; co_lin : clinear co; co_adj_lin : clinear co_adj }.
Definition cfock_eq (x y : cfock_op) : Prop :=
  (forall u s, co x u s = co y u s) /\ (forall u s, co_adj x u s = co_adj y u s).

Lemma cl_zero : clinear (fun _ _ => RtoC 0).
Proof. constructor; intros; ring. Qed.
Lemma cl_id : clinear (fun u => u).
Proof. constructor; intros; auto. Qed.
Lemma cl_plus f h : clinear f -> clinear h -> clinear (fun u s => f u s + h u s).
Proof.
  intros F H; constructor; intros.
  - rewrite (cl_ext _ F u v), (cl_ext _ H u v); auto.
  - rewrite (cl_add _ F), (cl_add _ H); ring.
  - rewrite (cl_scal _ F), (cl_scal _ H); ring.
Qed.
Lemma cl_comp f h : clinear f -> clinear h -> clinear (fun u => f (h u)).
Proof.
  intros F H; constructor; intros.
  - apply (cl_ext _ F). intros; apply (cl_ext _ H); auto.
  - rewrite <- (cl_add _ F). apply (cl_ext _ F). intros; apply (cl_add _ H).
  - rewrite <- (cl_scal _ F). apply (cl_ext _ F). intros; apply (cl_scal _ H).
Qed.
Lemma cl_smul a f : clinear f -> clinear (fun u s => a * f u s).
Proof.
  intros F; constructor; intros.
  - rewrite (cl_ext _ F u v); auto.
  - rewrite (cl_add _ F); ring.
  - rewrite (cl_scal _ F); ring.
Qed.
Definition cf_zero := mkCFock _ _ cl_zero cl_zero.
Definition cf_one := mkCFock _ _ cl_id cl_id.
Definition cf_add x y := mkCFock _ _ (cl_plus _ _ (co_lin x) (co_lin y)) (cl_plus _ _ (co_adj_lin x) (co_adj_lin y)).
Definition cf_mul x y := mkCFock _ _ (cl_comp _ _ (co_lin x) (co_lin y)) (cl_comp _ _ (co_adj_lin y) (co_adj_lin x)).
Definition cf_cscal a x := mkCFock _ _ (cl_smul a _ (co_lin x)) (cl_smul (Cconj a) _ (co_adj_lin x)).
Definition cf_scal a x := cf_cscal (emb a) x.
Definition cf_star x := mkCFock _ _ (co_adj_lin x) (co_lin x).

Lemma cfock_equiv : Equivalence cfock_eq.
Proof.
  split.
  - split; auto.
  - intros x y [H1 H2]; split; intros; symmetry; auto.
  - intros x y z [H1 H2] [H3 H4]; split; intros; etransitivity; eauto.
Qed.
Definition CFock : StarAlg.
Proof.
  refine (mkStarAlg cfock_op cfock_eq cf_zero cf_one cf_add cf_mul cf_scal cf_star
            cfock_equiv _ _ _ _ _ _ _ _ _ _ _ _ _ _ _ _ _ _ _ _ _ _ _).
  - intros x x' [H1 H2] y y' [H3 H4]; split; intros; simpl; rewrite ?H1, ?H2, ?H3, ?H4; auto.
  - intros x x' [H1 H2] y y' [H3 H4]; split; intros; simpl.
    + rewrite H1. apply (cl_ext _ (co_lin x')). intros; apply H3.
    + rewrite H4. apply (cl_ext _ (co_adj_lin y')). intros; apply H2.
  - intros z x x' [H1 H2]; split; intros; simpl; rewrite ?H1, ?H2; auto.
  - intros x x' [H1 H2]; split; intros; simpl; rewrite ?H1, ?H2; auto.
  - intros; split; intros; simpl; ring.
  - intros; split; intros; simpl; ring.
  - intros; split; intros; simpl; ring.
  - intros; split; intros; simpl; auto.
  - intros; split; intros; simpl; auto.
  - intros; split; intros; simpl; auto.
  - intros; split; intros; simpl; auto. apply (cl_add _ (co_adj_lin z)).
  - intros; split; intros; simpl; auto. apply (cl_add _ (co_lin x)).
  - intros; split; intros; simpl; rewrite emb_0, ?conj_R; ring.
  - intros; split; intros; simpl; rewrite emb_1, ?conj_R; ring.
  - intros; split; intros; simpl; rewrite emb_mul, ?conj_mul; ring.
  - intros; split; intros; simpl; rewrite emb_add, ?conj_add; ring.
  - intros; split; intros; simpl; ring.
  - intros; split; intros; simpl; auto. apply (cl_scal _ (co_adj_lin y)).
  - intros; split; intros; simpl; auto. apply (cl_scal _ (co_lin x)).
  - intros; split; intros; simpl; auto.
  - intros; split; intros; simpl; auto.
  - intros; split; intros; simpl; auto.
  - intros; split; intros; simpl; rewrite ?emb_conj, ?conj_conj; auto.
Defined.
Definition cfock_real : RScal CFock.
Proof.
  refine (mkRScal CFock (fun r x => cf_cscal (RtoC r) x) _ _ _ _ _ _ _ _).
  - intros z x x' [H1 H2]; split; intros; simpl; rewrite ?H1, ?H2; auto.
  - intros; split; intros; simpl; rewrite emb_gq; auto.
  - intros; split; intros; simpl; rewrite ?conj_R, RtoC_mult; ring.
  - intros; split; intros; simpl; rewrite ?conj_R, RtoC_plus; ring.
  - intros; split; intros; simpl; ring.
  - intros; split; intros; simpl; auto. apply (cl_scal _ (co_adj_lin y)).
  - intros; split; intros; simpl; auto. apply (cl_scal _ (co_lin x)).
  - intros; split; intros; simpl; rewrite ?conj_R; auto.
Defined.

(** Weighted bit flips with the weights of S_Fock. *)
Lemma cl_mono (ph : N -> GC) (m : N) : clinear (fun u s => emb (ph s) * u (N.lxor s m)).
Proof. constructor; intros; [rewrite H|..]; try ring; auto. Qed.
Definition cmono (ph : N -> GC) (m : N) : CFock :=
  mkCFock _ _ (cl_mono ph m) (cl_mono (fun s => gconj (ph (N.lxor s m))) m).
Definition cgen (o : op) (l : Z) : CFock :=
  match o with
  | OX => cmono (fun _ => g1) (bit (site l))
  | OY => cmono (fun s => if occ s (site l) then gi else gopp gi) (bit (site l))
  | OZ => cmono (fun s => gsgn (occ s (site l))) 0
  | OA => cmono (fun s => gsgn (S_Fock.below (site l) s)) (bit (site l))
  | OB => cmono (fun s => gmul (gsgn (S_Fock.below (site l) s)) (if occ s (site l) then gi else gopp gi)) (bit (site l))
  | OD => cmono (fun s => gsgn (occ s (site l))) 0
  | _ => azero
  end.
