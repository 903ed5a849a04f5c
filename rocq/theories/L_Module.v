(** Deciding linear identities in a *-algebra: [msolve [x; y]] proves [e == f] when both
    sides are the same linear combination of the listed elements. *)
From Coq Require Import List Arith Lia ZArith Bool Setoid Morphisms.
From Verif Require Import GC S_Alg L_Alg.
Import ListNotations.
Local Open Scope alg_scope.

Inductive mexp : Type := MA (n : nat) | M0 | MP (a b : mexp) | MS (z : GC) (a : mexp).

Section Lin.
  Context {A : StarAlg}.
  Fixpoint mev (env : list A) (e : mexp) : A :=
    match e with
    | MA n => nth n env azero
    | M0 => azero
    | MP a b => mev env a + mev env b
    | MS z a => z · mev env a
    end.
  Fixpoint mco (e : mexp) (n : nat) : GC :=
    match e with
    | MA m => if Nat.eqb m n then g1 else g0
    | M0 => g0
    | MP a b => gadd (mco a n) (mco b n)
    | MS z a => gmul z (mco a n)
    end.
  Fixpoint mlin (env : list A) (k : nat) (f : nat -> GC) : A :=
    match env with
    | [] => azero
    | x :: r => f k · x + mlin r (S k) f
    end.

  Lemma mlin_ext env : forall k f h, (forall n, k <= n < k + length env -> f n = h n) -> mlin env k f == mlin env k h.
  Proof.
    induction env as [|x env IH]; intros k f h H; simpl; [reflexivity|].
    rewrite (H k) by (simpl; lia). rewrite (IH (S k) f h); [reflexivity|].
    intros; apply H; simpl; lia.
  Qed.
  Lemma mlin_add env : forall k f h, mlin env k (fun n => gadd (f n) (h n)) == mlin env k f + mlin env k h.
  Proof.
    induction env as [|x env IH]; intros k f h; simpl; [symmetry; apply aadd_0_l|].
    rewrite IH, ascal_add_l, !aadd_assoc.
    rewrite <- (aadd_assoc _ (f k · x) (h k · x) (mlin env (S k) f)).
    rewrite (aadd_comm _ (h k · x) (mlin env (S k) f)), aadd_assoc. reflexivity.
  Qed.
  Lemma mlin_scal env : forall k z f, mlin env k (fun n => gmul z (f n)) == z · mlin env k f.
  Proof.
    induction env as [|x env IH]; intros k z f; simpl; [symmetry; apply ascal_zero|].
    rewrite IH, ascal_add_r, ascal_ascal. reflexivity.
  Qed.
  Lemma mlin_zero env : forall k, mlin env k (fun _ => g0) == azero.
  Proof.
    induction env as [|x env IH]; intros k; simpl; [reflexivity|].
    rewrite IH, ascal_0. apply aadd_0_l.
  Qed.
  Lemma mlin_atom env : forall k n, mlin env k (fun m => if Nat.eqb (k + n) m then g1 else g0) == nth n env azero.
  Proof.
    induction env as [|x env IH]; intros k n; simpl; [destruct n; reflexivity|].
    destruct n as [|n].
    - rewrite Nat.add_0_r, Nat.eqb_refl, ascal_1.
      rewrite (mlin_ext env (S k) _ (fun _ => g0)).
      + rewrite mlin_zero. apply aadd_0_r.
      + intros m Hm. destruct (Nat.eqb_spec k m); auto; lia.
    - destruct (Nat.eqb_spec (k + S n) k); [lia|]. rewrite ascal_0, aadd_0_l.
      rewrite <- (IH (S k) n). apply mlin_ext. intros m Hm.
      replace (k + S n)%nat with (S k + n)%nat by lia. reflexivity.
  Qed.
  Lemma mev_lin env e : mev env e == mlin env 0 (mco e).
  Proof.
    induction e as [n| |a IHa b IHb|z a IHa]; simpl.
    - symmetry. apply (mlin_atom env 0 n).
    - symmetry. apply mlin_zero.
    - rewrite IHa, IHb. symmetry. apply mlin_add.
    - rewrite IHa. symmetry. apply mlin_scal.
  Qed.
  Fixpoint upto (n : nat) (P : nat -> Prop) : Prop :=
    match n with O => True | S m => upto m P /\ P m end.
  Lemma upto_all n P : upto n P -> forall m, m < n -> P m.
  Proof.
    induction n as [|n IH]; simpl; intros H m Hm; [lia|]. destruct H as [H1 H2].
    destruct (Nat.eq_dec m n); [subst; auto | apply IH; auto; lia].
  Qed.
  Lemma msolve_lemma env a b : upto (length env) (fun n => mco a n = mco b n) -> mev env a == mev env b.
  Proof.
    intros H. rewrite !mev_lin. apply mlin_ext. intros n Hn. apply (upto_all _ _ H); lia.
  Qed.
End Lin.

Ltac mindex x env k :=
  lazymatch env with
  | ?y :: ?r => match x with
                | y => constr:(k)
                | _ => mindex x r (S k)
                end
  end.
Ltac mreify env t :=
  lazymatch t with
  | aadd ?a ?b => let a' := mreify env a in let b' := mreify env b in constr:(MP a' b')
  | asub ?a ?b => let a' := mreify env a in let b' := mreify env b in constr:(MP a' (MS gm1 b'))
  | ascal ?z ?a => let a' := mreify env a in constr:(MS z a')
  | azero => constr:(M0)
  | _ => let k := mindex t env O in constr:(MA k)
  end.
Ltac msolve env :=
  lazymatch goal with
  | |- aeq ?a ?b =>
      let a' := mreify env a in
      let b' := mreify env b in
      change (aeq (mev env a') (mev env b'));
      apply msolve_lemma; cbn [length upto mco Nat.eqb];
      repeat split
  end.
Ltac gring := unfold gm1, g2; try ring; try (apply GC_ext; cbn; ring).
