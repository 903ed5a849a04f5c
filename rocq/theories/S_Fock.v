(** A concrete *-algebra with Pauli, Majorana and fermion operators: linear maps on wave
    functions over bit sets.  Sites are numbered by natural numbers; a configuration is a
    bit set [N]; an element is a linear map together with its formal adjoint.  It shows that
    the relations assumed elsewhere are satisfiable in an algebra where [1 <> 0]. *)
From Coq Require Import List ZArith NArith Bool Setoid Morphisms Ring Lia.
From Verif Require Import GC S_Alg M_OpString S_Den.
Import ListNotations.
Local Open Scope gc_scope.

Definition wave := N -> GC.

Record linear (f : wave -> wave) : Prop := {
  lin_ext : forall u v, (forall s, u s = v s) -> forall s, f u s = f v s;
  lin_add : forall u v s, f (fun t => u t + v t) s = f u s + f v s;
  lin_scal : forall a u s, f (fun t => a * u t) s = a * f u s
}.

Record fock_op : Type := mkFock {
  fo : wave -> wave; fo_adj : wave -> wave; fo_lin : linear fo; fo_adj_lin : linear fo_adj }.

Definition fock_eq (x y : fock_op) : Prop :=
  (forall u s, fo x u s = fo y u s) /\ (forall u s, fo_adj x u s = fo_adj y u s).

Lemma lin_zero : linear (fun _ _ => g0).
Proof. constructor; intros; ring. Qed.
Lemma lin_id : linear (fun u => u).
Proof. constructor; intros; auto. Qed.
Lemma lin_plus f h : linear f -> linear h -> linear (fun u s => f u s + h u s).
Proof.
  intros F H; constructor; intros.
  - rewrite (lin_ext _ F u v), (lin_ext _ H u v); auto.
  - rewrite (lin_add _ F), (lin_add _ H); ring.
  - rewrite (lin_scal _ F), (lin_scal _ H); ring.
Qed.
Lemma lin_comp f h : linear f -> linear h -> linear (fun u => f (h u)).
Proof.
  intros F H; constructor; intros.
  - apply (lin_ext _ F). intros; apply (lin_ext _ H); auto.
  - rewrite <- (lin_add _ F). apply (lin_ext _ F). intros; apply (lin_add _ H).
  - rewrite <- (lin_scal _ F). apply (lin_ext _ F). intros; apply (lin_scal _ H).
Qed.
Lemma lin_smul a f : linear f -> linear (fun u s => a * f u s).
Proof.
  intros F; constructor; intros.
  - rewrite (lin_ext _ F u v); auto.
  - rewrite (lin_add _ F); ring.
  - rewrite (lin_scal _ F); ring.
Qed.

Definition fock_zero := mkFock _ _ lin_zero lin_zero.
Definition fock_one := mkFock _ _ lin_id lin_id.
Definition fock_add x y :=
  mkFock _ _ (lin_plus _ _ (fo_lin x) (fo_lin y)) (lin_plus _ _ (fo_adj_lin x) (fo_adj_lin y)).
Definition fock_mul x y :=
  mkFock _ _ (lin_comp _ _ (fo_lin x) (fo_lin y)) (lin_comp _ _ (fo_adj_lin y) (fo_adj_lin x)).
Definition fock_scal a x :=
  mkFock _ _ (lin_smul a _ (fo_lin x)) (lin_smul (gconj a) _ (fo_adj_lin x)).
Definition fock_star x := mkFock _ _ (fo_adj_lin x) (fo_lin x).

Lemma fock_equiv : Equivalence fock_eq.
Proof.
  split.
  - split; auto.
  - intros x y [H1 H2]; split; intros; symmetry; auto.
  - intros x y z [H1 H2] [H3 H4]; split; intros; etransitivity; eauto.
Qed.

Definition Fock : StarAlg.
Proof.
  refine (mkStarAlg fock_op fock_eq fock_zero fock_one fock_add fock_mul fock_scal fock_star
            fock_equiv _ _ _ _ _ _ _ _ _ _ _ _ _ _ _ _ _ _ _ _ _ _ _).
  - intros x x' [H1 H2] y y' [H3 H4]; split; intros; simpl; rewrite ?H1, ?H2, ?H3, ?H4; auto.
  - intros x x' [H1 H2] y y' [H3 H4]; split; intros; simpl.
    + rewrite H1. apply (lin_ext _ (fo_lin x')). intros; apply H3.
    + rewrite H4. apply (lin_ext _ (fo_adj_lin y')). intros; apply H2.
  - intros z x x' [H1 H2]; split; intros; simpl; rewrite ?H1, ?H2; auto.
  - intros x x' [H1 H2]; split; intros; simpl; rewrite ?H1, ?H2; auto.
  - intros; split; intros; simpl; ring.
  - intros; split; intros; simpl; ring.
  - intros; split; intros; simpl; ring.
  - intros; split; intros; simpl; auto.
  - intros; split; intros; simpl; auto.
  - intros; split; intros; simpl; auto.
  - intros; split; intros; simpl; auto. apply (lin_add _ (fo_adj_lin z)).
  - intros; split; intros; simpl; auto. apply (lin_add _ (fo_lin x)).
  - intros; split; intros; simpl; rewrite ?gconj_0; ring.
  - intros; split; intros; simpl; rewrite ?gconj_1; ring.
  - intros; split; intros; simpl; rewrite ?gconj_mul; ring.
  - intros; split; intros; simpl; rewrite ?gconj_add; ring.
  - intros; split; intros; simpl; ring.
  - intros; split; intros; simpl; auto. apply (lin_scal _ (fo_adj_lin y)).
  - intros; split; intros; simpl; auto. apply (lin_scal _ (fo_lin x)).
  - intros; split; intros; simpl; auto.
  - intros; split; intros; simpl; auto.
  - intros; split; intros; simpl; auto.
  - intros; split; intros; simpl; rewrite ?gconj_conj; auto.
Defined.

(** Weighted bit flips: (M u)(s) = ph(s) u(s xor m), with adjoint weight conj(ph(s xor m)). *)
Lemma lin_mono (ph : N -> GC) (m : N) : linear (fun u s => ph s * u (N.lxor s m)).
Proof. constructor; intros; [rewrite H|..]; try ring; auto. Qed.
Definition mono (ph : N -> GC) (m : N) : Fock :=
  mkFock _ _ (lin_mono ph m) (lin_mono (fun s => gconj (ph (N.lxor s m))) m).

(** Site of a label, bit of a site, parity of the bits at lower sites. *)
Definition site (l : Z) : nat := if Z.leb 0 l then 2 * Z.to_nat l else 2 * Z.to_nat (- l) - 1.
Definition bit (k : nat) : N := N.pow 2 (N.of_nat k).
Definition occ (s : N) (k : nat) : bool := N.testbit s (N.of_nat k).
Fixpoint below (k : nat) (s : N) : bool :=
  match k with O => false | S j => xorb (below j s) (occ s j) end.

Definition fX (l : Z) : Fock := mono (fun _ => g1) (bit (site l)).
Definition fY (l : Z) : Fock := mono (fun s => if occ s (site l) then gi else gopp gi) (bit (site l)).
Definition fZ (l : Z) : Fock := mono (fun s => gsgn (occ s (site l))) 0.
Definition fA (l : Z) : Fock := mono (fun s => gsgn (below (site l) s)) (bit (site l)).
Definition fB (l : Z) : Fock :=
  mono (fun s => gsgn (below (site l) s) * (if occ s (site l) then gi else gopp gi)) (bit (site l)).

(** The orbital operators in this representation. *)
Definition fock_gen (o : op) (l : Z) : Fock :=
  match o with
  | OX => fX l | OY => fY l | OZ => fZ l | OA => fA l | OB => fB l | OD => fZ l
  | _ => azero
  end.
