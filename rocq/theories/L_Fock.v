(** The concrete representation satisfies the relations. *)
From Coq Require Import List ZArith NArith Bool Setoid Morphisms Ring Lia Arith.
From Verif Require Import GC S_Alg M_OpString S_Den S_Fock L_Alg.
Import ListNotations.
Local Open Scope alg_scope.

Lemma fock_nontrivial : ~ (@aone Fock == azero).
Proof. intros [H _]. specialize (H (fun _ => g1) 0%N). simpl in H. apply g1_neq_g0; auto. Qed.

Lemma site_inj l m : site l = site m -> l = m.
Proof. unfold site. destruct (Z.leb_spec 0 l), (Z.leb_spec 0 m); lia. Qed.

Lemma lxor_cancel s m : N.lxor (N.lxor s m) m = s.
Proof. rewrite N.lxor_assoc, N.lxor_nilpotent, N.lxor_0_r. reflexivity. Qed.

Lemma mono_mul p1 m1 p2 m2 :
  mono p1 m1 * mono p2 m2 == mono (fun s => gmul (p1 s) (p2 (N.lxor s m1))) (N.lxor m1 m2).
Proof.
  split; intros u s; simpl.
  - rewrite !N.lxor_assoc. ring.
  - rewrite gconj_mul.
    replace (N.lxor (N.lxor s (N.lxor m1 m2)) m1) with (N.lxor s m2)
      by (rewrite (N.lxor_comm m1 m2), <- (N.lxor_assoc s m2 m1), lxor_cancel; auto).
    replace (N.lxor (N.lxor s m2) m1) with (N.lxor s (N.lxor m1 m2))
      by (rewrite N.lxor_assoc, (N.lxor_comm m2 m1); auto).
    ring.
Qed.

Lemma mono_scal z p m : z · mono p m == mono (fun s => gmul z (p s)) m.
Proof. split; intros u s; simpl; rewrite ?gconj_mul; ring. Qed.

Lemma mono_star p m : (mono p m)^* == mono (fun s => gconj (p (N.lxor s m))) m.
Proof. split; intros u s; simpl; rewrite ?gconj_conj, ?lxor_cancel; auto. Qed.

Lemma mono_eq p q m n : (forall s, p s = q s) -> m = n -> mono p m == mono q n.
Proof. intros H ->. split; intros u s; simpl; rewrite H; auto. Qed.

Lemma mono_one : @aone Fock == mono (fun _ => g1) 0.
Proof. split; intros u s; simpl; rewrite ?gconj_1, N.lxor_0_r; ring. Qed.

Lemma occ_bit k j : occ (bit k) j = Nat.eqb k j.
Proof.
  unfold occ, bit. rewrite N.pow2_bits_eqb. destruct (Nat.eqb_spec k j).
  - subst. apply N.eqb_refl.
  - apply N.eqb_neq. lia.
Qed.

Lemma occ_lxor s t k : occ (N.lxor s t) k = xorb (occ s k) (occ t k).
Proof. apply N.lxor_spec. Qed.

Lemma below_flip k j s : below k (N.lxor s (bit j)) = xorb (below k s) (Nat.ltb j k).
Proof.
  induction k; simpl; auto.
  rewrite IHk, occ_lxor, occ_bit.
  replace (j <? S k)%nat with (xorb (j <? k)%nat (j =? k)%nat).
  - destruct (below k s), (occ s k), (j <? k)%nat, (j =? k)%nat; auto.
  - destruct (Nat.ltb_spec j k), (Nat.eqb_spec j k), (Nat.ltb_spec j (S k)); simpl; lia.
Qed.

Lemma site_eqb l m : l <> m -> Nat.eqb (site l) (site m) = false.
Proof. intros H. apply Nat.eqb_neq. intros E. apply H, site_inj; auto. Qed.

Lemma site_ltb l m : l <> m -> Nat.ltb (site l) (site m) = negb (Nat.ltb (site m) (site l)).
Proof.
  intros H. pose proof (site_eqb l m H) as E. apply Nat.eqb_neq in E.
  destruct (Nat.ltb_spec (site l) (site m)), (Nat.ltb_spec (site m) (site l)); simpl; lia.
Qed.

Ltac mono_solve :=
  rewrite ?mono_one, ?mono_star, ?mono_mul, ?mono_scal;
  apply mono_eq;
  [ let s := fresh "s" in intros s; rewrite ?below_flip, ?N.lxor_0_r, ?occ_lxor, ?occ_bit, ?Nat.eqb_refl, ?Nat.ltb_irrefl, ?xorb_true_r, ?xorb_false_r
  | rewrite ?N.lxor_nilpotent, ?N.lxor_0_r, ?N.lxor_0_l; try apply N.lxor_comm; try reflexivity ].

Theorem fock_pauli : rep Pauli fock_gen.
Proof.
  simpl. unfold fock_gen. constructor; try (intros l; unfold fX, fY, fZ).
  - mono_solve. apply GC_ext; reflexivity.
  - mono_solve. destruct (occ s (site l)); apply GC_ext; reflexivity.
  - mono_solve. destruct (occ s (site l)); apply GC_ext; reflexivity.
  - mono_solve. apply GC_ext; reflexivity.
  - mono_solve. destruct (occ s (site l)); apply GC_ext; reflexivity.
  - mono_solve. destruct (occ s (site l)); apply GC_ext; reflexivity.
  - mono_solve. destruct (occ s (site l)); apply GC_ext; reflexivity.
  - intros m Hlm u v Hu Hv. pose proof (site_eqb l m Hlm) as E1. pose proof (site_eqb m l (not_eq_sym Hlm)) as E2.
    simpl in Hu, Hv.
    destruct Hu as [<-|[<-|[<-|[]]]], Hv as [<-|[<-|[<-|[]]]];
      mono_solve; rewrite ?E1, ?E2, ?xorb_false_r;
      repeat match goal with |- context [occ ?s ?k] => destruct (occ s k) end; apply GC_ext; reflexivity.
Qed.

Theorem fock_majorana : rep Majorana fock_gen.
Proof.
  simpl. unfold fock_gen. constructor.
  - intros l; unfold fA. mono_solve. destruct (below (site l) s); apply GC_ext; reflexivity.
  - intros l; unfold fB. mono_solve. destruct (below (site l) s), (occ s (site l)); apply GC_ext; reflexivity.
  - intros l; unfold fA. mono_solve. destruct (below (site l) s); apply GC_ext; reflexivity.
  - intros l; unfold fB. mono_solve. destruct (below (site l) s), (occ s (site l)); apply GC_ext; reflexivity.
  - intros l m H; unfold fA. mono_solve. rewrite (site_ltb l m H).
    destruct (below (site l) s), (below (site m) s), (site m <? site l)%nat; apply GC_ext; reflexivity.
  - intros l m H; unfold fB. mono_solve. rewrite (site_ltb l m H), (site_eqb l m H), (site_eqb m l (not_eq_sym H)), !xorb_false_r.
    destruct (below (site l) s), (below (site m) s), (site m <? site l)%nat, (occ s (site l)), (occ s (site m)); apply GC_ext; reflexivity.
  - intros l m; unfold fA, fB. destruct (Z.eq_dec l m) as [<-|H].
    + mono_solve. destruct (below (site l) s), (occ s (site l)); apply GC_ext; reflexivity.
    + mono_solve. rewrite (site_ltb l m H), (site_eqb l m H), xorb_false_r.
      destruct (below (site l) s), (below (site m) s), (site m <? site l)%nat, (occ s (site m)); apply GC_ext; reflexivity.
  - intros l; unfold fA, fB, fZ. mono_solve. destruct (below (site l) s), (occ s (site l)); apply GC_ext; reflexivity.
Qed.
