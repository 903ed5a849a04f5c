(** The complex representation satisfies the Majorana relations. *)
From Coq Require Import List ZArith NArith Bool Setoid Morphisms Reals Lia Lra.
From Coquelicot Require Import Complex.
From Verif Require Import GC S_Alg M_OpString S_Den S_Fock S_RScal S_CFock L_Alg L_Fock.
Import ListNotations.
Local Open Scope alg_scope.

Lemma cfock_nontrivial : ~ (@aone CFock == azero).
Proof. intros [H _]. specialize (H (fun _ => RtoC 1) 0%N). cbn in H. injection H. lra. Qed.

Lemma cmono_mul p1 m1 p2 m2 :
  cmono p1 m1 * cmono p2 m2 == cmono (fun s => gmul (p1 s) (p2 (N.lxor s m1))) (N.lxor m1 m2).
Proof.
  split; intros u s; simpl.
  - rewrite !N.lxor_assoc, emb_mul. ring.
  - rewrite gconj_mul, emb_mul.
    replace (N.lxor (N.lxor s (N.lxor m1 m2)) m1) with (N.lxor s m2)
      by (rewrite (N.lxor_comm m1 m2), <- (N.lxor_assoc s m2 m1), lxor_cancel; auto).
    replace (N.lxor (N.lxor s m2) m1) with (N.lxor s (N.lxor m1 m2))
      by (rewrite N.lxor_assoc, (N.lxor_comm m2 m1); auto).
    ring.
Qed.
Lemma cmono_scal z p m : z · cmono p m == cmono (fun s => gmul z (p s)) m.
Proof. split; intros u s; simpl; rewrite ?gconj_mul, ?emb_mul, ?emb_conj; ring. Qed.
Lemma cmono_star p m : (cmono p m)^* == cmono (fun s => gconj (p (N.lxor s m))) m.
Proof. split; intros u s; simpl; rewrite ?gconj_conj, ?lxor_cancel; auto. Qed.
Lemma cmono_eq p q m n : (forall s, p s = q s) -> m = n -> cmono p m == cmono q n.
Proof. intros H ->. split; intros u s; simpl; rewrite H; auto. Qed.
Lemma cmono_one : @aone CFock == cmono (fun _ => g1) 0.
Proof. split; intros u s; simpl; rewrite ?gconj_1, N.lxor_0_r, emb_1; ring. Qed.

Ltac cmono_solve :=
  rewrite ?cmono_one, ?cmono_star, ?cmono_mul, ?cmono_scal;
  apply cmono_eq;
  [ let s := fresh "s" in intros s; rewrite ?below_flip, ?N.lxor_0_r, ?occ_lxor, ?occ_bit, ?Nat.eqb_refl, ?Nat.ltb_irrefl, ?xorb_true_r, ?xorb_false_r
  | rewrite ?N.lxor_nilpotent, ?N.lxor_0_r, ?N.lxor_0_l; try apply N.lxor_comm; try reflexivity ].

Theorem cfock_majorana : rep Majorana cgen.
Proof.
  simpl. unfold cgen. constructor.
  - intros l. cmono_solve. destruct (below (site l) s); apply GC_ext; reflexivity.
  - intros l. cmono_solve. destruct (below (site l) s), (occ s (site l)); apply GC_ext; reflexivity.
  - intros l. cmono_solve. destruct (below (site l) s); apply GC_ext; reflexivity.
  - intros l. cmono_solve. destruct (below (site l) s), (occ s (site l)); apply GC_ext; reflexivity.
  - intros l m H. cmono_solve. rewrite (site_ltb l m H).
    destruct (below (site l) s), (below (site m) s), (site m <? site l)%nat; apply GC_ext; reflexivity.
  - intros l m H. cmono_solve. rewrite (site_ltb l m H), (site_eqb l m H), (site_eqb m l (not_eq_sym H)), !xorb_false_r.
    destruct (below (site l) s), (below (site m) s), (site m <? site l)%nat, (occ s (site l)), (occ s (site m)); apply GC_ext; reflexivity.
  - intros l m. destruct (Z.eq_dec l m) as [<-|H].
    + cmono_solve. destruct (below (site l) s), (occ s (site l)); apply GC_ext; reflexivity.
    + cmono_solve. rewrite (site_ltb l m H), (site_eqb l m H), xorb_false_r.
      destruct (below (site l) s), (below (site m) s), (site m <? site l)%nat, (occ s (site m)); apply GC_ext; reflexivity.
  - intros l. cmono_solve. destruct (below (site l) s), (occ s (site l)); apply GC_ext; reflexivity.
Qed.

Theorem cfock_pauli : rep Pauli cgen.
Proof.
  simpl. unfold cgen. constructor; try intros l.
  - cmono_solve. apply GC_ext; reflexivity.
  - cmono_solve. destruct (occ s (site l)); apply GC_ext; reflexivity.
  - cmono_solve. destruct (occ s (site l)); apply GC_ext; reflexivity.
  - cmono_solve. apply GC_ext; reflexivity.
  - cmono_solve. destruct (occ s (site l)); apply GC_ext; reflexivity.
  - cmono_solve. destruct (occ s (site l)); apply GC_ext; reflexivity.
  - cmono_solve. destruct (occ s (site l)); apply GC_ext; reflexivity.
  - intros m Hlm u v Hu Hv. pose proof (site_eqb l m Hlm) as E1. pose proof (site_eqb m l (not_eq_sym Hlm)) as E2.
    simpl in Hu, Hv.
    destruct Hu as [<-|[<-|[<-|[] ] ] ], Hv as [<-|[<-|[<-|[] ] ] ];
      cmono_solve; rewrite ?E1, ?E2, ?xorb_false_r;
      repeat match goal with |- context [occ ?s ?k] => destruct (occ s k) end; apply GC_ext; reflexivity.
Qed.
