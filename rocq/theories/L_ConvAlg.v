(** Fermions, Majorana operators and the Jordan-Wigner transformation in a *-algebra. *)
From Coq Require Import List Arith Lia ZArith Bool Setoid Morphisms Sorted Permutation Qcanon.
From Verif Require Import GC S_Alg S_Den S_Conv M_OpString L_Alg L_Module L_StrAlg.
Import ListNotations.
Local Open Scope nat_scope.
Local Open Scope alg_scope.

Section Anti.
  Context {A : StarAlg}.
  Implicit Types x y z : A.
  Definition anti x y : Prop := x * y == gm1 · (y * x).
  Lemma anti_sym x y : anti x y -> anti y x.
  Proof. unfold anti. intros H. rewrite H, gm1_gm1. reflexivity. Qed.
  Lemma anti_add_r x y z : anti x y -> anti x z -> anti x (y + z).
  Proof. unfold anti. intros H1 H2. rewrite amul_add_r, H1, H2, amul_add_l, ascal_add_r. reflexivity. Qed.
  Lemma anti_scal_r a x y : anti x y -> anti x (a · y).
  Proof.
    unfold anti. intros H. rewrite ascal_mul_r, ascal_mul_l, H, !ascal_ascal. apply ascal_eq. ring.
  Qed.
  Lemma anti_sub_r x y z : anti x y -> anti x z -> anti x (asub y z).
  Proof. intros. apply anti_add_r; auto. apply anti_scal_r; auto. Qed.
  #[global] Instance anti_proper : Proper (aeq ==> aeq ==> iff) anti.
  Proof. intros x x' Hx y y' Hy. unfold anti. rewrite Hx, Hy. reflexivity. Qed.
  Lemma self_anti_zero x : x == gm1 · x -> x == azero.
  Proof.
    intros H. apply (ascal_cancel g2); [intros E; discriminate (f_equal re E) |].
    rewrite ascal_zero. transitivity (x + x); [msolve [x]; gring|].
    rewrite H at 1. msolve [x]; gring.
  Qed.
End Anti.

Section Car.
  Context {A : StarAlg}.
  Variable c : Z -> A.
  Hypothesis H : CAR A c.

  Lemma c_cc l m : anti (c l) (c m).
  Proof. apply (c_anti A c H). Qed.
  Lemma c_dd l m : anti ((c l)^*) ((c m)^*).
  Proof.
    unfold anti. rewrite <- !astar_mul, (c_anti A c H m l), astar_scal. apply ascal_eq. apply GC_ext; reflexivity.
  Qed.
  Lemma c_cd l m : l <> m -> anti (c l) ((c m)^*).
  Proof. intros N. apply (c_cdag_diff A c H); auto. Qed.
  Lemma c_dc l m : l <> m -> anti ((c l)^*) (c m).
  Proof. intros N. apply anti_sym, c_cd. auto. Qed.
  Lemma c_sq l : c l * c l == azero.
  Proof. apply self_anti_zero. apply (c_anti A c H). Qed.
  Lemma d_sq l : (c l)^* * (c l)^* == azero.
  Proof. apply self_anti_zero. apply c_dd. Qed.

  Lemma a_star l : (gmaj c OA l)^* == gmaj c OA l.
  Proof. cbn [gmaj]. rewrite astar_add, astar_star. apply aadd_comm. Qed.
  Lemma b_star l : (gmaj c OB l)^* == gmaj c OB l.
  Proof.
    cbn [gmaj]. unfold asub. rewrite astar_scal, astar_add, astar_scal, astar_star.
    msolve [c l; (c l)^*]; apply GC_ext; cbn; ring.
  Qed.
  Lemma a_sq l : gmaj c OA l * gmaj c OA l == aone.
  Proof.
    cbn [gmaj]. rewrite amul_add_l, !amul_add_r, c_sq, d_sq, <- (c_cdag_same A c H l).
    msolve [c l * (c l)^*; (c l)^* * c l]; gring.
  Qed.
  Lemma b_sq l : gmaj c OB l * gmaj c OB l == aone.
  Proof.
    cbn [gmaj]. unfold asub. rewrite ascal_mul_l, !ascal_mul_r, amul_add_l, !amul_add_r.
    rewrite !ascal_mul_l, !ascal_mul_r, c_sq, d_sq, <- (c_cdag_same A c H l).
    msolve [c l * (c l)^*; (c l)^* * c l]; apply GC_ext; cbn; ring.
  Qed.
  Lemma ab_prod l : gmaj c OA l * gmaj c OB l == gopp gi · asub ((c l)^* * c l) (c l * (c l)^*).
  Proof.
    cbn [gmaj]. unfold asub. rewrite !ascal_mul_r, amul_add_l, !amul_add_r.
    rewrite !ascal_mul_r, c_sq, d_sq.
    msolve [c l * (c l)^*; (c l)^* * c l]; apply GC_ext; cbn; ring.
  Qed.
  Lemma ba_prod l : gmaj c OB l * gmaj c OA l == gi · asub ((c l)^* * c l) (c l * (c l)^*).
  Proof.
    cbn [gmaj]. unfold asub. rewrite !ascal_mul_l, amul_add_l, !amul_add_r.
    rewrite !ascal_mul_l, c_sq, d_sq.
    msolve [c l * (c l)^*; (c l)^* * c l]; apply GC_ext; cbn; ring.
  Qed.
  Lemma d_def l : gmaj c OD l == gopp gi · (gmaj c OA l * gmaj c OB l).
  Proof.
    rewrite ab_prod. cbn [gmaj]. rewrite <- (c_cdag_same A c H l).
    msolve [c l * (c l)^*; (c l)^* * c l]; apply GC_ext; cbn; ring.
  Qed.
  Lemma aa_anti l m : l <> m -> anti (gmaj c OA l) (gmaj c OA m).
  Proof.
    intros N. cbn [gmaj]. apply anti_add_r; apply anti_sym, anti_add_r;
      auto using c_cc, c_dd, c_cd, c_dc.
  Qed.
  Lemma ab_anti l m : l <> m -> anti (gmaj c OA l) (gmaj c OB m).
  Proof.
    intros N. cbn [gmaj]. apply anti_scal_r. apply anti_sub_r; apply anti_sym, anti_add_r;
      auto using c_cc, c_dd, c_cd, c_dc.
  Qed.
  Lemma bb_anti l m : l <> m -> anti (gmaj c OB l) (gmaj c OB m).
  Proof.
    intros N. cbn [gmaj]. apply anti_scal_r, anti_sym, anti_scal_r, anti_sym.
    apply anti_sub_r; apply anti_sym, anti_sub_r; auto using c_cc, c_dd, c_cd, c_dc.
  Qed.

  Theorem gmaj_rel : MajoranaRel A (gmaj c OA) (gmaj c OB) (gmaj c OD).
  Proof.
    split.
    - apply a_star.
    - apply b_star.
    - apply a_sq.
    - apply b_sq.
    - intros; apply aa_anti; auto.
    - intros; apply bb_anti; auto.
    - intros l m. destruct (Z.eq_dec l m) as [<-|N]; [|apply ab_anti; auto].
      rewrite ab_prod, ba_prod, ascal_ascal. apply ascal_eq. apply GC_ext; cbn; ring.
    - apply d_def.
  Qed.
  Theorem gmaj_rep : rep Majorana (gmaj c).
  Proof. exact gmaj_rel. Qed.

  (** Expansions used by the conversion. *)
  Lemma cdag_ab l : (c l)^* == half · gmaj c OA l + gopp (gmul half gi) · gmaj c OB l.
  Proof. cbn [gmaj]. msolve [c l; (c l)^*]; apply GC_ext; apply Qc_is_canon; vm_compute; reflexivity. Qed.
  Lemma c_ab l : c l == half · gmaj c OA l + gmul half gi · gmaj c OB l.
  Proof. cbn [gmaj]. msolve [c l; (c l)^*]; apply GC_ext; apply Qc_is_canon; vm_compute; reflexivity. Qed.
  Lemma n_d l : (c l)^* * c l == gopp half · gmaj c OD l + half · aone.
  Proof. cbn [gmaj]. msolve [aone; (c l)^* * c l]; apply GC_ext; apply Qc_is_canon; vm_compute; reflexivity. Qed.
End Car.
