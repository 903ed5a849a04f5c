(** Proofs about normal modes: linear combinations of operators. *)
From Coq Require Import List ZArith Bool Arith Lia Setoid Morphisms Reals QArith Qreals Qcanon.
From Coquelicot Require Import Complex.
From Verif Require Import GC S_Alg S_RScal S_CFock S_CScal M_LinAlg M_Core S_Quad S_Modes L_Alg L_CScal L_Commutant L_PartIso L_Quad.
Import ListNotations.
Local Open Scope nat_scope.
Local Open Scope alg_scope.

Section Modes.
  Context {A : StarAlg} (S : RScal A) (m : nat).
  Notation comb := (combine_with S m).
  Lemma cs_star z x : (cs S z x)^* == cs S (Cconj z) (x^*).
  Proof.
    unfold cs. rewrite astar_add, astar_scal, !rs_star. destruct z as [a b]. cbn [Cconj fst snd]. rewrite rs_opp, ascal_ascal.
    replace (gmul gi gm1) with (gconj gi) by (apply GC_ext; reflexivity). reflexivity.
  Qed.
  Lemma cs_csum {T} (f : T -> C) l x : cs S (csum (map f l)) x == asum (map (fun t => cs S (f t) x) l).
  Proof. induction l as [|t l IH]; [apply cs_0|]. cbn [map]. change (csum (f t :: map f l)) with (f t + csum (map f l))%C. rewrite cs_add_l, IH. reflexivity. Qed.
  Lemma cs_map {T} z (f : T -> A) l : cs S z (asum (map f l)) == asum (map (fun t => cs S z (f t)) l).
  Proof. rewrite cs_asum, map_map. reflexivity. Qed.
  Lemma cs_eq z w x : z = w -> cs S z x == cs S w x.
  Proof. intros ->. reflexivity. Qed.

  Lemma comb_ext v w x : (forall j, In j (below m) -> v j = w j) -> comb v x == comb w x.
  Proof. intros H. apply asum_ext. intros j Hj. apply cs_eq. auto. Qed.
  Lemma comb_ext_r v x y : (forall j, In j (below m) -> x j == y j) -> comb v x == comb v y.
  Proof. intros H. apply asum_ext. intros j Hj. rewrite H by auto. reflexivity. Qed.
  Lemma comb_scale z v x : comb (fun j => z * v j)%C x == cs S z (comb v x).
  Proof. unfold combine_with. rewrite cs_map. apply asum_ext. intros j _. symmetry. apply cs_cs. Qed.
  Lemma comb_zero x : comb (fun _ => RtoC 0) x == azero.
  Proof. apply asum_zero. intros j _. apply cs_0. Qed.
  Lemma comb_star v x : (comb v x)^* == comb (fun j => Cconj (v j)) (fun j => (x j)^*).
  Proof. unfold combine_with. rewrite asum_star, map_map. apply asum_ext. intros j _. apply cs_star. Qed.
  (** Anticommutators. *)
  Lemma comb_anti1 v x g (a : Z -> C) : (forall j, In j (below m) -> x j * g + g * x j == cs S (a j) aone) ->
    comb v x * g + g * comb v x == cs S (csum (map (fun j => v j * a j)%C (below m))) aone.
  Proof.
    intros H. unfold combine_with. rewrite asum_mul_r, asum_mul_l, !map_map, <- asum_map_add, cs_csum. apply asum_ext. intros j Hj.
    rewrite cs_mul_l, cs_mul_r, <- cs_add_r, H by auto. apply cs_cs.
  Qed.
  Lemma anti_sym (x g : A) r : x * g + g * x == r -> g * x + x * g == r.
  Proof. intros <-. apply aadd_comm. Qed.

  (** Σ F_jk x_j y_k *)
  Definition cform (F : Z -> Z -> C) (x y : Z -> A) : A := asum (map (fun j => asum (map (fun k => cs S (F j k) (x j * y k)) (below m))) (below m)).
  Lemma form_cform M x y : form m M x y == cform (fun j k => to_C (M j k)) x y.
  Proof. apply asum_ext. intros j _. apply asum_ext. intros k _. symmetry. exact (cs_emb S (M j k) (x j * y k)). Qed.
  Lemma cform_ext F G x y : (forall j k, In j (below m) -> In k (below m) -> F j k = G j k) -> cform F x y == cform G x y.
  Proof. intros H. apply asum_ext. intros j Hj. apply asum_ext. intros k Hk. apply cs_eq. auto. Qed.
  Lemma cform_prod v w x y : cform (fun j k => v j * w k)%C x y == comb v x * comb w y.
  Proof.
    unfold cform, combine_with. rewrite asum_mul_r, map_map. apply asum_ext. intros j _. rewrite asum_mul_l, map_map. apply asum_ext. intros k _.
    rewrite cs_mul_l, cs_mul_r, cs_cs. reflexivity.
  Qed.
  Lemma cform_add F G x y : cform (fun j k => F j k + G j k)%C x y == cform F x y + cform G x y.
  Proof. unfold cform. rewrite <- asum_map_add. apply asum_ext. intros j _. rewrite <- asum_map_add. apply asum_ext. intros k _. apply cs_add_l. Qed.
  Lemma cform_zero x y : cform (fun _ _ => RtoC 0) x y == azero.
  Proof. apply asum_zero. intros j _. apply asum_zero. intros k _. apply cs_0. Qed.
  Lemma cs_real r x : cs S (RtoC r) x == rs S r x.
  Proof. unfold cs, RtoC. cbn [fst snd]. rewrite rs_0, ascal_zero, aadd_0_r. reflexivity. Qed.

  (** A matrix with the spectral decomposition Σ_p e_p v_p v_p^*. *)
  Lemma cform_spectral (ps : list (R * list C)) F x y :
    (forall j k, In j (below m) -> In k (below m) -> F j k = csum (map (fun p => RtoC (fst p) * (at_ (snd p) j * Cconj (at_ (snd p) k)))%C ps)) ->
    cform F x y == asum (map (fun p => rs S (fst p) (comb (at_ (snd p)) x * mode_of S m (snd p) y)) ps).
  Proof.
    intros H. rewrite (cform_ext _ _ x y H). clear H. induction ps as [|p ps IH]; [apply cform_zero|].
    rewrite (cform_ext _ (fun j k => (RtoC (fst p) * at_ (snd p) j) * Cconj (at_ (snd p) k) + csum (map (fun p => RtoC (fst p) * (at_ (snd p) j * Cconj (at_ (snd p) k)))%C ps))%C).
    2: { intros j k _ _. cbn [map]. unfold csum at 1. cbn [fold_right]. unfold csum. ring. }
    rewrite cform_add, IH, (cform_prod (fun j => RtoC (fst p) * at_ (snd p) j)%C (fun k => Cconj (at_ (snd p) k))), comb_scale, cs_mul_l, cs_real. reflexivity.
  Qed.

  (** Commutators with Σ F_jk x_j y_k. *)
  Lemma cform_comm F x y g a b :
    (forall j, In j (below m) -> x j * g + g * x j == cs S (a j) aone) -> (forall k, In k (below m) -> y k * g + g * y k == cs S (b k) aone) ->
    cform F x y * g + comb (fun k => csum (map (fun j => F j k * a j)%C (below m))) y == g * cform F x y + comb (fun j => csum (map (fun k => F j k * b k)%C (below m))) x.
  Proof.
    intros Hx Hy.
    assert (E1 : comb (fun k => csum (map (fun j => F j k * a j)%C (below m))) y == asum (map (fun j => asum (map (fun k => cs S (F j k) (cs S (a j) (y k))) (below m))) (below m))).
    { rewrite asum_swap. apply asum_ext. intros k _. rewrite cs_csum. apply asum_ext. intros j _. symmetry. apply cs_cs. }
    assert (E2 : comb (fun j => csum (map (fun k => F j k * b k)%C (below m))) x == asum (map (fun j => asum (map (fun k => cs S (F j k) (cs S (b k) (x j))) (below m))) (below m))).
    { apply asum_ext. intros j _. rewrite cs_csum. apply asum_ext. intros k _. symmetry. apply cs_cs. }
    rewrite E1, E2. unfold cform. rewrite asum_mul_r, asum_mul_l, !map_map, <- !asum_map_add. apply asum_ext. intros j Hj.
    rewrite asum_mul_r, asum_mul_l, !map_map, <- !asum_map_add. apply asum_ext. intros k Hk.
    rewrite cs_mul_l, cs_mul_r, <- !cs_add_r. apply cs_proper.
    assert (U : cs S (a j) (y k) == x j * g * y k + g * x j * y k).
    { rewrite <- (amul_1_l A (y k)) at 1. rewrite <- cs_mul_l, <- Hx, amul_add_l by auto. reflexivity. }
    assert (V : cs S (b k) (x j) == x j * y k * g + x j * g * y k).
    { rewrite <- (amul_1_r A (x j)) at 1. rewrite <- cs_mul_r, <- Hy, amul_add_r, !amul_assoc by auto. reflexivity. }
    rewrite U, V, !amul_assoc. rewrite aadd_assoc, (aadd_comm _ (g * x j * y k)). reflexivity.
  Qed.
End Modes.
