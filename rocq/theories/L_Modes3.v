(** Proofs about normal modes: anticommutators, commutators with the Operator, particles and holes. *)
From Coq Require Import List ZArith Bool Arith Lia Permutation Sorted Setoid Morphisms Reals QArith Qreals Qcanon Lra.
From Coquelicot Require Import Complex.
From Verif Require Import GC Exn S_Alg S_RScal S_CFock S_CScal M_LinAlg M_Quad M_Core M_Modes S_LinAlg S_Core S_Greedy S_Sparsify S_Quad S_Modes
  L_Alg L_Module L_CScal L_LinAlg L_Inter L_Herm L_PartIso L_Dim L_Generate2 L_Fidelity L_Sparsify L_Commutant L_Quad L_Diagonalize L_Modes L_Modes2.
Import M_LinAlg ListNotations.
Local Open Scope nat_scope.
Local Open Scope alg_scope.

Lemma csum_null {T} (f : T -> C) l : csum (map (fun t => f t * RtoC 0)%C l) = RtoC 0.
Proof. induction l as [|a l IH]; auto. cbn [map]. unfold csum in *. cbn [fold_right]. rewrite IH. ring. Qed.

Section Dual.
  Context {A : StarAlg} (S : RScal A) (m : nat) (x : Z -> A).
  Hypothesis Hd : forall j k, In j (below m) -> In k (below m) -> x j * (x k)^* + (x k)^* * x j == cs S (if Z.eqb j k then RtoC 1 else RtoC 0) aone.
  Lemma mode_star v : (mode_of S m v x)^* == combine_with S m (at_ v) (fun j => (x j)^*).
  Proof. unfold mode_of. rewrite comb_star. apply comb_ext. intros j _. apply Cconj_conj. Qed.
  Lemma dual_star v j : In j (below m) -> x j * combine_with S m v (fun k => (x k)^*) + combine_with S m v (fun k => (x k)^*) * x j == cs S (v j) aone.
  Proof.
    intros Hj. apply anti_sym. rewrite (comb_anti1 S m v (fun k => (x k)^*) (x j) (fun k => if Z.eqb k j then RtoC 1 else RtoC 0)).
    - apply cs_eq. apply csum_pick; auto. apply below_nodup.
    - intros k Hk. apply anti_sym. rewrite Hd by auto. apply cs_eq. rewrite Z.eqb_sym. auto.
  Qed.
  Lemma dual_anti v w : length v = m -> length w = m ->
    mode_of S m v x * (mode_of S m w x)^* + (mode_of S m w x)^* * mode_of S m v x == cs S (inner v w) aone.
  Proof.
    intros Lv Lw. rewrite mode_star. unfold mode_of. rewrite (comb_anti1 S m _ x _ (at_ w)) by (intros j Hj; apply dual_star; auto). apply cs_eq. symmetry. apply inner_at; auto.
  Qed.
End Dual.

Section TB.
  Context {A : StarAlg} (S : RScal A) (n : nat) (c : Z -> A).
  Hypothesis HC : CAR A c.
  Lemma car_dual j k : c j * (c k)^* + (c k)^* * c j == cs S (if Z.eqb j k then RtoC 1 else RtoC 0) aone.
  Proof.
    destruct HC as [H1 H2 H3]. destruct (Z.eqb_spec j k) as [->|N]; [rewrite cs_1; apply H2|]. rewrite cs_0, (H3 j k N). msolve [(c k)^* * c j]; gring.
  Qed.
  Lemma car_null j k : c j * c k + c k * c j == azero.
  Proof. destruct HC as [H1 H2 H3]. rewrite (H1 j k). msolve [c k * c j]; gring. Qed.
  Lemma null_star (x y : A) : x * y + y * x == azero -> x^* * y^* + y^* * x^* == azero.
  Proof. intros H. rewrite <- !astar_mul, <- astar_add, (aadd_comm A (y * x)), H. apply astar_zero. Qed.
  Lemma comb_null v w (x : Z -> A) : (forall j k, x j * x k + x k * x j == azero) ->
    combine_with S n v x * combine_with S n w x + combine_with S n w x * combine_with S n v x == azero.
  Proof.
    intros H. assert (K : forall j, combine_with S n w x * x j + x j * combine_with S n w x == azero).
    { intros j. rewrite (comb_anti1 S n w x (x j) (fun _ => RtoC 0)) by (intros k _; rewrite H, cs_0; reflexivity). rewrite <- (cs_0 S aone). apply cs_eq. apply csum_null. }
    rewrite (comb_anti1 S n v x _ (fun _ => RtoC 0)) by (intros k _; rewrite (anti_sym _ _ _ (K k)), cs_0; reflexivity). rewrite <- (cs_0 S aone). apply cs_eq. apply csum_null.
  Qed.
  Lemma tb_fermions (vs : list (list C)) : vectors n vs -> orthonormal vs -> fermion_list (map (fun v => mode_of S n v c) vs).
  Proof.
    intros V [O1 O2] i j f g Hi Hj. rewrite nth_error_map in Hi, Hj. destruct (nth_error vs i) as [v|] eqn:Ei; [|discriminate]. destruct (nth_error vs j) as [w|] eqn:Ej; [|discriminate].
    injection Hi as <-. injection Hj as <-. split; [apply comb_null; apply car_null|].
    rewrite (dual_anti S n c) by (try (intros; apply car_dual); apply V; eapply nth_error_In; eauto).
    destruct (Nat.eqb_spec i j) as [->|N].
    - rewrite Ei in Ej. injection Ej as <-. rewrite (cs_eq S _ _ aone (O1 v (nth_error_In _ _ Ei))), cs_1, ascal_1. reflexivity.
    - rewrite (cs_eq S _ _ aone (O2 i j v w Ei Ej N)), cs_0, ascal_0. reflexivity.
  Qed.
  Lemma tb_ladder F l v : length v = n -> rows_vec (rows_z n F) v = map (Cmult (RtoC l)) v ->
    ladder S (form n F (fun j => (c j)^*) c) l ((mode_of S n v c)^*).
  Proof.
    intros Lv E. unfold ladder. rewrite mode_star, form_cform. set (g := combine_with S n (at_ v) (fun j => (c j)^*)).
    assert (K := cform_comm S n (fun j k => to_C (F j k)) (fun j => (c j)^*) c g (fun _ => RtoC 0) (at_ v)).
    assert (Z : combine_with S n (fun k => csum (map (fun j => to_C (F j k) * RtoC 0)%C (below n))) c == azero).
    { rewrite (comb_ext S n _ (fun _ => RtoC 0)); [apply comb_zero|]. intros k _. apply (csum_null (fun j => to_C (F j k))). }
    rewrite Z, aadd_0_r in K. rewrite K; clear K Z.
    - rewrite (comb_ext S n _ (fun j => RtoC l * at_ v j)%C) by (intros j Hj; apply eigen_at; auto). rewrite comb_scale, cs_real. reflexivity.
    - intros j Hj. rewrite cs_0. unfold g.
      apply anti_sym. rewrite (comb_anti1 S n _ _ _ (fun _ => RtoC 0)).
      + rewrite <- (cs_0 S aone). apply cs_eq. apply csum_null.
      + intros k _. rewrite cs_0. apply null_star. apply car_null.
    - intros k Hk. apply dual_star; auto. intros; apply car_dual.
  Qed.
  Lemma tb_sum F ps : full_solution (rows_z n F) ps -> orthonormal (map snd ps) ->
    form n F (fun j => (c j)^*) c == occupation S (map (fun p => (fst p, mode_of S n (snd p) c)) ps).
  Proof.
    intros Hf Ho. rewrite form_cform, (cform_spectral S n ps) by (apply spectral; auto). unfold occupation. rewrite map_map. apply asum_ext. intros p _. cbn [fst snd]. rewrite mode_star. reflexivity.
  Qed.
End TB.
