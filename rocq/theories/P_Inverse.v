(** C120-C121: [_inverse_ladder_operators]. *)
From Coq Require Import List ZArith Bool Arith Lia Permutation Sorted Setoid Morphisms Reals QArith Qreals Qcanon Lra.
From Coquelicot Require Import Complex.
From Verif Require L_Heap L_Dim L_PartIso L_Generate2 L_Struct.
From Verif Require Import GC Exn S_Alg S_Den S_Basis S_OpAlg S_RScal S_CFock S_CScal M_OpString M_Algebra M_Basis M_OpAlg M_LinAlg M_Core M_Greedy M_Ladder S_LinAlg S_Core S_Greedy S_Transform S_Modes S_SelectedCI S_Ladder
  L_Alg L_CScal L_LinAlg L_Inter L_Herm L_Core L_Sparsify L_Commuting L_Basis L_Operator L_PropBasis L_OpAlg L_PropOpAlg L_Diagonalize L_Modes2 L_CFock L_Conversion L_Cumulative L_Ladder L_Ladder2 L_Ladder3 L_Ladder4 L_Ladder5 L_Ladder6 L_Ladder7 P_Greedy P_Modes P_SelectedCI P_Ladder.
Import M_LinAlg ListNotations.
Local Open Scope nat_scope.
Local Open Scope alg_scope.

(** C120.  [_inverse_ladder_operators] of an Operator R and a Basis, with an exact singular value
    decomposition and pseudo-inverse of the Liouvillian matrix.  The null vectors are orthonormal and
    their commutators with R have a norm below tol (as vectors of coefficients of different strings
    U); if there are at least as many strings U as strings of the Basis, every operator of the Basis
    that commutes with R is a combination of the null vectors.  If some operator O of the Basis
    satisfies [O, R] = R, then a particular solution is returned, and it satisfies this equation. *)
Theorem C120_inverse : forall ty b o Or tol, ty <> Fermion -> good_basis ty b -> good_op ty o ->
  (forall L E, liouvillian_matrix MCommutator (ABasis b) o = Ok (L, E) -> exact_svd (basis_len b) (dense_rows L) (la_svd Or (basis_len b) (dense_rows L))) ->
  (forall L E, liouvillian_matrix MCommutator (ABasis b) o = Ok (L, E) -> exact_pinv (basis_len b) (dense_rows L) (la_pinv Or (basis_len b) (dense_rows L))) ->
  exists p N U, inverse_ladder_operators Or b o tol = Ok (p, N) /\ NoDup U /\
    (forall u, In u U -> string_ok ty u /\ canonical u /\ exists s c, In s (b_strings b) /\ In c (b_strings (o_basis o)) /\ commutes_to ty s c u) /\
    (forall v, In v N -> length v = basis_len b) /\ orthonormal N /\
    (forall v, In v N -> exists c, length c = length U /\ (norm2c c < tol * tol)%R /\
       forall (A : StarAlg) (S : RScal A) (g : op -> Z -> A), rep ty g -> exact MCommutator (cden S g (CBasis b) v) (lincomb g (op_terms o)) == clincomb S g (combine c U)) /\
    ((0 < tol)%R -> basis_len b <= length U ->
       forall (A : StarAlg) (S : RScal A) (g : op -> Z -> A) u, rep ty g -> ~ (@aone A == azero) -> length u = basis_len b ->
         exact MCommutator (cden S g (CBasis b) u) (lincomb g (op_terms o)) == azero -> span (basis_len b) N u) /\
    (forall x, p = Some x -> length x = basis_len b) /\
    ((forall s, In s (b_strings (o_basis o)) -> canonical s) -> (forall c, In c (o_coeffs o) -> c <> g0) ->
       forall (A : StarAlg) (S : RScal A) (g : op -> Z -> A) u, rep ty g -> ~ (@aone A == azero) -> length u = basis_len b ->
         exact MCommutator (cden S g (CBasis b) u) (lincomb g (op_terms o)) == lincomb g (op_terms o) ->
         exists x, p = Some x /\ forall (A : StarAlg) (S : RScal A) (g : op -> Z -> A), rep ty g ->
           exact MCommutator (cden S g (CBasis b) x) (lincomb g (op_terms o)) == lincomb g (op_terms o)).
Proof. intros. apply (inverse_ok ty b o Or tol); auto. Qed.
Print Assumptions C120_inverse.

(* ------------------------------------------------------------- examples *)

Lemma dense_map L : dense_rows L = map (map to_C) (map (fun i => map (sm_entry L i) (seq 0 (sm_cols L))) (seq 0 (sm_rows L))).
Proof. exact (sub_rows_map L (seq 0 (sm_rows L)) (seq 0 (sm_cols L))). Qed.

(** Z is an inverse of X + iY: [Z/2, X + iY] = X + iY. *)
Definition inv_ex : lad_oracles := mkLad lad_eigh (fun _ _ => ([2 * sqrt 2]%R, [[RtoC 1]])) (fun _ _ => [[(0, - / 4)%R; (/ 4, 0)%R]]) argsort.
Example C120_example : exists b o L E, basis_new [sZ1] = Ok b /\ op_new [g1; gint 0 1] [sX1; sY1] None = Ok o /\ good_basis Pauli b /\ good_op Pauli o /\
  liouvillian_matrix MCommutator (ABasis b) o = Ok (L, E) /\ exact_svd (basis_len b) (dense_rows L) (la_svd inv_ex (basis_len b) (dense_rows L)) /\
  exact_pinv (basis_len b) (dense_rows L) (la_pinv inv_ex (basis_len b) (dense_rows L)) /\
  (forall s, In s (b_strings (o_basis o)) -> canonical s) /\ (forall c, In c (o_coeffs o) -> c <> g0) /\
  forall tol, (0 < tol < 1)%R -> inverse_ladder_operators inv_ex b o tol = Ok (Some [RtoC (/ 2)], []).
Proof.
  destruct (basis_new [sZ1]) as [b|] eqn:Eb; [|vm_compute in Eb; discriminate]. destruct (op_new [g1; gint 0 1] [sX1; sY1] None) as [o|] eqn:Eo; [|vm_compute in Eo; discriminate].
  assert (Sb : b_strings b = [sZ1]) by (apply basis_new_ok in Eb; apply Eb). assert (Lb : basis_len b = 1) by (unfold basis_len; rewrite Sb; reflexivity).
  assert (Gb : good_basis Pauli b) by (apply (good_basis_intro Pauli _ _ Eb); intros s [<-|[]]; apply ok_Z1).
  assert (Ho : good_op Pauli o).
  { apply (good_op_intro Pauli _ _ _ Eo); auto; [vm_compute in Eo; injection Eo as <-; reflexivity | intros s [<-|[<-|[]]]; [apply ok_X1 | apply ok_Y1]]. }
  destruct (liouvillian_matrix MCommutator (ABasis b) o) as [[L E]|] eqn:HL; [|vm_compute in Eb; injection Eb as <-; vm_compute in Eo; injection Eo as <-; vm_compute in HL; discriminate].
  exists b, o, L, E. split; auto. split; auto. split; auto. split; auto. split; auto.
  assert (G : map (fun i => map (sm_entry L i) (seq 0 (sm_cols L))) (seq 0 (sm_rows L)) = [[gint 0 2]; [gint 2 0]] /\ b_strings E = [sY1; sX1] /\ o_coeffs o = [g1; gint 0 1] /\ b_strings (o_basis o) = [sX1; sY1] /\
    forallb (fun t => basis_mem E (snd t)) (op_terms o) = true /\ rmap (fun t => let! i := basis_index E (snd t) in Ok (i, fst t)) (op_terms o) = Ok [(1, g1); (0, gint 0 1)]).
  { vm_compute in Eb. injection Eb as <-. vm_compute in Eo. injection Eo as <-. vm_compute in HL. injection HL as <- <-.
    split; [cbn [map seq sm_cols sm_rows]; repeat apply f_equal2; try reflexivity; gint_tac|]. repeat split; vm_compute; reflexivity. }
  destruct G as (G & SE & Co & So & Fa & Rm). 
  assert (DM : dense_rows L = [[(0, 2)%R]; [(2, 0)%R]]) by (rewrite dense_map, G; cbn [map]; rewrite !gint_C; reflexivity).
  rewrite Lb, DM. split; [|split; [|split; [|split]]].
  - assert (S2 : (sqrt 2 * sqrt 2 = 2)%R) by (apply sqrt_sqrt; lra). pose proof (sqrt_pos 2) as S3. split; [reflexivity|]. split; [reflexivity|]. split; [intros v [<-|[]]; reflexivity|]. split.
    + split; [intros v [<-|[]]; apply C_eq; cbn; lra | intros [|[|]] [|[|]] v w X Y N; cbn in X, Y; try discriminate; lia].
    + intros [|[|]] v X; cbn in X; try discriminate. apply some_inj in X. subst v. split; [cbn [la_svd inv_ex fst nth]; lra|]. intros u Lu. destruct u as [|[x y] [|]]; try discriminate.
      unfold rows_vec, csum, inner. cbn [map zip_with fold_right la_svd inv_ex fst nth]. replace (2 * sqrt 2 * (2 * sqrt 2))%R with 8%R by lra. apply C_eq; cbn; lra.
  - split; [reflexivity|]. intros u Lu. destruct u as [|[x y] [|]]; try discriminate. cbn [la_pinv inv_ex]. unfold rows_vec, csum. cbn [map zip_with fold_right]. repeat apply f_equal2; try reflexivity; apply C_eq; cbn; lra.
  - rewrite So. intros s [<-|[<-|[]]]; apply pauli_can.
  - rewrite Co. intros c [<-|[<-|[]]] X; [apply (f_equal (fun z => Qeq_bool (this (re z)) 0)) in X | apply (f_equal (fun z => Qeq_bool (this (im z)) 0)) in X]; vm_compute in X; discriminate.
  - intros tol Ht. unfold inverse_ladder_operators. rewrite HL. cbn [rbind]. rewrite Fa, DM, Lb. unfold null_vectors. cbn [la_svd inv_ex fst snd length seq combine filter map].
    assert (S2 : (sqrt 2 * sqrt 2 = 2)%R) by (apply sqrt_sqrt; lra). pose proof (sqrt_pos 2) as S3.
    assert (A1 : lt_dec (Rabs (2 * sqrt 2)) tol = false) by (apply not_true_is_false; intros H; apply lt_dec_true in H; rewrite Rabs_pos_eq in H by nra; nra).
    rewrite A1. cbn [map take rmap rbind].
    assert (K : coeff_column E (cop_of o) = Ok [(0, 1)%R; (1, 0)%R]).
    { unfold coeff_column, c_terms, cop_of. cbn [c_coeffs c_basis]. unfold op_terms in Rm. rewrite Co, So in *. cbn [map combine rmap snd fst] in *.
      destruct (basis_index E sX1) as [i|]; [|discriminate]. destruct (basis_index E sY1) as [j|]; [|discriminate]. cbn [rbind] in *. injection Rm as -> ->.
      unfold basis_len. rewrite SE. cbn [length seq map fst snd Nat.eqb]. change g1 with (gint 1 0). rewrite !gint_C. unfold csum. cbn [fold_right]. repeat apply f_equal2; try reflexivity. f_equal. repeat apply f_equal2; try reflexivity; apply C_eq; cbn; lra. }
    rewrite K. cbn [rbind la_pinv inv_ex]. unfold rows_vec, csum. cbn [map zip_with fold_right]. f_equal. f_equal. f_equal. apply f_equal2; auto. apply C_eq; cbn; lra.
Qed.

Lemma liou_act ty b o L E (A : StarAlg) (S : RScal A) (g : op -> Z -> A) v : ty <> Fermion -> good_basis ty b -> good_op ty o -> rep ty g -> liouvillian_matrix MCommutator (ABasis b) o = Ok (L, E) -> length v = basis_len b ->
  exact MCommutator (cden S g (CBasis b) v) (lincomb g (op_terms o)) == clincomb S g (combine (rows_vec (dense_rows L) v) (b_strings E)).
Proof.
  intros Hty Hb Ho Hr HL Lv. destruct (liouvillian_mode_ok ty GCommutator MCommutator b o Hty Hb Ho eq_refl) as (L' & E' & HL' & _ & RL & CL & D). change (liouvillian_matrix MCommutator (ABasis b) o = Ok (L', E')) in HL'.
  rewrite HL in HL'. injection HL' as <- <-. rewrite rows_cols by congruence. rewrite RL. unfold cden, clincomb at 1. apply (mat_vec_meaning S g MCommutator _ _ _ OS (den g)). apply D. exact Hr.
Qed.

(** C121.  If there are fewer strings U than strings in the Basis, null vectors are missed with every
    singular value decomposition, because it only looks at as many right singular vectors as there
    are singular values: Z_1 and Z_2 both commute with Z_1, but for the Basis Z_1, Z_2, X_1 at most
    one null vector is returned. *)
Theorem C121_null_refuted : exists b o, good_basis Pauli b /\ good_op Pauli o /\ basis_len b = 3 /\
  (forall (A : StarAlg) (S : RScal A) (g : op -> Z -> A), rep Pauli g ->
     exact MCommutator (cden S g (CBasis b) [RtoC 1; RtoC 0; RtoC 0]) (lincomb g (op_terms o)) == azero /\
     exact MCommutator (cden S g (CBasis b) [RtoC 0; RtoC 1; RtoC 0]) (lincomb g (op_terms o)) == azero) /\
  forall Or tol, (forall n M, length (fst (la_svd Or n M)) = Nat.min (length M) n /\ length (snd (la_svd Or n M)) = n /\ forall v, In v (snd (la_svd Or n M)) -> length v = n) ->
    exists p N, inverse_ladder_operators Or b o tol = Ok (p, N) /\ ~ (span 3 N [RtoC 1; RtoC 0; RtoC 0] /\ span 3 N [RtoC 0; RtoC 1; RtoC 0]).
Proof.
  destruct (basis_new [sZ1; sZ2; sX1]) as [b|] eqn:Eb; [|vm_compute in Eb; discriminate]. destruct (op_new [g1] [sZ1] None) as [o|] eqn:Eo; [|vm_compute in Eo; discriminate].
  assert (Sb : b_strings b = [sZ1; sZ2; sX1]) by (apply basis_new_ok in Eb; apply Eb). assert (Lb : basis_len b = 3) by (unfold basis_len; rewrite Sb; reflexivity).
  assert (Gb : good_basis Pauli b) by (apply (good_basis_intro Pauli _ _ Eb); intros s [<-|[<-|[<-|[]]]]; [apply ok_Z1 | apply ok_Z2 | apply ok_X1]).
  assert (Ho : good_op Pauli o).
  { apply (good_op_intro Pauli _ _ _ Eo); auto; [vm_compute in Eo; injection Eo as <-; reflexivity | intros s [<-|[]]; apply ok_Z1]. }
  destruct (liouvillian_matrix MCommutator (ABasis b) o) as [[L E]|] eqn:HL; [|vm_compute in Eb; injection Eb as <-; vm_compute in Eo; injection Eo as <-; vm_compute in HL; discriminate].
  assert (G : map (fun i => map (sm_entry L i) (seq 0 (sm_cols L))) (seq 0 (sm_rows L)) = [[gint 0 0; gint 0 0; gint 0 (-2)]] /\ forallb (fun t => basis_mem E (snd t)) (op_terms o) = false).
  { vm_compute in Eb. injection Eb as <-. vm_compute in Eo. injection Eo as <-. vm_compute in HL. injection HL as <- <-.
    split; [cbn [map seq sm_cols sm_rows]; repeat apply f_equal2; try reflexivity; gint_tac|]. vm_compute. reflexivity. }
  destruct G as [G Fa]. assert (DM : dense_rows L = [[(0, 0)%R; (0, 0)%R; (0, -2)%R]]) by (rewrite dense_map, G; cbn [map]; rewrite !gint_C; reflexivity).
  exists b, o. split; auto. split; auto. split; auto. split.
  - intros A S g Hr. split; rewrite (liou_act Pauli b o L E A S g) by (auto; discriminate); rewrite DM; rewrite <- (clin_vzero S g 1 (b_strings E)); unfold rows_vec, csum, vzero; cbn [map zip_with fold_right repeat];
      match goal with |- clincomb _ _ (combine [?z] _) == _ => replace z with (RtoC 0) by (apply C_eq; cbn; ring) end; reflexivity.
  - intros Or tol Hv. unfold inverse_ladder_operators. rewrite HL. cbn [rbind]. rewrite Fa, DM, Lb. destruct (Hv 3 [[(0, 0)%R; (0, 0)%R; (0, -2)%R]]) as (L1 & L2 & L3).
    destruct (la_svd Or 3 [[(0, 0)%R; (0, 0)%R; (0, -2)%R]]) as [s V]. cbn [fst snd length Nat.min] in *. rewrite null_vectors_nulls by (cbn [fst snd]; rewrite L1, L2; lia). cbn [rbind].
    exists None, (nulls tol (s, V)). split; auto. intros [X Y].
    assert (VN : vectors 3 (nulls tol (s, V))).
    { intros v H. apply in_map_iff in H. destruct H as ([l w] & <- & H). apply filter_In in H. destruct H as [H _]. apply in_combine_r in H. apply L3. exact H. }
    assert (LN : length (nulls tol (s, V)) <= 1).
    { unfold nulls. cbn [fst snd]. rewrite map_length. destruct s as [|z [|]]; try discriminate. destruct V as [|v V]; cbn [combine filter length]; [lia|]. destruct (lt_dec _ _); cbn; lia. }
    assert (O : orthonormal [[RtoC 1; RtoC 0; RtoC 0]; [RtoC 0; RtoC 1; RtoC 0]]).
    { split; [intros v [<-|[<-|[]]]; apply C_eq; cbn; lra | intros [|[|[|]]] [|[|[|]]] v w H K N; cbn in H, K; try discriminate; try lia; apply some_inj in H, K; subst; apply C_eq; cbn; lra]. }
    assert (VV : vectors 3 [[RtoC 1; RtoC 0; RtoC 0]; [RtoC 0; RtoC 1; RtoC 0]]) by (intros v [<-|[<-|[]]]; reflexivity).
    pose proof (L_Dim.span_dimension 3 _ _ VV VN (L_Generate2.orthonormal_independent 3 _ VV O)) as Z. cbn [length] in Z.
    assert (2 <= length (nulls tol (s, V))) by (apply Z; intros v [<-|[<-|[]]]; auto). unfold vec in *. lia.
Qed.
Print Assumptions C121_null_refuted.

(** A particular solution is returned although there is none: no multiple O of X_1 satisfies
    [O, R] = R for R = Y_1 + Z_1. *)
Theorem C121_particular_refuted : exists b o, good_basis Pauli b /\ good_op Pauli o /\ basis_len b = 1 /\
  (forall (A : StarAlg) (S : RScal A) (g : op -> Z -> A) u, rep Pauli g -> ~ (@aone A == azero) -> length u = 1 ->
     ~ exact MCommutator (cden S g (CBasis b) u) (lincomb g (op_terms o)) == lincomb g (op_terms o)) /\
  forall Or tol, (forall n M, length (fst (la_svd Or n M)) = Nat.min (length M) n /\ length (snd (la_svd Or n M)) = n) ->
    exists x N, inverse_ladder_operators Or b o tol = Ok (Some x, N).
Proof.
  destruct (basis_new [sX1]) as [b|] eqn:Eb; [|vm_compute in Eb; discriminate]. destruct (op_new [g1; g1] [sY1; sZ1] None) as [o|] eqn:Eo; [|vm_compute in Eo; discriminate].
  assert (Sb : b_strings b = [sX1]) by (apply basis_new_ok in Eb; apply Eb). assert (Lb : basis_len b = 1) by (unfold basis_len; rewrite Sb; reflexivity).
  assert (Gb : good_basis Pauli b) by (apply (good_basis_intro Pauli _ _ Eb); intros s [<-|[]]; apply ok_X1).
  assert (Ho : good_op Pauli o).
  { apply (good_op_intro Pauli _ _ _ Eo); auto; [vm_compute in Eo; injection Eo as <-; reflexivity | intros s [<-|[<-|[]]]; [apply ok_Y1 | apply ok_Z1]]. }
  destruct (liouvillian_matrix MCommutator (ABasis b) o) as [[L E]|] eqn:HL; [|vm_compute in Eb; injection Eb as <-; vm_compute in Eo; injection Eo as <-; vm_compute in HL; discriminate].
  assert (G : map (fun i => map (sm_entry L i) (seq 0 (sm_cols L))) (seq 0 (sm_rows L)) = [[gint 0 2]; [gint 0 (-2)]] /\ b_strings E = [sZ1; sY1] /\ op_terms o = [(g1, sY1); (g1, sZ1)] /\ forallb (fun t => basis_mem E (snd t)) (op_terms o) = true /\
    exists i j, basis_index E sY1 = Ok i /\ basis_index E sZ1 = Ok j).
  { vm_compute in Eb. injection Eb as <-. vm_compute in Eo. injection Eo as <-. vm_compute in HL. injection HL as <- <-.
    split; [cbn [map seq sm_cols sm_rows]; repeat apply f_equal2; try reflexivity; gint_tac|]. repeat split; try (vm_compute; reflexivity). exists 1, 0. split; vm_compute; reflexivity. }
  destruct G as (G & SE & To & Fa & i & j & I1 & I2). assert (DM : dense_rows L = [[(0, 2)%R]; [(0, -2)%R]]) by (rewrite dense_map, G; cbn [map]; rewrite !gint_C; reflexivity).
  exists b, o. split; auto. split; auto. split; auto. split.
  - intros A S g u Hr Hn Lu X. rewrite (liou_act Pauli b o L E A S g) in X by (auto; try discriminate; congruence). rewrite DM, SE, To in X. destruct u as [|z [|]]; try discriminate.
    assert (CT : lincomb g [(g1, sY1); (g1, sZ1)] == clincomb S g [(RtoC 1, sY1); (RtoC 1, sZ1)]).
    { rewrite <- (clin_emb S g [g1; g1] [sY1; sZ1]). cbn [map combine]. replace (emb g1) with (RtoC 1); [reflexivity|]. rewrite <- to_C_emb. change g1 with (gint 1 0). rewrite gint_C. reflexivity. }
    rewrite CT in X. unfold rows_vec, csum in X. cbn [map zip_with fold_right combine] in X.
    assert (T : forall t, string_ok Pauli t -> tcoef [((0, 2)%R * z + RtoC 0, sZ1); ((0, -2)%R * z + RtoC 0, sY1)]%C t = tcoef [(RtoC 1, sY1); (RtoC 1, sZ1)] t).
    { intros t Ht. apply (tcoef_unique S Pauli g Hr Hn); auto; intros x [<-|[<-|[]]]; cbn [snd]; (split; [first [apply ok_Y1 | apply ok_Z1] | apply pauli_can]). }
    pose proof (T sZ1 ok_Z1) as T1. pose proof (T sY1 ok_Y1) as T2. rewrite !tcoef_cons in T1, T2. cbn [fst snd] in T1, T2.
    assert (K : os_key sZ1 sZ1 = true /\ os_key sY1 sZ1 = false /\ os_key sZ1 sY1 = false /\ os_key sY1 sY1 = true) by (repeat split; vm_compute; reflexivity). destruct K as (K1 & K2 & K3 & K4). rewrite K1, K2 in T1. rewrite K3, K4 in T2.
    apply (f_equal Re) in T1, T2. cbn in T1, T2. lra.
  - intros Or tol Hv. unfold inverse_ladder_operators. rewrite HL. cbn [rbind]. rewrite Fa, DM, Lb. destruct (Hv 1 [[(0, 2)%R]; [(0, -2)%R]]) as (L1 & L2). cbn [length Nat.min] in *.
    rewrite null_vectors_nulls by (rewrite L1, L2; lia). cbn [rbind].
    assert (K : exists k, coeff_column E (cop_of o) = Ok k).
    { destruct (coeff_column_ok Pauli E (cop_of o)) as (k & Ek & _); eauto. 
      - destruct (liouvillian_mode_ok Pauli GCommutator MCommutator b o ltac:(discriminate) Gb Ho eq_refl) as (L' & E' & HL' & HE & _). change (liouvillian_matrix MCommutator (ABasis b) o = Ok (L', E')) in HL'. rewrite HL in HL'. injection HL' as <- <-.
        split; [apply HE | intros s Hs; apply HE; auto].
      - pose proof (good_op_ok _ _ Ho) as OO. split; [apply L_Struct.built_iff, OO|]. split; [cbn; rewrite map_length; apply OO|]. split; [apply Ho | apply Ho].
      - intros s Hs. cbn [cop_of c_basis] in Hs. rewrite SE. assert (Hs' : b_strings (o_basis o) = [sY1; sZ1]) by (vm_compute in Eo; injection Eo as <-; reflexivity). rewrite Hs' in Hs. destruct Hs as [<-|[<-|[]]]; cbn; auto. }
    destruct K as (k & ->). cbn [rbind]. eauto.
Qed.
Print Assumptions C121_particular_refuted.
(** Oracles with results of the right size. *)
Example C121_example : forall n M, length (fst (la_svd lad_zero n M)) = Nat.min (length M) n /\ length (snd (la_svd lad_zero n M)) = n /\ forall v, In v (snd (la_svd lad_zero n M)) -> length v = n.
Proof. intros n M. split; [apply repeat_length|]. split; [apply L_PartIso.units_length | apply L_PartIso.units_vectors]. Qed.
