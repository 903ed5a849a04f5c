(** Proofs about diagonalize: eigenvectors of a Hermitian matrix. *)
From Coq Require Import List ZArith NArith Bool Arith Lia Permutation Sorted Reals QArith Qreals Qcanon Lra.
From Coquelicot Require Import Complex.
From Verif Require Import GC Exn M_OpString M_Basis M_OpAlg M_Diag M_Conversion M_LinAlg M_Core M_Greedy M_Diagonalize
  S_Alg S_Den S_Basis S_Built S_LinAlg S_Core S_Greedy S_Diag S_Diagonalize
  L_Alg L_CScal L_LinAlg L_Inter L_PartIso L_Herm L_Core L_Dim L_Generate2 L_Fidelity L_Sparsify L_Greedy1 L_Search L_Target L_Diag1 L_Diag2 L_Diag3.
Import M_LinAlg ListNotations.
Local Open Scope nat_scope.

Lemma all_confs_length n : length (all_confs n) = 2 ^ n.
Proof. unfold all_confs. rewrite map_length, seq_length. auto. Qed.
Lemma rows_of_length n H : length (rows_of n H) = 2 ^ n.
Proof. unfold rows_of. rewrite map_length. apply all_confs_length. Qed.
Lemma rows_of_ext n H K : mat_eq n H K -> rows_of n H = rows_of n K.
Proof. intros E. unfold rows_of. apply map_ext_in. intros r Hr. apply map_ext_in. intros c Hc. apply in_confs in Hr, Hc. rewrite E; auto. Qed.

Lemma zip_nth (f : nat -> C) : forall v k, csum (zip_with Cmult (map f (seq k (length v))) v) = fold_right Cplus (RtoC 0) (map (fun i => f (i + k)%nat * nth i v (RtoC 0))%C (seq 0 (length v))).
Proof.
  induction v as [|x v IH]; intros k; auto. cbn [length seq map zip_with]. unfold csum in *. cbn [fold_right nth]. rewrite IH, <- seq_shift, map_map. cbn [nth Nat.add]. f_equal. f_equal. apply map_ext. intros i. f_equal. f_equal. lia.
Qed.
Lemma rows_image n H v : length v = 2 ^ n -> rows_vec (rows_of n H) v = map (image n H v) (all_confs n).
Proof.
  intros L. unfold rows_vec, rows_of. rewrite map_map. apply map_ext. intros r. unfold image, all_confs. rewrite !map_map, <- L, zip_nth. f_equal. apply map_ext. intros i. rewrite Nat2N.id, Nat.add_0_r. auto.
Qed.
Lemma map_nth_seq (v : list C) : map (fun i => nth i v (RtoC 0)) (seq 0 (length v)) = v.
Proof. induction v as [|x v IH]; auto. cbn [length seq map nth]. rewrite <- seq_shift, map_map. cbn [nth]. rewrite IH. auto. Qed.
Lemma eigenvector_iff n H l v : eigenvector n H l v <-> length v = 2 ^ n /\ v <> repeat (RtoC 0) (2 ^ n) /\ rows_vec (rows_of n H) v = map (Cmult l) v.
Proof.
  unfold eigenvector. split; intros (L & Z & E); split; auto; split; auto.
  - rewrite rows_image by auto. rewrite <- (map_nth_seq v) at 2. rewrite map_map, L. unfold all_confs. rewrite map_map. apply map_ext_in. intros i Hi. rewrite E, Nat2N.id; auto.
    apply in_confs. unfold all_confs. apply in_map. auto.
  - intros r Hr. rewrite rows_image in E by auto. apply in_confs in Hr. unfold all_confs in Hr. apply in_map_iff in Hr. destruct Hr as (i & <- & Hi). apply in_seq in Hi.
    assert (K := f_equal (fun l => nth i l (RtoC 0)) E). cbn beta in K. unfold all_confs in K. rewrite map_map in K.
    rewrite (nth_indep _ _ (image n H v (N.of_nat 0))) in K by (rewrite map_length, seq_length; lia). rewrite (map_nth (fun x => image n H v (N.of_nat x)) (seq 0 (2 ^ n)) 0), seq_nth in K by lia. cbn [Nat.add] in K.
    rewrite K, Nat2N.id. rewrite (nth_indep _ _ (l * RtoC 0)%C) by (rewrite map_length; lia). rewrite (map_nth (Cmult l)). auto.
Qed.
Lemma energy_inner n H w : length w = 2 ^ n -> energy n H w = fst (inner w (rows_vec (rows_of n H) w)).
Proof. intros L. unfold energy. rewrite rows_image; auto. Qed.

(** Sorting the pairs. *)
Lemma take_total {T} (l : list T) inds : (forall i, In i inds -> i < length l) -> exists m, take l inds = Ok m /\ length m = length inds.
Proof.
  intros H. unfold take. induction inds as [|i inds IH]; [exists []; auto|]. cbn [rmap]. destruct (nth_error l i) as [x|] eqn:E; [|apply nth_error_None in E; specialize (H i (or_introl eq_refl)); lia].
  cbn [of_option rbind]. destruct IH as (m & -> & Lm); [intros; apply H; right; auto|]. exists (x :: m). cbn. auto.
Qed.
Lemma take_perm {T} (l : list T) inds m : Permutation inds (seq 0 (length l)) -> take l inds = Ok m -> Permutation m l.
Proof.
  intros P E. apply take_nth in E.
  assert (K : forall i1 i2, Permutation i1 i2 -> forall m1, Forall2 (fun i x => nth_error l i = Some x) i1 m1 -> exists m2, Permutation m1 m2 /\ Forall2 (fun i x => nth_error l i = Some x) i2 m2).
  { induction 1 as [|x i1 i2 P1 IH|x y i1|i1 i2 i3 P1 IH1 P2 IH2]; intros m1 F.
    - inversion F; subst. exists []. auto.
    - inversion F as [|? ? ? ? F1 F2]; subst. destruct (IH _ F2) as (m2 & Pm & Fm). eexists (_ :: m2). split; [apply perm_skip, Pm | constructor; eauto].
    - inversion F as [|? ? ? ? F1 F2]; subst. inversion F2 as [|? ? ? ? F3 F4]; subst. eexists (_ :: _ :: _). split; [apply perm_swap | repeat (constructor; eauto)].
    - destruct (IH1 _ F) as (m2 & Pm & Fm). destruct (IH2 _ Fm) as (m3 & Pm' & Fm'). exists m3. split; auto. eapply perm_trans; eauto. }
  destruct (K _ _ P m E) as (m2 & Pm & F). replace l with m2; auto.
  assert (Q : forall k t q, (forall i x, nth_error q i = Some x -> nth_error l (k + i) = Some x) -> length q = t -> Forall2 (fun i x => nth_error l i = Some x) (seq k t) m2 -> m2 = q).
  { clear -m2. revert m2. intros m2 k t. revert k m2. induction t as [|t IH]; intros k m2 [|x q] Hq Lq F; try discriminate; inversion F as [|? y ? m3 F1 F2]; subst; auto.
    pose proof (Hq 0 x eq_refl) as E0. rewrite Nat.add_0_r, F1 in E0. injection E0 as ->. f_equal. apply (IH (S k)); auto. intros i z Hz. replace (S k + i) with (k + S i) by lia. apply Hq. auto. }
  apply (Q 0 (length l) l); auto.
Qed.
Lemma sorted_pairs sort (ps qs : list (R * vec)) : sorts_reals sort -> take ps (sort (map fst ps)) = Ok qs -> StronglySorted Rle (map fst qs).
Proof.
  intros Hs E. destruct (Hs (map fst ps)) as [_ Ho]. pose proof (take_nth_error _ _ _ E) as N.
  assert (K : forall p q x y, p < q -> nth_error qs p = Some x -> nth_error qs q = Some y -> (fst x <= fst y)%R).
  { intros p q x y L Hx Hy. destruct (N _ _ Hx) as (i & Ei & Xi). destruct (N _ _ Hy) as (j & Ej & Yj). apply (Ho p q i j); auto; rewrite nth_error_map; [rewrite Xi | rewrite Yj]; auto. }
  clear - K. induction qs as [|q qs IH]; constructor.
  - apply IH. intros p r x y L Hx Hy. apply (K (S p) (S r)); auto. lia.
  - apply Forall_forall. intros r Hr. apply in_map_iff in Hr. destruct Hr as (y & <- & Hy). apply In_nth_error in Hy. destruct Hy as (j & Hj). apply (K 0 (S j)); auto. lia.
Qed.

(** Expansions in eigenvectors. *)
Lemma rows_expand n D (ps : list (R * vec)) : (forall l v, In (l, v) ps -> length v = n /\ rows_vec D v = map (Cmult (RtoC l)) v) -> length D = n ->
  forall x, length x = length ps -> rows_vec D (mat_vec n (map snd ps) x) = mat_vec n (map snd ps) (map (fun p => RtoC (fst (fst p)) * snd p)%C (combine ps x)).
Proof.
  intros He LD. induction ps as [|[l v] ps IH]; intros [|c x] L; try discriminate.
  - cbn [map combine mat_vec]. rewrite rows_vec_zero, LD. auto.
  - cbn [map combine mat_vec snd fst]. assert (He' : forall l v, In (l, v) ps -> length v = n /\ rows_vec D v = map (Cmult (RtoC l)) v) by (intros; apply He; right; auto).
    destruct (He l v (or_introl eq_refl)) as [Lv Ev]. rewrite rows_vec_add.
    + rewrite rows_vec_scale, Ev, IH by (auto; injection L; auto). f_equal. unfold vscale. rewrite map_map. apply map_ext. intros z. ring.
    + rewrite vscale_length, mat_vec_length; auto. intros w Hw. apply in_map_iff in Hw. destruct Hw as ([l' w'] & <- & Hw'). apply (He' l' w' Hw').
Qed.

Section Full.
  Variables (n : nat) (D : list vec) (ps : list (R * vec)).
  Hypotheses (LD : length D = n) (He : eigenpairs D ps) (Ho : orthonormal (map snd ps)) (Hf : forall x, length x = n -> span n (map snd ps) x).
  Lemma full_vectors : vectors n (map snd ps).
  Proof. intros v Hv. apply in_map_iff in Hv. destruct Hv as ([l w] & <- & H). cbn [snd]. rewrite <- LD. apply (He l w H). Qed.
  Lemma full_length : length ps = n.
  Proof.
    rewrite <- (map_length snd). apply Nat.le_antisymm.
    - rewrite <- (units_length n). apply (span_dimension n); [apply full_vectors | apply units_vectors | apply orthonormal_independent; [apply full_vectors | auto]|].
      intros v Hv. rewrite <- (mat_vec_units n v) by (apply full_vectors; auto). apply mat_vec_span, units_vectors.
    - rewrite <- (units_length n) at 1. apply (span_dimension n); [apply units_vectors | apply full_vectors | apply orthonormal_independent; [apply units_vectors | apply units_orthonormal]|].
      intros v Hv. apply Hf. apply units_vectors; auto.
  Qed.
  Lemma full_expand w : length w = n -> exists x, length x = length ps /\ w = mat_vec n (map snd ps) x /\ rows_vec D w = mat_vec n (map snd ps) (map (fun p => RtoC (fst (fst p)) * snd p)%C (combine ps x)).
  Proof.
    intros Lw. destruct (span_mat_vec n (map snd ps) full_vectors w (Hf w Lw)) as (x & Lx & ->). rewrite map_length in Lx. exists x. split; auto. split; auto.
    apply rows_expand; auto. intros l v H. destruct (He l v H) as (A & _ & B). split; [exact (eq_trans A LD) | exact B].
  Qed.
  Lemma full_spectrum mu w : length w = n -> w <> repeat (RtoC 0) n -> rows_vec D w = map (Cmult mu) w -> exists l v, In (l, v) ps /\ mu = RtoC l.
  Proof.
    intros Lw Zw Ew. destruct (full_expand w Lw) as (x & Lx & E1 & E2).
    assert (I : forall y, length y = length ps -> mat_vec n (map snd ps) y = vzero n -> y = vzero (length ps)).
    { intros y Ly E. assert (Z : inner y y = RtoC 0) by (rewrite <- (isometry n (map snd ps) full_vectors Ho) by (rewrite map_length; auto); rewrite E; apply inner_zero_l).
      rewrite inner_self in Z. apply RtoC_inj in Z. apply sqsum_zero in Z. rewrite <- Ly. exact Z. }
    assert (Y : map (fun p => (RtoC (fst (fst p)) - mu) * snd p)%C (combine ps x) = vzero (length ps)).
    { apply I; [rewrite map_length, combine_length, Lx; lia|].
      assert (S : mat_vec n (map snd ps) (map (fun p => (RtoC (fst (fst p)) - mu) * snd p)%C (combine ps x)) = vadd (mat_vec n (map snd ps) (map (fun p => RtoC (fst (fst p)) * snd p)%C (combine ps x))) (vscale (- mu)%C (mat_vec n (map snd ps) x))).
      { rewrite <- mat_vec_scale, <- mat_vec_add; [|apply full_vectors | rewrite !map_length, combine_length; lia | rewrite vscale_length, map_length; auto | apply full_vectors]. f_equal.
        clear - Lx. revert x Lx. induction ps as [|p q IH]; intros [|c x] L; try discriminate; auto. cbn [combine map vscale vadd zip_with fst snd]. unfold vadd, vscale in IH. rewrite IH by (injection L; auto). f_equal. ring. }
      rewrite S, <- E2, <- E1, Ew. unfold vadd, vscale. clear - Lw. rewrite <- Lw. unfold vzero. clear Lw. induction w as [|z w IH]; auto. cbn [map zip_with repeat length]. rewrite IH. f_equal. ring. }
    destruct (existsb (fun p => if Ceq_dec (snd p) (RtoC 0) then false else true) (combine ps x)) eqn:X.
    - apply existsb_exists in X. destruct X as ([[l v] c] & Hin & Hc). cbn [snd] in Hc. destruct (Ceq_dec c (RtoC 0)) as [|Nc]; [discriminate|]. exists l, v. split; [eapply in_combine_l; eauto|].
      assert (K : ((RtoC l - mu) * c)%C = RtoC 0).
      { assert (J : In ((RtoC l - mu) * c)%C (vzero (length ps))) by (rewrite <- Y; apply in_map_iff; exists ((l, v), c); auto). apply repeat_spec in J. auto. }
      replace mu with (RtoC l - ((RtoC l - mu) * c) / c)%C by (field; auto). rewrite K. field. auto.
    - exfalso. apply Zw. rewrite E1. assert (Ex : x = vzero (length x)); [|rewrite Ex, mat_vec_zero by apply full_vectors; auto].
      clear - X Lx. revert x Lx X. induction ps as [|p q IH]; intros [|c x] L X; try discriminate; auto. cbn [combine existsb snd] in X. apply orb_false_iff in X. destruct X as [X1 X2]. destruct (Ceq_dec c (RtoC 0)) as [->|]; [|discriminate].
      unfold vzero in *. cbn [length repeat]. f_equal. apply IH; auto.
  Qed.
  Lemma full_energy l0 : (forall l v, In (l, v) ps -> (l0 <= l)%R) -> forall w, length w = n -> (l0 * norm2c w <= fst (inner w (rows_vec D w)))%R.
  Proof.
    intros Hl w Lw. destruct (full_expand w Lw) as (x & Lx & E1 & E2). rewrite E2, E1.
    change (norm2c (mat_vec n (map snd ps) x)) with (sqsum (mat_vec n (map snd ps) x)). replace (sqsum (mat_vec n (map snd ps) x)) with (fst (inner (mat_vec n (map snd ps) x) (mat_vec n (map snd ps) x))) by (rewrite inner_self; reflexivity).
    rewrite !(isometry n (map snd ps) full_vectors Ho) by (rewrite !map_length; auto; rewrite combine_length; lia).
    clear - Hl Lx. revert x Lx. induction ps as [|[l v] q IH]; intros [|c x] L; try discriminate; [cbn; lra|]. cbn [combine map fst snd]. unfold inner in *. cbn [zip_with fold_right].
    assert (IH' := IH ltac:(intros; eapply Hl; right; eauto) x ltac:(injection L; auto)). cbn [fst snd Cplus]. specialize (Hl l v (or_introl eq_refl)).
    destruct c as [a b]. cbn [fst snd Cmult Cconj RtoC] in *. pose proof (Rle_0_sqr a) as Pa. pose proof (Rle_0_sqr b) as Pb. unfold Rsqr in *. nra.
  Qed.
End Full.

(** The matrix is Hermitian if the coefficients are real. *)
Lemma string_herm n s : string_ok Pauli s -> labels_in n s -> mat_eq n (adjoint (string_matrix n s)) (string_matrix n s).
Proof.
  intros Hs Hl. destruct (matrix_string n s Hs Hl) as (M & _ & _ & E & A). intros r c Hr Hc. rewrite <- E by auto. rewrite <- A by auto. unfold adjoint. rewrite E; auto.
Qed.
Lemma matrix_of_herm n ts : (forall t, In t ts -> string_ok Pauli (snd t) /\ labels_in n (snd t) /\ gconj (fst t) = fst t) -> hermitian_matrix n (matrix_of n ts).
Proof.
  intros H r c Hr Hc. unfold adjoint, matrix_of. induction ts as [|[z s] ts IH]; [apply GC_ext; reflexivity|].
  cbn [map fst snd] in *. destruct (H (z, s) (or_introl eq_refl)) as (A & B & Cz). cbn [fst snd] in *.
  change (gsum (gmul z (string_matrix n s c r) :: map (fun t => gmul (fst t) (string_matrix n (snd t) c r)) ts)) with (gadd (gmul z (string_matrix n s c r)) (gsum (map (fun t => gmul (fst t) (string_matrix n (snd t) c r)) ts))).
  change (gsum (gmul z (string_matrix n s r c) :: map (fun t => gmul (fst t) (string_matrix n (snd t) r c)) ts)) with (gadd (gmul z (string_matrix n s r c)) (gsum (map (fun t => gmul (fst t) (string_matrix n (snd t) r c)) ts))).
  rewrite gconj_add, gconj_mul, Cz, IH by (intros; apply H; right; auto). f_equal. f_equal. apply (string_herm n s A B r c Hr Hc).
Qed.
Lemma to_array_rows n M H : m_orbitals M = n -> mat_eq n (M_Diag.entry M) H -> to_array M = rows_of n H.
Proof. intros <- E. rewrite <- (rows_of_ext _ _ _ E). reflexivity. Qed.

Section Main.
  Variables (n : nat) (H : N -> N -> GC) (ps qs : list (R * vec)).
  Hypotheses (Hp : Permutation qs ps) (He : eigenpairs (rows_of n H) ps) (Ho : orthonormal (map snd ps)) (Hs : StronglySorted Rle (map fst qs)).
  Lemma eig_levels : ordered_levels n H qs.
  Proof.
    split; [|split; auto].
    - intros l v Hi. apply eigenvector_iff. destruct (He l v (Permutation_in _ Hp Hi)) as (A & B & Cc). rewrite rows_of_length in A, B. auto.
    - apply (ortho_perm (map snd ps)); auto. apply Permutation_map, Permutation_sym, Hp.
  Qed.
  Lemma eig_all : (forall x, length x = length (rows_of n H) -> span (length (rows_of n H)) (map snd ps) x) -> all_levels n H qs.
  Proof.
    intros Hf. pose proof (rows_of_length n H) as LD. rewrite LD in Hf. split; [|split].
    - transitivity (length ps); [exact (Permutation_length Hp)|]. exact (full_length (2 ^ n) (rows_of n H) ps LD He Ho Hf).
    - intros mu w Hw. apply eigenvector_iff in Hw. destruct Hw as (Lw & Zw & Ew). destruct (full_spectrum (2 ^ n) (rows_of n H) ps LD He Ho Hf mu w Lw Zw Ew) as (l & v & Hi & E). exists l, v. split; auto. exact (Permutation_in _ (Permutation_sym Hp) Hi).
    - intros l v rest E w Lw. rewrite energy_inner by auto. apply (full_energy (2 ^ n) (rows_of n H) ps LD He Ho Hf); auto. intros l' v' Hi. apply (Permutation_in _ (Permutation_sym Hp)) in Hi. rewrite E in Hi, Hs. destruct Hi as [Hi|Hi]; [injection Hi as <- <-; lra|].
      cbn [map fst] in Hs. apply StronglySorted_inv in Hs. destruct Hs as [_ F]. rewrite Forall_forall in F. apply F. apply in_map_iff. exists (l', v'). auto.
  Qed.
  Lemma eig_lowest k : lowest_solution k (rows_of n H) ps -> lowest_levels n k H qs.
  Proof.
    intros (_ & L & K). rewrite rows_of_length in K. split; [exact (eq_trans (Permutation_length Hp) L)|]. intros mu w Hw. apply eigenvector_iff in Hw. destruct Hw as (Lw & _ & Ew). destruct (K mu w Lw Ew) as [Sp|Low].
    - left. apply (span_mono (2 ^ n) (map snd ps)); auto. intros v Hv. apply (Permutation_in v (Permutation_map snd (Permutation_sym Hp))). auto.
    - right. intros l v Hi. apply (Low l v). exact (Permutation_in _ Hp Hi).
  Qed.
End Main.

Theorem diagonalize_levels Or n a o : convert a Pauli false = Ok o -> on_spins n o -> (forall z, In z (o_coeffs o) -> gconj z = z) ->
  exact_eigh (dg_eigh Or) n (matrix_of n (op_terms o)) -> sorts_reals (dg_sort Or) ->
  (exists qs, diagonalize Or a n true None = Ok (Hermitian qs) /\ ordered_levels n (matrix_of n (op_terms o)) qs /\ all_levels n (matrix_of n (op_terms o)) qs) /\
  forall k, (k < 2 ^ n)%nat -> exists qs, diagonalize Or a n true (Some k) = Ok (Hermitian qs) /\ ordered_levels n (matrix_of n (op_terms o)) qs /\ lowest_levels n k (matrix_of n (op_terms o)) qs.
Proof.
  intros Ec Hon Hr Hx Hsort. destruct (matrix_operator n o Hon) as (M & EM & Lm & Em).
  assert (Ea : to_array M = rows_of n (matrix_of n (op_terms o))) by (apply to_array_rows; auto).
  assert (Hh : hermitian_matrix n (matrix_of n (op_terms o))).
  { apply matrix_of_herm. intros [z s] Ht. destruct Hon as [_ Hs]. destruct (Hs s (in_combine_r _ _ _ _ Ht)) as (A & _ & B). split; [auto | split; auto]. apply Hr. exact (in_combine_l _ _ _ _ Ht). }
  destruct (Hx Hh) as [(F1 & F2) F3].
  assert (G : forall nv, orthonormal (map snd (dg_eigh Or nv (rows_of n (matrix_of n (op_terms o))))) -> exists qs, diagonalize Or a n true nv = Ok (Hermitian qs) /\
    Permutation qs (dg_eigh Or nv (rows_of n (matrix_of n (op_terms o)))) /\ StronglySorted Rle (map fst qs)).
  { intros nv _. unfold diagonalize. rewrite Ec. cbn [rbind]. rewrite EM. cbn [rbind]. rewrite Ea. cbv zeta. set (ps := dg_eigh Or nv _).
    pose proof (Hsort (map fst ps)) as [P _]. rewrite map_length in P. destruct (take_total ps (dg_sort Or (map fst ps))) as (qs & Eq & _).
    { intros i Hi. apply (Permutation_in _ P) in Hi. apply in_seq in Hi. lia. }
    exists qs. rewrite Eq. split; auto. split; [exact (take_perm ps _ qs P Eq) | exact (sorted_pairs _ ps qs Hsort Eq)]. }
  split.
  - destruct (G None F2) as (qs & E & P & Ss). destruct F1 as [F1 F4]. exists qs. split; auto. split; [apply (eig_levels n _ _ qs P F1 F2 Ss) | apply (eig_all n _ _ qs P F1 F2 Ss F4)].
  - intros k Lk. destruct (F3 k Lk) as [L1 O1]. destruct (G (Some k) O1) as (qs & E & P & Ss). exists qs. split; auto. pose proof L1 as (L2 & _). split; [apply (eig_levels n _ _ qs P L2 O1 Ss) | apply (eig_lowest n _ _ qs P k L1)].
Qed.
