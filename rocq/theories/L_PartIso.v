(** Hermitian parts of partial isometries. *)
From Coq Require Import List Reals Bool Arith Lia Lra.
From Coquelicot Require Import Complex.
From Verif Require Import Exn M_LinAlg M_Core S_LinAlg S_Core L_LinAlg L_Inter L_Herm.
Import ListNotations.
Local Open Scope C_scope.

(** The adjoint of a matrix given by its columns. *)
Definition adj (cols : list vec) (w : vec) : vec := map (fun c => inner c w) cols.
Lemma adj_length cols w : length (adj cols w) = length cols.
Proof. apply map_length. Qed.
Lemma adj_inner n cols v w : vectors n cols -> length w = n -> length v = length cols -> inner (mat_vec n cols v) w = inner v (adj cols w).
Proof. intros. apply inner_mat_vec_l; auto. Qed.
Lemma adj_inner_l n cols v w : vectors n cols -> length w = n -> length v = length cols -> inner w (mat_vec n cols v) = inner (adj cols w) v.
Proof. intros. rewrite (inner_sym v), (inner_sym (mat_vec n cols v)), (adj_inner n); auto. Qed.
Lemma adj_scale cols c w : adj cols (vscale c w) = vscale c (adj cols w).
Proof. unfold adj, vscale. rewrite map_map. apply map_ext. intros. apply inner_scale_r. Qed.
Lemma adj_add n cols u w : vectors n cols -> length u = n -> length w = n -> adj cols (vadd u w) = vadd (adj cols u) (adj cols w).
Proof.
  intros Hc Hu Hw. unfold adj, vadd. induction cols as [|c cols IH]; auto. simpl. fold (vadd u w). rewrite (inner_add_r n) by (auto; apply Hc; left; auto).
  f_equal. apply IH. intros v Hv; apply Hc; right; auto.
Qed.
Lemma inner_sub_l n u v w : length u = n -> length v = n -> length w = n -> inner (vsub u v) w = inner u w - inner v w.
Proof.
  intros. rewrite (inner_sym w), (inner_sub_r n), (inner_sym u w), (inner_sym v w) by auto. apply C_ext; simpl; lra.
Qed.
(** Vectors are determined by their inner products. *)
Lemma inner_ext n u v : length u = n -> length v = n -> (forall w, length w = n -> inner w u = inner w v) -> u = v.
Proof.
  intros Hu Hv H. apply vsub_zero; [congruence|]. set (d := vsub u v). assert (Ld : length d = n) by (apply vsub_length; auto).
  rewrite Hu, <- Ld. apply sqsum_zero. apply RtoC_inj. rewrite <- inner_self. unfold d at 2. rewrite (inner_sub_r n) by auto. rewrite H by auto. ring.
Qed.
(** Orthonormal columns: the adjoint is a left inverse. *)
Lemma adj_isometry n K : vectors n K -> orthonormal K -> forall v, length v = length K -> adj K (mat_vec n K v) = v.
Proof.
  intros HK HO v Hv. apply (inner_ext (length K)); [apply adj_length | auto|]. intros w Hw.
  rewrite <- (adj_inner n) by (auto; apply mat_vec_length; auto). apply isometry; auto.
Qed.

(** Entries of matrix times vector. *)
Lemma mat_vec_nth n cols : vectors n cols -> forall v i, nth i (mat_vec n cols v) (RtoC 0) = csum (zip_with Cmult (map (fun c => nth i c (RtoC 0)) cols) v).
Proof.
  intros Hc. induction cols as [|c cols IH]; intros [|z v] i; simpl; try apply nth_repeat.
  assert (Hc' : vectors n cols) by (intros u Hu; apply Hc; right; auto).
  specialize (IH Hc' v i). unfold csum in *. simpl. rewrite <- IH.
  assert (Lc : length c = n) by (apply Hc; left; auto). pose proof (mat_vec_length n cols Hc' v) as Lm.
  revert Lc Lm. generalize (mat_vec n cols v) as w. clear. revert n i. induction c as [|x c IHc]; intros n i [|y w] L1 L2; simpl in *; try lia.
  - destruct i; simpl; ring.
  - destruct i as [|i]; simpl; [ring|]. fold (vscale z c). apply (IHc (pred n)); lia.
Qed.
Lemma map_nth_seq (l : list C) : map (fun j => nth j l (RtoC 0)) (seq 0 (length l)) = l.
Proof. induction l as [|x l IH]; auto. cbn [length seq map nth]. f_equal. rewrite <- seq_shift, map_map. exact IH. Qed.
Lemma map_seq_nth {X Y} (l : list X) d (f : X -> Y) : map (fun j => f (nth j l d)) (seq 0 (length l)) = map f l.
Proof. induction l as [|x l IH]; auto. cbn [length seq map nth]. f_equal. rewrite <- seq_shift, map_map. exact IH. Qed.
Lemma inner_sum (l : list nat) (f h : nat -> C) : inner (map f l) (map h l) = csum (map (fun i => Cconj (f i) * h i) l).
Proof. induction l as [|i l IH]; simpl; auto. unfold csum in *. simpl. rewrite IH. auto. Qed.
Lemma csum_zip (l : list nat) (f h : nat -> C) : csum (zip_with Cmult (map f l) (map h l)) = csum (map (fun i => f i * h i) l).
Proof. induction l as [|i l IH]; simpl; auto. unfold csum in *. simpl. rewrite IH. auto. Qed.
Lemma zip_sum (f : nat -> C) n (v : list C) : length v = n -> csum (zip_with Cmult (map f (seq 0 n)) v) = csum (map (fun j => f j * nth j v (RtoC 0)) (seq 0 n)).
Proof. intros <-. rewrite <- csum_zip, map_nth_seq. auto. Qed.
Lemma zip_sum2 n (r v : list C) : length r = n -> length v = n -> csum (zip_with Cmult r v) = csum (map (fun j => nth j r (RtoC 0) * nth j v (RtoC 0)) (seq 0 n)).
Proof. intros Lr Lv. rewrite <- (zip_sum (fun j => nth j r (RtoC 0)) n v Lv). rewrite <- Lr, map_nth_seq. auto. Qed.
Lemma csum_add {X} (l : list X) (f h : X -> C) : csum (map f l) + csum (map h l) = csum (map (fun i => f i + h i) l).
Proof. induction l as [|i l IH]; simpl; [unfold csum; simpl; ring|]. unfold csum in *. simpl. rewrite <- IH. ring. Qed.
Lemma csum_mul {X} (l : list X) (f : X -> C) c : c * csum (map f l) = csum (map (fun i => c * f i) l).
Proof. induction l as [|i l IH]; simpl; [unfold csum; simpl; ring|]. unfold csum in *. simpl. rewrite <- IH. ring. Qed.
Lemma csum_ext {X} (l : list X) (f h : X -> C) : (forall x, In x l -> f x = h x) -> csum (map f l) = csum (map h l).
Proof. intros H. f_equal. apply map_ext_in; auto. Qed.

Lemma csum_delta (v : list C) i n : (i < n)%nat -> csum (map (fun j => if Nat.eqb i j then nth j v (RtoC 0) else RtoC 0) (seq 0 n)) = nth i v (RtoC 0).
Proof.
  intros Hi. assert (G : forall n k, (k <= i < k + n)%nat -> csum (map (fun j => if Nat.eqb i j then nth j v (RtoC 0) else RtoC 0) (seq k n)) = nth i v (RtoC 0)); [|apply G; lia].
  induction n0 as [|m IH]; intros k Hk; [lia|]. cbn [seq map]. unfold csum. cbn [fold_right]. fold (csum (map (fun j => if Nat.eqb i j then nth j v (RtoC 0) else RtoC 0) (seq (S k) m))).
  destruct (Nat.eqb_spec i k) as [->|Nk].
  - assert (Z : forall m q, (k < q)%nat -> csum (map (fun j => if Nat.eqb k j then nth j v (RtoC 0) else RtoC 0) (seq q m)) = RtoC 0).
    { induction m0 as [|r IHr]; intros q Hq; auto. cbn [seq map]. unfold csum in *. cbn [fold_right]. rewrite IHr by lia. destruct (Nat.eqb_spec k q); [lia|]. ring. }
    rewrite Z by lia. ring.
  - rewrite IH by lia. ring.
Qed.
(** Unit vectors. *)
Definition unit_v (n i : nat) : vec := map (fun j => if Nat.eqb i j then RtoC 1 else RtoC 0) (seq 0 n).
Definition units (n : nat) : list vec := map (unit_v n) (seq 0 n).
Lemma units_vectors n : vectors n (units n).
Proof. intros v H. apply in_map_iff in H. destruct H as (i & <- & _). unfold unit_v. rewrite map_length, seq_length. auto. Qed.
Lemma units_length n : length (units n) = n.
Proof. unfold units. rewrite map_length, seq_length. auto. Qed.
Lemma unit_inner n i w : length w = n -> (i < n)%nat -> inner (unit_v n i) w = nth i w (RtoC 0).
Proof.
  intros Lw Hi. rewrite <- (csum_delta w i n Hi). unfold unit_v. transitivity (inner (map (fun j => if Nat.eqb i j then RtoC 1 else RtoC 0) (seq 0 n)) (map (fun j => nth j w (RtoC 0)) (seq 0 n))).
  - f_equal. rewrite <- Lw. symmetry. apply map_nth_seq.
  - rewrite inner_sum. apply csum_ext. intros j _. destruct (Nat.eqb i j); rewrite Cconj_R; ring.
Qed.
Lemma adj_units n w : length w = n -> adj (units n) w = w.
Proof.
  intros Lw. unfold adj, units. rewrite map_map. transitivity (map (fun j => nth j w (RtoC 0)) (seq 0 n)); [|rewrite <- Lw; apply map_nth_seq].
  apply map_ext_in. intros i Hi. apply in_seq in Hi. apply unit_inner; auto. lia.
Qed.
Lemma units_nth n i v : nth_error (units n) i = Some v -> (i < n)%nat /\ v = unit_v n i.
Proof.
  intros H. assert (L : (i < n)%nat) by (rewrite <- (units_length n); apply nth_error_Some; intros E0; rewrite E0 in H; discriminate).
  split; auto. unfold units in H. rewrite nth_error_map, (nth_error_nth' _ 0%nat), seq_nth in H by (rewrite ?seq_length; auto). simpl in H. congruence.
Qed.
Lemma unit_nth n i j : (j < n)%nat -> nth j (unit_v n i) (RtoC 0) = if Nat.eqb i j then RtoC 1 else RtoC 0.
Proof.
  intros H. unfold unit_v. rewrite (nth_indep _ _ (if Nat.eqb i 0 then RtoC 1 else RtoC 0)) by (rewrite map_length, seq_length; auto).
  rewrite (map_nth (fun j => if Nat.eqb i j then RtoC 1 else RtoC 0)), seq_nth by auto. reflexivity.
Qed.
Lemma units_orthonormal n : orthonormal (units n).
Proof.
  split.
  - intros v Hv. apply In_nth_error in Hv. destruct Hv as (i & Hi). apply units_nth in Hi. destruct Hi as [Hi ->].
    rewrite unit_inner, unit_nth, Nat.eqb_refl by (auto; unfold unit_v; rewrite map_length, seq_length; auto). auto.
  - intros i j v w Hi Hj Nij. apply units_nth in Hi, Hj. destruct Hi as [Hi ->], Hj as [Hj ->].
    rewrite unit_inner, unit_nth by (auto; unfold unit_v; rewrite map_length, seq_length; auto). destruct (Nat.eqb_spec j i); [congruence|auto].
Qed.
Lemma mat_vec_units n v : length v = n -> mat_vec n (units n) v = v.
Proof.
  intros Lv. rewrite <- (adj_units n (mat_vec n (units n) v)) by (apply mat_vec_length, units_vectors).
  apply adj_isometry; [apply units_vectors | apply units_orthonormal | rewrite units_length; auto].
Qed.

(** The rows of the Hermitian part. *)
Lemma hermitian_apply n cols v : vectors n cols -> length cols = n -> length v = n ->
  rows_vec (hermitian_rows n cols) v = vscale (RtoC (/ 2)) (vadd (mat_vec n cols v) (adj cols v)).
Proof.
  intros Hc Lc Lv. apply nth_ext with (d := RtoC 0) (d' := RtoC 0).
  { unfold rows_vec, hermitian_rows. rewrite !map_length, seq_length, vscale_length. symmetry. apply vadd_length; [apply mat_vec_length; auto|].
    transitivity (length cols); [apply adj_length | auto]. }
  unfold rows_vec, hermitian_rows. rewrite !map_length, seq_length. intros i Hi. rewrite map_map. unfold vec in *.
  rewrite (nth_indep _ _ (csum (zip_with Cmult (map (fun j => RtoC (/ 2) * (entry cols 0 j + Cconj (entry cols j 0))) (seq 0 n)) v))) by (rewrite map_length, seq_length; auto).
  rewrite (map_nth (fun i => csum (zip_with Cmult (map (fun j => RtoC (/ 2) * (entry cols i j + Cconj (entry cols j i))) (seq 0 n)) v)) (seq 0 n) 0%nat i).
  rewrite seq_nth by auto. simpl. rewrite <- (map_nth_seq v) at 1. rewrite Lv, csum_zip.
  assert (N : forall c (u w : vec) i, length u = length w -> nth i (vscale c (vadd u w)) (RtoC 0) = c * (nth i u (RtoC 0) + nth i w (RtoC 0))).
  { clear. intros c u. induction u as [|x u IH]; intros [|y w] [|i] L; simpl in *; try discriminate; try ring. apply IH. lia. }
  rewrite N by (rewrite (mat_vec_length n), adj_length; auto). rewrite mat_vec_nth by auto.
  assert (E1 : csum (zip_with Cmult (map (fun c : list C => nth i c (RtoC 0)) cols) v) = csum (map (fun j => entry cols i j * nth j v (RtoC 0)) (seq 0 n))).
  { rewrite <- csum_zip, <- Lv, map_nth_seq. f_equal. f_equal. unfold entry. rewrite Lv, <- Lc. symmetry. apply (map_seq_nth cols [] (fun c => nth i c (RtoC 0))). }
  assert (E2 : nth i (adj cols v) (RtoC 0) = csum (map (fun j => Cconj (entry cols j i) * nth j v (RtoC 0)) (seq 0 n))).
  { unfold adj. rewrite (nth_indep _ _ (inner [] v)) by (rewrite map_length; lia). rewrite (map_nth (fun c => inner c v)).
    assert (Ln : length (nth i cols []) = n) by (apply Hc, nth_In; lia).
    rewrite <- (map_nth_seq v) at 1. rewrite <- (map_nth_seq (nth i cols [])). rewrite Ln, Lv, inner_sum. reflexivity. }
  unfold vec in *. rewrite E1, E2, csum_add, csum_mul. apply csum_ext. intros j _. ring.
Qed.
Lemma hermitian_rows_length n cols : length (hermitian_rows n cols) = n.
Proof. unfold hermitian_rows. rewrite map_length, seq_length. auto. Qed.
Lemma hermitian_rows_hermitian n cols : vectors n cols -> length cols = n -> hermitian n (hermitian_rows n cols).
Proof.
  intros Hc Lc. split; [apply hermitian_rows_length|]. intros x y Lx Ly.
  assert (LA : forall v, length (mat_vec n cols v) = n) by (apply mat_vec_length; auto).
  assert (LB : forall v, length (adj cols v) = n) by (intros; rewrite adj_length; auto).
  rewrite !hermitian_apply by auto. rewrite inner_scale_r, inner_scale_l, Cconj_R, (inner_add_r n), (inner_add_l n) by auto.
  rewrite (adj_inner_l n cols x y), (adj_inner n cols y x) by (auto; refine (eq_trans _ (eq_sym Lc)); assumption). ring.
Qed.

(** ss.eye - sign * matrix. *)
Lemma one_minus_apply n sign D v : length D = n -> vectors n D -> length v = n ->
  rows_vec (one_minus n sign D) v = vsub v (vscale (RtoC sign) (rows_vec D v)).
Proof.
  intros LD VD Lv. apply nth_ext with (d := RtoC 0) (d' := RtoC 0).
  { unfold rows_vec, one_minus. rewrite !map_length, seq_length. symmetry. apply vsub_length; auto. rewrite vscale_length, map_length; auto. }
  unfold rows_vec, one_minus. rewrite !map_length, seq_length. intros i Hi. rewrite map_map. unfold vec in *.
  rewrite (nth_indep _ _ (csum (zip_with Cmult (map (fun j => (if Nat.eqb 0 j then RtoC 1 else RtoC 0) - RtoC sign * nth j (nth 0 D []) (RtoC 0)) (seq 0 n)) v))) by (rewrite map_length, seq_length; auto).
  rewrite (map_nth (fun i => csum (zip_with Cmult (map (fun j => (if Nat.eqb i j then RtoC 1 else RtoC 0) - RtoC sign * nth j (nth i D []) (RtoC 0)) (seq 0 n)) v)) (seq 0 n) 0%nat i), seq_nth by auto. simpl.
  assert (N : forall (u w : vec) i c, length u = length w -> nth i (vsub u (vscale c w)) (RtoC 0) = nth i u (RtoC 0) - c * nth i w (RtoC 0)).
  { clear. intros u. induction u as [|x u IH]; intros [|y w] [|i] c L; simpl in *; try discriminate; try ring. apply IH. lia. }
  rewrite N by (rewrite map_length; lia).
  rewrite (nth_indep (map _ D) _ (csum (zip_with Cmult [] v))) by (rewrite map_length; lia).
  rewrite (map_nth (fun r => csum (zip_with Cmult r v))).
  assert (Ln : length (nth i D []) = n) by (apply VD, nth_In; lia).
  rewrite (zip_sum (fun j => (if Nat.eqb i j then RtoC 1 else RtoC 0) - RtoC sign * nth j (nth i D []) (RtoC 0)) n v Lv), (zip_sum2 n (nth i D []) v Ln Lv).
  transitivity (csum (map (fun j => (if Nat.eqb i j then nth j v (RtoC 0) else RtoC 0)) (seq 0 n)) + (- RtoC sign) * csum (map (fun j => nth j (nth i D []) (RtoC 0) * nth j v (RtoC 0)) (seq 0 n))).
  - rewrite csum_mul, csum_add. apply csum_ext. intros j _. destruct (Nat.eqb i j); ring.
  - rewrite csum_delta by auto. ring.
Qed.

(* ------------------------------------------------------------ partial isometries *)

Definition masked (m : list bool) (v : vec) : vec := zip_with (fun (b : bool) z => if b then z else RtoC 0) m v.
Lemma masked_length n m v : length m = n -> length v = n -> length (masked m v) = n.
Proof. apply zip_length. Qed.
Lemma masked_inner m v : length m = length v -> inner v (masked m v) = RtoC (sqsum (masked m v)).
Proof.
  rewrite <- inner_self. revert v. induction m as [|b m IH]; intros [|z v] H; simpl in *; try discriminate; auto.
  rewrite IH by lia. destruct b; auto. rewrite Cmult_0_r. f_equal. rewrite Cmult_0_r. auto.
Qed.
Lemma masked_split m v : length m = length v -> (sqsum (masked m v) + sqsum (masked (map negb m) v) = sqsum v)%R.
Proof.
  revert v. induction m as [|b m IH]; intros [|z v] H; simpl in *; try discriminate; [unfold sqsum; simpl; lra|].
  specialize (IH v ltac:(lia)). unfold sqsum, masked in *. destruct b; simpl in *; lra.
Qed.
Lemma masked_zero m v : length m = length v -> masked (map negb m) v = vzero (length v) -> masked m v = v.
Proof.
  revert v. induction m as [|b m IH]; intros [|z v] H E; simpl in *; try discriminate; auto.
  injection E as E1 E2. unfold masked in *. simpl. f_equal; [destruct b; simpl in *; congruence | apply IH; auto; lia].
Qed.

Section Partial.
  Variables (N : nat) (cols : list vec) (mask : list bool).
  Hypotheses (Vc : vectors N cols) (Lc : length cols = N) (Lm : length mask = N).
  Hypothesis Iso : forall x, length x = N -> adj cols (mat_vec N cols x) = masked mask x.

  Lemma deviation_eq (s : R) x : (s * s = 1)%R -> length x = N ->
    (sqsum (vsub (mat_vec N cols x) (vscale (RtoC s) x)) + sqsum (masked (map negb mask) x) = 2 * sqsum x - 2 * s * fst (inner x (mat_vec N cols x)))%R.
  Proof.
    intros Hs Lx. set (w := mat_vec N cols x). assert (Lw : length w = N) by (apply mat_vec_length; auto).
    assert (Ls : length (vscale (RtoC s) x) = N) by (rewrite vscale_length; auto).
    assert (E : inner (vsub w (vscale (RtoC s) x)) (vsub w (vscale (RtoC s) x)) = inner w w - RtoC s * (inner x w + inner w x) + RtoC (s * s) * inner x x).
    { rewrite (inner_sub_l N), !(inner_sub_r N) by (auto; apply vsub_length; auto). rewrite !inner_scale_l, !inner_scale_r, Cconj_R, RtoC_mult. ring. }
    rewrite (inner_sym x w) in E. apply (f_equal fst) in E. rewrite !inner_self, Hs in E. 
    assert (Ew : inner w w = RtoC (sqsum (masked mask x))).
    { unfold w at 1. rewrite (adj_inner N) by (auto; refine (eq_trans _ (eq_sym Lc)); assumption). unfold w. rewrite Iso by auto. apply masked_inner. rewrite Lm; auto. }
    rewrite inner_self in Ew. apply RtoC_inj in Ew. rewrite Ew in E. simpl in E. pose proof (masked_split mask x ltac:(rewrite Lm; auto)) as Sp.
    fold w. change (fst (inner x w)) with (Re (inner x w)) in *. unfold Re in *. lra.
  Qed.

  (** Compression to the span of orthonormal vectors [K]. *)
  Variables (K A : list vec).
  Hypotheses (VK : vectors N K) (OK : orthonormal K) (VA : vectors (length K) A) (LA : length A = length K).
  Hypothesis HA : forall v, length v = length K -> mat_vec (length K) A v = adj K (mat_vec N cols (mat_vec N K v)).

  Lemma compressed_eigen (s lam : R) v : (s * s = 1)%R -> length v = length K ->
    rows_vec (hermitian_rows (length K) A) v = vscale (RtoC lam) v ->
    let x := mat_vec N K v in
    (sqsum (vsub (mat_vec N cols x) (vscale (RtoC s) x)) + sqsum (masked (map negb mask) x) = 2 * (1 - s * lam) * sqsum v)%R.
  Proof.
    intros Hs Lv E x. assert (Lx : length x = N) by (apply mat_vec_length; auto).
    rewrite deviation_eq by auto. assert (Sx : sqsum x = sqsum v).
    { apply RtoC_inj. rewrite <- !inner_self. apply isometry; auto. }
    assert (Ei : inner v (mat_vec (length K) A v) = inner x (mat_vec N cols x)).
    { rewrite HA by auto. rewrite <- (adj_inner N); auto. apply mat_vec_length; auto. }
    rewrite (hermitian_apply (length K)) in E by auto. apply (f_equal (inner v)) in E.
    rewrite !inner_scale_r, (inner_add_r (length K)) in E by (auto; try (rewrite adj_length; auto); apply mat_vec_length; auto).
    rewrite <- (adj_inner (length K)) in E by (auto; refine (eq_trans _ (eq_sym LA)); assumption). rewrite (inner_sym v (mat_vec (length K) A v)), Ei, inner_self in E.
    apply (f_equal fst) in E. simpl in E. rewrite Sx. replace (fst (inner x (mat_vec N cols x))) with (lam * sqsum v)%R by lra. ring.
  Qed.

  Theorem compressed_iff (s : R) v : (s * s = 1)%R -> length v = length K ->
    let x := mat_vec N K v in
    (rows_vec (hermitian_rows (length K) A) v = vscale (RtoC s) v <->
     mat_vec N cols x = vscale (RtoC s) x /\ masked (map negb mask) x = vzero N).
  Proof.
    intros Hs Lv x. assert (Lx : length x = N) by (apply mat_vec_length; auto).
    assert (Lw : length (mat_vec N cols x) = N) by (apply mat_vec_length; auto).
    split.
    - intros E. pose proof (compressed_eigen s s v Hs Lv E) as D. cbv zeta in D. fold x in D. replace (2 * (1 - s * s) * sqsum v)%R with 0%R in D by (rewrite Hs; ring).
      pose proof (sqsum_nonneg (vsub (mat_vec N cols x) (vscale (RtoC s) x))). pose proof (sqsum_nonneg (masked (map negb mask) x)).
      split.
      + assert (Z : sqsum (vsub (mat_vec N cols x) (vscale (RtoC s) x)) = 0%R) by lra. apply sqsum_zero in Z.
        apply vsub_zero; [rewrite vscale_length; congruence|]. rewrite Z. f_equal. rewrite (vsub_length N); auto. rewrite vscale_length; auto.
      + assert (Z : sqsum (masked (map negb mask) x) = 0%R) by lra. apply sqsum_zero in Z. rewrite Z. f_equal. apply masked_length; auto. rewrite map_length; auto.
    - intros [E1 E2]. rewrite (hermitian_apply (length K)) by auto.
      assert (Ax : mat_vec (length K) A v = vscale (RtoC s) v).
      { rewrite HA by auto. fold x. rewrite E1, adj_scale. unfold x. rewrite adj_isometry; auto. }
      assert (Ay : adj A v = vscale (RtoC s) v).
      { apply (inner_ext (length K)); [rewrite adj_length; auto | rewrite vscale_length; auto|]. intros u Lu.
        rewrite <- (adj_inner (length K)) by (auto; refine (eq_trans _ (eq_sym LA)); assumption). rewrite HA by auto.
        rewrite (inner_sym v), <- (adj_inner N) by (auto; apply mat_vec_length; auto). fold x. rewrite <- inner_sym.
        assert (Lu' : length (mat_vec N K u) = N) by (apply mat_vec_length; auto).
        rewrite (adj_inner N) by (auto; refine (eq_trans _ (eq_sym Lc)); assumption).
        assert (Ex : adj cols x = vscale (RtoC s) x).
        { transitivity (vscale (RtoC s) (vscale (RtoC s) (adj cols x))); [rewrite vscale_vscale, <- RtoC_mult, Hs, vscale_one; auto|].
          rewrite <- (adj_scale cols (RtoC s) x), <- E1, Iso by auto. rewrite masked_zero; auto; [congruence | rewrite E2, Lx; auto]. }
        rewrite Ex, !inner_scale_r. f_equal. unfold x. apply isometry; auto. }
      rewrite Ax, Ay. rewrite <- vscale_plus, vscale_vscale, <- RtoC_plus, <- RtoC_mult. f_equal. f_equal. field.
  Qed.
End Partial.
