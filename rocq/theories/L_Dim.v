(** Independent vectors: coefficients and numbers of vectors. *)
From Coq Require Import List Bool Arith Lia Reals Lra.
From Coquelicot Require Import Complex.
From Verif Require Import M_LinAlg S_LinAlg S_Sparsify L_LinAlg L_Inter L_Sparsify L_Generate2 L_LU.
Import ListNotations.
Local Open Scope nat_scope.

(** Only the zero vector is mapped to zero. *)
Definition injective (n : nat) (X : list vec) : Prop :=
  forall v, length v = length X -> mat_vec n X v = vzero n -> v = vzero (length X).

Lemma mat_vec_app n A B a b : vectors n A -> vectors n B -> length a = length A ->
  mat_vec n (A ++ B) (a ++ b) = vadd (mat_vec n A a) (mat_vec n B b).
Proof.
  revert a. induction A as [|v A IH]; intros [|c a] VA VB La; try discriminate.
  - simpl. symmetry. apply vadd_0l. apply mat_vec_length; auto.
  - simpl. rewrite IH; auto; [apply eq_sym, vadd_assoc | intros w Hw; apply VA; right; auto].
Qed.
Lemma mat_vec_cons n v A c a : mat_vec n (v :: A) (c :: a) = vadd (vscale c v) (mat_vec n A a).
Proof. reflexivity. Qed.
Lemma vzero_app a b : vzero (a + b) = vzero a ++ vzero b.
Proof. apply repeat_app. Qed.
Lemma vector_snoc {T} (l : list T) k : length l = S k -> exists m x, l = m ++ [x] /\ length m = k.
Proof.
  intros H. destruct (exists_last (l := l)) as (m & x & ->); [destruct l; discriminate|]. exists m, x. split; auto. rewrite app_length in H. simpl in H. lia.
Qed.
Lemma vadd_opp n (u v : vec) : length u = n -> length v = n -> vadd u v = vzero n -> u = vscale (RtoC (-1)) v.
Proof.
  revert u v. induction n as [|n IH]; intros [|x u] [|y v] Lu Lv H; try discriminate; auto.
  assert (H1 : (x + y)%C = RtoC 0) by exact (f_equal (hd (RtoC 0)) H). assert (H2 : vadd u v = vzero n) by exact (f_equal (@tl C) H).
  simpl in Lu, Lv. change (vscale (RtoC (-1)) (y :: v)) with ((RtoC (-1) * y)%C :: vscale (RtoC (-1)) v). f_equal; [|apply IH; auto; lia].
  replace x with (x + y - y)%C by ring. rewrite H1. apply injective_projections; simpl; ring.
Qed.

Lemma independent_injective n V : vectors n V -> independent n V -> injective n V.
Proof.
  intros HV HI. unfold injective. induction V as [|w V IH] using rev_ind; intros v Lv E.
  - destruct v; [reflexivity | discriminate].
  - unfold vec in *. rewrite app_length in Lv. simpl in Lv. rewrite Nat.add_1_r in Lv. destruct (vector_snoc v _ Lv) as (x & z & -> & Lx).
    assert (VV : vectors n V) by (intros u Hu; apply HV, in_or_app; auto).
    assert (Lw : length w = n) by (apply HV, in_or_app; right; left; auto).
    rewrite mat_vec_app, mat_vec_cons in E; auto; [|intros u [<-|[]]; auto].
    change (mat_vec n [] []) with (vzero n) in E. rewrite (vadd_0r n) in E by (rewrite vscale_length; auto).
    destruct (Ceq_dec z (RtoC 0)) as [->|Hz].
    + rewrite vscale_0 in E. rewrite Lw, (vadd_0r n) in E by (apply mat_vec_length; auto).
      rewrite app_length. rewrite vzero_app. f_equal. apply IH; auto. intros l1 u l2 E0. apply (HI l1 u (l2 ++ [w])). rewrite E0, <- app_assoc. reflexivity.
    + exfalso. apply (HI V w []); auto. rewrite vadd_comm in E.
      apply (vadd_opp n) in E; [|rewrite vscale_length; auto | apply mat_vec_length; auto].
      assert (Ew : w = vscale (/ z * RtoC (-1))%C (mat_vec n V x)).
      { rewrite <- vscale_vscale, <- E, vscale_vscale. replace (/ z * z)%C with (RtoC 1) by (field; auto). symmetry. apply vscale_one. }
      rewrite Ew. apply (span_scale n); auto. apply mat_vec_span; auto.
Qed.

Lemma span_image n W : vectors n W -> forall xs u, vectors (length W) xs -> span (length W) xs u -> span n (map (mat_vec n W) xs) (mat_vec n W u).
Proof.
  intros HW xs u Hx. induction 1 as [|c x u Hin Hu IH].
  - change (repeat (RtoC 0) (length W)) with (vzero (length W)). rewrite mat_vec_zero by auto. apply span_zero.
  - change (zip_with Cplus (map (Cmult c) x) u) with (vadd (vscale c x) u).
    assert (Lu : length u = length W) by (eapply span_length; eauto).
    rewrite mat_vec_add, mat_vec_scale by (auto; rewrite vscale_length; apply Hx; auto).
    apply (span_add n _ c (mat_vec n W x)); auto. apply in_map; auto.
Qed.
(** Independent vectors in the span of [W] are not more than those of [W]. *)
Lemma span_dimension n V W : vectors n V -> vectors n W -> independent n V -> (forall v, In v V -> span n W v) -> length V <= length W.
Proof.
  intros HV HW HI HS.
  assert (E : exists xs, vectors (length W) xs /\ V = map (mat_vec n W) xs).
  { clear HI. induction V as [|v V IH]; [exists []; split; auto; intros ? []|].
    destruct IH as (xs & Vx & Ex); [intros u Hu; apply HV; right; auto | intros u Hu; apply HS; right; auto|].
    destruct (span_mat_vec n W HW v) as (x & Lx & Ev); [apply HS; left; auto|]. exists (x :: xs). split; [intros u [<-|Hu]; auto|]. simpl. rewrite Ev, Ex. reflexivity. }
  destruct E as (xs & Vx & ->). rewrite map_length. destruct (lu_exists (length W) xs Vx) as (L & HL).
  apply (lu_dimension (length W) xs L); auto. intros l1 x l2 E Hs. apply (HI (map (mat_vec n W) l1) (mat_vec n W x) (map (mat_vec n W) l2)).
  - rewrite E, map_app. reflexivity.
  - apply span_image; auto. intros u Hu. apply Vx. rewrite E. apply in_or_app; auto.
Qed.
Lemma nonzero_split (v : vec) : v <> vzero (length v) -> exists v1 z v2, v = v1 ++ z :: v2 /\ z <> RtoC 0.
Proof.
  induction v as [|z v IH]; intros H; [exfalso; apply H; reflexivity|]. destruct (Ceq_dec z (RtoC 0)) as [->|Hz].
  - destruct IH as (v1 & y & v2 & -> & Hy); [intros E; apply H; simpl; unfold vzero in *; simpl; f_equal; auto|]. exists (RtoC 0 :: v1), y, v2. auto.
  - exists [], z, v. auto.
Qed.
(** As many vectors as the dimension of what they span. *)
Lemma spanning_injective n V W : vectors n V -> vectors n W -> independent n V -> length W <= length V ->
  (forall v, In v V -> span n W v) -> injective n W.
Proof.
  intros HV HW HI HL HS x Lx E. unfold vec in *. destruct (list_eq_dec Ceq_dec x (vzero (length W))) as [|N]; auto. exfalso.
  assert (N' : x <> vzero (length x)) by (rewrite Lx; auto).
  destruct (nonzero_split x N') as (x1 & z & x2 & -> & Hz). clear N N'.
  assert (EW : exists W1 w W2, W = W1 ++ w :: W2 /\ length W1 = length x1).
  { exists (firstn (length x1) W). assert (Hl : length x1 < length W) by (rewrite <- Lx, app_length; simpl; lia).
    destruct (skipn (length x1) W) as [|w W2] eqn:Es; [assert (X := skipn_length (length x1) W); rewrite Es in X; simpl in X; lia|].
    exists w, W2. split; [rewrite <- Es; symmetry; apply firstn_skipn | apply firstn_length_le; lia]. }
  destruct EW as (W1 & w & W2 & -> & L1).
  assert (V1 : vectors n W1) by (intros u Hu; apply HW, in_or_app; auto).
  assert (V2 : vectors n W2) by (intros u Hu; apply HW, in_or_app; right; right; auto).
  assert (Lw : length w = n) by (apply HW, in_or_app; right; left; auto).
  assert (V12 : vectors n (W1 ++ W2)) by (intros u Hu; apply in_app_or in Hu; destruct Hu; auto).
  rewrite mat_vec_app, mat_vec_cons in E; auto; [|intros u [<-|Hu]; auto].
  assert (Lm1 := mat_vec_length n W1 V1 x1). assert (Lm2 := mat_vec_length n W2 V2 x2).
  assert (E' : vadd (vscale z w) (vadd (mat_vec n W1 x1) (mat_vec n W2 x2)) = vzero n).
  { rewrite <- E, <- !vadd_assoc. f_equal. apply vadd_comm. }
  apply (vadd_opp n) in E'; [|rewrite vscale_length; auto | apply vadd_length; auto].
  assert (Ew : w = vscale (/ z * RtoC (-1))%C (vadd (mat_vec n W1 x1) (mat_vec n W2 x2))).
  { rewrite <- vscale_vscale, <- E', vscale_vscale. replace (/ z * z)%C with (RtoC 1) by (field; auto). symmetry. apply vscale_one. }
  assert (Sw : span n (W1 ++ W2) w).
  { rewrite Ew. apply (span_scale n); auto. apply (span_plus n); auto; [apply (span_mono n W1) | apply (span_mono n W2)]; try (apply mat_vec_span; auto); intros u Hu; apply in_or_app; auto. }
  assert (D : length V <= length (W1 ++ W2)).
  { apply (span_dimension n); auto. intros v Hv. apply (span_sub n (W1 ++ w :: W2)); auto. intros u Hu.
    apply in_app_or in Hu. destruct Hu as [Hu|[<-|Hu]]; auto; apply span_member; auto; apply in_or_app; auto. }
  rewrite app_length in *. simpl in *. lia.
Qed.
Lemma orthonormal_injective n X : vectors n X -> orthonormal X -> injective n X.
Proof.
  intros V O x Lx E. assert (Z : inner x x = RtoC 0).
  { rewrite <- (isometry n X V O x x Lx Lx), E. apply inner_zero_r. }
  rewrite inner_self in Z. apply RtoC_inj in Z. apply sqsum_zero in Z. unfold vec in *. rewrite <- Lx. auto.
Qed.
