(** Intersection of two subspaces from the kernel of the Gram matrix. *)
From Coq Require Import List Reals Bool Arith Lia Lra.
From Coquelicot Require Import Complex.
From Verif Require Import Exn M_LinAlg S_LinAlg L_LinAlg.
Import ListNotations.
Local Open Scope C_scope.

Lemma vadd_0l n v : length v = n -> vadd (vzero n) v = v.
Proof. intros <-. apply vadd_zero_l. Qed.
Lemma vadd_0r n v : length v = n -> vadd v (vzero n) = v.
Proof. intros <-. apply vadd_zero_r. Qed.
Lemma vadd_vzero n : vadd (vzero n) (vzero n) = vzero n.
Proof. pose proof (vadd_zero_r (vzero n)) as H. rewrite vzero_length in H. auto. Qed.

Lemma mat_vec_length n A : vectors n A -> forall x, length (mat_vec n A x) = n.
Proof.
  induction A as [|a A IH]; intros HA [|c x]; simpl; try apply vzero_length.
  apply (vadd_length n).
  - rewrite vscale_length. apply HA. left; auto.
  - apply IH. intros v Hv. apply HA. right; auto.
Qed.
Lemma mat_vec_span n A : vectors n A -> forall x, span n A (mat_vec n A x).
Proof.
  induction A as [|a A IH]; intros HA [|c x]; simpl; try apply span_zero.
  apply (span_add n (a :: A) c a); [left; auto|].
  eapply span_mono; [|apply IH]; [intros v Hv; right; auto|]. intros v Hv. apply HA. right; auto.
Qed.

Lemma mat_vec_add n A : vectors n A -> forall x y, length x = length A -> length y = length A ->
  mat_vec n A (vadd x y) = vadd (mat_vec n A x) (mat_vec n A y).
Proof.
  induction A as [|a A IH]; intros HA [|c x] [|d y]; simpl; intros Hx Hy; try discriminate.
  - symmetry. apply vadd_vzero.
  - fold (vadd x y). rewrite IH by (auto; intros v Hv; apply HA; right; auto).
    rewrite vscale_plus, !vadd_assoc. f_equal. rewrite <- !vadd_assoc. f_equal. apply vadd_comm.
Qed.
Lemma mat_vec_scale n A : vectors n A -> forall c x, mat_vec n A (vscale c x) = vscale c (mat_vec n A x).
Proof.
  induction A as [|a A IH]; intros HA c [|d x]; simpl; try (rewrite vscale_zero; auto; fail).
  fold (vscale c x). rewrite IH by (intros v Hv; apply HA; right; auto).
  rewrite vscale_add, vscale_vscale. auto.
Qed.
Lemma mat_vec_zero n A : vectors n A -> forall m, mat_vec n A (vzero m) = vzero n.
Proof.
  induction A as [|a A IH]; intros HA [|m]; simpl; auto. fold (vzero m).
  rewrite IH by (intros v Hv; apply HA; right; auto).
  rewrite vscale_0, (HA a) by (left; auto). apply vadd_vzero.
Qed.

(** Every combination of the columns is a product with some coefficient vector. *)
Lemma span_mat_vec n A : vectors n A -> forall v, span n A v -> exists x, length x = length A /\ v = mat_vec n A x.
Proof.
  intros HA v. induction 1 as [|c w v Hw Hv IH].
  - exists (vzero (length A)). split; [apply vzero_length|]. rewrite mat_vec_zero; auto.
  - destruct IH as (x & Lx & ->).
    assert (U : exists e, length e = length A /\ w = mat_vec n A e).
    { clear - HA Hw. induction A as [|a A IH]; [destruct Hw|]. destruct Hw as [->|Hw].
      - exists (RtoC 1 :: vzero (length A)). split; [simpl; rewrite vzero_length; auto|]. simpl.
        rewrite vscale_one, mat_vec_zero by (intros u Hu; apply HA; right; auto).
        rewrite vadd_0r; auto. apply HA; left; auto.
      - destruct IH as (e & Le & ->); auto; [intros u Hu; apply HA; right; auto|].
        exists (RtoC 0 :: e). split; [simpl; auto|]. simpl.
        assert (La : length a = n) by (apply HA; left; auto).
        rewrite vscale_0, La.
        rewrite vadd_0l; auto. apply mat_vec_length. intros u Hu; apply HA; right; auto. }
    destruct U as (e & Le & ->). exists (vadd (vscale c e) x). split.
    + apply vadd_length; auto. rewrite vscale_length. auto.
    + rewrite mat_vec_add, mat_vec_scale; auto. rewrite vscale_length; auto.
Qed.

(** Inner products through a matrix. *)
Lemma inner_mat_vec n A u : vectors n A -> length u = n -> forall x, length x = length A ->
  inner u (mat_vec n A x) = csum (zip_with Cmult (map (inner u) A) x).
Proof.
  intros HA Hu. induction A as [|a A IH]; intros [|c x]; simpl; intros Hx; try discriminate.
  - apply inner_zero_r.
  - assert (HA' : vectors n A) by (intros v Hv; apply HA; right; auto).
    rewrite (inner_add_r n); auto.
    + rewrite inner_scale_r, IH by auto. unfold csum. simpl. ring.
    + rewrite vscale_length. apply HA; left; auto.
    + apply mat_vec_length; auto.
Qed.

Lemma inner_mat_vec_l n A u : vectors n A -> length u = n -> forall x, length x = length A ->
  inner (mat_vec n A x) u = inner x (map (fun a => inner a u) A).
Proof.
  intros HA Hu. induction A as [|a A IH]; intros [|c x]; simpl; intros Hx; try discriminate.
  - apply inner_zero_l.
  - assert (HA' : vectors n A) by (intros v Hv; apply HA; right; auto).
    rewrite (inner_add_l n); auto.
    + rewrite inner_scale_l, IH by auto. auto.
    + rewrite vscale_length. apply HA; left; auto.
    + apply mat_vec_length; auto.
Qed.

(** A matrix with orthonormal columns preserves inner products. *)
Lemma isometry n A : vectors n A -> orthonormal A -> forall x y, length x = length A -> length y = length A ->
  inner (mat_vec n A x) (mat_vec n A y) = inner x y.
Proof.
  intros HA HO x y Hx Hy. rewrite inner_mat_vec_l; auto; [|apply mat_vec_length; auto].
  assert (E : map (fun a => inner a (mat_vec n A y)) A = y).
  { clear x Hx. revert y Hy. induction A as [|a A IH]; intros [|c y]; simpl; intros Hy; try discriminate; auto.
    destruct (ortho_tail _ _ HO) as (H1 & H2 & H3).
    assert (HA' : vectors n A) by (intros v Hv; apply HA; right; auto).
    assert (La : length a = n) by (apply HA; left; auto).
    assert (Z : forall v, length v = n -> (forall w, In w A -> inner v w = RtoC 0) -> inner v (mat_vec n A y) = RtoC 0).
    { intros v Lv Hv. rewrite (inner_mat_vec n) by auto. clear - Hv. revert y.
      induction A as [|w A IH]; intros [|d y]; simpl; auto. unfold csum in *. simpl. rewrite IH by (intros; apply Hv; right; auto).
      rewrite Hv by (left; auto). ring. }
    f_equal.
    - rewrite (inner_add_r n); auto; [|rewrite vscale_length; auto|apply mat_vec_length; auto].
      rewrite inner_scale_r, H1, Z by (auto; intros; apply H2; auto). ring.
    - transitivity (map (fun w => inner w (mat_vec n A y)) A); [|apply IH; auto]. apply map_ext_in. intros w Hw.
      assert (Lw : length w = n) by auto.
      rewrite (inner_add_r n); auto; [|rewrite vscale_length; auto|apply mat_vec_length; auto].
      rewrite inner_scale_r. rewrite (proj2 (H2 w Hw)). ring. }
  rewrite E. auto.
Qed.

(** The kernel of the Gram matrix is the kernel of the matrix. *)
Lemma gram_kernel n M : vectors n M -> forall x, length x = length M ->
  (rows_vec (gram M) x = vzero (length M) <-> mat_vec n M x = vzero n).
Proof.
  intros HM x Hx.
  assert (E : rows_vec (gram M) x = map (fun c => inner c (mat_vec n M x)) M).
  { unfold rows_vec, gram. rewrite map_map. apply map_ext_in. intros c Hc.
    rewrite (inner_mat_vec n) by auto. f_equal. f_equal. apply map_ext. intros; apply vdot_inner. }
  rewrite E. split.
  - intros H. assert (Z : inner (mat_vec n M x) (mat_vec n M x) = RtoC 0).
    { rewrite (inner_mat_vec_l n) by (auto; apply mat_vec_length; auto). rewrite H. apply inner_zero_r. }
    rewrite inner_self in Z. apply RtoC_inj in Z. apply sqsum_zero in Z. rewrite mat_vec_length in Z by auto. auto.
  - intros ->. rewrite <- (map_length (fun c => inner c (vzero n)) M).
    clear. induction M; simpl; auto. unfold vzero in *. simpl. f_equal; auto. apply inner_zero_r.
Qed.

Lemma mat_vec_hstack n A B : vectors n A -> vectors n B -> forall a b, length a = length A -> length b = length B ->
  mat_vec n (hstack_neg A B) (a ++ b) = vsub (mat_vec n A a) (mat_vec n B b).
Proof.
  intros HA HB a b La Lb. unfold hstack_neg.
  assert (NB : mat_vec n (map (vscale (RtoC (-1))) B) b = vscale (RtoC (-1)) (mat_vec n B b)).
  { clear - HB. revert b. induction B as [|v B IH]; intros [|c b]; simpl; try (rewrite vscale_zero; auto; fail).
    rewrite IH by (intros u Hu; apply HB; right; auto). rewrite vscale_add, !vscale_vscale. f_equal. f_equal. ring. }
  revert a La. induction A as [|v A IH]; intros [|c a]; simpl; intros La; try discriminate.
  - rewrite NB, vsub_as_add.
    rewrite vadd_0l; auto. rewrite vscale_length. apply mat_vec_length; auto.
  - rewrite IH by (auto; intros u Hu; apply HA; right; auto). rewrite !vsub_as_add, vadd_assoc. auto.
Qed.

Lemma inner_app n : forall a c b d, length a = n -> length c = n -> inner (a ++ b) (c ++ d) = inner a c + inner b d.
Proof.
  induction n; intros [|x a] [|y c] b d; simpl; intros; try discriminate.
  - ring.
  - rewrite IHn by auto. ring.
Qed.

Lemma vsub_zero u : forall v, length u = length v -> vsub u v = vzero (length u) -> u = v.
Proof.
  intros v L H. rewrite <- (vsub_add u v L), H, L. apply vadd_zero_l.
Qed.
Lemma vsub_self v : vsub v v = vzero (length v).
Proof. induction v; simpl; auto. unfold vsub, vzero in *. simpl. f_equal; [ring | auto]. Qed.

Lemma span_scaled n (vs : list vec) (f : vec -> R) : vectors n vs -> (forall v, In v vs -> f v <> 0%R) ->
  forall u, span n vs u -> span n (map (fun v => vscale (RtoC (f v)) v) vs) u.
Proof.
  intros Hv Hf. assert (Hw : vectors n (map (fun v => vscale (RtoC (f v)) v) vs)).
  { intros w Hw. apply in_map_iff in Hw. destruct Hw as (v & <- & Hi). rewrite vscale_length. auto. }
  apply span_sub; auto. intros v Hi.
  replace v with (vscale (RtoC (/ f v)) (vscale (RtoC (f v)) v)).
  - apply span_scale, span_in; auto. apply in_map_iff. eauto.
  - rewrite vscale_vscale, <- RtoC_mult, Rinv_l by auto. apply vscale_one.
Qed.

Theorem intersection_proof eigh n A B : vectors n A -> vectors n B -> orthonormal A -> orthonormal B ->
  exact_kernel eigh (gram (hstack_neg A B)) ->
  exists vs, intersection eigh n n A B = Ok (Some vs) /\ vectors n vs /\ orthonormal vs /\
    forall v, span n vs v <-> span n A v /\ span n B v.
Proof.
  intros HA HB OA OB (K1 & K2 & K3 & K4).
  set (M := hstack_neg A B) in *. set (D := gram M) in *.
  assert (HM : vectors n M).
  { intros v Hv. unfold M, hstack_neg in Hv. apply in_app_or in Hv. destruct Hv as [Hv|Hv]; auto.
    apply in_map_iff in Hv. destruct Hv as (b & <- & Hb). rewrite vscale_length. auto. }
  assert (LM : length M = (length A + length B)%nat) by (unfold M, hstack_neg; rewrite app_length, map_length; auto).
  assert (LD : length D = length M) by (unfold D, gram; apply map_length).
  rewrite LD in *.
  (* splitting of kernel vectors *)
  assert (Split : forall e : vec, length e = length M ->
     let a := firstn (length A) e in let b := skipn (length A) e in
     e = a ++ b /\ length a = length A /\ length b = length B).
  { intros e Le a b. split; [symmetry; apply firstn_skipn|]. unfold a, b. rewrite firstn_length, skipn_length. lia. }
  assert (Ker : forall e, length e = length M -> rows_vec D e = vzero (length M) ->
     mat_vec n A (firstn (length A) e) = mat_vec n B (skipn (length A) e)).
  { intros e Le He. apply (gram_kernel n M HM e Le) in He. destruct (Split e Le) as (Es & La & Lb).
    rewrite Es in He. unfold M in He. rewrite mat_vec_hstack in He by auto.
    apply vsub_zero; [rewrite !mat_vec_length; auto|]. rewrite mat_vec_length by auto. exact He. }
  assert (Two : forall e f, In e (eigh D) -> In f (eigh D) ->
     inner e f = RtoC 2 * inner (mat_vec n A (firstn (length A) e)) (mat_vec n A (firstn (length A) f))).
  { intros e f He Hf. assert (Le := K1 e He). assert (Lf := K1 f Hf).
    destruct (Split e Le) as (Ee & La & Lb). destruct (Split f Lf) as (Ef & La' & Lb').
    rewrite Ee at 1. rewrite Ef at 1. rewrite (inner_app (length A)) by auto.
    rewrite <- (isometry n A HA OA _ _ La La').
    rewrite <- (isometry n B HB OB _ _ Lb Lb').
    rewrite <- (Ker e Le (K3 e He)), <- (Ker f Lf (K3 f Hf)).
    replace (RtoC 2) with (RtoC 1 + RtoC 1) by (rewrite <- RtoC_plus; f_equal; ring). ring. }
  set (g := fun e => mat_vec n A (firstn (length A) e)).
  assert (Half : forall e, In e (eigh D) -> (vnorm (g e) * vnorm (g e) = / 2)%R).
  { intros e He. rewrite vnorm_sq. pose proof (Two e e He He) as T. rewrite (proj1 K2 e He), inner_self, <- RtoC_mult in T.
    apply RtoC_inj in T. fold (g e) in T. lra. }
  assert (Nz : forall e, In e (eigh D) -> vnorm (g e) <> 0%R).
  { intros e He E. specialize (Half e He). rewrite E in Half. lra. }
  unfold intersection. rewrite Nat.eqb_refl. cbn [negb]. cbv zeta. fold M. fold D. change (fun e : vec => mat_vec n A (firstn (length A) e)) with g.
  assert (Ex : existsb (fun v => if Req_EM_T (vnorm v) 0 then true else false) (map g (eigh D)) = false).
  { apply Bool.not_true_is_false. rewrite existsb_exists. intros (v & Hv & E). apply in_map_iff in Hv.
    destruct Hv as (e & <- & He). destruct (Req_EM_T (vnorm (g e)) 0) as [E0|]; [|discriminate]. apply (Nz e He E0). }
  match goal with |- context [existsb ?f ?l] => replace (existsb f l) with false by (symmetry; exact Ex) end.
  cbv iota. rewrite map_map. exists (map (fun e => vscale (RtoC (/ vnorm (g e))) (g e)) (eigh D)). split; [reflexivity|].
  assert (Lg : forall e, length (g e) = n) by (intros; apply mat_vec_length; auto).
  assert (Vg : vectors n (map g (eigh D))).
  { intros v Hv. apply in_map_iff in Hv. destruct Hv as (e & <- & _). auto. }
  assert (Vr : vectors n (map (fun e => vscale (RtoC (/ vnorm (g e))) (g e)) (eigh D))).
  { intros v Hv. apply in_map_iff in Hv. destruct Hv as (e & <- & He). rewrite vscale_length. auto. }
  split; [exact Vr|]. split; [split|].
  - intros v Hv. apply in_map_iff in Hv. destruct Hv as (e & <- & He). apply unit_normalised. apply (Nz e He).
  - intros i j v w Hi Hj Hij. rewrite nth_error_map in Hi, Hj.
    destruct (@nth_error (list C) (eigh D) i) as [e|] eqn:Ei; cbn [option_map] in Hi; [|discriminate].
    destruct (@nth_error (list C) (eigh D) j) as [f|] eqn:Ej; cbn [option_map] in Hj; [|discriminate].
    injection Hi as <-. injection Hj as <-. rewrite inner_scale_l, inner_scale_r.
    assert (He := nth_error_In _ _ Ei). assert (Hf := nth_error_In _ _ Ej).
    pose proof (Two e f He Hf) as T. rewrite (proj2 K2 i j e f Ei Ej Hij) in T. fold (g e) (g f) in T.
    assert (Z : inner (g e) (g f) = RtoC 0).
    { replace (inner (g e) (g f)) with (RtoC (/ 2) * (RtoC 2 * inner (g e) (g f))).
      - rewrite <- T. ring.
      - rewrite Cmult_assoc, <- RtoC_mult. replace (/ 2 * 2)%R with 1%R by field. ring. }
    rewrite Z. ring.
  - intros v.
    assert (Ev : span n (map (fun e => vscale (RtoC (/ vnorm (g e))) (g e)) (eigh D)) v <-> span n (map g (eigh D)) v).
    { split.
      - apply span_sub; auto. intros w Hw. apply in_map_iff in Hw. destruct Hw as (e & <- & He).
        apply span_scale, span_in; auto. apply in_map; auto.
      - intros H. pose proof (span_scaled n (map g (eigh D)) (fun v => (/ vnorm v)%R) Vg) as S.
        rewrite map_map in S. apply S; auto. intros w Hw. apply in_map_iff in Hw. destruct Hw as (e & <- & He).
        apply Rinv_neq_0_compat. auto. }
    rewrite Ev. split.
    + intros H. split.
      * revert v H Ev. intros v H _. revert v H. apply span_sub; auto. intros w Hw. apply in_map_iff in Hw.
        destruct Hw as (e & <- & He). apply mat_vec_span; auto.
      * revert v H Ev. intros v H _. revert v H. apply span_sub; auto. intros w Hw. apply in_map_iff in Hw.
        destruct Hw as (e & <- & He). unfold g. rewrite (Ker e) by auto. apply mat_vec_span; auto.
    + intros (SA & SB). destruct (span_mat_vec n A HA v SA) as (a & La & Ea).
      destruct (span_mat_vec n B HB v SB) as (b & Lb & Eb).
      assert (Lab : length (a ++ b) = length M) by (rewrite app_length; lia).
      assert (Hk : span (length M) (eigh D) (a ++ b)).
      { apply K4; auto. apply (gram_kernel n M HM _ Lab). unfold M. rewrite mat_vec_hstack by auto.
        rewrite <- Ea, <- Eb. rewrite vsub_self. rewrite Ea, mat_vec_length; auto. }
      assert (Gen : forall x, span (length M) (eigh D) x -> span n (map g (eigh D)) (g x)).
      { intros x Hx. induction Hx as [|c e x He Hx IH].
        - unfold g. replace (firstn (length A) (repeat (RtoC 0) (length M))) with (vzero (length A)).
          + rewrite mat_vec_zero by auto. apply span_zero.
          + rewrite LM. unfold vzero. rewrite repeat_app, firstn_app, repeat_length, Nat.sub_diag, firstn_O, app_nil_r.
            rewrite firstn_all2; auto. rewrite repeat_length; auto.
        - assert (Lx := span_length _ _ K1 _ Hx). assert (Le := K1 e He).
          replace (g (zip_with Cplus (map (Cmult c) e) x)) with (vadd (vscale c (g e)) (g x)).
          + apply (span_plus n (map g (eigh D))); auto. apply span_scale, span_in; auto. apply in_map; auto.
          + destruct (Split e Le) as (_ & L1 & _). destruct (Split x Lx) as (_ & L2 & _).
            unfold g. rewrite <- mat_vec_scale by auto. rewrite <- mat_vec_add by (auto; rewrite vscale_length; auto).
            f_equal. clear. generalize (length A) as k. intros k. revert k x.
            induction e as [|z e IH]; intros [|k] [|y x]; simpl; auto. unfold vadd, vscale in *. simpl. f_equal. apply IH. }
      specialize (Gen _ Hk). unfold g in Gen. rewrite firstn_app, La, Nat.sub_diag, firstn_O, app_nil_r in Gen.
      rewrite firstn_all2 in Gen by lia. rewrite Ea. exact Gen.
Qed.

(** A concrete instance of the hypotheses. *)
Lemma C68_hyps : let exA : list vec := [[RtoC 0; RtoC 1]] in
  let exK : list vec := [[RtoC (/ sqrt 2); RtoC (/ sqrt 2)]] in
  vectors 2 exA /\ orthonormal exA /\ exact_kernel (fun _ => exK) (gram (hstack_neg exA exA)).
Proof.
  intros exA exK.
  assert (S2 : (sqrt 2 * sqrt 2 = 2)%R) by (apply sqrt_sqrt; lra).
  assert (N2 : (sqrt 2 <> 0)%R) by (intros E; rewrite E in S2; lra).
  assert (One : forall (v : vec), orthonormal [v] <-> inner v v = RtoC 1).
  { intros v. split.
    - intros [H _]. apply H. left; auto.
    - intros H. split; [intros w [<-|[]]; auto|].
      intros [|i] [|j] a b; simpl; intros Hi Hj Hij; try congruence; try (destruct i; discriminate); destruct j; discriminate. }
  assert (V1 : forall n (v : vec), length v = n -> vectors n [v]) by (intros n v H w [<-|[]]; auto).
  split; [apply V1; reflexivity|]. split.
  { apply One. simpl. apply C_ext; simpl; ring. }
  assert (G : gram (hstack_neg exA exA) = [[RtoC 1; RtoC (-1)]; [RtoC (-1); RtoC 1]]).
  { unfold gram, hstack_neg, exA, vdot, vscale, csum. simpl. repeat f_equal; apply C_ext; simpl; ring. }
  rewrite G. cbv zeta. split; [apply V1; reflexivity|]. split; [|split].
  - apply One. simpl. apply C_ext; simpl; [|ring].
    replace (/ sqrt 2 * / sqrt 2 - - 0 * 0 + (/ sqrt 2 * / sqrt 2 - - 0 * 0 + 0))%R with (2 * / (sqrt 2 * sqrt 2))%R by (field; auto).
    rewrite S2. lra.
  - intros e [<-|[]]. unfold rows_vec, csum, vzero. simpl. repeat f_equal; apply C_ext; simpl; ring.
  - intros [|x [|y [|z l]]]; try discriminate. intros _ H. unfold rows_vec, csum, vzero in H. simpl in H.
    apply (f_equal (fun l => hd (RtoC 0) l)) in H. cbn [hd] in H.
    assert (Exy : x = y).
    { destruct x as [x1 x2], y as [y1 y2]. pose proof (f_equal fst H) as H1. pose proof (f_equal snd H) as H2.
      simpl in H1, H2. f_equal; lra. }
    subst y.
    replace [x; x] with (zip_with Cplus (map (Cmult (RtoC (sqrt 2) * x)) [RtoC (/ sqrt 2); RtoC (/ sqrt 2)]) (repeat (RtoC 0) 2)).
    + simpl length. apply span_add; [left; reflexivity | apply span_zero].
    + simpl. assert (E : RtoC (sqrt 2) * x * RtoC (/ sqrt 2) + RtoC 0 = x).
      { replace (RtoC (sqrt 2) * x * RtoC (/ sqrt 2) + RtoC 0) with (RtoC (sqrt 2) * RtoC (/ sqrt 2) * x) by ring.
        rewrite <- RtoC_mult, Rinv_r by auto. ring. }
      rewrite E. reflexivity.
Qed.
