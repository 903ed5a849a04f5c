(** Linear algebra on lists of complex numbers. *)
From Coq Require Import List Reals Bool Arith Lia Lra.
From Coquelicot Require Import Complex.
From Verif Require Import Exn M_LinAlg S_LinAlg.
Import ListNotations.
Local Open Scope C_scope.

Lemma C_ext (a b : C) : fst a = fst b -> snd a = snd b -> a = b.
Proof. destruct a, b; simpl; intros -> ->; auto. Qed.

Lemma vdot_inner u v : vdot u v = inner u v.
Proof.
  unfold vdot, csum. revert v. induction u as [|x u IH]; intros [|y v]; simpl; auto. rewrite IH. auto.
Qed.

Lemma zip_length {A B D} (f : A -> B -> D) l m n : length l = n -> length m = n -> length (zip_with f l m) = n.
Proof.
  intros Hl Hm. subst n. revert m Hm. induction l as [|a l IH]; intros [|b m]; simpl; intros Hm; auto; try discriminate.
Qed.
Lemma vadd_length n u v : length u = n -> length v = n -> length (vadd u v) = n.
Proof. apply zip_length. Qed.
Lemma vsub_length n u v : length u = n -> length v = n -> length (vsub u v) = n.
Proof. apply zip_length. Qed.
Lemma vscale_length c v : length (vscale c v) = length v.
Proof. apply map_length. Qed.
Lemma vzero_length n : length (vzero n) = n.
Proof. apply repeat_length. Qed.

Lemma inner_add_r n u v w : length u = n -> length v = n -> length w = n ->
  inner u (vadd v w) = inner u v + inner u w.
Proof.
  revert n v w. induction u as [|x u IH]; intros n [|y v] [|z w]; simpl; intros; subst; try discriminate.
  - ring.
  - fold (vadd v w). rewrite (IH (length u)) by auto. ring.
Qed.
Lemma inner_sub_r n u v w : length u = n -> length v = n -> length w = n ->
  inner u (vsub v w) = inner u v - inner u w.
Proof.
  revert n v w. induction u as [|x u IH]; intros n [|y v] [|z w]; simpl; intros; subst; try discriminate.
  - ring.
  - fold (vsub v w). rewrite (IH (length u)) by auto. ring.
Qed.
Lemma inner_scale_r c u : forall v, inner u (vscale c v) = c * inner u v.
Proof.
  induction u as [|x u IH]; intros [|y v]; simpl; try ring. fold (vscale c v). rewrite IH. ring.
Qed.
Lemma inner_zero_r n : forall u, inner u (vzero n) = RtoC 0.
Proof.
  induction n; intros [|x u]; simpl; auto. fold (vzero n). rewrite IHn. ring.
Qed.
Lemma Cconj_plus a b : Cconj (a + b) = Cconj a + Cconj b.
Proof. apply C_ext; simpl; ring. Qed.
Lemma Cconj_mult a b : Cconj (a * b) = Cconj a * Cconj b.
Proof. apply C_ext; simpl; ring. Qed.
Lemma Cconj_conj a : Cconj (Cconj a) = a.
Proof. apply C_ext; simpl; ring. Qed.
Lemma Cconj_R (r : R) : Cconj (RtoC r) = RtoC r.
Proof. apply C_ext; simpl; ring. Qed.
Lemma inner_sym u : forall v, inner v u = Cconj (inner u v).
Proof.
  induction u as [|x u IH]; intros [|y v]; simpl; try (rewrite Cconj_R; auto).
  rewrite Cconj_plus, Cconj_mult, Cconj_conj, IH. ring.
Qed.
Lemma inner_scale_l c u v : inner (vscale c u) v = Cconj c * inner u v.
Proof. rewrite inner_sym, inner_scale_r, Cconj_mult, <- inner_sym. auto. Qed.
Lemma inner_add_l n u v w : length u = n -> length v = n -> length w = n ->
  inner (vadd u v) w = inner u w + inner v w.
Proof.
  intros. rewrite inner_sym, (inner_add_r n) by auto. rewrite Cconj_plus, <- !inner_sym. auto.
Qed.
Lemma inner_zero_l n u : inner (vzero n) u = RtoC 0.
Proof. rewrite inner_sym, inner_zero_r, Cconj_R. auto. Qed.

Definition sqsum (v : vec) : R := fold_right Rplus 0%R (map (fun z => (fst z * fst z + snd z * snd z)%R) v).
Lemma sqsum_nonneg v : (0 <= sqsum v)%R.
Proof.
  unfold sqsum. induction v as [|z v IH]; simpl; [lra|].
  pose proof (Rle_0_sqr (fst z)). pose proof (Rle_0_sqr (snd z)). unfold Rsqr in *. lra.
Qed.
Lemma inner_self v : inner v v = RtoC (sqsum v).
Proof.
  unfold sqsum. induction v as [|z v IH]; simpl; auto. rewrite IH. apply C_ext; simpl; ring.
Qed.
Lemma sqsum_zero v : sqsum v = 0%R -> v = vzero (length v).
Proof.
  unfold sqsum. induction v as [|z v IH]; simpl; auto. intros H.
  pose proof (sqsum_nonneg v) as Hn. unfold sqsum in Hn.
  pose proof (Rle_0_sqr (fst z)). pose proof (Rle_0_sqr (snd z)). unfold Rsqr in *.
  assert (E1 : (fst z * fst z = 0)%R) by lra. assert (E2 : (snd z * snd z = 0)%R) by lra.
  unfold vzero. simpl. f_equal.
  - apply C_ext; simpl; apply Rmult_integral in E1; apply Rmult_integral in E2; tauto.
  - apply IH. lra.
Qed.
Lemma vnorm_sq v : (vnorm v * vnorm v = sqsum v)%R.
Proof. unfold vnorm. fold (sqsum v). apply sqrt_sqrt, sqsum_nonneg. Qed.
Lemma vnorm_nonneg v : (0 <= vnorm v)%R.
Proof. apply sqrt_pos. Qed.
Lemma vnorm_zero v : vnorm v = 0%R -> v = vzero (length v).
Proof. intros H. apply sqsum_zero. rewrite <- vnorm_sq, H. ring. Qed.

Lemma unit_normalised v : vnorm v <> 0%R -> inner (vscale (RtoC (/ vnorm v)) v) (vscale (RtoC (/ vnorm v)) v) = RtoC 1.
Proof.
  intros H. rewrite inner_scale_r, inner_scale_l, inner_self, Cconj_R, <- vnorm_sq.
  rewrite <- !RtoC_mult. f_equal. field. auto.
Qed.

Ltac len := try assumption; try (rewrite vscale_length; assumption); auto.

(* elementwise identities *)
Lemma vadd_comm u : forall v, vadd u v = vadd v u.
Proof. induction u as [|x u IH]; intros [|y v]; simpl; auto. unfold vadd in *. simpl. f_equal; [ring | auto]. Qed.
Lemma vadd_assoc u : forall v w, vadd (vadd u v) w = vadd u (vadd v w).
Proof.
  induction u as [|x u IH]; intros [|y v] [|z w]; simpl; auto. unfold vadd in *. simpl. f_equal; [ring | auto].
Qed.
Lemma vadd_zero_r v : vadd v (vzero (length v)) = v.
Proof. induction v; simpl; auto. unfold vadd, vzero in *. simpl. f_equal; [ring | auto]. Qed.
Lemma vadd_zero_l v : vadd (vzero (length v)) v = v.
Proof. rewrite vadd_comm. apply vadd_zero_r. Qed.
Lemma vscale_add c u : forall v, vscale c (vadd u v) = vadd (vscale c u) (vscale c v).
Proof.
  induction u as [|x u IH]; intros [|y v]; simpl; auto. unfold vadd, vscale in *. simpl. f_equal; [ring | auto].
Qed.
Lemma vscale_zero c n : vscale c (vzero n) = vzero n.
Proof. unfold vscale, vzero. induction n; simpl; auto. f_equal; [ring | auto]. Qed.
Lemma vscale_vscale a b v : vscale a (vscale b v) = vscale (a * b) v.
Proof. unfold vscale. rewrite map_map. apply map_ext. intros; ring. Qed.
Lemma vscale_one v : vscale (RtoC 1) v = v.
Proof. unfold vscale. rewrite <- map_id. apply map_ext. intros; ring. Qed.
Lemma vscale_0 v : vscale (RtoC 0) v = vzero (length v).
Proof. induction v; simpl; auto. unfold vscale, vzero in *. simpl. f_equal; [ring | auto]. Qed.
Lemma vscale_plus a b v : vscale (a + b) v = vadd (vscale a v) (vscale b v).
Proof. induction v; simpl; auto. unfold vadd, vscale in *. simpl. f_equal; [ring | auto]. Qed.
Lemma vsub_add u : forall v, length u = length v -> vadd (vsub u v) v = u.
Proof.
  induction u as [|x u IH]; intros [|y v]; simpl; auto; intros; try discriminate.
  unfold vadd, vsub in *. simpl. f_equal; [ring | auto].
Qed.
Lemma vsub_as_add u : forall v, vsub u v = vadd u (vscale (RtoC (-1)) v).
Proof.
  induction u as [|x u IH]; intros [|y v]; simpl; auto. unfold vadd, vsub, vscale in *. simpl.
  f_equal; [apply C_ext; simpl; ring | auto].
Qed.

(* spans *)
Section Span.
  Variable n : nat.
  Variable vs : list vec.
  Hypothesis Hvs : vectors n vs.

  Lemma span_length v : span n vs v -> length v = n.
  Proof.
    induction 1; [apply vzero_length|]. apply (vadd_length n); auto. rewrite map_length. auto.
  Qed.
  Lemma span_in v : In v vs -> span n vs v.
  Proof.
    intros H. rewrite <- (vscale_one v). rewrite <- (vadd_zero_r (vscale (RtoC 1) v)).
    rewrite vscale_length, (Hvs v H). apply (span_add n vs (RtoC 1) v _ H). apply span_zero.
  Qed.
  Lemma span_plus u v : span n vs u -> span n vs v -> span n vs (vadd u v).
  Proof.
    intros Hu Hv. induction Hu as [|d x y Hx Hy IH].
    - change (repeat (RtoC 0) n) with (vzero n). replace (vadd (vzero n) v) with v; auto.
      rewrite <- (span_length v Hv). symmetry. apply vadd_zero_l.
    - change (zip_with Cplus (map (Cmult d) x) y) with (vadd (vscale d x) y).
      rewrite vadd_assoc. apply (span_add n vs d x _ Hx IH).
  Qed.
  Lemma span_scale c u : span n vs u -> span n vs (vscale c u).
  Proof.
    induction 1 as [|d w u Hw Hu IH].
    - change (repeat (RtoC 0) n) with (vzero n). rewrite vscale_zero. apply span_zero.
    - change (zip_with Cplus (map (Cmult d) w) u) with (vadd (vscale d w) u).
      rewrite vscale_add, vscale_vscale. apply (span_add n vs (c * d) w _ Hw IH).
  Qed.
  Lemma span_minus u v : span n vs u -> span n vs v -> span n vs (vsub u v).
  Proof. intros. rewrite vsub_as_add. apply span_plus; auto. apply span_scale; auto. Qed.
End Span.

Lemma span_sub n vs ws : (forall v, In v vs -> span n ws v) -> vectors n ws -> forall u, span n vs u -> span n ws u.
Proof.
  intros H Hw u. induction 1 as [|c v u Hv Hu IH]; [apply span_zero|].
  apply (span_plus n ws Hw); auto. apply span_scale; auto.
Qed.
Lemma span_mono n vs ws : incl vs ws -> forall u, span n vs u -> span n ws u.
Proof. intros H u. induction 1; [apply span_zero | apply span_add; auto]. Qed.

Lemma ortho_snoc vs w : orthonormal vs -> inner w w = RtoC 1 -> (forall v, In v vs -> inner v w = RtoC 0) ->
  orthonormal (vs ++ [w]).
Proof.
  intros [H1 H2] Hw Ho. split.
  - intros v Hv. apply in_app_or in Hv. destruct Hv as [Hv|[<-|[]]]; auto.
  - intros i j a b Hi Hj Hij.
    assert (Li : (i < length vs \/ i = length vs)%nat) by (assert (nth_error (vs ++ [w]) i <> None) by congruence; apply nth_error_Some in H; rewrite app_length in H; simpl in H; lia).
    assert (Lj : (j < length vs \/ j = length vs)%nat) by (assert (nth_error (vs ++ [w]) j <> None) by congruence; apply nth_error_Some in H; rewrite app_length in H; simpl in H; lia).
    destruct Li as [Li|Li], Lj as [Lj|Lj].
    + rewrite nth_error_app1 in Hi, Hj by auto. eapply H2; eauto.
    + rewrite nth_error_app1 in Hi by auto. subst j. rewrite nth_error_app2, Nat.sub_diag in Hj by auto. injection Hj as <-.
      apply Ho. eapply nth_error_In; eauto.
    + rewrite nth_error_app1 in Hj by auto. subst i. rewrite nth_error_app2, Nat.sub_diag in Hi by auto. injection Hi as <-.
      rewrite inner_sym, Ho by (eapply nth_error_In; eauto). apply Cconj_R.
    + lia.
Qed.

Lemma ortho_tail v vs : orthonormal (v :: vs) ->
  inner v v = RtoC 1 /\ (forall w, In w vs -> inner v w = RtoC 0 /\ inner w v = RtoC 0) /\ orthonormal vs.
Proof.
  intros [H1 H2]. split; [apply H1; left; auto|]. split; [|split].
  - intros w Hw. apply In_nth_error in Hw. destruct Hw as (i & Hi).
    assert (inner v w = RtoC 0) by (apply (H2 0%nat (S i) v w); auto).
    split; auto. rewrite inner_sym, H. apply Cconj_R.
  - intros w Hw. apply H1. right; auto.
  - intros i j a b Hi Hj Hij. apply (H2 (S i) (S j)); auto.
Qed.

(* ----------------------------------------------------------- Gram-Schmidt *)

Lemma project_length n qs : forall w, vectors n qs -> length w = n -> length (gs_project qs w) = n.
Proof.
  unfold gs_project. induction qs as [|q qs IH]; simpl; auto. intros w Hq Hw. apply IH.
  - intros v Hv. apply Hq. right; auto.
  - apply (vsub_length n); auto. rewrite vscale_length. apply Hq. left; auto.
Qed.

Lemma project_other n qs u : forall w, vectors n qs -> length w = n -> length u = n ->
  (forall q, In q qs -> inner u q = RtoC 0) -> inner u (gs_project qs w) = inner u w.
Proof.
  unfold gs_project. induction qs as [|q qs IH]; simpl; auto. intros w Hq Hw Hu Ho.
  assert (Lq : length q = n) by (apply Hq; left; auto).
  rewrite IH; auto.
  - rewrite (inner_sub_r n) by len. rewrite inner_scale_r, (Ho q) by auto. ring.
  - intros v Hv. apply Hq. right; auto.
  - apply (vsub_length n); auto. rewrite vscale_length. auto.
Qed.

Lemma project_orth n qs : forall w, vectors n qs -> length w = n -> orthonormal qs ->
  forall q, In q qs -> inner q (gs_project qs w) = RtoC 0.
Proof.
  induction qs as [|q0 qs IH]; intros w Hq Hw Ho q Hin; [destruct Hin|].
  destruct (ortho_tail _ _ Ho) as (H1 & H2 & H3).
  assert (Lq : length q0 = n) by (apply Hq; left; auto).
  assert (Hq' : vectors n qs) by (intros v Hv; apply Hq; right; auto).
  unfold gs_project. cbn [fold_left]. fold (gs_project qs (vsub w (vscale (vdot q0 w) q0))).
  assert (L1 : length (vsub w (vscale (vdot q0 w) q0)) = n) by (apply (vsub_length n); auto; rewrite vscale_length; auto).
  destruct Hin as [<-|Hin].
  - rewrite (project_other n); auto.
    + rewrite (inner_sub_r n) by len. rewrite inner_scale_r, vdot_inner, H1. ring.
    + intros q Hqs. apply H2; auto.
  - apply IH; auto.
Qed.

(** The projection differs from the vector by a combination of the [qs]. *)
Lemma project_span n qs : forall w, vectors n qs -> length w = n ->
  exists s, span n qs s /\ w = vadd (gs_project qs w) s.
Proof.
  induction qs as [|q qs IH]; intros w Hq Hw.
  - exists (vzero n). split; [apply span_zero|]. unfold gs_project; simpl. rewrite <- Hw, vadd_zero_r. auto.
  - assert (Lq : length q = n) by (apply Hq; left; auto).
    assert (Hq' : vectors n qs) by (intros v Hv; apply Hq; right; auto).
    set (c := vdot q w). set (w1 := vsub w (vscale c q)).
    assert (L1 : length w1 = n) by (apply (vsub_length n); auto; rewrite vscale_length; auto).
    destruct (IH w1 Hq' L1) as (s & Hs & E). exists (vadd s (vscale c q)). split.
    + apply (span_plus n (q :: qs)); auto.
      * eapply span_mono; [|exact Hs]. intros v Hv; right; auto.
      * apply span_scale, span_in; auto. left; auto.
    + unfold gs_project. cbn [fold_left]. fold c. fold w1. fold (gs_project qs w1).
      rewrite <- vadd_assoc, <- E. unfold w1. rewrite vsub_add; auto. rewrite vscale_length. congruence.
Qed.

(** What the algorithm guarantees for every tolerance. *)
Definition gs_inv (n : nat) (tol : R) (seen qs : list vec) : Prop :=
  vectors n qs /\ orthonormal qs /\ (forall q, In q qs -> span n seen q) /\
  (forall c, In c seen -> exists s r, span n qs s /\ c = vadd r s /\ (vnorm r <= tol)%R /\ length r = n).

Lemma vnorm_vzero n : vnorm (vzero n) = 0%R.
Proof.
  unfold vnorm. fold (sqsum (vzero n)). replace (sqsum (vzero n)) with 0%R; [apply sqrt_0|].
  unfold sqsum, vzero. induction n as [|m IH]; simpl; auto. rewrite <- IH. ring.
Qed.

Lemma gs_step n tol seen qs c : (0 <= tol)%R -> vectors n seen -> length c = n -> gs_inv n tol seen qs ->
  gs_inv n tol (seen ++ [c])
    (if Rlt_dec tol (vnorm (gs_project qs c))
     then qs ++ [vscale (RtoC (/ vnorm (gs_project qs c))) (gs_project qs c)] else qs).
Proof.
  intros Ht Hseen Hc (A & B & D & E).
  set (w := gs_project qs c). assert (Lw : length w = n) by (apply project_length; auto).
  destruct (project_span n qs c A Hc) as (s & Hs & Es). fold w in Es.
  assert (Hseen' : vectors n (seen ++ [c])).
  { intros v Hv. apply in_app_or in Hv. destruct Hv as [Hv|[<-|[]]]; auto. }
  assert (Sq : forall u, span n qs u -> span n (seen ++ [c]) u).
  { apply span_sub; auto. intros v Hv. apply span_mono with seen; [intros x Hx; apply in_or_app; auto | auto]. }
  destruct (Rlt_dec tol (vnorm w)) as [Hn|Hn].
  - assert (N0 : vnorm w <> 0%R) by lra.
    set (q := vscale (RtoC (/ vnorm w)) w).
    assert (Lq : length q = n) by (unfold q; rewrite vscale_length; auto).
    assert (A' : vectors n (qs ++ [q])).
    { intros v Hv. apply in_app_or in Hv. destruct Hv as [Hv|[<-|[]]]; auto. }
    repeat split; auto.
    + apply ortho_snoc; auto.
      * apply unit_normalised; auto.
      * intros v Hv. unfold q. rewrite inner_scale_r. unfold w. rewrite (project_orth n) by auto. ring.
    + apply ortho_snoc; auto.
      * apply unit_normalised; auto.
      * intros v Hv. unfold q. rewrite inner_scale_r. unfold w. rewrite (project_orth n) by auto. ring.
    + intros v Hv. apply in_app_or in Hv. destruct Hv as [Hv|[<-|[]]].
      * apply span_mono with seen; [intros x Hx; apply in_or_app; auto | auto].
      * unfold q. apply span_scale.
        replace w with (vsub c s).
        -- apply span_minus; auto. apply span_in; auto. apply in_or_app. right; left; auto.
        -- rewrite Es at 1. rewrite vsub_as_add, vadd_assoc.
           rewrite <- (vscale_one s) at 1. rewrite <- vscale_plus, <- RtoC_plus.
           replace (1 + -1)%R with 0%R by ring. rewrite vscale_0, (span_length n qs A s Hs), <- Lw. apply vadd_zero_r.
    + intros v Hv. apply in_app_or in Hv. destruct Hv as [Hv|[<-|[]]].
      * destruct (E v Hv) as (s' & r & Hs' & Ev & Hr & Lr). exists s', r. repeat split; auto.
        apply span_mono with qs; auto. intros x Hx; apply in_or_app; auto.
      * exists (vadd w s), (vzero n). split; [|split; [|split]].
        -- apply (span_plus n (qs ++ [q])); auto.
           ++ replace w with (vscale (RtoC (vnorm w)) q).
              ** apply span_scale, span_in; auto. apply in_or_app. right; left; auto.
              ** unfold q. rewrite vscale_vscale, <- RtoC_mult. rewrite Rinv_r by auto. apply vscale_one.
           ++ apply span_mono with qs; auto. intros x Hx; apply in_or_app; auto.
        -- rewrite <- Es. rewrite <- Hc, vadd_zero_l. auto.
        -- rewrite vnorm_vzero. auto.
        -- apply vzero_length.
  - repeat split; auto; try apply B.
    + intros q Hq. apply span_mono with seen; [intros x Hx; apply in_or_app; auto | auto].
    + intros v Hv. apply in_app_or in Hv. destruct Hv as [Hv|[<-|[]]]; auto.
      exists s, w. repeat split; auto. apply Rnot_lt_le. auto.
Qed.

Lemma gs_loop_inv n tol cols : (0 <= tol)%R -> vectors n cols -> forall seen qs, vectors n seen ->
  gs_inv n tol seen qs -> gs_inv n tol (seen ++ cols) (gs_loop tol qs cols).
Proof.
  intros Ht. induction cols as [|c cols IH]; intros Hc seen qs Hs Hi; simpl.
  - rewrite app_nil_r. auto.
  - assert (Lc : length c = n) by (apply Hc; left; auto).
    pose proof (gs_step n tol seen qs c Ht Hs Lc Hi) as Hst.
    replace (seen ++ c :: cols) with ((seen ++ [c]) ++ cols) by (rewrite <- app_assoc; auto).
    assert (Hs' : vectors n (seen ++ [c])).
    { intros v Hv. apply in_app_or in Hv. destruct Hv as [Hv|[<-|[]]]; auto. }
    assert (Hc' : vectors n cols) by (intros v Hv; apply Hc; right; auto).
    destruct (Rlt_dec tol (vnorm (gs_project qs c))); apply IH; auto.
Qed.

Lemma gs_first n tol c : (0 <= tol)%R -> length c = n -> vnorm c <> 0%R ->
  gs_inv n tol [c] [vscale (RtoC (/ vnorm c)) c].
Proof.
  intros Ht Hc Hn. set (q := vscale (RtoC (/ vnorm c)) c).
  assert (Lq : length q = n) by (unfold q; rewrite vscale_length; auto).
  assert (V : vectors n [q]) by (intros v [<-|[]]; auto).
  assert (Vc : vectors n [c]) by (intros v [<-|[]]; auto).
  split; [auto|]. split; [|split].
  - split.
    + intros v [<-|[]]. apply unit_normalised; auto.
    + intros [|i] [|j] a b; simpl; intros Hi Hj Hij; try congruence; try (destruct i; discriminate); destruct j; discriminate.
  - intros v [<-|[]]. apply span_scale, span_in; auto. left; auto.
  - intros v [<-|[]]. exists c, (vzero n). repeat split.
    + replace c with (vscale (RtoC (vnorm c)) q).
      * apply span_scale, span_in; auto. left; auto.
      * unfold q. rewrite vscale_vscale, <- RtoC_mult, Rinv_r by auto. apply vscale_one.
    + rewrite <- Hc, vadd_zero_l. auto.
    + rewrite vnorm_vzero. auto.
    + apply vzero_length.
Qed.

Lemma gram_schmidt_proof n tol c rest : (0 <= tol)%R -> (0 < n)%nat -> vectors n (c :: rest) -> c <> vzero n ->
  exists qs, gram_schmidt n tol (c :: rest) = Some qs /\ vectors n qs /\ orthonormal qs /\
    (forall v, span n qs v -> span n (c :: rest) v) /\
    (forall v, In v (c :: rest) -> exists s r, span n qs s /\ v = vadd r s /\ (vnorm r <= tol)%R) /\
    (tol = 0%R -> forall v, span n (c :: rest) v -> span n qs v).
Proof.
  intros Ht Hn Hv Hc. unfold gram_schmidt. rewrite (proj2 (Nat.eqb_neq n 0)) by lia.
  assert (Lc : length c = n) by (apply Hv; left; auto).
  destruct (Req_EM_T (vnorm c) 0) as [E|N].
  { exfalso. apply Hc. rewrite <- Lc. apply vnorm_zero; auto. }
  eexists. split; [reflexivity|].
  assert (Hr : vectors n rest) by (intros v Hx; apply Hv; right; auto).
  assert (Vc : vectors n [c]) by (intros v [<-|[]]; auto).
  destruct (gs_loop_inv n tol rest Ht Hr [c] _ Vc (gs_first n tol c Ht Lc N)) as (A & B & D & F).
  cbn [app] in *. split; [auto|]. split; [auto|]. split; [|split].
  - apply span_sub; auto.
  - intros v Hin. destruct (F v Hin) as (s & r & Hs & Er & Hl & _). exists s, r. auto.
  - intros ->. apply span_sub; auto. intros v Hin. destruct (F v Hin) as (s & r & Hs & -> & Hl & Lr).
    assert (r = vzero (length r)) by (apply vnorm_zero; pose proof (vnorm_nonneg r); lra).
    replace (vadd r s) with s; [exact Hs|]. rewrite H, Lr. rewrite <- (span_length n _ A s Hs). symmetry. apply vadd_zero_l.
Qed.

Lemma gram_schmidt_zero n tol rest : (0 < n)%nat -> gram_schmidt n tol (vzero n :: rest) = None.
Proof.
  intros Hn. unfold gram_schmidt. rewrite (proj2 (Nat.eqb_neq n 0)) by lia. rewrite vnorm_vzero.
  destruct (Req_EM_T 0 0); congruence.
Qed.
