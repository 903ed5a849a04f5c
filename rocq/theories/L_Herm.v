(** Eigenvectors of Hermitian matrices. *)
From Coq Require Import List Reals Bool Arith Lia Lra.
From Coquelicot Require Import Complex.
From Verif Require Import Exn M_LinAlg S_LinAlg L_LinAlg L_Inter.
Import ListNotations.
Local Open Scope C_scope.

Definition hermitian (n : nat) (D : list vec) : Prop :=
  length D = n /\ forall x y, length x = n -> length y = n -> inner y (rows_vec D x) = inner (rows_vec D y) x.

Lemma rows_vec_length D x : length (rows_vec D x) = length D.
Proof. apply map_length. Qed.
Lemma eig_orth n D l1 v1 l2 v2 : hermitian n D -> length v1 = n -> length v2 = n ->
  rows_vec D v1 = vscale (RtoC l1) v1 -> rows_vec D v2 = vscale (RtoC l2) v2 -> l1 <> l2 -> inner v1 v2 = RtoC 0.
Proof.
  intros [_ H] L1 L2 E1 E2 Hl. specialize (H v2 v1 L2 L1). rewrite E1, E2, inner_scale_r, inner_scale_l, Cconj_R in H.
  destruct (Ceq_dec (inner v1 v2) (RtoC 0)) as [E|E]; auto. exfalso. apply Hl.
  assert (G : (RtoC l2 - RtoC l1) * inner v1 v2 = RtoC 0) by (rewrite Cmult_comm; replace (inner v1 v2 * (RtoC l2 - RtoC l1)) with (RtoC l2 * inner v1 v2 - RtoC l1 * inner v1 v2) by ring; rewrite H; ring).
  destruct (Ceq_dec (RtoC l2 - RtoC l1) (RtoC 0)) as [F|F].
  - apply (f_equal fst) in F. simpl in F. lra.
  - exfalso. apply (Cmult_neq_0 _ _ F E G).
Qed.

Lemma span_orth n vs u : vectors n vs -> length u = n -> (forall v, In v vs -> inner u v = RtoC 0) -> forall w, span n vs w -> inner u w = RtoC 0.
Proof.
  intros Hv Hu Ho w. induction 1 as [|c v w Hin Hw IH]; [apply inner_zero_r|].
  assert (Lw : length w = n).
  { clear - Hw Hv. induction Hw as [|c v w Hin Hw IH]; [apply vzero_length|]. apply (vadd_length n); auto. transitivity (length v); [apply vscale_length|auto]. }
  change (inner u (vadd (vscale c v) w) = RtoC 0). rewrite (inner_add_r n), inner_scale_r, IH, (Ho v) by (auto; rewrite vscale_length; auto). ring.
Qed.
Lemma span_length n vs w : vectors n vs -> span n vs w -> length w = n.
Proof. intros Hv. induction 1 as [|c v w Hin Hw IH]; [apply vzero_length|]. apply (vadd_length n); auto. transitivity (length v); [apply vscale_length|auto]. Qed.

(** A combination of eigenvectors that is itself an eigenvector only needs the ones with a
    similar eigenvalue. *)
Lemma split_span n (test : R -> bool) (ps : list (R * vec)) : (forall l v, In (l, v) ps -> length v = n) ->
  forall x, span n (map snd ps) x -> exists x0 x1, x = vadd x0 x1 /\ length x0 = n /\ length x1 = n /\
    span n (map snd (filter (fun p => test (fst p)) ps)) x0 /\ span n (map snd (filter (fun p => negb (test (fst p))) ps)) x1.
Proof.
  intros Hp x. induction 1 as [|c v w Hin Hw (x0 & x1 & -> & L0 & L1 & S0 & S1)].
  - exists (vzero n), (vzero n). split; [symmetry; apply vadd_vzero|]. repeat split; try apply vzero_length; apply span_zero.
  - apply in_map_iff in Hin. destruct Hin as ([l v'] & <- & Hin). simpl. pose proof (Hp _ _ Hin) as Lv.
    destruct (test l) eqn:E.
    + exists (vadd (vscale c v') x0), x1. split; [symmetry; apply vadd_assoc|]. split; [apply vadd_length; auto; rewrite vscale_length; auto|].
      split; auto. split; auto. apply (span_add n _ c v' x0); auto. apply in_map_iff. exists (l, v'). split; auto. apply filter_In. auto.
    + exists x0, (vadd (vscale c v') x1). split.
      { change (vadd (vscale c v') (vadd x0 x1) = vadd x0 (vadd (vscale c v') x1)). rewrite <- !vadd_assoc. f_equal. apply vadd_comm. }
      split; auto. split; [apply vadd_length; auto; rewrite vscale_length; auto|].
      split; auto. apply (span_add n _ c v' x1); auto. apply in_map_iff. exists (l, v'). split; auto. apply filter_In. simpl. rewrite E. auto.
Qed.

Lemma select_complete n D (test : R -> bool) (ps : list (R * vec)) mu x : hermitian n D ->
  (forall l v, In (l, v) ps -> length v = n /\ rows_vec D v = vscale (RtoC l) v) ->
  test mu = true -> length x = n -> rows_vec D x = vscale (RtoC mu) x -> span n (map snd ps) x ->
  span n (map snd (filter (fun p => test (fst p)) ps)) x.
Proof.
  intros HD Hp Hmu Lx Ex Hs.
  destruct (split_span n test ps (fun l v H => proj1 (Hp l v H)) x Hs) as (x0 & x1 & E & L0 & L1 & S0 & S1).
  assert (V0 : vectors n (map snd (filter (fun p => test (fst p)) ps))).
  { intros v Hv. apply in_map_iff in Hv. destruct Hv as ([l u] & <- & H). apply filter_In in H. apply (Hp l u). tauto. }
  assert (V1 : vectors n (map snd (filter (fun p => negb (test (fst p))) ps))).
  { intros v Hv. apply in_map_iff in Hv. destruct Hv as ([l u] & <- & H). apply filter_In in H. apply (Hp l u). tauto. }
  assert (O1 : forall y, length y = n -> (forall v, In v (map snd (filter (fun p => negb (test (fst p))) ps)) -> inner y v = RtoC 0) -> inner y x1 = RtoC 0).
  { intros y Ly Hy. eapply span_orth; eauto. }
  assert (X1 : inner x x1 = RtoC 0).
  { apply O1; auto. intros v Hv. apply in_map_iff in Hv. destruct Hv as ([l u] & <- & H). apply filter_In in H. destruct H as [H T].
    destruct (Hp l u H) as [Lu Eu]. simpl. apply (eig_orth n D mu x l u); auto. intros ->. simpl in T. rewrite Hmu in T. discriminate. }
  assert (X0 : inner x0 x1 = RtoC 0).
  { apply O1; auto. intros v Hv. apply in_map_iff in Hv. destruct Hv as ([l u] & <- & H). apply filter_In in H. destruct H as [H T].
    destruct (Hp l u H) as [Lu Eu]. simpl. rewrite inner_sym. 
    rewrite (span_orth n _ u V0 Lu) with (w := x0); auto; [apply C_ext; simpl; lra|].
    intros w Hw. apply in_map_iff in Hw. destruct Hw as ([l' u'] & <- & H'). apply filter_In in H'. destruct H' as [H' T'].
    destruct (Hp l' u' H') as [Lu' Eu']. simpl. apply (eig_orth n D l u l' u'); auto. intros ->. simpl in T, T'. rewrite T' in T. discriminate. }
  rewrite E in X1. rewrite (inner_add_l n) in X1 by auto. rewrite X0, Cplus_0_l, inner_self in X1. apply RtoC_inj in X1. apply sqsum_zero in X1.
  rewrite E, X1, L1. rewrite vadd_0r; auto.
Qed.

Lemma sqsum_scale c v : (sqsum (vscale (RtoC c) v) = c * c * sqsum v)%R.
Proof. apply RtoC_inj. rewrite <- inner_self, inner_scale_r, inner_scale_l, inner_self, Cconj_R, !RtoC_mult. ring. Qed.
Lemma sqsum_pos v : v <> vzero (length v) -> (0 < sqsum v)%R.
Proof. intros H. destruct (sqsum_nonneg v) as [G|G]; auto. exfalso. apply H, sqsum_zero. auto. Qed.
