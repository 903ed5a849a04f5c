(** Proofs about highest_fidelity_operator. *)
From Coq Require Import String List ZArith Bool Arith Lia Reals Lra.
From Coquelicot Require Import Complex.
From Verif Require Import GC Exn M_OpString M_Tools M_Algebra M_Basis M_OpAlg M_Transform M_LinAlg M_Explore M_Core M_Greedy
  S_Alg S_Den S_Basis S_Built S_OpAlg S_Explore S_LinAlg S_Core S_Greedy S_Fidelity
  L_Basis L_Operator L_PropBasis L_Explore L_LinAlg L_Inter L_Herm L_Core L_Commuting L_PartIso L_Greedy1 L_Search L_Search2.
Import ListNotations.
Local Open Scope nat_scope.

Lemma cmod_sq z : (Cmod z ^ 2 = fst z * fst z + snd z * snd z)%R.
Proof. unfold Cmod. rewrite pow2_sqrt; [ring|]. nra. Qed.
Lemma cmod_conj_sq z : (z * Cconj z)%C = RtoC (Cmod z ^ 2).
Proof. rewrite cmod_sq. apply C_ext; cbn; ring. Qed.
Lemma sqsum_add n u v : length u = n -> length v = n -> (sqsum (vadd u v) = sqsum u + sqsum v + 2 * fst (inner u v))%R.
Proof.
  intros Lu Lv. unfold sqsum, vec in *. revert n v Lu Lv. induction u as [|x u IH]; intros n [|y v] Lu Lv; cbn in Lu, Lv; subst; try discriminate; [cbn; lra|].
  cbn [vadd zip_with map fold_right inner]. injection Lv as Lv. specialize (IH (length u) v eq_refl Lv). unfold vadd in IH. rewrite IH. cbn. ring.
Qed.
(** The inequality of Cauchy and Schwarz. *)
(** The inequality of Cauchy and Schwarz. *)
Lemma cauchy_schwarz n u w : length u = n -> length w = n -> (Cmod (inner u w) ^ 2 <= sqsum u * sqsum w)%R.
Proof.
  intros Lu Lw. destruct (Req_dec (sqsum w) 0) as [E0|N0].
  { pose proof (sqsum_zero w E0) as W. rewrite W at 1. rewrite inner_zero_r, Cmod_0, E0. lra. }
  pose proof (sqsum_nonneg w) as PN. set (N := sqsum w) in *. set (z := inner w u). set (D := vadd (vscale (RtoC N) u) (vscale (- z)%C w)).
  pose proof (sqsum_nonneg D) as P.
  assert (S1 : forall c v, sqsum (vscale c v) = (Cmod c ^ 2 * sqsum v)%R).
  { intros c v. apply RtoC_inj. rewrite <- inner_self, inner_scale_r, inner_scale_l, inner_self, RtoC_mult, <- cmod_conj_sq. ring. }
  unfold D in P. rewrite (sqsum_add n), !S1, inner_scale_l, inner_scale_r in P by (rewrite vscale_length; auto). fold N in P.
  assert (Ez : inner u w = Cconj z) by (unfold z; apply inner_sym).
  rewrite Ez in P. rewrite Ez. rewrite !cmod_sq in *. destruct z as [a b]. cbn in *.
  assert (Q : (0 <= N * (N * sqsum u - (a * a + b * b)))%R) by (eapply Rle_trans; [exact P|]; right; ring).
  apply (Rmult_le_reg_l N); lra.
Qed.

Lemma zip_add_r (r : vec) : forall u v : vec, length u = length v -> csum (zip_with Cmult r (vadd u v)) = (csum (zip_with Cmult r u) + csum (zip_with Cmult r v))%C.
Proof.
  unfold csum. induction r as [|a r IH]; intros [|x u] [|y v] L; cbn in L; try discriminate; cbn; try ring. rewrite IH by lia. ring.
Qed.
Lemma zip_scale_r c (r : vec) : forall u : vec, csum (zip_with Cmult r (vscale c u)) = (c * csum (zip_with Cmult r u))%C.
Proof. unfold csum. induction r as [|a r IH]; intros [|x u]; cbn; try ring. unfold vscale in IH. rewrite IH. ring. Qed.
Lemma rows_vec_add D u v : length u = length v -> rows_vec D (vadd u v) = vadd (rows_vec D u) (rows_vec D v).
Proof. intros L. unfold rows_vec. induction D as [|r D IH]; auto. cbn [map]. rewrite zip_add_r, IH by auto. reflexivity. Qed.
Lemma rows_vec_scale D c u : rows_vec D (vscale c u) = vscale c (rows_vec D u).
Proof. unfold rows_vec. induction D as [|r D IH]; auto. cbn [map]. rewrite zip_scale_r, IH. reflexivity. Qed.
Lemma rows_vec_zero D n : rows_vec D (vzero n) = vzero (length D).
Proof.
  unfold rows_vec. induction D as [|r D IH]; auto. cbn [map length]. rewrite IH. unfold vzero. cbn [repeat]. f_equal.
  unfold csum. clear. revert n. induction r as [|a r IH]; intros [|n]; cbn; auto. rewrite IH. ring.
Qed.

Section Fid.
  Variables (n : nat) (t : vec).
  Hypothesis Lt : length t = n.
  Definition fidw (ps : list (R * vec)) (w : vec) : vec := fold_left (fun w q => vadd w (vscale (inner (snd q) t) (snd q))) ps w.

  Lemma fidw_length : forall ps w, vectors n (map snd ps) -> length w = n -> length (fidw ps w) = n.
  Proof.
    induction ps as [|q ps IH]; intros w Hv Lw; auto. cbn [fidw fold_left]. apply IH; [intros v Hin; apply Hv; right; auto|].
    apply vadd_length; auto. rewrite vscale_length. apply Hv. left; auto.
  Qed.
  Lemma fidw_span : forall ps w vs, vectors n vs -> (forall q, In q ps -> In (snd q) vs) -> span n vs w -> span n vs (fidw ps w).
  Proof.
    induction ps as [|q ps IH]; intros w vs Hv Hin Hw; auto. cbn [fidw fold_left]. apply IH; auto; [intros p Hp; apply Hin; right; auto|].
    apply span_plus; auto. apply span_scale; auto. apply span_in; auto. apply Hin. left; auto.
  Qed.
  Lemma fidw_inner v : length v = n -> forall ps w, vectors n (map snd ps) -> length w = n ->
    inner v (fidw ps w) = (inner v w + csum (map (fun q => inner (snd q) t * inner v (snd q)) ps))%C.
  Proof.
    intros Lv. unfold csum. induction ps as [|q ps IH]; intros w Hv Lw; cbn [fidw fold_left map fold_right]; [ring|].
    assert (Lq : length (snd q) = n) by (apply Hv; left; auto).
    change (fold_left _ ps ?a) with (fidw ps a).
    rewrite IH; [|intros u Hu; apply Hv; right; auto | apply vadd_length; auto; rewrite vscale_length; auto].
    rewrite (inner_add_r n), inner_scale_r by (auto; rewrite vscale_length; auto). ring.
  Qed.
  Lemma orth_pick (f : vec -> C) : forall (ps : list (R * vec)), orthonormal (map snd ps) -> forall v, In v (map snd ps) ->
    csum (map (fun q => f (snd q) * inner v (snd q)) ps)%C = f v.
  Proof.
    intros ps [H1 H2] v Hv. apply In_nth_error in Hv. destruct Hv as (k & Hk).
    assert (G : forall (ps : list (R * vec)) a, (forall j u, nth_error (map snd ps) j = Some u -> nth_error (map snd ps) k = nth_error (map snd ps) k -> inner v u = if Nat.eqb (a + j) k then RtoC 1 else RtoC 0) ->
      csum (map (fun q => f (snd q) * inner v (snd q)) ps)%C = if (a <=? k) && (k <? a + length ps) then f (nth (k - a) (map snd ps) []) else RtoC 0).
    { clear. unfold csum. induction ps as [|q ps IH]; intros a H; cbn [map fold_right length].
      - replace (k <? a + 0) with (k <? a) by (f_equal; lia). destruct (Nat.leb_spec a k), (Nat.ltb_spec k a); cbn; auto; lia.
      - rewrite (IH (S a)); [|intros j u Hj _; replace (S a + j) with (a + S j) by lia; apply (H (S j)); auto].
        rewrite (H 0 (snd q) eq_refl eq_refl). rewrite Nat.add_0_r.
        destruct (Nat.eqb_spec a k) as [->|N].
        + replace (S k <=? k) with false by (symmetry; apply Nat.leb_gt; lia). rewrite Nat.leb_refl. replace (k <? k + S (length ps)) with true by (symmetry; apply Nat.ltb_lt; lia). cbn [andb]. rewrite Nat.sub_diag. cbn. ring.
        + destruct (Nat.leb_spec a k), (Nat.leb_spec (S a) k), (Nat.ltb_spec k (S a + length ps)), (Nat.ltb_spec k (a + S (length ps))); cbn [andb]; try lia; try ring.
          replace (k - a) with (S (k - S a)) by lia. cbn [nth]. ring. }
    rewrite (G ps 0).
    - cbn [Nat.leb andb]. assert (k < length (map snd ps)) by (apply nth_error_Some; congruence). rewrite map_length in *. cbn [Nat.add]. replace (k <? length ps) with true by (symmetry; apply Nat.ltb_lt; auto).
      rewrite Nat.sub_0_r. f_equal. apply nth_error_nth. auto.
    - intros j u Hj _. cbn [Nat.add]. destruct (Nat.eqb_spec j k) as [->|N]; [rewrite Hk in Hj; injection Hj as <-; apply H1; eapply nth_error_In; eauto|]. apply (H2 k j); auto.
  Qed.

  Lemma fidw_proj ps v : vectors n (map snd ps) -> orthonormal (map snd ps) -> span n (map snd ps) v -> inner v (fidw ps (vzero n)) = inner v t.
  Proof.
    intros Hv Ho Hs. pose proof (span_length n _ _ Hv Hs) as Lv. set (w := fidw ps (vzero n)).
    assert (Lw : length w = n) by (apply fidw_length; auto; apply vzero_length).
    assert (Z : inner (vsub w t) v = RtoC 0).
    { apply (span_orth n (map snd ps)); auto; [apply vsub_length; auto|]. intros u Hu. rewrite inner_sym, (inner_sub_r n) by (auto; apply Hv; auto).
      unfold w. rewrite fidw_inner; [|apply Hv; auto|auto|apply vzero_length]. rewrite inner_zero_r. rewrite (orth_pick (fun u => inner u t)); auto.
      apply C_ext; cbn; ring. }
    rewrite inner_sym, (inner_sub_r n) in Z by auto.
    assert (Z2 : (inner v w - inner v t)%C = RtoC 0) by (rewrite <- (Cconj_conj (inner v w - inner v t)%C), Z; apply Cconj_R).
    replace (inner v w) with ((inner v w - inner v t) + inner v t)%C by ring. rewrite Z2. ring.
  Qed.
  Lemma fidw_norm ps : vectors n (map snd ps) -> orthonormal (map snd ps) -> inner (fidw ps (vzero n)) t = RtoC (sqsum (fidw ps (vzero n))).
  Proof.
    intros Hv Ho. rewrite <- inner_self. symmetry. apply fidw_proj; auto. apply fidw_span; auto; [intros q Hq; apply in_map; auto | apply span_zero].
  Qed.
  Lemma fidw_self ps : vectors n (map snd ps) -> orthonormal (map snd ps) -> span n (map snd ps) t -> fidw ps (vzero n) = t.
  Proof.
    intros Hv Ho Ht. set (w := fidw ps (vzero n)). assert (Lw : length w = n) by (apply fidw_length; auto; apply vzero_length).
    assert (Sw : span n (map snd ps) w) by (apply fidw_span; auto; [intros q Hq; apply in_map; auto | apply span_zero]).
    assert (Z : vsub w t = vzero (length (vsub w t))).
    { apply sqsum_zero. apply RtoC_inj. rewrite <- inner_self, (inner_sub_r n) by (auto; apply vsub_length; auto).
      unfold w at 2. rewrite fidw_proj; auto; [apply C_ext; cbn; ring|]. apply span_minus; auto. }
    rewrite (vsub_length n) in Z by auto.
    assert (E : forall (a b : vec) k, length a = k -> length b = k -> vsub a b = vzero k -> a = b).
    { clear. unfold vec. induction a as [|x a IH]; intros [|y b] k La Lb E; cbn in La, Lb; subst; try discriminate; auto.
      cbn in E. injection E as E1 E2 E3. f_equal; [apply C_ext; cbn; lra|]. apply (IH b (length a)); auto. }
    apply (E w t n); auto.
  Qed.
  Lemma fidw_rows D : forall ps w, (forall q, In q ps -> length (snd q) = n /\ rows_vec D (snd q) = vscale (RtoC (fst q)) (snd q)) -> length w = n ->
    rows_vec D (fidw ps w) = fold_left (fun w q => vadd w (vscale (RtoC (fst q) * inner (snd q) t)%C (snd q))) ps (rows_vec D w).
  Proof.
    induction ps as [|q ps IH]; intros w H Lw; auto. cbn [fidw fold_left]. change (fold_left _ ps (vadd w _)) with (fidw ps (vadd w (vscale (inner (snd q) t) (snd q)))).
    destruct (H q (or_introl eq_refl)) as [Lq Eq].
    rewrite IH; [|intros p Hp; apply H; right; auto | apply vadd_length; auto; rewrite vscale_length; auto].
    rewrite rows_vec_add, rows_vec_scale, Eq by (rewrite vscale_length; congruence). f_equal. f_equal. unfold vscale. rewrite map_map. apply map_ext. intros z. ring.
  Qed.
  Lemma fidw_energy D ps : vectors n (map snd ps) -> orthonormal (map snd ps) -> length D = n ->
    (forall q, In q ps -> rows_vec D (snd q) = vscale (RtoC (fst q)) (snd q)) ->
    inner (fidw ps (vzero n)) (rows_vec D (fidw ps (vzero n))) = csum (map (fun q => RtoC (fst q * Cmod (inner (snd q) t) ^ 2)) ps).
  Proof.
    intros Hv Ho LD He. set (w := fidw ps (vzero n)). assert (Lw : length w = n) by (apply fidw_length; auto; apply vzero_length).
    unfold w at 2. rewrite fidw_rows, rows_vec_zero, LD by (try apply vzero_length; intros q Hq; split; auto; apply Hv, in_map; auto).
    assert (G : forall qs a, (forall q, In q qs -> In q ps) -> length a = n ->
      inner w (fold_left (fun w q => vadd w (vscale (RtoC (fst q) * inner (snd q) t)%C (snd q))) qs a) = (inner w a + csum (map (fun q => RtoC (fst q * Cmod (inner (snd q) t) ^ 2)) qs))%C).
    { unfold csum. induction qs as [|q qs IH]; intros a Hq La; cbn [fold_left map fold_right]; [ring|].
      assert (Iq : In (snd q) (map snd ps)) by (apply in_map, Hq; left; auto). assert (Lq : length (snd q) = n) by (apply Hv; auto).
      rewrite IH; [|intros p Hp; apply Hq; right; auto | apply vadd_length; auto; rewrite vscale_length; auto].
      rewrite (inner_add_r n), inner_scale_r by (auto; rewrite vscale_length; auto).
      assert (E : inner w (snd q) = Cconj (inner (snd q) t)). { rewrite inner_sym. f_equal. apply fidw_proj; auto. apply span_in; auto. }
      rewrite E, RtoC_mult, <- cmod_conj_sq. ring. }
    rewrite G; auto; [|apply vzero_length]. rewrite inner_zero_r. ring.
  Qed.
End Fid.
