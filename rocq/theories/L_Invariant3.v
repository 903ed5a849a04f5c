(** invariant_operators: what its superoperator and its result mean. *)
From Coq Require Import List ZArith Bool Arith Lia Setoid Morphisms Reals QArith Qreals Qcanon Lra.
From Coquelicot Require Import Complex.
From Verif Require Import GC Exn M_OpString M_Tools M_Algebra M_Basis M_OpAlg M_Transform M_LinAlg M_Core S_Alg S_Den S_Basis S_Built S_OpAlg S_Transform S_RScal S_CFock S_CScal S_LinAlg S_Core S_Invariant
  L_Alg L_StrAlg L_Basis L_OpAlg L_Commutant L_CScal L_LinAlg L_Inter L_Herm L_Core L_Commuting L_PartIso L_Invariant L_Invariant2.
Import ListNotations.
Local Open Scope nat_scope.
Local Open Scope alg_scope.

Lemma gsign_sq gm s : gsign gm = Ok s -> (s * s = 1)%R.
Proof. destruct gm; intros H; try discriminate; injection H as <-; lra. Qed.
Lemma gsign_trans gm s : trans_sign gm = Some s -> gsign gm = Ok s.
Proof. destruct gm; intros H; try discriminate; injection H as <-; reflexivity. Qed.
Lemma hermitian_rows_vectors n cols : vectors n (hermitian_rows n cols).
Proof. intros r H. apply in_map_iff in H. destruct H as (i & <- & _). rewrite map_length, seq_length. auto. Qed.
Lemma rows_vec_length D v : length (rows_vec D v) = length D.
Proof. apply map_length. Qed.

Lemma cons_both {T} (a b : T) l m : a :: l = b :: m <-> a = b /\ l = m.
Proof. split; [intros H; split; congruence | intros [-> ->]; auto]. Qed.
(** Eigenvectors of 1 - s H and of H. *)
Lemma one_minus_eigen n s D v e : (s * s = 1)%R -> length D = n -> vectors n D -> length v = n ->
  (rows_vec (one_minus n s D) v = vscale (RtoC (1 - s * e)) v <-> rows_vec D v = vscale (RtoC e) v).
Proof.
  intros Hs LD VD Lv. rewrite one_minus_apply by auto.
  assert (Lr : length (rows_vec D v) = length v) by (rewrite rows_vec_length; exact (eq_trans LD (eq_sym Lv))).
  revert Lr. generalize (rows_vec D v). clear - Hs. intros w. revert v. induction w as [|y w IH]; intros [|x v] L; try discriminate; [simpl; tauto|].
  unfold vsub, vscale, vec in *. simpl in *. injection L as L. specialize (IH v L). rewrite !cons_both. split; intros [H1 H2]; split; try (apply IH; auto).
  - assert (E : (RtoC s * (x - RtoC s * y) = RtoC s * (RtoC (1 - s * e) * x))%C) by (rewrite H1; auto).
    rewrite RtoC_minus, RtoC_mult in E. assert (E' : (RtoC s * RtoC s = RtoC 1)%C) by (rewrite <- RtoC_mult, Hs; auto).
    transitivity (RtoC s * RtoC s * y)%C; [rewrite E'; ring|]. transitivity (RtoC s * x - RtoC s * (x - RtoC s * y))%C; [ring|]. rewrite E.
    transitivity (RtoC s * RtoC s * RtoC e * x)%C; [ring | rewrite E'; ring].
  - rewrite RtoC_minus, RtoC_mult, H1. ring.
Qed.

Section Invariant.
  Variables (ty : optype) (eig : eigensolver) (pinv : list vec -> list vec) (basis : cbasis) (T : rule) (gm : gmode) (sign : R) (nv : option nat) (tol : R).
  Hypotheses (Hb : good_cbasis ty basis) (Hc : forall s, In s (cbasis_strings basis) -> canonical s)
    (Ho : orthonormal_cbasis basis) (HT : keeps_type ty T) (Hsp : signed_permutation ty T (cbasis_strings basis))
    (Hpi : forall n K, vectors n K -> orthonormal K -> least_squares n K (pinv K)) (Hgm : gsign gm = Ok sign).

  Theorem invariant_proof : exists f H, invariant_operators eig pinv basis T gm nv tol = Ok f /\
    length H = cbasis_len basis /\ vectors (cbasis_len basis) H /\ hermitian (cbasis_len basis) H /\
    f_super f = one_minus (cbasis_len basis) sign H /\
    f_ops f = keep (fun e => lt_dec (Rabs (e - sign)) tol) (eig nv H) /\
    f_evals f = map (fun p => 1 - sign * fst p)%R (eig nv H) /\ f_evecs f = map snd (eig nv H) /\ f_warn f = all_kept nv (f_ops f) /\
    (forall v, length v = cbasis_len basis -> forall (A : StarAlg) (S : RScal A) (g : op -> Z -> A), rep ty g -> ~ (@aone A == azero) ->
       (rows_vec H v = vscale (RtoC sign) v <-> cimage S g T basis v == cs S (RtoC sign) (cden S g basis v))) /\
    (forall v lam, length v = cbasis_len basis -> rows_vec H v = vscale (RtoC lam) v ->
       exists ws, canonical_strings ty (map snd ws) /\ (norm2c (map fst ws) = 2 * (1 - sign * lam) * norm2c v)%R /\
         forall (A : StarAlg) (S : RScal A) (g : op -> Z -> A), cimage S g T basis v == cs S (RtoC sign) (cden S g basis v) + clincomb S g ws).
  Proof.
    destruct (symmetry_columns_ok ty pinv basis T Hb Hc Ho HT Hsp Hpi) as (strs & imgs & K & B & EB & LK & ND & Hok & Hi & NDi & Li & VK & OK & VB & LB & HB & HD).
    pose proof (gsign_sq _ _ Hgm) as Hs.
    exists (mkFound (keep (fun e => lt_dec (Rabs (e - sign)) tol) (eig nv (hermitian_rows (cbasis_len basis) B))) (one_minus (cbasis_len basis) sign (hermitian_rows (cbasis_len basis) B))
      (map (fun p => 1 - sign * fst p)%R (eig nv (hermitian_rows (cbasis_len basis) B))) (map snd (eig nv (hermitian_rows (cbasis_len basis) B)))
      (all_kept nv (keep (fun e => lt_dec (Rabs (e - sign)) tol) (eig nv (hermitian_rows (cbasis_len basis) B))))), (hermitian_rows (cbasis_len basis) B).
    split; [unfold invariant_operators; rewrite EB, Hgm; reflexivity|]. rewrite <- LK in *. cbn [f_ops f_super f_evals f_evecs f_warn].
    split; [apply hermitian_rows_length|]. split; [apply hermitian_rows_vectors|]. split; [apply hermitian_rows_hermitian; auto|].
    do 5 (split; [reflexivity|]).
    set (N := length strs) in *. pose proof (icols_vectors strs imgs) as VC. pose proof (icols_length strs imgs Li) as LC. pose proof (imask_length strs imgs Li) as LM.
    pose proof (icols_iso ty strs ND Hok imgs Hi NDi Li) as ISO. fold N in VC, LC, LM, ISO.
    (* image minus sign times the operator *)
    assert (Im : forall v, length v = length K -> forall (A : StarAlg) (S : RScal A) (g : op -> Z -> A),
      cimage S g T basis v == cs S (RtoC sign) (cden S g basis v) +
        (clincomb S g (combine (vsub (mat_vec N (icols strs imgs) (mat_vec N K v)) (vscale (RtoC sign) (mat_vec N K v))) strs) + clincomb S g (outside strs (mat_vec N K v) imgs))).
    { intros v Lv A S g. destruct (HD A S g v Lv) as [E1 E2]. set (x := mat_vec N K v) in *. assert (Lx : length x = N) by (apply mat_vec_length; auto).
      rewrite E2, E1, (image_meaning ty strs ND Hok imgs Hi Li S g x Lx), aadd_assoc. apply aadd_proper; [|reflexivity]. fold N.
      rewrite <- clin_vscale, <- clin_vadd.
      - rewrite (vadd_comm (vscale _ _)), vsub_add; [reflexivity|]. rewrite vscale_length, mat_vec_length; auto.
      - rewrite vscale_length. rewrite (vsub_length N); auto; [apply mat_vec_length; auto | rewrite vscale_length; auto]. }
    split.
    - intros v Lv A S g Hr Hn. set (x := mat_vec N K v) in *. assert (Lx : length x = N) by (apply mat_vec_length; auto).
      rewrite (compressed_iff N (icols strs imgs) (imask strs imgs) VC LC LM ISO K B VK OK VB LB HB sign v Hs Lv). fold x.
      rewrite (Im v Lv A S g). fold x. set (w := vsub _ _). assert (Lw : length w = N) by (apply vsub_length; [apply mat_vec_length; auto | rewrite vscale_length; auto]).
      pose proof (image_eigen ty strs ND Hok imgs Hi NDi Li S g w x Hr Hn Lx Lw) as IE. fold N in IE.
      pose proof (outside_norm strs x imgs ltac:(intros; apply Hi; auto) ltac:(rewrite Li; auto)) as ON. fold (imask strs imgs) in ON.
      transitivity (w = vzero N /\ sqsum (map fst (outside strs x imgs)) = 0%R).
      + rewrite ON. split; intros [E1 E2]; split.
        * unfold w. rewrite E1, vsub_self, vscale_length. f_equal; auto.
        * rewrite E2. apply RtoC_inj. rewrite <- inner_self. apply inner_zero_l.
        * apply vsub_zero; [rewrite vscale_length, mat_vec_length; auto|]. fold w. rewrite E1. f_equal. symmetry. apply mat_vec_length; auto.
        * apply sqsum_zero in E2. rewrite E2. f_equal. apply masked_length; auto. rewrite map_length. auto.
      + rewrite <- IE. split; intros H; [rewrite H; apply aadd_0_r|].
        apply (aadd_cancel_r _ _ (cs S (RtoC sign) (cden S g basis v))). rewrite aadd_0_l, aadd_comm. exact H.
    - intros v lam Lv E. set (x := mat_vec N K v) in *. assert (Lx : length x = N) by (apply mat_vec_length; auto).
      pose proof (compressed_eigen N (icols strs imgs) (imask strs imgs) VC LC LM ISO K B VK OK VB LB HB sign lam v Hs Lv E) as CE. cbv zeta in CE. fold x in CE.
      set (w := vsub _ _) in CE. assert (Lw : length w = N) by (apply vsub_length; [apply mat_vec_length; auto | rewrite vscale_length; auto]).
      pose proof (outside_norm strs x imgs ltac:(intros; apply Hi; auto) ltac:(rewrite Li; auto)) as ON. fold (imask strs imgs) in ON. rewrite <- ON in CE.
      exists (combine w strs ++ outside strs x imgs). split; [|split].
      + rewrite map_app, map_snd_combine by auto. split.
        * assert (Dj : forall a, In a strs -> ~ In a (map snd (outside strs x imgs))).
          { intros a Ha Hb'. apply in_map_iff in Hb'. destruct Hb' as (t & Et & Ht). destruct (outside_in _ _ _ _ Ht) as (p & Hp & E' & Ef).
            apply not_true_iff_false in Ef. apply Ef, existsb_exists. exists a. split; auto. rewrite <- E', Et. apply (key_eq ty); auto; apply Hok; auto. }
          revert Dj. pose proof (outside_nodup strs x imgs NDi) as Dn. clear - ND Dn. revert Dn. generalize (map snd (outside strs x imgs)). intros l Dn.
          induction strs as [|s m IH]; intros Dj; simpl; auto. inversion ND; subst. constructor; [|apply IH; auto; intros; apply Dj; simpl; auto].
          intros Hin. apply in_app_or in Hin. destruct Hin; [contradiction | apply (Dj s); simpl; auto].
        * intros s Hs'. apply in_app_or in Hs'. destruct Hs' as [Hs'|Hs']; auto. apply in_map_iff in Hs'. destruct Hs' as (t & <- & Ht).
          destruct (outside_in _ _ _ _ Ht) as (p & Hp & E' & _). rewrite E'. apply Hi; auto.
      + rewrite <- !sqsum_norm2c. refine (eq_trans _ CE). rewrite map_app. assert (SA : forall a b, (sqsum (a ++ b) = sqsum a + sqsum b)%R).
        { clear. intros a b. unfold sqsum. induction a as [|y a IHa]; simpl; [lra|]. rewrite IHa. lra. }
        replace (map fst (combine w strs)) with w; [apply SA|]. clear - Lw. unfold N in Lw. clearbody w. revert w Lw. induction strs as [|s m IH]; intros [|y w] L; try discriminate; simpl; f_equal; auto.
      + intros A S g. rewrite clin_app. apply (Im v Lv).
  Qed.
End Invariant.

Lemma combine_pairs s (ps : list (R * vec)) : combine (map (fun p => 1 - s * fst p)%R ps) (map snd ps) = map (fun p => (1 - s * fst p, snd p)%R) ps.
Proof. induction ps as [|p ps IH]; simpl; f_equal; auto. Qed.
Lemma one_minus_length n s D : length (one_minus n s D) = n.
Proof. unfold one_minus. rewrite map_length, seq_length. auto. Qed.
Lemma invariant_pairs n s H ps : (s * s = 1)%R -> length H = n -> vectors n H -> eigenpairs (one_minus n s H) (map (fun p => (1 - s * fst p, snd p)%R) ps) ->
  forall l v, In (l, v) ps -> length v = n /\ v <> vzero n /\ rows_vec H v = vscale (RtoC l) v.
Proof.
  intros Hs LH VH He l v Hin. destruct (He (1 - s * l)%R v) as (L1 & L2 & L3); [apply in_map_iff; exists (l, v); auto|].
  rewrite one_minus_length in *. split; auto. split; auto. apply (one_minus_eigen n s); auto.
Qed.
Lemma invariant_complete n s H nv ps tol x : (s * s = 1)%R -> length H = n -> vectors n H -> hermitian n H -> (0 < tol)%R ->
  match nv with None => full_solution (one_minus n s H) (map (fun p => (1 - s * fst p, snd p)%R) ps)
              | Some k => closest_solution 0 k (one_minus n s H) (map (fun p => (1 - s * fst p, snd p)%R) ps) end ->
  all_kept nv (keep (fun e => lt_dec (Rabs (e - s)) tol) ps) = false ->
  length x = n -> rows_vec H x = vscale (RtoC s) x -> span n (keep (fun e => lt_dec (Rabs (e - s)) tol) ps) x.
Proof.
  intros Hs LH VH HH Ht Hsol Hw Lx Ex.
  assert (Hp : eigenpairs (one_minus n s H) (map (fun p => (1 - s * fst p, snd p)%R) ps)) by (destruct nv; apply Hsol).
  pose proof (invariant_pairs n s H ps Hs LH VH Hp) as He.
  assert (Em : map snd (map (fun p => ((1 - s * fst p)%R, snd p : vec)) ps) = map snd ps) by (rewrite map_map; auto).
  apply (select_complete n H (fun e => lt_dec (Rabs (e - s)) tol) ps s); auto.
  - intros l v Hin. destruct (He l v Hin) as (? & _ & ?). auto.
  - apply lt_dec_true. replace (s - s)%R with 0%R by ring. rewrite Rabs_R0. auto.
  - destruct nv as [k|].
    + destruct Hsol as (_ & Lk & Hl). rewrite one_minus_length in Hl. rewrite map_length in Lk.
      destruct (Hl 0%R x Lx) as [G|G]; [|exact (eq_ind _ (fun l => span n l x) G _ Em)|].
      * replace 0%R with (1 - s * s)%R by lra. fold (vscale (RtoC (1 - s * s)) x). apply one_minus_eigen; auto.
      * exfalso. simpl in Hw. apply Nat.eqb_neq in Hw. apply Hw. unfold keep. rewrite map_length, <- Lk. f_equal.
        assert (A0 : forall p, In p ps -> lt_dec (Rabs (fst p - s)) tol = true).
        { intros [l v] Hin. simpl. apply lt_dec_true. specialize (G (1 - s * l)%R v ltac:(apply in_map_iff; exists (l, v); auto)).
          replace (0 - 0)%R with 0%R in G by ring. rewrite Rabs_R0 in G. pose proof (Rabs_pos (1 - s * l - 0)) as P.
          assert (Z : (1 - s * l - 0 = 0)%R) by (destruct (Req_dec (1 - s * l - 0) 0); auto; apply Rabs_pos_lt in H0; lra).
          assert (E : (l = s)%R). { transitivity (s * s * l)%R; [rewrite Hs; ring|]. transitivity (s * (s * l))%R; [ring|]. replace (s * l)%R with 1%R by lra. ring. }
          rewrite E. replace (s - s)%R with 0%R by ring. rewrite Rabs_R0. auto. }
        clear - A0. induction ps as [|p ps IH]; simpl; auto. rewrite A0 by (simpl; auto). f_equal. apply IH. intros; apply A0; simpl; auto.
    + destruct Hsol as [_ Hf]. rewrite one_minus_length in Hf. exact (eq_ind _ (fun l => span n l x) (Hf x Lx) _ Em).
Qed.
