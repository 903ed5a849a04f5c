(** Rényi entropies of reduced density matrices. *)
From Coq Require Import List Arith Lia ZArith NArith Bool Permutation Ring QArith Qcanon Reals Qreals Lra.
From Verif Require Import GC Exn M_OpAlg M_Diag S_Diag L_Sum L_Perm L_Operator L_Diag1 L_Diag2 L_Diag3 L_Diag4 L_Diag5 M_Entropy L_Entropy1 L_Entropy2 S_CFock S_Entropy.
Import ListNotations.
Local Open Scope nat_scope.

Lemma qr_le x y : (x <= y)%Qc -> (qr x <= qr y)%R.
Proof. intros H. apply Qle_Rle. exact H. Qed.
Lemma qr_inj x y : qr x = qr y -> x = y.
Proof. intros H. apply Qc_is_canon. apply eqR_Qeq. exact H. Qed.
Lemma qr_gz z : qr (re (gz z)) = IZR z.
Proof. unfold qr. change (this (re (gz z))) with (Qred (inject_Z z)). rewrite (Qeq_eqR _ _ (Qred_correct _)). unfold Q2R, inject_Z. cbn. field. Qed.
Lemma modulus_pos z : gpos z -> modulus z = qr (re z).
Proof.
  intros [H1 H2]. unfold modulus. fold (qr (re z)) (qr (im z)). rewrite H1, qr_0. apply qr_le in H2. rewrite qr_0 in H2.
  rewrite Rmult_0_l, Rplus_0_r. apply sqrt_square; auto.
Qed.
(** Sequences with the properties of the traces. *)
Section Seq.
  Variables (P : nat -> R) (d : R).
  Hypothesis D0 : (0 < d)%R.
  Hypothesis P0 : P 0 = d.
  Hypothesis P1 : P 1 = 1%R.
  Hypothesis Pc : forall m, (P (S m) * P (S m) <= P (S (S m)) * P m)%R.
  Hypothesis Ps : forall m, (P (S m) <= P m * 1)%R \/ m = 0.
  Lemma seq_pos m : (0 < P m)%R /\ (P m <= d * P (S m))%R.
  Proof.
    induction m as [|m [I1 I2]]; [rewrite P0, P1; lra|].
    assert (Q : (0 < P (S m))%R) by nra. split; auto. specialize (Pc m). assert (0 <= P (S (S m)))%R.
    { destruct (Rle_dec 0 (P (S (S m)))); auto. exfalso. nra. }
    apply (Rmult_le_reg_l (P (S m))); auto. nra.
  Qed.
  Lemma seq_low m : (1 <= d ^ m * P (S m))%R.
  Proof.
    induction m as [|m IH]; [rewrite P1; cbn; lra|]. destruct (seq_pos (S m)) as [H1 H2]. pose proof (pow_lt d m D0). cbn [pow].
    apply Rle_trans with (1 := IH). rewrite (Rmult_comm d), Rmult_assoc. apply Rmult_le_compat_l; lra.
  Qed.
  Lemma seq_dec m m' : 1 <= m -> m <= m' -> (P m' <= P m)%R.
  Proof.
    intros H H'. induction H' as [|m' H' IH]; [lra|]. destruct (Ps m'); [lra | lia].
  Qed.
  Lemma seq_convex m : (INR (S m) * ln (P (S m)) <= INR m * ln (P (S (S m))))%R.
  Proof.
    induction m as [|m IH]; [rewrite P1, ln_1; cbn [INR]; lra|].
    assert (L : (2 * ln (P (S (S m))) <= ln (P (S (S (S m)))) + ln (P (S m)))%R).
    { destruct (seq_pos (S m)), (seq_pos (S (S m))), (seq_pos (S (S (S m)))). rewrite <- ln_mult by auto.
      replace (2 * ln (P (S (S m))))%R with (ln (P (S (S m))) + ln (P (S (S m))))%R by ring. rewrite <- ln_mult by auto.
      destruct (Pc (S m)) as [Q|Q]; [left; apply ln_increasing; auto; apply Rmult_lt_0_compat; auto | right; f_equal; auto]. }
    rewrite !S_INR in *. pose proof (pos_INR m). set (q := INR m) in *. nra.
  Qed.
  Definition S_ (m : nat) : R := (/ (1 - INR m) * ln (P m))%R.
  Lemma S_nonneg m : 2 <= m -> (0 <= S_ m)%R.
  Proof.
    intros H. unfold S_. pose proof (seq_dec 1 m (le_n _) ltac:(lia)) as D. rewrite P1 in D. destruct (seq_pos m) as [Q _].
    assert (ln (P m) <= 0)%R. { rewrite <- ln_1. destruct D as [D|D]; [left; apply ln_increasing; auto | right; f_equal; auto]. }
    apply le_INR in H. cbn in H. assert (/ (1 - INR m) < 0)%R by (apply Rinv_lt_0_compat; lra). nra.
  Qed.
  Lemma S_upper m : 2 <= m -> (S_ m <= ln d)%R.
  Proof.
    intros H. destruct m as [|m]; [lia|]. unfold S_. pose proof (seq_low m) as Q. destruct (seq_pos (S m)) as [Q' _]. pose proof (pow_lt d m D0) as Q2.
    assert (L : (0 <= INR m * ln d + ln (P (S m)))%R).
    { rewrite <- ln_pow by auto. rewrite <- ln_mult, <- ln_1 by auto. destruct Q as [Q|Q]; [left; apply ln_increasing; auto; lra | right; f_equal; auto]. }
    assert (1 <= INR m)%R by (change 1%R with (INR 1); apply le_INR; lia). rewrite S_INR. replace (1 - (INR m + 1))%R with (- INR m)%R by ring.
    apply (Rmult_le_reg_l (INR m)); [lra|]. rewrite <- Ropp_inv_permute by lra. rewrite <- Rmult_assoc, <- Ropp_mult_distr_r, Rinv_r by lra. lra.
  Qed.
  Lemma S_zero m : 2 <= m -> S_ m = 0%R <-> P m = 1%R.
  Proof.
    intros H. apply le_INR in H. cbn in H. destruct (seq_pos m) as [Q _]. unfold S_. split.
    - intros E. apply Rmult_integral in E. destruct E as [E|E]; [exfalso; apply (Rinv_neq_0_compat (1 - INR m)); auto; lra|]. rewrite <- ln_1 in E. apply ln_inv; auto. lra.
    - intros ->. rewrite ln_1. ring.
  Qed.
  Lemma S_step m : 2 <= m -> (S_ (S m) <= S_ m)%R.
  Proof.
    intros H. destruct m as [|m]; [lia|]. pose proof (seq_convex m) as C. unfold S_. rewrite !S_INR in *.
    assert (1 <= INR m)%R by (change 1%R with (INR 1); apply le_INR; lia). set (q := INR m) in *.
    replace (1 - (q + 1 + 1))%R with (- (q + 1))%R by ring. replace (1 - (q + 1))%R with (- q)%R by ring. rewrite <- !Ropp_inv_permute by lra.
    assert (X : forall a b, (0 < a)%R -> (0 < b)%R -> forall x y, (a * x <= b * y)%R -> (- / a * y <= - / b * x)%R).
    { intros a b Ha Hb x y Hxy. apply (Rmult_le_reg_l (a * b)); [nra|].
      replace (a * b * (- / a * y))%R with (- (b * y))%R by (field; lra). replace (a * b * (- / b * x))%R with (- (a * x))%R by (field; lra). lra. }
    apply X; lra.
  Qed.
  Lemma S_mono m m' : 2 <= m -> m <= m' -> (S_ m' <= S_ m)%R.
  Proof. intros H H'. induction H' as [|m' H' IH]; [lra|]. pose proof (S_step m' ltac:(lia)). lra. Qed.
  Lemma S_pure m : 2 <= m -> S_ m = 0%R -> P 2 = 1%R.
  Proof.
    intros H E. apply S_zero in E; auto. pose proof (seq_dec 2 m ltac:(lia) H). pose proof (seq_dec 1 2 ltac:(lia) ltac:(lia)). lra.
  Qed.
End Seq.

(* ---------------------------------------------------------------- entropies *)

Lemma renyi_trace k M m : m <> 1 -> np_real_log (trace k (pw k M m)) <> None ->
  renyi_entropy k M (Z.of_nat m) = Ok (option_map (fun x => (/ (1 - IZR (Z.of_nat m)) * x)%R) (np_real_log (trace k (pw k M m)))).
Proof. intros H _. unfold renyi_entropy. rewrite power_pw, (proj2 (Z.eqb_neq _ _)) by lia. reflexivity. Qed.
Lemma real_log_pos z : gpos z -> (0 < qr (re z))%R -> np_real_log z = Some (ln (qr (re z))).
Proof.
  intros H Q. unfold np_real_log. destruct (gc_eqb z g0) eqn:E; [apply gc_eqb_eq in E; subst; simpl in Q; rewrite qr_0 in Q; lra|]. rewrite modulus_pos; auto.
Qed.
Theorem renyi_complement n A B v m : Permutation (A ++ B) (seq 0 n) -> length v = 2 ^ n -> (1 <= m)%Z ->
  exists ra rb, reduced_density_matrix (RVector v) (map Z.of_nat A) n = Ok ra /\ reduced_density_matrix (RVector v) (map Z.of_nat B) n = Ok rb /\
    renyi_entropy (length A) ra m = renyi_entropy (length B) rb m.
Proof.
  intros P Lv Hm. destruct (complement_traces n A B v (Z.to_nat (m - 1)) P Lv) as (ra & rb & Ea & Eb & E). exists ra, rb. do 2 (split; auto).
  unfold renyi_entropy. replace m with (Z.of_nat (S (Z.to_nat (m - 1)))) by lia. rewrite !power_pw, !trace_sum, E. reflexivity.
Qed.
Theorem renyi_order n A A' v m : NoDup A -> (forall l, In l A -> l < n) -> Permutation A A' -> length v = 2 ^ n -> (1 <= m)%Z ->
  exists ra rb, reduced_density_matrix (RVector v) (map Z.of_nat A) n = Ok ra /\ reduced_density_matrix (RVector v) (map Z.of_nat A') n = Ok rb /\
    renyi_entropy (length A) ra m = renyi_entropy (length A') rb m.
Proof.
  intros Nd Rg P Lv Hm. pose proof (two_perm n A Nd Rg) as P1. assert (P2 : Permutation (A' ++ rest n A) (seq 0 n)) by (rewrite <- P; auto).
  destruct (renyi_complement n A _ v m P1 Lv Hm) as (ra & rb & Ea & Eb & E). destruct (renyi_complement n A' _ v m P2 Lv Hm) as (ra' & rb' & Ea' & Eb' & E').
  exists ra, ra'. do 2 (split; auto). congruence.
Qed.
Section Entropies.
  Variables (n : nat) (A : list nat) (v : list GC) (g : N -> N -> GC).
  Hypothesis Nd : NoDup A.
  Hypothesis Rg : forall l, In l A -> l < n.
  Hypothesis Lv : length v = 2 ^ n.
  Hypothesis Nv : normalised n v.
  Hypothesis Hg : forall c, configuration n c -> g (pick n A c) (pick n (rest n A) c) = amplitude v c.
  Notation k := (length A).
  Notation l := (length (rest n A)).
  Notation P m := (qr (re (T k l g m))).
  Definition dim : R := (2 ^ k)%R.
  Lemma T1_one : T k l g 1 = g1.
  Proof. rewrite T_1, (two_sum n A Nd Rg (fun a b => gmul (g a b) (gconj (g a b)))). rewrite <- Nv. apply sum_confs_ext. intros c Hc. rewrite Hg; auto. Qed.
  Lemma pos_real z : gpos z -> (0 <= qr (re z))%R.
  Proof. intros [_ H]. apply qr_le in H. rewrite qr_0 in H. auto. Qed.
  Lemma re_sub_mul x y z w : im x = 0%Qc -> im z = 0%Qc -> qr (re (gsub (gmul x y) (gmul z (gconj w)))) = (qr (re x) * qr (re y) - qr (re z) * qr (re w))%R.
  Proof.
    intros Hx Hz. simpl. rewrite Hx, Hz. unfold Qcminus. repeat (rewrite qr_add || rewrite qr_opp || rewrite qr_mul || rewrite qr_0). ring.
  Qed.
  Lemma seq_hyps : (0 < dim)%R /\ P 0 = dim /\ P 1 = 1%R /\ (forall m, (P (S m) * P (S m) <= P (S (S m)) * P m)%R) /\ (forall m, (P (S m) <= P m * 1)%R \/ m = 0).
  Proof.
    split; [apply pow_lt; lra|]. split; [rewrite T_0, qr_gz, <- INR_IZR_INZ, pow_INR; reflexivity|]. split; [rewrite T1_one; apply qr_1|]. split.
    - intros m. pose proof (pos_real _ (T_convex k l g m)) as H. rewrite re_sub_mul in H by apply T_pos. lra.
    - intros m. left. pose proof (pos_real _ (T_submult k l g m)) as H. rewrite T1_one in H.
      replace (gsub (gmul (T k l g m) g1) (T k l g (S m))) with (gsub (gmul (T k l g m) g1) (gmul (T k l g (S m)) (gconj g1))) in H by (rewrite gconj_1; ring).
      rewrite re_sub_mul in H by apply T_pos. simpl in H. rewrite qr_1 in H. lra.
  Qed.
  Lemma renyi_value m : 2 <= m -> renyi_entropy k (rho l g) (Z.of_nat m) = Ok (Some (S_ (fun m => P m) m)).
  Proof.
    intros H. destruct seq_hyps as (D & H0 & H1 & Hc & Hs). destruct (seq_pos (fun m => P m) dim D H0 H1 Hc m) as [Q _].
    unfold renyi_entropy. rewrite power_pw, trace_sum, (proj2 (Z.eqb_neq _ _)) by lia. change (trace k (pw k (rho l g) m)) with (T k l g m).
    rewrite (real_log_pos _ (T_pos k l g m) Q). cbn [option_map]. unfold S_. rewrite <- INR_IZR_INZ. reflexivity.
  Qed.
  Lemma renyi_facts m : 2 <= m -> exists S, renyi_entropy k (rho l g) (Z.of_nat m) = Ok (Some S) /\ (0 <= S <= INR k * ln 2)%R /\ (S = 0%R <-> product_state n A v).
  Proof.
    intros H. exists (S_ (fun m => P m) m). split; [apply renyi_value; auto|]. destruct seq_hyps as (D & H0 & H1 & Hc & Hs). split; [split|].
    - apply (S_nonneg _ dim); auto.
    - rewrite <- ln_pow by lra. apply (S_upper _ dim); auto.
    - split.
      + intros E. apply (S_pure _ dim D H0 H1 Hc Hs m H) in E.
        assert (E2 : T k l g 2 = gmul (T k l g 1) (T k l g 1)).
        { rewrite T1_one. apply GC_ext; [|transitivity 0%Qc; [apply T_pos | reflexivity]]. apply qr_inj. rewrite E. symmetry. apply qr_1. }
        pose proof (T_minors k l g E2) as Mi.
        assert (X : exists c0, configuration n c0 /\ amplitude v c0 <> g0).
        { destruct (existsb (fun c => negb (gc_eqb (amplitude v c) g0)) (all_confs n)) eqn:Q.
          - apply existsb_exists in Q. destruct Q as (c & Hc' & Q). exists c. split; [apply in_confs; auto|]. intros Z. rewrite Z in Q. discriminate.
          - exfalso. apply g1_neq_g0. unfold normalised in Nv. rewrite <- Nv. apply gsum_map_zero. intros c Hc'.
            destruct (gc_eq_dec (amplitude v c) g0) as [Z|Z]; [rewrite Z; ring|]. exfalso.
            rewrite (proj2 (existsb_exists _ _)) in Q; [discriminate|]. exists c. split; auto. apply negb_true_iff. apply not_true_is_false. rewrite gc_eqb_eq. auto. }
        destruct X as (c0 & C0 & N0). exists (fun a => g a (pick n (rest n A) c0)), (fun b => gdiv (g (pick n A c0) b) (amplitude v c0)).
        intros c Hc'. rewrite <- (Hg c Hc').
        pose proof (Mi (pick n A c) (pick n A c0) (pick n (rest n A) c0) (pick n (rest n A) c) ltac:(apply pick_conf) ltac:(apply pick_conf) ltac:(apply pick_conf) ltac:(apply pick_conf)) as Q.
        rewrite (Hg c0 C0) in Q. apply (f_equal (fun z => gdiv z (amplitude v c0))) in Q.
        transitivity (gdiv (gmul (g (pick n A c) (pick n (rest n A) c)) (amplitude v c0)) (amplitude v c0)); [field; auto|]. rewrite Q. field; auto.
      + intros (x & y & Hxy). apply (S_zero _ dim D H0 H1 Hc m H). destruct m as [|m]; [lia|].
        rewrite (T_product k l g x y); [apply qr_1 | | apply T1_one].
        intros a b Ha Hb. destruct (two_surj n A Nd Rg a b Ha Hb) as (c & Hc' & <- & <-). rewrite Hg, Hxy; auto.
  Qed.
  Lemma renyi_mono m m' : 2 <= m -> m <= m' -> exists S S', renyi_entropy k (rho l g) (Z.of_nat m) = Ok (Some S) /\ renyi_entropy k (rho l g) (Z.of_nat m') = Ok (Some S') /\ (S' <= S)%R.
  Proof.
    intros H H'. exists (S_ (fun m => P m) m), (S_ (fun m => P m) m'). do 2 (split; [apply renyi_value; lia|]).
    destruct seq_hyps as (D & H0 & H1 & Hc & Hs). apply (S_mono _ dim); auto.
  Qed.
End Entropies.
Theorem renyi_bounds n A v m : NoDup A -> (forall l, In l A -> l < n) -> length v = 2 ^ n -> normalised n v -> (2 <= m)%Z ->
  exists rho S, reduced_density_matrix (RVector v) (map Z.of_nat A) n = Ok rho /\ renyi_entropy (length A) rho m = Ok (Some S) /\
    (0 <= S)%R /\ (S <= INR (length A) * ln 2)%R /\ (S <= INR (n - length A) * ln 2)%R /\ (S = 0%R <-> product_state n A v).
Proof.
  intros Nd Rg Lv Nv Hm. destruct (reshaped n A Nd Rg v Lv) as (g & E & Hg).
  destruct (renyi_facts n A v g Nd Rg Lv Nv Hg (Z.to_nat m) ltac:(lia)) as (S & E2 & [B1 B2] & Z). rewrite Z2Nat.id in E2 by lia.
  assert (Er : reduced_density_matrix (RVector v) (map Z.of_nat A) n = Ok (rho (length (rest n A)) g)).
  { unfold reduced_density_matrix. rewrite E, other_rest, map_length. reflexivity. }
  exists (rho (length (rest n A)) g), S. do 4 (split; auto). split; auto.
  destruct (renyi_complement n A (rest n A) v m (two_perm n A Nd Rg) Lv ltac:(lia)) as (ra & rb & Ea & Eb & Eab). rewrite Er in Ea. injection Ea as <-. rewrite E2 in Eab.
  assert (NdB : NoDup (rest n A)) by apply rest_nodup. assert (RgB : forall l, In l (rest n A) -> l < n) by (intros l Hl; apply in_rest in Hl; tauto).
  destruct (reshaped n (rest n A) NdB RgB v Lv) as (gB & EB & HgB).
  destruct (renyi_facts n (rest n A) v gB NdB RgB Lv Nv HgB (Z.to_nat m) ltac:(lia)) as (S' & E2' & [_ B2'] & _). rewrite Z2Nat.id in E2' by lia.
  assert (Er' : reduced_density_matrix (RVector v) (map Z.of_nat (rest n A)) n = Ok (rho (length (rest n (rest n A))) gB)).
  { unfold reduced_density_matrix. rewrite EB, other_rest, map_length. reflexivity. }
  rewrite Er' in Eb. injection Eb as <-. rewrite E2' in Eab. injection Eab as <-. pose proof (two_length n A Nd Rg). replace (n - length A) with (length (rest n A)) by lia. auto.
Qed.
Theorem renyi_decreasing n A v m m' : NoDup A -> (forall l, In l A -> l < n) -> length v = 2 ^ n -> normalised n v -> (2 <= m <= m')%Z ->
  exists rho S S', reduced_density_matrix (RVector v) (map Z.of_nat A) n = Ok rho /\ renyi_entropy (length A) rho m = Ok (Some S) /\ renyi_entropy (length A) rho m' = Ok (Some S') /\ (S' <= S)%R.
Proof.
  intros Nd Rg Lv Nv Hm. destruct (reshaped n A Nd Rg v Lv) as (g & E & Hg).
  destruct (renyi_mono n A v g Nd Rg Lv Nv Hg (Z.to_nat m) (Z.to_nat m') ltac:(lia) ltac:(lia)) as (S & S' & E1 & E2 & B). rewrite Z2Nat.id in E1, E2 by lia.
  exists (rho (length (rest n A)) g), S, S'. split; auto. unfold reduced_density_matrix. rewrite E, other_rest, map_length. reflexivity.
Qed.

(* ---------------------------------------------------------------- eigenvalues *)

Lemma gq_mul x y : gq (x * y)%Qc = gmul (gq x) (gq y).
Proof. apply GC_ext; simpl; ring. Qed.
Lemma gsum_gq {T} (f : T -> Qc) l : gsum (map (fun i => gq (f i)) l) = gq (fold_right Qcplus 0%Qc (map f l)).
Proof. induction l as [|x l IH]; [reflexivity|]. cbn [map fold_right]. rewrite gsum_cons, IH. apply GC_ext; simpl; [auto | ring]. Qed.
Lemma qr_total {T} (f : T -> Qc) l : qr (fold_right Qcplus 0%Qc (map f l)) = rtotal (map (fun i => qr (f i)) l).
Proof. induction l as [|x l IH]; [apply qr_0|]. cbn [map fold_right rtotal]. rewrite qr_add, IH. reflexivity. Qed.
Lemma qr_pow x m : qr (Qcpower x m) = (qr x ^ m)%R.
Proof. induction m as [|m IH]; [apply qr_1|]. cbn [Qcpower pow]. rewrite qr_mul, IH. reflexivity. Qed.
Lemma sum_gsum_swap {T} k (f : N -> T -> GC) l : sum_confs k (fun a => gsum (map (f a) l)) = gsum (map (fun i => sum_confs k (fun a => f a i)) l).
Proof. apply gsum_swap. Qed.
Lemma gsum_only r (f : nat -> GC) i : i < r -> (forall j, j < r -> j <> i -> f j = g0) -> gsum (map f (seq 0 r)) = f i.
Proof. intros Hi H. apply (sg_single r i f Hi H). Qed.
Lemma spectral_power k r M p u : spectral k r M p u -> forall m a b, configuration k a -> configuration k b ->
  pw k M (S m) a b = gsum (map (fun i => gmul (gq (Qcpower (p i) (S m))) (gmul (u i a) (gconj (u i b)))) (seq 0 r)).
Proof.
  intros [Ho HM]. induction m as [|m IH]; intros a b Ha Hb.
  - rewrite pw_1, HM by auto. apply gsum_map_ext. intros i _. do 2 f_equal. cbn. ring.
  - rewrite pw_S.
    transitivity (sum_confs k (fun c => gsum (map (fun i => gsum (map (fun j => gmul (gmul (gmul (gq (Qcpower (p i) (S m))) (gq (p j))) (gmul (u i a) (gconj (u j b)))) (gmul (gconj (u i c)) (u j c))) (seq 0 r))) (seq 0 r)))).
    { apply sum_confs_ext. intros c Hc. rewrite IH, HM by auto. rewrite <- sum_product. apply gsum_map_ext. intros i _. apply gsum_map_ext. intros j _. ring. }
    rewrite sum_gsum_swap. apply gsum_map_ext. intros i Hi. apply in_seq in Hi. rewrite sum_gsum_swap.
    rewrite (gsum_only r _ i) by (try lia; intros j Hj Nj; rewrite sum_confs_mul, Ho by lia; rewrite (proj2 (Nat.eqb_neq i j)) by auto; ring).
    rewrite sum_confs_mul, Ho, Nat.eqb_refl by lia. change (Qcpower (p i) (S (S m))) with (p i * Qcpower (p i) (S m))%Qc. rewrite gq_mul. ring.
Qed.
Lemma rtotal_nonneg {T} (f : T -> R) l : (forall i, In i l -> (0 <= f i)%R) -> (0 <= rtotal (map f l))%R.
Proof. induction l as [|x l IH]; intros H; cbn [map rtotal fold_right]; [lra|]. pose proof (H x (or_introl eq_refl)). specialize (IH ltac:(intros; apply H; right; auto)). unfold rtotal in IH. lra. Qed.
Lemma rtotal_pos {T} (f : T -> R) l i : (forall i, In i l -> (0 <= f i)%R) -> In i l -> (0 < f i)%R -> (0 < rtotal (map f l))%R.
Proof.
  induction l as [|x l IH]; intros H Hi P; [destruct Hi|]. cbn [map rtotal fold_right].
  assert (H' : forall j, In j l -> (0 <= f j)%R) by (intros; apply H; right; auto). pose proof (rtotal_nonneg f l H') as Q. unfold rtotal in Q.
  destruct Hi as [->|Hi]; [lra|]. pose proof (H x (or_introl eq_refl)). specialize (IH H' Hi P). unfold rtotal in IH. lra.
Qed.
Theorem renyi_spectrum k r M p u m : spectral k r M p u -> (forall i, i < r -> (0 <= p i)%Qc) -> (exists i, i < r /\ p i <> 0%Qc) -> (2 <= m)%Z ->
  renyi_entropy k M m = Ok (Some (/ (1 - IZR m) * ln (rtotal (map (fun i => (qr (p i) ^ Z.to_nat m)%R) (seq 0 r))))%R).
Proof.
  intros Hs Hp (i & Hi & Ni) Hm. destruct (Z.to_nat m) as [|q] eqn:Eq; [lia|].
  assert (Et : trace k (pw k M (S q)) = gq (fold_right Qcplus 0%Qc (map (fun i => Qcpower (p i) (S q)) (seq 0 r)))).
  { unfold trace. rewrite (sum_confs_ext k _ (fun a => gsum (map (fun i => gmul (gq (Qcpower (p i) (S q))) (gmul (gconj (u i a)) (u i a))) (seq 0 r)))).
    - rewrite sum_gsum_swap, <- gsum_gq. apply gsum_map_ext. intros j Hj. apply in_seq in Hj. rewrite sum_confs_mul, (proj1 Hs), Nat.eqb_refl by lia. ring.
    - intros a Ha. rewrite (spectral_power k r M p u Hs) by auto. apply gsum_map_ext. intros j _. ring. }
  assert (Ev : qr (re (trace k (pw k M (S q)))) = rtotal (map (fun i => (qr (p i) ^ S q)%R) (seq 0 r))).
  { rewrite Et. cbn [gq re]. rewrite qr_total. f_equal. apply map_ext. intros j. apply qr_pow. }
  assert (Np : forall j, In j (seq 0 r) -> (0 <= qr (p j) ^ S q)%R).
  { intros j Hj. apply in_seq in Hj. apply pow_le. pose proof (qr_le _ _ (Hp j ltac:(lia))) as Q. rewrite qr_0 in Q. auto. }
  assert (Pt : (0 < rtotal (map (fun i => (qr (p i) ^ S q)%R) (seq 0 r)))%R).
  { apply (rtotal_pos _ _ i Np); [apply in_seq; lia|]. apply pow_lt. pose proof (qr_le _ _ (Hp i Hi)) as Q. rewrite qr_0 in Q. destruct Q as [Q|Q]; auto.
    exfalso. apply Ni. apply qr_inj. rewrite qr_0. auto. }
  unfold renyi_entropy. rewrite (proj2 (Z.eqb_neq _ _)) by lia. replace m with (Z.of_nat (S q)) at 1 by lia. rewrite power_pw, trace_sum.
  rewrite real_log_pos; [cbn [option_map]; rewrite Ev; reflexivity | | rewrite Ev; auto].
  split; [rewrite Et; reflexivity|]. destruct (Qclt_le_dec (re (trace k (pw k M (S q)))) 0) as [H|H]; auto. exfalso.
  apply Qclt_le_weak, qr_le in H. rewrite Ev, qr_0 in H. lra.
Qed.
(** Orders 0 and below, and 1. *)
Theorem renyi_small k M m : (m <= 0)%Z -> renyi_entropy k M m = Ok (Some (/ (1 - IZR m) * (INR k * ln 2))%R).
Proof.
  intros H. unfold renyi_entropy. rewrite (proj2 (Z.eqb_neq _ _)) by lia. unfold rho_power. replace (Z.to_nat m) with 0 by lia. change (Nat.iter 0 _ np_eye) with np_eye.
  assert (E : np_trace k np_eye = gz (Z.of_nat (2 ^ k))) by apply (T_0 k 0 (fun _ _ => g0)). rewrite E.
  assert (Q : (0 < 2 ^ k)%R) by (apply pow_lt; lra).
  assert (V : qr (re (gz (Z.of_nat (2 ^ k)))) = (2 ^ k)%R) by (rewrite qr_gz, <- INR_IZR_INZ, pow_INR; reflexivity).
  rewrite real_log_pos; [cbn [option_map]; rewrite V, ln_pow by lra; reflexivity | | rewrite V; auto].
  rewrite <- E. apply (T_pos k 0 (fun _ _ => g0) 0).
Qed.
Theorem renyi_one k M : renyi_entropy k M 1 = Err ZeroDivisionError.
Proof. reflexivity. Qed.
