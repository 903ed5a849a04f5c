(** Proofs about normal modes with pairing. *)
From Coq Require Import List ZArith Bool Arith Lia Permutation Sorted Setoid Morphisms Reals QArith Qreals Qcanon Lra.
From Coquelicot Require Import Complex.
From Verif Require Import GC Exn S_Alg S_RScal S_CFock S_CScal M_LinAlg M_Quad M_Core M_Modes S_LinAlg S_Core S_Greedy S_Sparsify S_Quad S_Modes
  L_Alg L_Module L_CScal L_LinAlg L_Inter L_Herm L_PartIso L_Dim L_Generate2 L_Fidelity L_Sparsify L_Commutant L_Quad L_Diagonalize L_Modes L_Modes2 L_Modes3.
Import M_LinAlg ListNotations.
Local Open Scope nat_scope.
Local Open Scope alg_scope.

Lemma seq_shift_add k l : forall a, seq (k + a)%nat l = map (fun x => (x + k)%nat) (seq a l).
Proof. induction l as [|l IH]; intros a; auto. cbn [seq map]. f_equal; [lia|]. replace (S (k + a)) with (k + S a)%nat by lia. apply IH. Qed.
(** Exchanging particles and holes. *)
Definition flip (n : nat) (j : Z) : Z := (if j <? Z.of_nat n then j + Z.of_nat n else j - Z.of_nat n)%Z.
Definition partner (n : nat) (v : list C) : list C := map (fun j => Cconj (at_ v (flip n j))) (below (2 * n)%nat).

Ltac zcases := unfold flip, nambu in *; repeat match goal with H : In _ (below _) |- _ => apply below_in in H | |- In _ (below _) => apply below_in end;
  repeat match goal with |- context [(?a <? ?b)%Z] => destruct (Z.ltb_spec a b) end; try lia.
Lemma flip_in n j : In j (below (2 * n)%nat) -> In (flip n j) (below (2 * n)%nat).
Proof. intros H. zcases. Qed.
Lemma flip_flip n j : In j (below (2 * n)%nat) -> flip n (flip n j) = j.
Proof. intros H. zcases. Qed.
Lemma flip_perm n : Permutation (map (flip n) (below (2 * n)%nat)) (below (2 * n)%nat).
Proof.
  apply NoDup_Permutation_bis.
  - apply NoDup_map_inv with (f := flip n). rewrite map_map. rewrite (map_ext_in _ (fun j => j)) by (intros; apply flip_flip; auto). rewrite map_id. apply below_nodup.
  - rewrite map_length. auto.
  - intros j H. apply in_map_iff in H. destruct H as (k & <- & Hk). apply flip_in; auto.
Qed.
Lemma csum_perm (l l' : list C) : Permutation l l' -> csum l = csum l'.
Proof. unfold csum. induction 1; cbn [fold_right]; [auto | rewrite IHPermutation; auto | ring | congruence]. Qed.
Lemma csum_flip n f : csum (map f (below (2 * n)%nat)) = csum (map (fun j => f (flip n j)) (below (2 * n)%nat)).
Proof. rewrite <- (map_map (flip n) f). apply csum_perm, Permutation_map. symmetry. apply flip_perm. Qed.

Section Partner.
  Variable n : nat.
  Notation N := (2 * n)%nat.
  Lemma partner_length v : length (partner n v) = N.
  Proof. unfold partner. rewrite map_length. apply below_length. Qed.
  Lemma partner_at v j : In j (below N) -> at_ (partner n v) j = Cconj (at_ v (flip n j)).
  Proof. apply (at_map N (fun j => Cconj (at_ v (flip n j)))). Qed.
  Lemma partner_inner v w : length v = N -> length w = N -> inner (partner n v) (partner n w) = Cconj (inner v w).
  Proof.
    intros Lv Lw. rewrite (inner_at N) by apply partner_length. rewrite (inner_at N v w), conj_csum by auto. rewrite (csum_flip n (fun t => Cconj (Cconj (at_ v t) * at_ w t)%C)).
    apply csum_ext. intros j Hj. rewrite !partner_at, Cconj_mul by auto. auto.
  Qed.
  Lemma ph_flip F : S_Quad.hermitian F -> ph_symmetric n F -> forall j k, In j (below N) -> In k (below N) -> to_C (F j (flip n k)) = (- Cconj (to_C (F (flip n j) k)))%C.
  Proof.
    intros Hh Hp j k Hj Hk. assert (E : F j (flip n k) = gopp (gconj (F (flip n j) k))); [|rewrite E, to_C_opp, to_C_conj; auto].
    assert (I : forall z, gopp (gconj (gopp (gconj z))) = z) by (intros z; apply GC_ext; cbn; ring).
    zcases.
    - destruct (Hp j k) as [_ E]; try lia. rewrite E, I. auto.
    - destruct (Hp (j - Z.of_nat n)%Z k) as [E _]; try lia. replace (j - Z.of_nat n + Z.of_nat n)%Z with j in E by lia. auto.
    - destruct (Hp j (k - Z.of_nat n)%Z) as [E _]; try lia. replace (k - Z.of_nat n + Z.of_nat n)%Z with k in E by lia. rewrite E, I. auto.
    - destruct (Hp (j - Z.of_nat n)%Z (k - Z.of_nat n)%Z) as [_ E]; try lia. replace (j - Z.of_nat n + Z.of_nat n)%Z with j in E by lia. replace (k - Z.of_nat n + Z.of_nat n)%Z with k in E by lia. auto.
  Qed.
  Lemma partner_eigen F l v : S_Quad.hermitian F -> ph_symmetric n F -> length v = N -> rows_vec (rows_z N F) v = map (Cmult (RtoC l)) v ->
    rows_vec (rows_z N F) (partner n v) = map (Cmult (RtoC (- l))) (partner n v).
  Proof.
    intros Hh Hp Lv E. apply at_eigen; [apply partner_length|]. intros j Hj. rewrite (csum_flip n), partner_at by auto.
    assert (K := eigen_at N F l v (flip n j) Lv E (flip_in n j Hj)). apply (f_equal (fun z => (- Cconj z)%C)) in K.
    rewrite Cconj_mul, Cconj_R in K. rewrite RtoC_opp. transitivity (- (RtoC l * Cconj (at_ v (flip n j))))%C; [|ring]. rewrite <- K, conj_csum.
    transitivity (RtoC (-1) * csum (map (fun t => Cconj (to_C (F (flip n j) t) * at_ v t)%C) (below N)))%C; [|replace (RtoC (-1)) with (- RtoC 1)%C by (apply C_ext; cbn; ring); ring]. rewrite csum_mul. apply csum_ext. intros k Hk.
    rewrite (ph_flip F Hh Hp j k Hj Hk), partner_at, flip_flip, Cconj_mul by (auto using flip_in). replace (RtoC (-1)) with (- RtoC 1)%C by (apply C_ext; cbn; ring). ring.
  Qed.
End Partner.

Lemma rs_half {A : StarAlg} (S : RScal A) r x : half · rs S r x == rs S (r / 2)%R x.
Proof.
  assert (H : half = gq (re half)) by (apply GC_ext; apply Qc_is_canon; vm_compute; reflexivity). rewrite H.
  rewrite <- (rs_rational A S), (rs_rs A S). replace (Q2R (this (re half)) * r)%R with (r / 2)%R; [reflexivity|]. unfold half, Q2R. cbn. lra.
Qed.
Section BdG.
  Context {A : StarAlg} (S : RScal A) (n : nat) (c : Z -> A).
  Hypothesis HC : CAR A c.
  Notation N := (2 * n)%nat.
  Notation psi := (nambu n c).
  Lemma nambu_flip j : In j (below N) -> (psi j)^* == psi (flip n j).
  Proof. intros H. zcases; [|apply astar_star]. replace (j + Z.of_nat n - Z.of_nat n)%Z with j by lia. reflexivity. Qed.
  Lemma nambu_dual j k : In j (below N) -> In k (below N) -> psi j * (psi k)^* + (psi k)^* * psi j == cs S (if Z.eqb j k then RtoC 1 else RtoC 0) aone.
  Proof.
    intros Hj Hk. pose proof (car_dual S c HC) as D. pose proof (car_null c HC) as Z0. zcases; try rewrite astar_star.
    - apply D.
    - rewrite Z0. destruct (Z.eqb_spec j k); [lia|]. symmetry. apply cs_0.
    - rewrite null_star by apply Z0. destruct (Z.eqb_spec j k); [lia|]. symmetry. apply cs_0.
    - apply anti_sym. rewrite D. apply cs_eq. destruct (Z.eqb_spec j k), (Z.eqb_spec (k - Z.of_nat n) (j - Z.of_nat n)); auto; lia.
  Qed.
  Lemma partner_mode v : mode_of S N (partner n v) psi == (mode_of S N v psi)^*.
  Proof.
    rewrite mode_star. unfold mode_of, combine_with.
    transitivity (asum (map (fun j => cs S (at_ v (flip n j)) (psi j)) (below N))).
    - apply asum_ext. intros j Hj. apply cs_eq. rewrite partner_at by auto. apply Cconj_conj.
    - transitivity (asum (map (fun j => cs S (at_ v (flip n (flip n j))) (psi (flip n j))) (below N))).
      + rewrite <- (map_map (flip n) (fun j => cs S (at_ v (flip n j)) (psi j))). apply asum_perm, Permutation_map. symmetry. apply flip_perm.
      + apply asum_ext. intros j Hj. rewrite flip_flip, nambu_flip by auto. reflexivity.
  Qed.
  Lemma bdg_anti v w : length v = N -> length w = N -> mode_of S N v psi * mode_of S N w psi + mode_of S N w psi * mode_of S N v psi == cs S (inner v (partner n w)) aone.
  Proof.
    intros Lv Lw. assert (E : (mode_of S N (partner n w) psi)^* == mode_of S N w psi) by (rewrite partner_mode; apply astar_star).
    rewrite <- E. apply dual_anti; auto using partner_length. apply nambu_dual.
  Qed.
  Lemma bdg_form_ladder F l v : S_Quad.hermitian F -> ph_symmetric n F -> length v = N -> rows_vec (rows_z N F) v = map (Cmult (RtoC l)) v ->
    ladder S (form N F (fun j => (psi j)^*) psi) (- (2 * l)) (mode_of S N v psi).
  Proof.
    intros Hh Hp Lv E. unfold ladder. rewrite form_cform. set (g := mode_of S N v psi).
    assert (K := cform_comm S N (fun j k => to_C (F j k)) (fun j => (psi j)^*) psi g (fun j => Cconj (at_ v j)) (at_ (partner n v))).
    assert (K1 : combine_with S N (fun k => csum (map (fun j => to_C (F j k) * Cconj (at_ v j))%C (below N))) psi == rs S l g).
    { rewrite (comb_ext S N _ (fun k => RtoC l * Cconj (at_ v k))%C); [rewrite comb_scale, cs_real; reflexivity|].
      intros k Hk. pose proof (eigen_at N F l v k Lv E Hk) as X. apply (f_equal Cconj) in X. rewrite Cconj_mul, Cconj_R in X. rewrite <- X, conj_csum. apply csum_ext. intros j _. rewrite Cconj_mul. f_equal.
      rewrite (Hh k j), to_C_conj. auto. }
    assert (K2 : combine_with S N (fun j => csum (map (fun k => to_C (F j k) * at_ (partner n v) k)%C (below N))) (fun j => (psi j)^*) == rs S (- l) g).
    { rewrite (comb_ext S N _ (fun j => RtoC (- l) * at_ (partner n v) j)%C) by (intros j Hj; apply eigen_at; auto using partner_length, partner_eigen).
      rewrite comb_scale, cs_real, <- mode_star, partner_mode, astar_star. reflexivity. }
    rewrite K1, K2 in K. specialize (K ltac:(intros j Hj; apply anti_sym; unfold g, mode_of; rewrite (comb_anti1 S N _ psi _ (fun k => if Z.eqb k j then RtoC 1 else RtoC 0)); [apply cs_eq, (csum_pick (fun k => Cconj (at_ v k))); auto; apply below_nodup | intros k Hk; apply nambu_dual; auto])).
    specialize (K ltac:(intros k Hk; assert (Eg : g == combine_with S N (at_ (partner n v)) (fun j => (psi j)^*)) by (rewrite <- mode_star, partner_mode; symmetry; apply astar_star); rewrite Eg; apply dual_star; auto; apply nambu_dual)).
    apply (aadd_cancel_r _ _ (rs S l g)). rewrite K. rewrite <- aadd_assoc, <- rs_add_l. replace (- (2 * l) + l)%R with (- l)%R by ring. reflexivity.
  Qed.
  Lemma bdg_ladder F t l v : S_Quad.hermitian F -> ph_symmetric n F -> length v = N -> rows_vec (rows_z N F) v = map (Cmult (RtoC l)) v ->
    ladder S (half · form N F (fun j => (psi j)^*) psi + t · aone) (- l) (mode_of S N v psi).
  Proof.
    intros Hh Hp Lv E. pose proof (bdg_form_ladder F l v Hh Hp Lv E) as K. unfold ladder in *.
    rewrite amul_add_l, amul_add_r, !ascal_mul_l, !ascal_mul_r, K, amul_1_l, amul_1_r.
    assert (Eh : half · rs S (- (2 * l)) (mode_of S N v psi) == rs S (- l) (mode_of S N v psi)).
    { rewrite rs_half. replace (- (2 * l) / 2)%R with (- l)%R by field. reflexivity. }
    rewrite ascal_add_r, Eh. set (p := half · _). set (q := t · _). set (r := rs S _ _). msolve [p; q; r]; gring.
  Qed.
  Lemma mode_split u v : length u = n -> length v = n -> mode_of S N (u ++ v) psi == bogoliubov S n u v c.
  Proof.
    intros Lu Lv. unfold bogoliubov, mode_of, combine_with. assert (E : below N = below n ++ map (fun j => (j + Z.of_nat n)%Z) (below n)).
    { unfold below. replace N with (n + n)%nat by lia. rewrite seq_app, map_app, map_map. f_equal. rewrite Nat.add_0_l. rewrite <- (Nat.add_0_r n) at 1.
      rewrite seq_shift_add. rewrite map_map. apply map_ext. intros a. lia. }
    rewrite E, map_app, asum_app, map_map. apply aadd_proper; apply asum_ext; intros j Hj; apply below_in in Hj.
    - unfold nambu. destruct (Z.ltb_spec j (Z.of_nat n)); [|lia]. apply cs_eq. unfold at_. rewrite app_nth1 by lia. auto.
    - unfold nambu. destruct (Z.ltb_spec (j + Z.of_nat n) (Z.of_nat n)); [lia|]. replace (j + Z.of_nat n - Z.of_nat n)%Z with j by lia. apply cs_eq. unfold at_. rewrite app_nth2 by lia. f_equal. f_equal. lia.
  Qed.
End BdG.
