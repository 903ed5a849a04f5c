(** The string-level operations compute products in every representation. *)
From Coq Require Import List ZArith Bool Arith Lia Sorted Permutation Setoid Morphisms Ring Field QArith Qcanon.
From Verif Require Import GC Exn M_OpString M_Tools M_Algebra S_Alg S_Den L_Alg L_Sort L_StrAlg.
Import ListNotations.
Local Open Scope nat_scope.
Local Open Scope alg_scope.

Lemma unit_norm2 k : gmul k (gconj k) = g1 -> norm2 k = 1%Qc.
Proof.
  intros H. assert (E : gmul (gconj k) k = g1) by (rewrite <- H; ring).
  rewrite gmul_conj in E. apply (f_equal re) in E. exact E.
Qed.

Lemma unit_neq0 k : gmul k (gconj k) = g1 -> k <> g0.
Proof. intros H ->. apply g1_neq_g0. rewrite <- H. ring. Qed.

Lemma abs_ltb_unit k : gmul k (gconj k) = g1 -> abs_ltb k tol12 = false.
Proof. intros H. unfold abs_ltb. rewrite (unit_norm2 _ H). reflexivity. Qed.

Lemma abs_ltb_zero : abs_ltb g0 tol12 = true.
Proof. reflexivity. Qed.

Lemma abs_gtb_zero : abs_gtb g0 tol12 = false.
Proof. reflexivity. Qed.

Lemma abs_ltb_two k : gmul k (gconj k) = g1 -> abs_ltb (gmul g2 k) tol12 = false /\ abs_gtb (gmul g2 k) tol12 = true.
Proof.
  intros H. unfold abs_ltb, abs_gtb.
  replace (norm2 (gmul g2 k)) with (Qcmult (norm2 g2) (norm2 k)).
  - rewrite (unit_norm2 _ H). split; reflexivity.
  - unfold norm2; simpl. ring.
Qed.

Lemma gsub_neg (k : GC) : gsub k (gmul gm1 k) = gmul g2 k.
Proof. replace g2 with (gadd g1 g1) by (apply GC_ext; reflexivity). unfold gm1. ring. Qed.

Lemma gmul_div a b : b <> g0 -> gmul (gdiv a b) b = a.
Proof. intros H. field. auto. Qed.

Record op_result (ty : optype) (S T : OS) (k : GC) (e : bool) (C : OS) : Prop := {
  or_unit : gmul k (gconj k) = g1;
  or_ok : string_ok ty C;
  or_can : canonical C;
  or_lab : forall l, In l (os_labels C) -> In l (os_labels S) \/ In l (os_labels T);
  or_id : os_ops C = [] -> forall x, In x (letters S) <-> In x (letters T);
  or_st : forall (A : StarAlg) (g : op -> Z -> A), rep ty g -> den g S * den g T == k · den g C;
  or_ts : forall (A : StarAlg) (g : op -> Z -> A), rep ty g -> den g T * den g S == gmul (gsgn e) k · den g C;
  or_prod : product S T = Ok (k, Some C);
  or_comm : commutator S T = if e then Ok (gmul k g2, Some C) else Ok (g0, None);
  or_anti : anticommutator S T = if e then Ok (g0, None) else Ok (gmul k g2, Some C)
}.

Lemma finish_unit m ty k st C : gmul k (gconj k) = g1 -> os_new (cb_ops st) (cb_labels st) ty = Ok C ->
  finish_op m ty k st = Ok (match m with MProduct => gdiv k (pval (os_pref C)) | _ => gmul (gdiv k (pval (os_pref C))) g2 end, Some C).
Proof.
  intros Hk HC. unfold finish_op. rewrite abs_ltb_unit by auto. rewrite HC. destruct m; reflexivity.
Qed.

Lemma finish_zero m ty st : finish_op m ty g0 st = Ok (g0, None).
Proof. reflexivity. Qed.

Lemma labels_ab_nodup ty s : string_ok ty s -> NoDup (labels_ab (os_ops s) (os_labels s)).
Proof.
  intros (_ & Hl & _ & Hn & _). unfold labels_ab. rewrite <- (map_snd_combine _ _ Hl) in Hn.
  revert Hn. generalize (combine (os_ops s) (os_labels s)). intros w. induction w as [|[o l] w IH]; simpl; auto.
  intros Hn. inversion Hn as [|? ? Hx Hn']; subst. destruct (is_ab o); simpl; auto.
  constructor; auto. intros Hin. apply Hx. apply in_map_iff in Hin. destruct Hin as (p & E & Hp).
  apply filter_In in Hp. apply in_map_iff. exists p. tauto.
Qed.

Lemma labels_ab_length s : length (os_ops s) = length (os_labels s) ->
  length (labels_ab (os_ops s) (os_labels s)) = length (filter is_ab (os_ops s)).
Proof.
  unfold labels_ab. rewrite map_length. generalize (os_labels s). induction (os_ops s) as [|o ops IH]; intros [|l labs] H; simpl; try discriminate; auto.
  simpl in H. injection H as H. destruct (is_ab o); simpl; auto.
Qed.

Theorem operation_spec ty S T : ty <> Fermion -> string_ok ty S -> string_ok ty T ->
  exists k e C, op_result ty S T k e C.
Proof.
  intros Hty HS HT.
  set (ks := sort_uniq (os_labels S ++ os_labels T)).
  destruct (comb_loop ty S T HS HT Hty ks) as (c & n & ops & labs & Hf & Hlen & Hval & Hsub & Hsrt & Hcj & Hun & Heq & Hnil & Hsem).
  { intros l. apply sort_uniq_in. }
  assert (Hks : StronglySorted Z.lt ks) by apply sort_uniq_sorted.
  specialize (Hsrt Hks).
  destruct (os_new_ok ty ops labs Hty Hlen Hval (SSorted_NoDup _ Hsrt)) as (C & HC & HCok & HCo & HCl & HCp).
  set (p := gmul (pval (os_pref S)) (pval (os_pref T))).
  set (s1 := cross_par ty S T). set (s2 := cross_par ty T S).
  set (c1 := gmul (gmul p (gsgn s1)) c). set (c2 := gmul (gmul p (gsgn s2)) (gconj c)).
  set (e := xorb s1 (xorb s2 (Nat.odd n))).
  assert (Hc2 : c2 = gmul (gsgn e) c1).
  { unfold c2, c1, e. rewrite Hcj, !gsgn_xorb.
    transitivity (gmul (gmul (gmul (gsgn s1) (gsgn s1)) (gmul p (gsgn s2))) (gmul (gsgn (Nat.odd n)) c)); [rewrite gsgn_sq|]; ring. }
  assert (Hp : gmul p (gconj p) = g1).
  { unfold p. rewrite gconj_mul. pose proof (pref_unit _ _ HS) as U1. pose proof (pref_unit _ _ HT) as U2.
    transitivity (gmul (gmul (pval (os_pref S)) (gconj (pval (os_pref S)))) (gmul (pval (os_pref T)) (gconj (pval (os_pref T))))); [ring|].
    rewrite U1, U2. ring. }
  assert (Hc1 : gmul c1 (gconj c1) = g1).
  { unfold c1. rewrite !gconj_mul, gsgn_conj.
    transitivity (gmul (gmul p (gconj p)) (gmul (gmul (gsgn s1) (gsgn s1)) (gmul c (gconj c)))); [ring|].
    rewrite Hp, Hun, gsgn_sq. ring. }
  assert (HpC : pval (os_pref C) <> g0) by (apply unit_neq0, (pref_unit ty); auto).
  set (k := gdiv c1 (pval (os_pref C))).
  assert (Hk : gmul k (pval (os_pref C)) = c1) by (apply gmul_div; auto).
  assert (HlC : letters C = combine ops labs) by (unfold letters; rewrite HCo, HCl; auto).
  assert (HinS : forall l, In l (os_labels S) \/ In l (os_labels T) -> In l ks).
  { intros l H. apply sort_uniq_in, in_or_app; auto. }
  assert (HinT : forall l, In l (os_labels T) \/ In l (os_labels S) -> In l ks).
  { intros l H. apply HinS; tauto. }
  exists k, e, C. constructor.
  - unfold k. pose proof (pref_unit _ _ HCok) as U.
    replace (gdiv c1 (pval (os_pref C))) with (gmul c1 (gconj (pval (os_pref C)))).
    + rewrite gconj_mul, gconj_conj.
      transitivity (gmul (gmul c1 (gconj c1)) (gmul (pval (os_pref C)) (gconj (pval (os_pref C))))); [ring|].
      rewrite Hc1, U. ring.
    + replace c1 with (gmul k (pval (os_pref C))) at 1 by auto.
      transitivity (gmul k (gmul (pval (os_pref C)) (gconj (pval (os_pref C))))); [ring|]. rewrite U. unfold k. ring.
  - auto.
  - split; [rewrite HCl; auto | auto].
  - intros l H. rewrite HCl in H. apply in_app_or. apply sort_uniq_in. apply Hsub; auto.
  - rewrite HCo. intros E [o l].
    assert (M : forall U, In (o, l) (letters U) <-> In (o, l) (block snd (letters U) l)).
    { intros U. unfold block. rewrite filter_In. simpl. rewrite Z.eqb_refl. tauto. }
    split; intros H; apply M.
    + rewrite <- (Hnil E); [apply M; auto | apply HinS; left; eapply letters_label; eauto].
    + rewrite (Hnil E); [apply M; auto | apply HinS; right; eapply letters_label; eauto].
  - intros A g Hr. destruct (Hsem A g Hr) as [H1 _]. rewrite !den_word, HlC.
    rewrite ascal_mul_l, ascal_mul_r, (word_two ty g S T ks), H1, !ascal_ascal by auto.
    apply ascal_eq. rewrite Hk. unfold c1, p, s1. ring.
  - intros A g Hr. destruct (Hsem A g Hr) as [_ H2]. rewrite !den_word, HlC.
    rewrite ascal_mul_l, ascal_mul_r, (word_two ty g T S ks), H2, !ascal_ascal by auto.
    apply ascal_eq. transitivity c2; [unfold c2, p, s2; ring|]. rewrite Hc2, <- Hk. ring.
  - unfold product, operation_opstring. replace (os_type S) with ty by (symmetry; apply HS).
    destruct (os_eqb S T) eqn:E.
    + apply os_eqb_spec in E. destruct E as (E1 & E2 & E3).
      destruct (Heq E1 E2) as (-> & -> & -> & ->).
      assert (C = mkOS [] [] ty p_one) as ->.
      { destruct ty; [| |congruence]; simpl in HC; injection HC as <-; reflexivity. }
      assert (K : k = g1).
      { unfold k, c1, p, s1. simpl.
        assert (EP : pval (os_pref T) = pval (os_pref S)).
        { destruct HS as (_ & _ & _ & _ & ->). destruct HT as (_ & _ & _ & _ & ->). rewrite E1. auto. }
        rewrite EP. pose proof (labels_ab_nodup ty S HS) as Hnd.
        assert (HL := labels_ab_length S (proj1 (proj2 HS))).
        unfold cross_par. rewrite <- E1, <- E2.
        destruct HS as (_ & _ & _ & _ & ->). destruct ty.
        - apply GC_ext; reflexivity.
        - rewrite cross_count_self by auto. rewrite HL. unfold majorana_phase.
          match goal with |- context [gsgn ?b] => destruct b end; apply GC_ext; reflexivity.
        - congruence. }
      rewrite K. destruct ty; [| |congruence]; reflexivity.
    + fold ks. destruct ty; [| |congruence].
      * rewrite Hf. cbn [rbind cb_coeff].
        replace (gmul g1 c) with c1.
        -- rewrite (finish_unit MProduct _ c1 _ C); auto.
        -- unfold c1, p. destruct HS as (_ & _ & _ & _ & ->). destruct HT as (_ & _ & _ & _ & ->). simpl. ring.
      * replace (os_type T) with Majorana by (symmetry; apply HT). rewrite Hf. cbn [rbind cb_coeff].
        rewrite sgn_num_spec.
        replace (gmul (gmul _ _) (gmul g1 c)) with c1.
        -- rewrite (finish_unit MProduct _ c1 _ C); auto.
        -- unfold c1, p, s1, cross_par. ring.
  - unfold commutator, operation_opstring. replace (os_type S) with ty by (symmetry; apply HS).
    fold ks. destruct ty; [| |congruence].
    + rewrite Hf. cbn [rbind cb_coeff cb_ndiff].
      replace (gmul g1 c) with c1 by (unfold c1, p; destruct HS as (_ & _ & _ & _ & ->); destruct HT as (_ & _ & _ & _ & ->); simpl; ring).
      unfold e, s1, s2, cross_par. rewrite !xorb_false_l, Nat.add_0_l. destruct (Nat.odd n).
      * rewrite (finish_unit MCommutator _ c1 _ C); auto.
      * apply finish_zero.
    + replace (os_type T) with Majorana by (symmetry; apply HT). rewrite Hf. cbn [rbind cb_coeff].
      rewrite !sgn_num_spec.
      match goal with |- context [gsub ?a ?b] => replace a with c1 by (unfold c1, p, s1, cross_par; ring); replace b with c2 end.
      2:{ unfold c2, p, s2, cross_par. rewrite gconj_mul, gconj_1. ring. }
      rewrite Hc2. destruct e; unfold gsgn.
      * rewrite gsub_neg.
        destruct (abs_ltb_two _ Hc1) as [_ ->]. rewrite (finish_unit MCommutator _ c1 _ C); auto.
      * replace (gsub c1 (gmul g1 c1)) with g0 by ring. rewrite abs_gtb_zero. apply finish_zero.
  - unfold anticommutator, operation_opstring. replace (os_type S) with ty by (symmetry; apply HS).
    fold ks. destruct ty; [| |congruence].
    + rewrite Hf. cbn [rbind cb_coeff cb_ndiff].
      replace (gmul g1 c) with c1 by (unfold c1, p; destruct HS as (_ & _ & _ & _ & ->); destruct HT as (_ & _ & _ & _ & ->); simpl; ring).
      unfold e, s1, s2, cross_par. rewrite !xorb_false_l, Nat.add_0_l, <- Nat.negb_odd. destruct (Nat.odd n).
      * apply finish_zero.
      * rewrite (finish_unit MAnticommutator _ c1 _ C); auto.
    + replace (os_type T) with Majorana by (symmetry; apply HT). rewrite Hf. cbn [rbind cb_coeff].
      rewrite !sgn_num_spec.
      match goal with |- context [gsub ?a ?b] => replace a with c1 by (unfold c1, p, s1, cross_par; ring); replace b with c2 end.
      2:{ unfold c2, p, s2, cross_par. rewrite gconj_mul, gconj_1. ring. }
      rewrite Hc2. destruct e; unfold gsgn.
      * rewrite gsub_neg.
        destruct (abs_ltb_two _ Hc1) as [-> _]. apply finish_zero.
      * replace (gsub c1 (gmul g1 c1)) with g0 by ring. rewrite abs_ltb_zero. rewrite (finish_unit MAnticommutator _ c1 _ C); auto.
Qed.
