(** Proofs about _inverse_ladder_operators: null vectors and the particular solution. *)
From Coq Require Import String List ZArith Bool Arith Lia Reals QArith Qreals Qcanon Lra Setoid Morphisms Sorted Permutation.
From Coquelicot Require Import Complex.
From Verif Require Import GC Exn S_Alg M_OpString M_Tools M_Algebra M_Basis M_OpAlg M_LinAlg M_Core M_Greedy M_Ladder
  S_Den S_Basis S_Built S_OpAlg S_RScal S_CFock S_CScal S_LinAlg S_Core S_Greedy S_Transform S_Modes S_SelectedCI S_Ladder
  L_Alg L_Module L_StrAlg L_StrOp L_Indep L_PropStr L_Basis L_Operator L_PropBasis L_OpAlg L_Struct L_Commutant L_Conversion L_CScal L_CFock L_LinAlg L_Inter L_Herm L_Core L_Commuting L_Invariant L_Invariant2 L_Sparsify L_Cumulative L_Cumul2 L_Explore L_PartIso L_Modes2 L_Modes5 L_Search L_Search2 L_Target L_Diagonalize L_Generate L_Ladder L_Ladder2 L_Ladder3 L_Ladder4.
From Verif Require P_SelectedCI.
Import ListNotations.
Local Open Scope nat_scope.

Definition nulls (tol : R) (r : list R * list vec) : list vec := map snd (filter (fun p => lt_dec (Rabs (fst p)) tol) (combine (fst r) (snd r))).
Lemma null_take tol : forall s V pre, length s <= length V ->
  take (pre ++ V) (map fst (filter (fun p => lt_dec (Rabs (snd p)) tol) (combine (seq (length pre) (length s)) s))) = Ok (nulls tol (s, V)).
Proof.
  unfold nulls. induction s as [|x s IH]; intros V pre L; [reflexivity|]. destruct V as [|v V]; [cbn in L; lia|]. cbn [length seq combine filter fst snd] in *.
  specialize (IH V (pre ++ [v]) ltac:(lia)). rewrite <- app_assoc in IH. cbn [app] in IH. rewrite app_length, Nat.add_1_r in IH.
  destruct (lt_dec (Rabs x) tol); auto. cbn [map fst snd]. unfold take in *. cbn [rmap]. rewrite nth_error_app2, Nat.sub_diag by lia. cbn [nth_error of_option rbind]. rewrite IH. reflexivity.
Qed.
Lemma null_vectors_nulls tol r : length (fst r) <= length (snd r) -> null_vectors tol r = Ok (nulls tol r).
Proof. destruct r as [s V]. intros L. apply (null_take tol s V [] L). Qed.

Lemma nth_combine {X Y} (a : list X) : forall (b : list Y) i p, nth_error (combine a b) i = Some p -> nth_error a i = Some (fst p) /\ nth_error b i = Some (snd p).
Proof. induction a as [|x a IH]; intros [|y b] [|i] p H; try discriminate; cbn in *; [injection H as <-; auto | apply IH; auto]. Qed.
Lemma combine_firstn_snd {X Y} (a : list X) : forall (b : list Y), map snd (combine a b) = firstn (length a) b.
Proof. induction a as [|x a IH]; intros [|y b]; cbn; auto. f_equal. apply IH. Qed.

Lemma null_ok tol n M r : exact_svd n M r -> exists N, null_vectors tol r = Ok N /\ vectors n N /\ orthonormal N /\
  (forall v, In v N -> (norm2c (rows_vec M v) < tol * tol)%R) /\
  ((0 < tol)%R -> n <= length M -> forall u, length u = n -> rows_vec M u = vzero (length M) -> span n N u).
Proof.
  intros (L1 & L2 & LV & O & X). exists (nulls tol r). split; [apply null_vectors_nulls; refine (eq_ind_r (fun k => (k <= _)%nat) (eq_ind_r (fun k => (_ <= k)%nat) (Nat.le_min_r _ _) L2) L1)|]. destruct r as [s V]. cbn [fst snd] in *. unfold nulls. cbn [fst snd].
  set (ps := combine s V) in *. assert (IP : forall p, In p ps -> exists i, nth_error s i = Some (fst p) /\ nth_error V i = Some (snd p)).
  { intros p H. apply In_nth_error in H. destruct H as (i & H). exists i. apply nth_combine. exact H. }
  assert (VP : forall l v, In (l, v) ps -> length v = n).
  { intros l v H. destruct (IP _ H) as (i & _ & H2). apply LV. eapply nth_error_In; eauto. }
  assert (IX : forall p, In p ps -> (0 <= fst p)%R /\ forall u, length u = n -> inner (rows_vec M u) (rows_vec M (snd p)) = (RtoC (fst p * fst p) * inner u (snd p))%C).
  { intros p H. destruct (IP _ H) as (i & H1 & H2). destruct (X i _ H2) as [X1 X2]. rewrite (nth_error_nth _ _ 0%R H1) in X1, X2. auto. }
  assert (OP : orthonormal (map snd ps)).
  { unfold ps. rewrite combine_firstn_snd. rewrite <- (firstn_skipn (length s) V) in O. apply sublist_orthonormal in O. apply O. }
  split; [|split; [|split]].
  - intros v Hv. apply in_map_iff in Hv. destruct Hv as ([l w] & <- & H). apply filter_In in H. apply (VP l w). tauto.
  - apply (keep_orthonormal (fun l => lt_dec (Rabs l) tol) ps OP).
  - intros v Hv. apply in_map_iff in Hv. destruct Hv as ([l w] & <- & H). apply filter_In in H. destruct H as [H T]. apply lt_dec_true in T. cbn [fst snd] in *.
    destruct (IX _ H) as [X1 X2]. cbn [fst snd] in *. specialize (X2 w (VP l w H)). rewrite (proj1 OP w) in X2 by (apply in_map_iff; exists (l, w); auto).
    rewrite inner_self in X2. assert (Y : sqsum (rows_vec M w) = (l * l)%R) by (apply RtoC_inj; rewrite X2; ring). rewrite <- sqsum_norm2c, Y. rewrite Rabs_pos_eq in T by auto. nra.
  - intros Ht LM u Lu Mu. assert (EV : map snd ps = V) by (unfold ps; rewrite combine_firstn_snd; apply firstn_all2; lia).
    assert (SU : span n (map snd ps) u) by (rewrite EV; apply orthonormal_full; auto).
    destruct (split_span n (fun l => lt_dec (Rabs l) tol) ps VP u SU) as (x0 & x1 & E & L0 & L3 & S0 & S1).
    assert (V0 : vectors n (map snd (filter (fun p => lt_dec (Rabs (fst p)) tol) ps))).
    { intros v Hv. apply in_map_iff in Hv. destruct Hv as ([l w] & <- & H). apply filter_In in H. apply (VP l w). tauto. }
    assert (V1 : vectors n (map snd (filter (fun p => negb (lt_dec (Rabs (fst p)) tol)) ps))).
    { intros v Hv. apply in_map_iff in Hv. destruct Hv as ([l w] & <- & H). apply filter_In in H. apply (VP l w). tauto. }
    assert (X1 : inner u x1 = RtoC 0).
    { apply (span_orth n _ u V1 Lu); auto. intros v Hv. apply in_map_iff in Hv. destruct Hv as ([l w] & <- & H). apply filter_In in H. destruct H as [H T]. cbn [fst snd] in *.
      destruct (IX _ H) as [Y1 Y2]. cbn [fst snd] in *. specialize (Y2 u Lu). rewrite Mu, inner_zero_l in Y2. apply negb_true_iff, not_true_iff_false in T. rewrite lt_dec_true, Rabs_pos_eq in T by auto.
      destruct (Ceq_dec (inner u w) (RtoC 0)) as [|Nz]; auto. exfalso. apply (Cmult_neq_0 (RtoC (l * l)) (inner u w)); auto. intros Z. apply RtoC_inj in Z. nra. }
    assert (X0 : inner x0 x1 = RtoC 0).
    { apply (span_orth n _ x0 V1 L0); auto. intros v Hv. apply in_map_iff in Hv. destruct Hv as ([l w] & <- & H). apply filter_In in H. destruct H as [H T]. cbn [fst snd] in *.
      rewrite inner_sym. rewrite (span_orth n _ w V0 (VP _ _ H)) with (w := x0); auto; [apply C_ext; simpl; lra|].
      intros w' Hw'. apply in_map_iff in Hw'. destruct Hw' as ([l' u'] & <- & H'). apply filter_In in H'. destruct H' as [H' T']. cbn [fst snd] in *.
      destruct (IP _ H) as (i & I1 & I2). destruct (IP _ H') as (j & J1 & J2). cbn [fst snd] in *. apply (proj2 O i j); auto. intros ->. assert (EL : l = l') by congruence. rewrite EL, T' in T. discriminate. }
    rewrite E in X1. rewrite (inner_add_l n) in X1 by auto. rewrite X0, Cplus_0_l, inner_self in X1. apply RtoC_inj in X1. apply sqsum_zero in X1.
    rewrite E, X1, L3. replace (vadd x0 (vzero n)) with x0 by (rewrite <- L0; symmetry; apply vadd_zero_r). exact S0.
Qed.

Local Open Scope alg_scope.

Lemma combine_at {X Y} (a : list X) : forall (b : list Y) i x y, nth_error a i = Some x -> nth_error b i = Some y -> nth_error (combine a b) i = Some (x, y).
Proof. induction a as [|z a IH]; intros [|w b] [|i] x y H K; try discriminate; cbn in *; [congruence | apply IH; auto]. Qed.
Lemma to_C_nonzero c : c <> g0 -> to_C c <> RtoC 0.
Proof.
  intros N E. apply N. unfold to_C in E. apply pair_equal_spec in E. destruct E as [E1 E2]. destruct c as [p q]. cbn [re im] in *.
  assert (Z : 0%R = Q2R 0) by (unfold Q2R; cbn; field). rewrite Z in E1, E2. apply eqR_Qeq in E1, E2. apply GC_ext; apply Qc_is_canon; cbn [re im g0]; assumption.
Qed.

Section Inverse.
  Variables (ty : optype) (b : Basis) (o : Operator) (Or : lad_oracles) (tol : R).
  Hypotheses (Hty : ty <> Fermion) (Hb : good_basis ty b) (Ho : good_op ty o).
  Hypothesis (Hsv : forall L E, liouvillian_matrix MCommutator (ABasis b) o = Ok (L, E) -> exact_svd (basis_len b) (dense_rows L) (la_svd Or (basis_len b) (dense_rows L))).
  Hypothesis (Hpi : forall L E, liouvillian_matrix MCommutator (ABasis b) o = Ok (L, E) -> exact_pinv (basis_len b) (dense_rows L) (la_pinv Or (basis_len b) (dense_rows L))).

  Lemma inverse_ok : exists p N U, inverse_ladder_operators Or b o tol = Ok (p, N) /\ NoDup U /\
    (forall u, In u U -> string_ok ty u /\ canonical u /\ exists s c, In s (b_strings b) /\ In c (b_strings (o_basis o)) /\ commutes_to ty s c u) /\
    (forall v, In v N -> length v = basis_len b) /\ orthonormal N /\
    (forall v, In v N -> exists c, length c = length U /\ (norm2c c < tol * tol)%R /\
       forall (A : StarAlg) (S : RScal A) (g : op -> Z -> A), rep ty g -> exact MCommutator (cden S g (CBasis b) v) (lincomb g (op_terms o)) == clincomb S g (combine c U)) /\
    ((0 < tol)%R -> basis_len b <= length U ->
       forall (A : StarAlg) (S : RScal A) (g : op -> Z -> A) u, rep ty g -> ~ (@aone A == azero) -> length u = basis_len b ->
         exact MCommutator (cden S g (CBasis b) u) (lincomb g (op_terms o)) == azero -> span (basis_len b) N u) /\
    (forall x, p = Some x -> length x = basis_len b) /\
    ((forall s, In s (b_strings (o_basis o)) -> canonical s) -> (forall c, In c (o_coeffs o) -> c <> g0) ->
       forall (A : StarAlg) (S : RScal A) (g : op -> Z -> A) u, rep ty g -> ~ (@aone A == azero) -> length u = basis_len b ->
         exact MCommutator (cden S g (CBasis b) u) (lincomb g (op_terms o)) == lincomb g (op_terms o) ->
         exists x, p = Some x /\ forall (A : StarAlg) (S : RScal A) (g : op -> Z -> A), rep ty g ->
           exact MCommutator (cden S g (CBasis b) x) (lincomb g (op_terms o)) == lincomb g (op_terms o)).
  Proof.
    destruct (liouvillian_mode_ok ty GCommutator MCommutator b o Hty Hb Ho eq_refl) as (L & E & HL & HE & RL & CL & D). change (liouvillian_matrix MCommutator (ABasis b) o = Ok (L, E)) in HL.
    pose proof (Hsv L E HL) as SV. pose proof (Hpi L E HL) as [PL PP]. destruct (null_ok tol _ _ _ SV) as (N & EN & VN & ON & SN & CN).
    set (M := dense_rows L) in *. set (n := basis_len b) in *. set (U := b_strings E).
    assert (LM : @length vec M = length U) by (unfold M, dense_rows; rewrite map_length, seq_length; exact RL).
    assert (LR : forall v, length (rows_vec M v) = length U) by (intros v; unfold rows_vec; rewrite map_length; exact LM).
    assert (NU : NoDup U) by (apply L_Cumul2.built_nodup, HE).
    assert (OU : forall u, In u U -> string_ok ty u /\ canonical u) by (intros u Hu; apply HE; auto).
    assert (OC : forall (v : list C) x, In x (combine v U) -> string_ok ty (snd x) /\ canonical (snd x)) by (intros v [c s] H; apply in_combine_r in H; apply OU; auto).
    assert (Act : forall (A : StarAlg) (S : RScal A) (g : op -> Z -> A) v, rep ty g -> length v = n ->
      exact MCommutator (cden S g (CBasis b) v) (lincomb g (op_terms o)) == clincomb S g (combine (rows_vec M v) U)).
    { intros A S g v Hr Lv. unfold M. rewrite rows_cols by (rewrite CL; exact Lv). rewrite RL. unfold cden, clincomb at 1. apply (mat_vec_meaning S g MCommutator _ _ _ OS (den g)). apply D. exact Hr. }
    assert (Same : forall (A : StarAlg) (S : RScal A) (g : op -> Z -> A) (v w : list C), rep ty g -> ~ (@aone A == azero) -> length v = length U -> length w = length U ->
      clincomb S g (combine v U) == clincomb S g (combine w U) -> v = w).
    { intros A S g v w Hr Hn Lv Lw X. apply (nth_ext v w (RtoC 0) (RtoC 0)); [congruence|]. intros i Hi. rewrite Lv in Hi.
      destruct (nth_error U i) as [s|] eqn:Es; [|apply nth_error_None in Es; lia].
      rewrite <- (tcoef_nth ty U NU (fun s H => proj1 (OU s H)) v i s Es), <- (tcoef_nth ty U NU (fun s H => proj1 (OU s H)) w i s Es).
      apply (tcoef_unique S ty g Hr Hn); [apply OC | apply OC | apply OU; eapply nth_error_In; eauto | exact X]. }
    assert (Gc : good_cop ty (cop_of o)).
    { pose proof (good_op_ok _ _ Ho) as OO. split; [apply built_iff, OO|]. split; [cbn; rewrite map_length; apply OO|]. split; [apply Ho | apply Ho]. }
    assert (CT : forall (A : StarAlg) (S : RScal A) (g : op -> Z -> A), clincomb S g (c_terms (cop_of o)) == lincomb g (op_terms o)).
    { intros A S g. unfold c_terms, cop_of. cbn [c_coeffs c_basis]. rewrite (map_ext to_C emb to_C_emb). apply clin_emb. }
    assert (Mem : forall s, string_ok ty s -> (basis_mem E s = true <-> In s U)).
    { intros s Hs. rewrite (basis_ok_mem E s (built_ok _ (proj1 HE))). split; [intros (t & Ht & K); rewrite <- (key_string_ok ty t s); auto; apply OU; auto | intros H; exists s; split; auto; repeat split; reflexivity]. }
    unfold inverse_ladder_operators. rewrite HL. cbn [rbind]. fold M n. rewrite EN. cbn [rbind].
    set (p := if forallb (fun t => basis_mem E (snd t)) (op_terms o) then match coeff_column E (cop_of o) with Ok r => Some (rows_vec (la_pinv Or n M) r) | Err _ => None end else None).
    exists p, N, U. split.
    { unfold p. destruct (forallb (fun t => basis_mem E (snd t)) (op_terms o)) eqn:F; auto.
      destruct (coeff_column_ok ty E (cop_of o)) as (k & Ek & _); auto; [split; [apply HE | apply OU] | | rewrite Ek; reflexivity].
      intros s Hs. cbn [cop_of c_basis] in Hs. apply Mem; [apply Ho; auto|]. rewrite forallb_forall in F. apply In_nth_error in Hs. destruct Hs as (i & Hi).
      assert (Li : i < length (o_coeffs o)) by (destruct (good_op_ok _ _ Ho) as (_ & Lo & _); rewrite Lo; apply nth_error_Some; congruence).
      destruct (nth_error (o_coeffs o) i) as [c|] eqn:Ec; [|apply nth_error_None in Ec; lia]. apply (F (c, s)). eapply nth_error_In. apply combine_at; eauto. }
    split; auto. split.
    { intros u Hu. destruct (OU u Hu) as [O1 O2]. split; auto. split; auto. destruct (ext_origin ty b o L E Hty Hb Ho HL u Hu) as (s & c & k & H1 & H2 & H3). exists s, c. split; auto. split; auto.
      apply (P_SelectedCI.commutes_iff ty Hty); [apply Hb; auto | apply Ho; auto | eauto]. }
    split; [exact VN|]. split; [exact ON|]. split.
    { intros v Hv. exists (rows_vec M v). split; [apply LR|]. split; [apply SN; auto|]. intros A S g Hr. apply Act; auto. }
    split.
    { intros Ht Ln A S g u Hr Hn Lu Z. apply CN; auto; [refine (eq_ind_r (fun k => (n <= k)%nat) Ln LM)|]. refine (eq_trans _ (f_equal vzero (eq_sym LM))). apply (Same A S g); auto; [apply repeat_length|]. rewrite <- (Act A S g u Hr Lu), Z. symmetry. apply clin_vzero. }
    split.
    { intros x Ex. unfold p in Ex. destruct (forallb _ _); [|discriminate]. destruct (coeff_column E (cop_of o)); [|discriminate]. injection Ex as <-. unfold rows_vec. rewrite map_length. exact PL. }
    intros Hcan Hnz A S g u Hr Hn Lu X.
    assert (In_ : forall s, In s (b_strings (o_basis o)) -> In s U).
    { intros s Hs. destruct (basis_mem E s) eqn:No; [apply Mem; auto; apply Ho; auto|]. exfalso. assert (No' : ~ In s U) by (intros X'; apply Mem in X'; [congruence | apply Ho; auto]). pose proof (In_nth_error _ _ Hs) as (i & Hi).
      assert (Li : i < length (o_coeffs o)) by (destruct (good_op_ok _ _ Ho) as (_ & Lo & _); rewrite Lo; apply nth_error_Some; congruence).
      destruct (nth_error (o_coeffs o) i) as [c|] eqn:Ec; [|apply nth_error_None in Ec; lia].
      assert (T : tcoef (c_terms (cop_of o)) s = to_C c).
      { unfold c_terms. cbn [cop_of c_coeffs c_basis]. rewrite (tcoef_nth ty (b_strings (o_basis o))) with (i := i); auto; [|apply L_Cumul2.built_nodup, Gc | apply Ho].
        apply nth_error_nth. rewrite nth_error_map, Ec. reflexivity. }
      apply (to_C_nonzero c); [apply Hnz; eapply nth_error_In; eauto|]. rewrite <- T.
      rewrite <- (tcoef_unique S ty g Hr Hn (combine (rows_vec M u) U) (c_terms (cop_of o)) s); auto.
      - apply tcoef_zero. intros [z t] Ht _. cbn [snd]. apply not_true_is_false. intros K. apply in_combine_r in Ht. apply (key_eq ty) in K; [subst; auto | apply OU; auto | apply Ho; auto].
      - apply OC.
      - intros [z t] Ht. apply in_combine_r in Ht. cbn [snd]. split; [apply Ho; auto | apply Hcan; auto].
      - apply Ho. auto.
      - rewrite <- (Act A S g u Hr Lu), X, CT. reflexivity. }
    destruct (coeff_column_ok ty E (cop_of o)) as (k & Ek & Lk & Dk); auto; [split; [apply HE | apply OU]|].
    assert (EK : k = rows_vec M u). { apply (Same A S g); auto. etransitivity; [apply Dk|]. rewrite CT, <- (Act A S g u Hr Lu), X. reflexivity. }
    exists (rows_vec (la_pinv Or n M) k). split.
    { unfold p. rewrite Ek. replace (forallb (fun t => basis_mem E (snd t)) (op_terms o)) with true; auto. symmetry. apply forallb_forall. intros [c s] H. apply in_combine_r in H. cbn [snd]. apply Mem; [apply Ho; auto | auto]. }
    intros A' S' g' Hr'. rewrite (Act A' S' g') by (auto; unfold rows_vec; rewrite map_length; exact PL). rewrite EK, PP by auto. rewrite <- EK. etransitivity; [apply Dk | apply CT].
  Qed.
End Inverse.
