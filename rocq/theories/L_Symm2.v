(** symmetrize_basis: the symmetrized Operators. *)
From Coq Require Import List Arith Lia ZArith Bool Setoid Morphisms Sorted Permutation QArith Qcanon Ring Field.
From Verif Require Import GC Exn S_Alg S_Den S_Basis S_Built S_OpAlg S_Tools S_Transform S_Symm S_Fock M_OpString M_Tools M_Algebra M_Basis M_OpAlg M_Transform M_Symm
  L_Alg L_Module L_StrAlg L_StrOp L_PropStr L_Basis L_Operator L_VSum L_Struct L_Sum L_ConvLin L_Conversion2 L_Perm L_Tools L_PropTools L_Cluster
  L_Trans1 L_Trans2 L_Trans3 L_Trans4 L_Trans5 L_Trans6 L_Trans7 L_Trans8 L_Symm.
Import ListNotations.
Local Open Scope nat_scope.

Definition valid (ty : optype) (n : nat) (s : OS) : Prop := string_ok ty s /\ canonical s /\ in_range n s.
Definition vg (F : OS -> GC) (ts : list (GC * OS)) : GC := gsum (map (fun t => gmul (fst t) (F (snd t))) ts).
Lemma vg_one F k t : vg F [(k, t)] = gmul k (F t).
Proof. unfold vg, gsum; cbn [map fold_right fst snd]. ring. Qed.
Lemma vg_vsum F ts : vg F ts = vsum (F : OS -> gc_alg) ts.
Proof. reflexivity. Qed.

Section Act.
  Context (ty : optype) (Hty : ty <> Fermion) (n : nat).
  Notation V := (valid ty n).
  Notation P := (is_perm n).

  Lemma len_map p : P p -> length (map Z.of_nat p) = n.
  Proof. intros H. rewrite map_length. apply (p_length n p H). Qed.
  Lemma act p s : P p -> V s -> exists k t, one_term (perm_of p s) k t /\ (k = g1 \/ k = gm1) /\ V t.
  Proof.
    intros Hp (V1 & V2 & V3). destruct (permutation_string ty (map Z.of_nat p) (pfun p) s Hty (perm_permutes n p Hp) V1) as (k & t & H1 & H2 & H3 & H4 & H5 & _).
    - rewrite (len_map p Hp). auto.
    - rewrite (len_map p Hp) in H5. exists k, t. split; auto. split; auto. split; auto.
  Qed.
  Lemma TF_one T s k t : one_term (T s) k t -> TF T s = [(k, t)].
  Proof. intros (o & E & _ & H). unfold TF. rewrite E. auto. Qed.

  Lemma act_after h g s k t k2 t2 : P h -> P g -> V s -> one_term (perm_of g s) k t -> one_term (perm_of h t) k2 t2 -> one_term (perm_of (after h g) s) (gmul k k2) t2.
  Proof.
    intros Hh Hg (V1 & V2 & V3) A B. pose proof (after_perm n h g Hh Hg) as Hhg.
    destruct (permutation_compose ty (map Z.of_nat g) (map Z.of_nat h) (map Z.of_nat (after h g)) (pfun g) (pfun h) s Hty
      (perm_permutes n g Hg) (perm_permutes n h Hh)) as (k1 & t1 & k3 & t3 & C1 & C2 & C3).
    - rewrite !len_map; auto.
    - destruct (perm_permutes n _ Hhg) as (Q1 & Q2 & Q3). split; auto. split; auto. intros l Hl. rewrite (Q3 l Hl). f_equal.
      rewrite (len_map _ Hhg) in Hl. apply (pfun_after n); auto.
    - rewrite !len_map; auto.
    - auto.
    - rewrite (len_map g Hg). auto.
    - change (apply (label_permutation (map Z.of_nat g)) (TString s)) with (perm_of g s) in C1.
      destruct (one_term_fun _ _ _ _ _ A C1) as [<- <-].
      change (apply (label_permutation (map Z.of_nat h)) (TString t)) with (perm_of h t) in C2.
      destruct (one_term_fun _ _ _ _ _ B C2) as [<- <-]. exact C3.
  Qed.
  Lemma act_id s : V s -> one_term (perm_of (seq 0 n) s) g1 s.
  Proof.
    intros (V1 & V2 & V3). pose proof (len_map _ (id_perm n)) as L.
    apply (permutation_identity ty (map Z.of_nat (seq 0 n)) (pfun (seq 0 n)) s Hty (perm_permutes n _ (id_perm n))); auto.
    - rewrite L. intros l Hl. unfold pfun. rewrite seq_nth by lia. lia.
    - rewrite L. auto.
  Qed.
  Lemma perm_keeps p : keeps_type ty (perm_of p).
  Proof. apply permutation_keeps. Qed.

  (** The sum over the list of permutations. *)
  Definition ssum (G : list (list nat)) (F : OS -> GC) (s : OS) : GC := gsum (map (fun g => vg F (TF (perm_of g) s)) G).

  Lemma after_vg F h g s : P h -> P g -> V s -> vg F (TF (perm_of (after h g)) s) = vg (fun t => vg F (TF (perm_of h) t)) (TF (perm_of g) s).
  Proof.
    intros Hh Hg Hs. destruct (act g s Hg Hs) as (k & t & A1 & A2 & A3). destruct (act h t Hh A3) as (k2 & t2 & B1 & B2 & B3).
    rewrite (TF_one _ _ _ _ A1), (TF_one _ _ _ _ (act_after h g s k t k2 t2 Hh Hg Hs A1 B1)), !vg_one, (TF_one _ _ _ _ B1), vg_one. ring.
  Qed.

  Lemma valid_std s : V s -> os_type s = ty /\ std s.
  Proof. intros ((H & _) & Hc & _). split; auto. apply canonical_std; auto. Qed.

  Lemma symm_fold s : V s -> forall G acc, (forall g, In g G -> P g) -> proper acc -> o_type acc = ty -> (forall t, In t (b_strings (o_basis acc)) -> V t) ->
    exists o, rfold (fun acc g => let! m := apply (perm_of g) (TString s) in op_iadd acc m) G acc = Ok o /\ proper o /\ o_type o = ty /\
      (forall t, In t (b_strings (o_basis o)) -> V t) /\
      (forall t, In t (b_strings (o_basis o)) <-> In t (b_strings (o_basis acc)) \/ exists g k, In g G /\ one_term (perm_of g s) k t) /\
      forall F : OS -> GC, vg F (op_terms o) = gadd (vg F (op_terms acc)) (ssum G F s).
  Proof.
    intros Hs. destruct (valid_std s Hs) as [Ts Ss].
    induction G as [|g G IH]; intros acc HG Pa Ta Va; cbn [rfold].
    - exists acc. split; auto. split; auto. split; auto. split; auto. split; [intros t; split; [auto | intros [H|(g & k & [] & _)]; auto]|]. intros F. unfold ssum. cbn. ring.
    - destruct (act g s (HG g (or_introl eq_refl)) Hs) as (k & t & A1 & A2 & A3). pose proof A1 as (m & Em & Tm & Hm).
      change (apply (perm_of g) (TString s)) with (perm_of g s). rewrite Em. cbn [rbind].
      destruct (perm_keeps g s m Ts Ss Em) as [Pm Tm'].
      destruct (op_iadd_ok acc m (proper_ok _ Pa) (proper_ok _ Pm)) as (r & Er & _); [congruence|]. rewrite Er. cbn [rbind].
      destruct (proper_add acc m r Pa Pm ltac:(congruence) Er) as (Pr & Tr & Ar & Vr).
      assert (Bm : b_strings (o_basis m) = [t]) by (rewrite <- (op_terms_snd m (proper_ok _ Pm)), Hm; reflexivity). rewrite Bm in Ar.
      assert (Hin : forall u, In u (b_strings (o_basis r)) <-> In u (b_strings (o_basis acc)) \/ u = t).
      { intros u. split.
        - intros H. destruct (append_new_in _ _ _ Ar u H) as [H1|[<-|[]]]; auto.
        - intros [H| ->]; [apply (append_new_left _ _ _ Ar); auto|].
          destruct (append_new_right _ _ _ Ar t (or_introl eq_refl)) as (v & Hv & K).
          assert (std v) by (apply (proj2 (proj2 Pr)); auto). rewrite <- (std_key v t); auto. apply (valid_std t A3). }
      destruct (IH r) as (o & Eo & Po & To & Vo & So & Fo).
      + intros; apply HG; right; auto.
      + auto.
      + congruence.
      + intros u Hu. apply Hin in Hu. destruct Hu as [Hu| ->]; auto.
      + exists o. split; auto. split; auto. split; auto. split; auto. split.
        * intros u. rewrite So, Hin. split.
          -- intros [[H| ->]|(g' & k' & H1 & H2)]; auto.
             ++ right. exists g, k. split; auto. left; auto.
             ++ right. exists g', k'. split; auto. right; auto.
          -- intros [H|(g' & k' & [<-|H1] & H2)]; auto.
             ++ left. right. apply (one_term_fun _ _ _ _ _ H2 A1).
             ++ right. exists g', k'. auto.
        * intros F. rewrite Fo. pose proof (Vr gc_alg F) as X. change (vg F (op_terms r) = gadd (vg F (op_terms acc)) (vg F (op_terms m))) in X. rewrite X, Hm.
          unfold ssum. cbn [map]. change (gsum (?x :: ?l)) with (gadd x (gsum l)). rewrite (TF_one _ _ _ _ A1). ring.
  Qed.
  Lemma symm_spec s G : V s -> (forall g, In g G -> P g) -> exists o, symmetrize_opstring s G = Ok o /\ proper o /\ o_type o = ty /\
    (forall t, In t (b_strings (o_basis o)) -> V t) /\
    (forall t, In t (b_strings (o_basis o)) <-> exists g k, In g G /\ one_term (perm_of g s) k t) /\
    forall F : OS -> GC, vg F (op_terms o) = ssum G F s.
  Proof.
    intros Hs HG. unfold symmetrize_opstring. destruct (valid_std s Hs) as [Ts _]. rewrite Ts.
    destruct (proper_empty ty) as (z & Ez & Pz & Tz & Nz). rewrite Ez. cbn [rbind].
    assert (Bz : b_strings (o_basis z) = []) by (rewrite <- (op_terms_snd z (proper_ok _ Pz)), Nz; reflexivity).
    destruct (symm_fold s Hs G z HG Pz Tz) as (o & Eo & Po & To & Vo & So & Fo).
    { rewrite Bz. intros t []. }
    exists o. split; auto. split; auto. split; auto. split; auto. split.
    - intros t. rewrite So, Bz. split; [intros [[]|H]; auto | auto].
    - intros F. rewrite Fo, Nz. unfold vg at 1. cbn. ring.
  Qed.

  (* -------------------------------------------------------- integer coefficients *)

  Definition integer (c : GC) : Prop := exists z : Z, c = gq (Q2Qc (inject_Z z)).
  Lemma integer_add a b : integer a -> integer b -> integer (gadd a b).
  Proof.
    intros (x & ->) (y & ->). exists (x + y)%Z. apply GC_ext; cbn [gadd gq re im]; [|ring]. apply Qc_is_canon. unfold Qcplus, Q2Qc. cbn [this]. rewrite !Qred_correct, inject_Z_plus. reflexivity.
  Qed.
  Lemma integer_const z c : c = gq (Q2Qc (inject_Z z)) -> integer c.
  Proof. intros ->. exists z. reflexivity. Qed.
  Lemma integer_0 : integer g0.
  Proof. apply (integer_const 0). apply GC_ext; apply Qc_is_canon; reflexivity. Qed.
  Lemma integer_sum {T} (f : T -> GC) l : (forall x, In x l -> integer (f x)) -> integer (gsum (map f l)).
  Proof.
    induction l as [|x l IH]; intros H; [apply integer_0|]. cbn [map]. change (gsum (?x :: ?l)) with (gadd x (gsum l)).
    apply integer_add; [apply H; left; auto | apply IH; intros; apply H; right; auto].
  Qed.
  Lemma integer_gap c : integer c -> c = g0 \/ (1 <= norm2 c)%Qc.
  Proof.
    intros (z & ->). destruct (Z.eq_dec z 0) as [->|N]; [left; apply GC_ext; apply Qc_is_canon; reflexivity|]. right.
    unfold norm2, gq. cbn [re im]. replace (Q2Qc (inject_Z z) * Q2Qc (inject_Z z) + 0 * 0)%Qc with (Q2Qc (inject_Z (z * z))).
    - unfold Qcle, Q2Qc. cbn [this]. rewrite !Qred_correct. unfold Qle, inject_Z. cbn [Qnum Qden]. nia.
    - rewrite Qcmult_0_l, Qcplus_0_r. apply Qc_is_canon. unfold Qcmult, Q2Qc. cbn [this]. rewrite !Qred_correct, inject_Z_mult. reflexivity.
  Qed.
  Lemma symm_integer s G o : V s -> (forall g, In g G -> P g) -> symmetrize_opstring s G = Ok o -> forall c t, In (c, t) (op_terms o) -> integer c.
  Proof.
    intros Hs HG E c t Hin. destruct (symm_spec s G Hs HG) as (o' & E' & Po & _ & _ & _ & Fo). rewrite E in E'. injection E' as <-.
    rewrite <- (cf_term o c t (proper_ok _ Po) Hin). unfold cf. rewrite <- (vg_vsum (keyed t)), Fo. unfold ssum. apply integer_sum.
    intros g Hg. destruct (act g s (HG g Hg) Hs) as (k & u & A1 & A2 & _). rewrite (TF_one _ _ _ _ A1), vg_one. unfold keyed.
    assert (Hk : integer k) by (destruct A2 as [->| ->]; [apply (integer_const 1) | apply (integer_const (-1))]; apply GC_ext; apply Qc_is_canon; reflexivity).
    destruct (os_key u t); [replace (gmul k g1) with k by ring; auto | replace (gmul k g0) with g0 by ring; apply integer_0].
  Qed.
  Lemma tiny_zero c tol : integer c -> (tol * tol < 1)%Qc -> abs_gtb c tol = false -> c = g0.
  Proof.
    intros Hc Ht H. destruct (integer_gap c Hc) as [E|L]; auto. unfold abs_gtb in H.
    assert (qc_ltb (tol * tol) (norm2 c) = true); [|congruence]. apply qc_ltb_lt. eapply Qclt_le_trans; eauto.
  Qed.
  Lemma filter_vg F tol ts : (forall c t, In (c, t) ts -> abs_gtb c tol = false -> c = g0) ->
    vg F (filter (fun t => abs_gtb (fst t) tol) ts) = vg F ts.
  Proof.
    intros H. induction ts as [|[c t] ts IH]; auto. cbn [filter fst]. assert (IH' := IH (fun c t Hin => H c t (or_intror Hin))).
    destruct (abs_gtb c tol) eqn:E; unfold vg in *; cbn [map]; change (gsum (?x :: ?l)) with (gadd x (gsum l)); rewrite IH'; [reflexivity|].
    rewrite (H c t (or_introl eq_refl) E). cbn [fst snd]. ring.
  Qed.
  Lemma tol16_small : (tol16 * tol16 < 1)%Qc.
  Proof. reflexivity. Qed.

  (* -------------------------------------------------------- what a returned Operator is *)

  (** [o] is the normalised symmetrization of the string [s]. *)
  Definition from_string (root : Qc -> Qc) (G : list (list nat)) (s : OS) (o : Operator) : Prop :=
    proper o /\ o_type o = ty /\ (forall t, In t (b_strings (o_basis o)) -> V t) /\
    (forall t, In t (b_strings (o_basis o)) -> exists g k, In g G /\ one_term (perm_of g s) k t) /\
    exists N, (0 < N)%Qc /\ (root N <> 0 -> op_norm2 o * (root N * root N) = N)%Qc /\ forall F, vg F (op_terms o) = gdiv (ssum G F s) (gq (root N)).

  Lemma norm2_gmul x y : norm2 (gmul x y) = (norm2 x * norm2 y)%Qc.
  Proof. unfold norm2; simpl. ring. Qed.
  Lemma norm2_map x cs : fold_right Qcplus 0%Qc (map norm2 (map (fun c => gdiv c (gq x)) cs)) = (fold_right Qcplus 0 (map norm2 cs) * norm2 (ginv (gq x)))%Qc.
  Proof.
    induction cs as [|c cs IH]; cbn [map fold_right]; [ring|]. rewrite IH. unfold gdiv. rewrite norm2_gmul. ring.
  Qed.
  Lemma ginv_norm x : x <> 0%Qc -> (x * x * norm2 (ginv (gq x)) = 1)%Qc.
  Proof.
    intros H. assert (H2 : gq x <> g0) by (intros E; apply H; exact (f_equal re E)).
    assert (E : norm2 (gmul (gq x) (ginv (gq x))) = 1%Qc).
    { replace (gmul (gq x) (ginv (gq x))) with g1 by (field; auto). unfold norm2, g1. cbn [re im]. ring. }
    rewrite norm2_gmul in E. rewrite <- E. f_equal. unfold norm2, gq. cbn [re im]. ring.
  Qed.

  Lemma string_done root G tol s o q : V s -> (forall g, In g G -> P g) -> symmetrize_opstring s G = Ok o -> op_remove_zeros tol16 o = Ok q ->
    (qc_ltb (tol * tol) (op_norm2 q) = true -> from_string root G s (op_normalize root q)) /\
    (qc_ltb (tol * tol) (op_norm2 q) = false -> (tol * tol < 1)%Qc -> forall F, ssum G F s = g0).
  Proof.
    intros Hs HG Eo Eq. destruct (symm_spec s G Hs HG) as (o' & E' & Po & To & Vo & So & Fo). rewrite Eo in E'. injection E' as <-.
    pose proof (proper_ok _ Po) as Ho.
    destruct (op_remove_zeros_ok tol16 o Ho) as (q' & Eq' & Hq & Tq). rewrite Eq in Eq'. injection Eq' as <-.
    assert (Hint : forall c t, In (c, t) (op_terms o) -> integer c) by (apply (symm_integer s G); auto).
    assert (FV : forall F, vg F (op_terms q) = ssum G F s).
    { intros F. rewrite Tq, filter_vg, Fo; auto. intros c t Hin. apply tiny_zero; [eauto | apply tol16_small]. }
    assert (Bq : forall t, In t (b_strings (o_basis q)) -> In t (b_strings (o_basis o))).
    { intros t Ht. rewrite <- (op_terms_snd q Hq), Tq in Ht. rewrite <- (op_terms_snd o Ho). apply in_map_iff in Ht. destruct Ht as (x & <- & Hx). apply filter_In in Hx. apply in_map. tauto. }
    split.
    - intros Hn. apply qc_ltb_lt in Hn.
      assert (Hpos : (0 < op_norm2 q)%Qc). { eapply Qcle_lt_trans; [|exact Hn]. apply qc_sq_nonneg. }
      assert (Tyq : o_type q = ty).
      { destruct (b_strings (o_basis q)) as [|s0 r] eqn:B.
        - exfalso. unfold op_norm2 in Hpos. rewrite <- (op_terms_fst q Hq) in Hpos. assert (op_terms q = []) by (unfold op_terms; rewrite B; destruct (o_coeffs q); reflexivity).
          rewrite H in Hpos. apply (Qclt_not_le _ _ Hpos). apply Qcle_refl.
        - destruct Hq as (_ & _ & Hq3). rewrite (Hq3 s0 r B). apply valid_std. apply Vo, Bq. rewrite ?B. left; auto. }
      unfold from_string. set (m := op_normalize root q).
      assert (Hm : op_ok m).
      { destruct Hq as (Q1 & Q2 & Q3). split; [exact Q1|]. split; [cbn; rewrite map_length; auto | exact Q3]. }
      assert (Pm : proper m).
      { apply proper_iff. split; auto. split; intros t Ht; cbn [m op_normalize o_basis o_type] in *; apply Bq, Vo, valid_std in Ht; [tauto | rewrite Tyq; tauto]. }
      split; auto. split; auto. split; [intros t Ht; apply Vo, Bq; auto|]. split; [intros t Ht; apply So, Bq; auto|].
      exists (op_norm2 q). split; auto. split.
      + intros Hr. unfold m, op_normalize, op_norm2 at 1. cbn [o_coeffs]. rewrite norm2_map. fold (op_norm2 q).
        pose proof (ginv_norm _ Hr) as X. set (y := norm2 _) in *. set (x := root _) in *. transitivity (op_norm2 q * (x * x * y))%Qc; [ring|]. rewrite X. ring.
      + intros F. rewrite <- FV. set (x := root (op_norm2 q)).
        assert (Y : forall ts : list (GC * OS), vg F (combine (map (fun c => gdiv c (gq x)) (map fst ts)) (map snd ts)) = gdiv (vg F ts) (gq x)).
        { unfold vg. induction ts as [|[c t] ts IH]; [unfold gdiv; cbn; ring|]. cbn [map combine fst snd]. change (gsum (?x :: ?l)) with (gadd x (gsum l)). rewrite IH. unfold gdiv. ring. }
        rewrite <- Y, (op_terms_snd q Hq), (op_terms_fst q Hq). reflexivity.
    - intros Hn Ht F. rewrite <- FV.
      assert (op_terms q = []); [|rewrite H; reflexivity].
      destruct (op_terms q) as [|[c t] r] eqn:Et; auto. exfalso.
      assert (In (c, t) (op_terms o) /\ abs_gtb c tol16 = true) as [I1 I2].
      { assert (In (c, t) ((c, t) :: r)) by (left; auto). rewrite Tq in H. apply filter_In in H. exact H. }
      destruct (integer_gap c (Hint c t I1)) as [->|L]; [discriminate|].
      assert (L2 : (1 <= op_norm2 q)%Qc).
      { unfold op_norm2. rewrite <- (op_terms_fst q Hq), Et. cbn [map fst fold_right]. rewrite <- (Qcplus_0_r 1). apply Qcplus_le_compat; auto.
        clear. induction r as [|y r IH]; cbn [map fold_right]; [apply Qcle_refl|]. rewrite <- (Qcplus_0_r 0). apply Qcplus_le_compat; auto. apply norm2_nonneg. }
      assert (qc_ltb (tol * tol) (op_norm2 q) = true); [|congruence]. apply qc_ltb_lt. eapply Qclt_le_trans; eauto.
  Qed.
End Act.
