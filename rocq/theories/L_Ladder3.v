(** Proofs about the ladder operator functions: a Basis that is closed under commutators. *)
From Coq Require Import String List ZArith Bool Arith Lia Reals QArith Qreals Qcanon Lra Setoid Morphisms Sorted Permutation.
From Coquelicot Require Import Complex.
From Verif Require Import GC Exn S_Alg M_OpString M_Tools M_Algebra M_Basis M_OpAlg M_LinAlg M_Core M_Greedy M_Ladder
  S_Den S_Basis S_Built S_OpAlg S_RScal S_CFock S_CScal S_LinAlg S_Core S_Greedy S_Transform S_Modes S_SelectedCI S_Ladder
  L_Alg L_StrAlg L_StrOp L_Indep L_PropStr L_Basis L_Operator L_PropBasis L_OpAlg L_Struct L_Commutant L_Conversion L_CScal L_CFock L_LinAlg L_Inter L_Herm L_Core L_Commuting L_Invariant L_Invariant2 L_Sparsify L_Cumulative L_Cumul2 L_Explore L_PartIso L_Modes2 L_Search L_Target L_Diagonalize L_Ladder L_Ladder2.
Import ListNotations.
Local Open Scope nat_scope.
Local Open Scope alg_scope.

Lemma nthm {X Y} (f : X -> Y) l i d x : nth_error l i = Some x -> nth i (map f l) d = f x.
Proof. intros H. apply nth_error_nth. rewrite nth_error_map, H. reflexivity. Qed.
Lemma nth_some {X} (l : list X) i : i < length l -> exists x, nth_error l i = Some x.
Proof. intros H. destruct (nth_error l i) eqn:E; eauto. apply nth_error_None in E. lia. Qed.
Lemma square_ext (M : list vec) n (F : nat -> nat -> C) : length M = n -> (forall r, In r M -> length r = n) ->
  (forall i j, i < n -> j < n -> nth j (nth i M []) (RtoC 0) = F i j) -> map (fun i => map (fun j => F i j) (seq 0 n)) (seq 0 n) = M.
Proof.
  intros LM LR H. apply nth_ext with (d := []) (d' := []); rewrite map_length, seq_length; auto. intros i Hi.
  rewrite (nthm _ _ _ _ i) by (rewrite (nth_error_nth' _ 0) by (rewrite seq_length; auto); rewrite seq_nth by auto; reflexivity).
  assert (Lr : length (nth i M []) = n) by (apply LR, nth_In; lia).
  apply nth_ext with (d := RtoC 0) (d' := RtoC 0); rewrite map_length, seq_length; auto. intros j Hj.
  rewrite (nthm _ _ _ _ j) by (rewrite (nth_error_nth' _ 0) by (rewrite seq_length; auto); rewrite seq_nth by auto; reflexivity).
  symmetry. auto.
Qed.

Lemma tcoef_vadd s u : forall v U, length u = length v -> tcoef (combine (vadd u v) U) s = (tcoef (combine u U) s + tcoef (combine v U) s)%C.
Proof.
  induction u as [|x u IH]; intros [|y v] [|t U] Lv; try discriminate; try (cbn; ring).
  change (combine (vadd (x :: u) (y :: v)) (t :: U)) with ((x + y, t)%C :: combine (vadd u v) U). cbn [combine].
  rewrite !tcoef_cons, IH by (cbn in *; lia). cbn [fst snd]. destruct (os_key t s); ring.
Qed.

Section Closed.
  Variables (ty : optype) (b : Basis) (m : Operator) (L : smat) (E : Basis).
  Hypotheses (Hty : ty <> Fermion) (Hb : canonical_basis ty b) (Hm : good_op ty m) (Hre : real_coeffs m)
    (HL : liouvillian_matrix MCommutator (ABasis b) m = Ok (L, E)) (Hin : forall t, In t (b_strings E) -> In t (b_strings b)).
  Let W := b_strings E.
  Let n := length W.
  Let f := ecoef m.
  Definition ld_rows : list vec := map (fun t => map (f t) W) W.
  Definition ld_cols : list vec := map (fun s => map (fun t => f t s) W) W.
  Let D := ld_rows.
  Let K := ld_cols.

  Lemma Hgb : good_basis ty b.
  Proof. split; [apply Hb | intros s Hs; apply Hb; auto]. Qed.
  Lemma HE : canonical_basis ty E.
  Proof. apply (ext_entries ty b m L E Hty Hgb Hm HL). Qed.
  Lemma WO t : In t W -> string_ok ty t /\ canonical t.
  Proof. apply HE. Qed.
  Lemma WN : NoDup W.
  Proof. apply built_nodup, HE. Qed.
  Lemma f_herm s t : In s W -> In t W -> f t s = Cconj (f s t) /\ Cconj (f t s) = Copp (f t s).
  Proof.
    intros Hs Ht. apply (ecoef_herm ty m Hty); try apply WO; auto.
    intros [c u] Hp. split; [apply (op_terms_ok ty m Hm _ Hp)|]. cbn [fst]. apply Hre. eapply in_combine_l; eauto.
  Qed.
  Lemma D_entry i j s t : nth_error W i = Some t -> nth_error W j = Some s -> nth j (nth i D []) (RtoC 0) = f t s /\ entry K i j = f t s.
  Proof.
    intros Hi Hj. split.
    - unfold D, ld_rows. rewrite (nthm _ _ _ _ t Hi). apply (nthm _ _ _ _ s Hj).
    - unfold entry, K, ld_cols. rewrite (nthm _ _ _ _ s Hj). apply (nthm (fun t => f t s) _ _ _ t Hi).
  Qed.
  Lemma D_length : length D = n.
  Proof. apply map_length. Qed.
  Lemma D_rows r : In r D -> length r = n.
  Proof. intros H. apply in_map_iff in H. destruct H as (t & <- & _). apply map_length. Qed.
  Lemma K_vectors : vectors n K.
  Proof. intros r H. apply in_map_iff in H. destruct H as (t & <- & _). apply map_length. Qed.
  Lemma half_sum z : (RtoC (/ 2) * (z + z) = z)%C.
  Proof. apply C_eq; cbn; field. Qed.
  Lemma D_hermitian_rows : hermitian_rows n K = D.
  Proof.
    unfold hermitian_rows. apply square_ext; [apply D_length | apply D_rows|]. intros i j Hi Hj.
    destruct (nth_some W i Hi) as (t & Et). destruct (nth_some W j Hj) as (s & Es).
    destruct (D_entry i j s t Et Es) as [-> ->]. destruct (D_entry j i t s Es Et) as [_ ->].
    rewrite <- (proj1 (f_herm s t (nth_error_In _ _ Es) (nth_error_In _ _ Et))). symmetry. apply half_sum.
  Qed.
  Lemma D_part : hermitian_part D = D.
  Proof.
    unfold hermitian_part. rewrite D_length. apply square_ext; [apply D_length | apply D_rows|]. intros i j Hi Hj.
    destruct (nth_some W i Hi) as (t & Et). destruct (nth_some W j Hj) as (s & Es).
    destruct (D_entry i j s t Et Es) as [-> _]. destruct (D_entry j i t s Es Et) as [-> _].
    rewrite <- (proj1 (f_herm s t (nth_error_In _ _ Es) (nth_error_In _ _ Et))). symmetry. apply half_sum.
  Qed.
  Lemma D_hermitian : hermitian n D.
  Proof. rewrite <- D_hermitian_rows. apply hermitian_rows_hermitian; [apply K_vectors | apply map_length]. Qed.
  Lemma D_matrix : imaginary_hermitian D.
  Proof.
    assert (LD : @length (list C) D = n) by apply D_length. split; [rewrite LD; apply D_rows|].
    enough (Q : forall i j, @nth C j (@nth vec i D []) (RtoC 0) = Cconj (@nth C i (@nth vec j D []) (RtoC 0)) /\ Re (@nth C j (@nth vec i D []) (RtoC 0)) = 0%R) by exact Q. intros i j.
    assert (Z : forall i j, n <= i \/ n <= j -> @nth C j (@nth vec i D []) (RtoC 0) = RtoC 0).
    { clear i j. intros i j H. destruct (le_lt_dec n i) as [Li|Li].
      - rewrite (nth_overflow D) by (exact (eq_ind_r (fun k => k <= i) Li LD)). destruct j; auto.
      - apply nth_overflow. rewrite (D_rows (nth i D [])) by (apply nth_In; exact (eq_ind_r (fun k => i < k) Li LD)). lia. }
    destruct (le_lt_dec n i) as [Li|Li]; [rewrite !Z by auto; rewrite Cconj_R; split; reflexivity|]. destruct (le_lt_dec n j) as [Lj|Lj]; [rewrite !Z by auto; rewrite Cconj_R; split; reflexivity|].
    destruct (nth_some W i Li) as (t & Et). destruct (nth_some W j Lj) as (s & Es).
    destruct (D_entry i j s t Et Es) as [-> _]. destruct (D_entry j i t s Es Et) as [-> _].
    destruct (f_herm s t (nth_error_In _ _ Es) (nth_error_In _ _ Et)) as [F1 F2]. split; auto.
    apply (f_equal Re) in F2. destruct (f t s) as [x y]. cbn in F2 |- *. lra.
  Qed.
  Lemma D_act w : length w = n -> rows_vec D w = mat_vec n K w.
  Proof.
    intros Lw. apply nth_ext with (d := RtoC 0) (d' := RtoC 0).
    { rewrite mat_vec_length by apply K_vectors. unfold rows_vec. rewrite map_length. apply D_length. }
    assert (LR : forall X : list vec, length (rows_vec X w) = length X) by (intros; apply map_length). rewrite LR. change (forall i, i < length D -> nth i (rows_vec D w) (RtoC 0) = nth i (mat_vec n K w) (RtoC 0)). rewrite D_length. unfold rows_vec. intros i Hi. destruct (nth_some W i Hi) as (t & Et).
    rewrite mat_vec_nth by apply K_vectors. rewrite (nthm _ _ _ _ (map (f t) W)) by (unfold D, ld_rows; rewrite nth_error_map, Et; reflexivity).
    f_equal. f_equal. unfold K, ld_cols. rewrite map_map. apply map_ext. intros s. symmetry. apply (nthm (fun t => f t s) _ _ _ t Et).
  Qed.
  Lemma D_conj w l : length w = n -> rows_vec D w = vscale (RtoC l) w -> rows_vec D (map Cconj w) = vscale (RtoC (- l)) (map Cconj w).
  Proof.
    intros Lw Ew.
    assert (R : rows_vec D (map Cconj w) = map (fun z => Copp (Cconj z)) (rows_vec D w)).
    { unfold rows_vec. rewrite map_map. apply map_ext_in. intros r Hr. apply in_map_iff in Hr. destruct Hr as (t & <- & Ht).
      assert (Q : forall U w, (forall s, In s U -> In s W) -> csum (zip_with Cmult (map (f t) U) (map Cconj w)) = Copp (Cconj (csum (zip_with Cmult (map (f t) U) w)))).
      { clear - Ht Hm Hre Hty Hb HL. induction U as [|s U IH]; intros [|z w] HU; try (cbn; apply C_eq; cbn; ring).
        cbn [map zip_with]. unfold csum in *. cbn [fold_right]. rewrite IH by (intros; apply HU; right; auto). rewrite Cconj_plus, Cconj_mul.
        rewrite (proj2 (f_herm s t (HU s (or_introl eq_refl)) Ht)). ring. }
      apply Q; auto. }
    rewrite R, Ew. unfold vscale. rewrite !map_map. apply map_ext. intros z. rewrite Cconj_mul, Cconj_R. apply C_eq; cbn; ring.
  Qed.
  Lemma D_meaning (A : StarAlg) (S : RScal A) g w : rep ty g -> length w = n ->
    exact MCommutator (clincomb S g (combine w W)) (lincomb g (op_terms m)) == clincomb S g (combine (rows_vec D w) W).
  Proof.
    intros Hr Lw. rewrite D_act by auto.
    destruct (ext_entries ty b m L E Hty Hgb Hm HL) as (_ & RL & CL & En).
    destruct (liouvillian_strings_proof ty MCommutator b m Hty Hgb Hm) as (L' & C' & HL' & _ & _ & _ & _ & DD). rewrite HL in HL'. injection HL' as <- <-.
    apply (mat_vec_meaning S g MCommutator n W (lincomb g (op_terms m)) OS (den g) W K w).
    unfold K, ld_cols. assert (G : forall U, (forall s, In s U -> In s W) -> Forall2 (fun x c => length c = n /\ exact MCommutator (den g x) (lincomb g (op_terms m)) == clincomb S g (combine c W)) U (map (fun s => map (fun t => f t s) W) U)); [|apply G; auto].
    induction U as [|s U IH]; intros HU; constructor; [|apply IH; intros; apply HU; right; auto]. split; [apply map_length|].
    assert (Hs : In s (b_strings b)) by (apply Hin, HU; left; auto). apply In_nth_error in Hs. destruct Hs as (a & Ha).
    rewrite (DD a s Ha A g Hr). rewrite <- clin_emb.
    replace (map emb (column L a)) with (map (fun t => f t s) W); [reflexivity|].
    apply nth_ext with (d := RtoC 0) (d' := RtoC 0); [unfold column; rewrite !map_length, seq_length; symmetry; exact RL|].
    rewrite map_length. intros i Hi. destruct (nth_some W i Hi) as (t & Et). rewrite (nthm _ _ _ _ t Et). unfold column. rewrite map_map.
    rewrite (nthm _ _ _ _ i) by (rewrite (nth_error_nth' _ 0) by (rewrite seq_length, RL; auto); rewrite seq_nth by (rewrite RL; auto); reflexivity).
    refine (eq_trans (eq_sym (En a i s t Ha Et)) _). apply to_C_emb.
  Qed.

  (** The vectors on the whole Basis. *)
  Variable inA : list nat.
  Hypothesis HA : Forall2 (fun t i => nth_error (b_strings b) i = Some t) W inA.
  Let nb := basis_len b.
  Lemma BN : NoDup (b_strings b).
  Proof. apply built_nodup, Hb. Qed.
  Lemma BO s : In s (b_strings b) -> string_ok ty s.
  Proof. apply Hb. Qed.
  Lemma scatter_coords w : length w = n -> scatter nb inA w = coords (b_strings b) (combine w W).
  Proof.
    intros Lw. unfold scatter, coords. rewrite <- (map_seq_nth (b_strings b) (mkOS [] [] ty p_one) (tcoef (combine w W))). fold (basis_len b). fold nb.
    apply map_ext_in. intros i Hi. apply in_seq in Hi. destruct (nth_some (b_strings b) i) as (s & Es); [unfold nb, basis_len in Hi; lia|].
    rewrite (nth_error_nth _ _ _ Es).
    assert (Q : forall U inds, Forall2 (fun t i => nth_error (b_strings b) i = Some t) U inds -> NoDup U -> (forall t, In t U -> string_ok ty t) -> forall w acc, length w = length U ->
      fold_left (fun acc p => if Nat.eqb (fst p) i then snd p else acc) (combine inds w) acc = (if existsb (Nat.eqb i) inds then tcoef (combine w U) s else acc) /\
      (existsb (Nat.eqb i) inds = false -> tcoef (combine w U) s = RtoC 0)).
    { clear - Es Hb. assert (Os : string_ok ty s) by (apply BO; eapply nth_error_In; eauto). induction 1 as [|t a U inds Ha H IH]; intros NU OU [|z w] acc Lw; try discriminate; [split; auto|].
      inversion NU as [|? ? N1 N2]; subst. cbn [length] in Lw. assert (Ot : string_ok ty t) by (apply OU; left; auto).
      destruct (IH N2 (fun t H => OU t (or_intror H)) w (if Nat.eqb a i then z else acc) ltac:(lia)) as [I1 I2].
      cbn [combine fold_left existsb fst snd]. rewrite I1, tcoef_cons. cbn [fst snd]. rewrite (Nat.eqb_sym a i). destruct (Nat.eqb_spec i a) as [->|Na].
      - cbn [orb]. rewrite Ha in Es. injection Es as ->. rewrite os_key_refl. split; [|discriminate].
        assert (Ex : existsb (Nat.eqb a) inds = false).
        { apply not_true_is_false. intros X. apply existsb_exists in X. destruct X as (a' & Ha' & Ea). apply Nat.eqb_eq in Ea. subst a'. apply N1. clear - H Ha' Ha.
          induction H as [|t a' U inds H1 H IH]; [destruct Ha'|]. destruct Ha' as [->|Ha']; [left; congruence | right; auto]. }
        rewrite Ex. rewrite I2 by auto. ring.
      - cbn [orb]. replace (os_key t s) with false.
        + rewrite Cplus_0_l. auto.
        + symmetry. apply not_true_is_false. intros X. apply (key_eq ty) in X; auto. subst t. apply Na. apply (proj1 (NoDup_nth_error (b_strings b)) BN); [|congruence].
          apply nth_error_Some. congruence. }
    destruct (Q W inA HA WN (fun t H => proj1 (WO t H)) w (RtoC 0) Lw) as [-> Q2]. destruct (existsb (Nat.eqb i) inA); auto. symmetry. auto.
  Qed.
  Lemma term_in w (p : C * OS) : In p (combine w W) -> In (snd p) (b_strings b).
  Proof. destruct p as [c s]. intros H. apply in_combine_r in H. apply Hin; auto. Qed.
  Lemma scatter_length w : length (scatter nb inA w) = nb.
  Proof. unfold scatter. rewrite map_length, seq_length. auto. Qed.
  Lemma scatter_meaning (A : StarAlg) (S : RScal A) g w : length w = n -> cden S g (CBasis b) (scatter nb inA w) == clincomb S g (combine w W).
  Proof. intros Lw. rewrite scatter_coords by auto. apply (hval_coords ty (b_strings b) BN BO S (den g)). apply term_in. Qed.
  Lemma scatter_inner w w' : length w = n -> length w' = n -> inner (scatter nb inA w) (scatter nb inA w') = inner w w'.
  Proof.
    intros Lw Lw'. rewrite !scatter_coords by auto. rewrite (inner_coords ty (b_strings b) BN BO) by apply term_in.
    assert (X : inner w w' = inner (coords W (combine w W)) (coords W (combine w' W))).
    { rewrite (coords_self ty W WN (fun t H => proj1 (WO t H)) w Lw), (coords_self ty W WN (fun t H => proj1 (WO t H)) w' Lw'). reflexivity. }
    rewrite X.
    rewrite (inner_coords ty W WN (fun t H => proj1 (WO t H))); [reflexivity|]. intros [c s] H. apply in_combine_r in H. auto.
  Qed.
  Lemma scatter_add u v : length u = n -> length v = n -> scatter nb inA (vadd u v) = vadd (scatter nb inA u) (scatter nb inA v).
  Proof.
    intros Lu Lv. rewrite !scatter_coords by (auto; apply vadd_length; auto). apply (coords_add ty (b_strings b) BO). intros s _.
    apply tcoef_vadd. congruence.
  Qed.
  Lemma scatter_scale c u : length u = n -> scatter nb inA (vscale c u) = vscale c (scatter nb inA u).
  Proof. intros Lu. rewrite !scatter_coords by (rewrite ?vscale_length; auto). apply coords_scaled. intros s. apply tcoef_vscale. Qed.
  Lemma scatter_zero : scatter nb inA (vzero n) = vzero nb.
  Proof.
    rewrite scatter_coords by apply repeat_length. unfold coords. unfold nb, basis_len. apply nth_ext with (d := RtoC 0) (d' := RtoC 0); [rewrite map_length, vzero_length; auto|].
    rewrite map_length. intros i Hi. destruct (nth_some _ i Hi) as (s & Es). rewrite (nthm _ _ _ _ s Es). unfold vzero. rewrite nth_repeat. apply tcoef_zero.
    intros [c t] H N. apply in_combine_l in H. apply repeat_spec in H. cbn in N. contradiction.
  Qed.
  Lemma scatter_span vs w : vectors n vs -> span n vs w -> span nb (map (scatter nb inA) vs) (scatter nb inA w).
  Proof.
    intros Hv H. induction H as [|c v u Hin' Hu IH]; [change (span nb (map (scatter nb inA) vs) (scatter nb inA (vzero n))); rewrite scatter_zero; constructor|].
    pose proof (Hv v Hin') as Lv. pose proof (L_Herm.span_length n vs u Hv Hu) as Lu.
    change (span nb (map (scatter nb inA) vs) (scatter nb inA (vadd (vscale c v) u))).
    rewrite scatter_add by (rewrite ?vscale_length; auto). rewrite scatter_scale by auto. constructor; auto. apply in_map. auto.
  Qed.
  (** A ladder operator is supported on [W]. *)
  Lemma ladder_support (A : StarAlg) (S : RScal A) g v l : rep ty g -> ~ (@aone A == azero) -> length v = nb -> l <> 0%R ->
    exact MCommutator (cden S g (CBasis b) v) (lincomb g (op_terms m)) == cs S (RtoC l) (cden S g (CBasis b) v) ->
    exists w, length w = n /\ v = scatter nb inA w /\ rows_vec D w = vscale (RtoC l) w.
  Proof.
    intros Hr Hn Lv Nl Ev.
    assert (Y : exists y, length y = n /\ exact MCommutator (cden S g (CBasis b) v) (lincomb g (op_terms m)) == clincomb S g (combine y W)).
    { destruct (liouvillian_strings_proof ty MCommutator b m Hty Hgb Hm) as (L2 & C2 & HL2 & _ & RL2 & _ & _ & DD). rewrite HL in HL2. injection HL2 as <- <-.
      set (cols := map (fun a => map emb (column L a)) (seq 0 nb)).
      assert (VC : vectors n cols).
      { intros r H. apply in_map_iff in H. destruct H as (a & <- & _). unfold column. rewrite !map_length, seq_length. exact RL2. }
      exists (mat_vec n cols v). split; [apply mat_vec_length; auto|].
      apply (mat_vec_meaning S g MCommutator n W (lincomb g (op_terms m)) OS (den g) (b_strings b) cols v).
      unfold cols, nb, basis_len. assert (G : forall k U, (forall i s, nth_error U i = Some s -> nth_error (b_strings b) (k + i)%nat = Some s) ->
        Forall2 (fun x c => length c = n /\ exact MCommutator (den g x) (lincomb g (op_terms m)) == clincomb S g (combine c W)) U (map (fun a => map emb (column L a)) (seq k (length U)))); [|apply G; auto].
      intros k U. revert k. induction U as [|s U IH]; intros k HU; cbn [length seq map]; constructor.
      - split; [unfold column; rewrite !map_length, seq_length; exact RL2|]. assert (Hk : nth_error (b_strings b) k = Some s) by (rewrite <- (Nat.add_0_r k); apply HU; auto). rewrite (DD k s Hk A g Hr), <- clin_emb. reflexivity.
      - apply IH. intros i t Ht. replace (Datatypes.S k + i)%nat with (k + Datatypes.S i)%nat by lia. apply HU. auto. }
    destruct Y as (y & Ly & Ey). rewrite Ev in Ey.
    assert (OB : forall v (x : C * OS), In x (combine v (b_strings b)) -> string_ok ty (snd x) /\ canonical (snd x)).
    { intros v' [c s] H. apply in_combine_r in H. apply Hb; auto. }
    assert (OW : forall v (x : C * OS), In x (combine v W) -> string_ok ty (snd x) /\ canonical (snd x)).
    { intros v' [c s] H. apply in_combine_r in H. apply WO; auto. }
    assert (T : forall t, string_ok ty t -> Cmult (RtoC l) (tcoef (combine v (b_strings b)) t) = tcoef (combine y W) t).
    { intros t Ht. rewrite <- tcoef_vscale. apply (tcoef_unique S ty g Hr Hn); auto; [apply OB | apply OW|]. rewrite <- Ey. cbn [cden]. apply clin_vscale. }
    assert (Nc : RtoC l <> RtoC 0) by (intros X; apply Nl; injection X; auto).
    set (w := coords W (combine v (b_strings b))). assert (Lw : length w = n) by apply map_length.
    assert (Sv : v = scatter nb inA w).
    { rewrite scatter_coords by auto. rewrite <- (coords_self ty (b_strings b) BN BO v Lv) at 1. apply coords_ext. intros s Hs.
      assert (Dec : {In s W} + {~ In s W}).
      { destruct (existsb (os_key s) W) eqn:X; [left | right].
        - apply existsb_exists in X. destruct X as (t & Ht & X). apply (key_eq ty) in X; [subst; auto | apply BO; auto | apply WO; auto].
        - intros H. apply not_true_iff_false in X. apply X. apply existsb_exists. exists s. split; auto. apply os_key_refl. }
      destruct Dec as [Hs'|Hs'].
      - apply In_nth_error in Hs'. destruct Hs' as (i & Ei). rewrite (tcoef_nth ty W WN (fun t H => proj1 (WO t H)) w i s Ei). unfold w, coords. rewrite (nthm _ _ _ _ s Ei). reflexivity.
      - assert (Z : forall u, tcoef (combine u W) s = RtoC 0).
        { intros u. apply tcoef_zero. intros [c t] H _. apply in_combine_r in H. apply not_true_is_false. intros X. apply (key_eq ty) in X; [cbn in X; subst; auto | apply WO; auto | apply BO; auto]. }
        rewrite Z. pose proof (T s (BO s Hs)) as X. rewrite Z in X. destruct (Ceq_dec (tcoef (combine v (b_strings b)) s) (RtoC 0)) as [|N]; auto. exfalso. apply (Cmult_neq_0 _ _ Nc N X). }
    exists w. split; auto. split; auto.
    assert (X : clincomb S g (combine (rows_vec D w) W) == clincomb S g (combine (vscale (RtoC l) w) W)).
    { rewrite <- (D_meaning A S g w Hr Lw). rewrite clin_vscale. rewrite <- (scatter_meaning A S g w Lw). rewrite <- Sv. exact Ev. }
    rewrite <- (coords_self ty W WN (fun t H => proj1 (WO t H)) (rows_vec D w)) by (unfold rows_vec; rewrite map_length; apply D_length).
    rewrite <- (coords_self ty W WN (fun t H => proj1 (WO t H)) (vscale (RtoC l) w)) by (rewrite vscale_length; auto).
    apply coords_ext. intros s Hs. apply (tcoef_unique S ty g Hr Hn); auto; [apply OW | apply OW | apply WO; auto].
  Qed.
End Closed.
