(** Proofs about selected_ci_greedy_many_ops2. *)
From Coq Require Import String List ZArith Bool Arith Lia Permutation Sorted Reals QArith Qreals Qcanon Lra.
From Coquelicot Require Import Complex.
From Verif Require Import GC Exn M_OpString M_Tools M_Algebra M_Basis M_OpAlg M_Transform M_LinAlg M_Explore M_Core M_Greedy M_SelectedCI M_ManyOps2
  S_Alg S_Den S_Basis S_Built S_OpAlg S_Explore S_Fock S_RScal S_CFock S_CScal S_LinAlg S_Core S_Greedy S_Search S_Fidelity S_Target S_Penalty S_ManyOps2
  L_Alg L_StrAlg L_StrOp L_Indep L_PropStr L_Basis L_Operator L_Heap L_PropBasis L_OpAlg L_Struct L_PropOpAlg L_Explore L_Explore2 L_Explore3 L_Explore4
  L_CScal L_Fock L_CFock L_LinAlg L_Inter L_Herm L_Core L_Commuting L_Invariant L_Invariant2 L_Cumul2 L_Greedy1 L_Greedy2 L_Greedy3 L_Greedy4 L_Search L_Search2 L_Target L_Trans8 L_Penalty P_SelectedCI.
Import ListNotations.
Local Open Scope nat_scope.
Local Open Scope alg_scope.

Section Many2.
  Variables (ty : optype) (H : Operator).
  Hypotheses (Hty : ty <> Fermion) (HH : std_op ty H).
  Notation cok := (cache_ok ty (b_strings (o_basis H))).

  Lemma grow_many_spec Or nH b ba o x b' x' : sorts_reals (gr_sort Or) -> std_basis ty b -> std_basis ty ba -> cok x -> b_strings (c_basis o) = b_strings b -> length (c_coeffs o) = basis_len b ->
    grow_many Or H nH b (ba, x) o = Ok (b', x') ->
    std_basis ty b' /\ cok x' /\
    exists t1 a t2 new, commutator_terms ty H (c_terms o) t1 /\ picks nH (fun _ => True) t1 a /\ commutator_terms ty H a t2 /\
      picks nH (fun t => ~ In (snd t) (b_strings ba)) t2 new /\ b_strings b' = b_strings ba ++ map snd new.
  Proof.
    intros Hs Hb Hba Hc Eo Lo E. unfold grow_many in E. cbn [fst snd] in E. destruct (explore b H x None) as [[[L ext] x1]|] eqn:Ex; [|discriminate]. cbn [rbind] in E.
    destruct (commutator_terms_of ty H Hty HH _ _ _ _ _ (c_coeffs o) Hb Hc Ex Lo) as (CT & Lv & HC).
    destruct (explore_main ty H Hty HH _ _ _ _ _ Hc Hb Ex) as (Hc1 & _).
    destruct (negb _); [discriminate|]. set (v := rows_vec (dense_rows L) (c_coeffs o)) in *. set (inds := largest_first Or v) in *.
    pose proof (largest_first_ok Or v (b_strings ext) Hs Lv) as Dsc. fold inds in Dsc.
    assert (Em : firstn (Nat.min (length inds) nH) inds = firstn nH inds). { destruct (Nat.le_ge_cases (length inds) nH); [rewrite Nat.min_l by auto; rewrite !firstn_all2; auto | rewrite Nat.min_r; auto]. }
    rewrite Em in E. destruct (take (b_strings ext) (firstn nH inds)) as [sA|] eqn:Et; [|discriminate]. cbn [rbind] in E.
    destruct (basis_new sA) as [A|] eqn:EA; [|discriminate]. cbn [rbind] in E.
    destruct (take v (firstn nH inds)) as [cA|] eqn:Ev; [|discriminate]. cbn [rbind] in E.
    destruct (take_combine _ _ _ _ _ Ev Et) as [FA LA].
    assert (HA : std_basis ty A). { apply (std_new ty sA); auto. intros s Hin. apply (canonical_list ty ext HC). eapply take_in; eauto. }
    destruct (basis_new_ok _ _ EA) as [EsA _].
    rename E into Eg. unfold grow_com in Eg. cbn [fst snd] in Eg. destruct (explore A H x1 None) as [[[L2 ext2] x2]|] eqn:Ex2; [|discriminate]. cbn [rbind] in Eg.
    assert (LcA : length cA = basis_len A) by (unfold basis_len; rewrite EsA; exact LA).
    destruct (commutator_terms_of ty H Hty HH _ _ _ _ _ cA HA Hc1 Ex2 LcA) as (CT2 & Lv2 & HC2). rewrite EsA in CT2.
    set (v2 := rows_vec (dense_rows L2) cA) in *.
    pose proof (largest_first_ok Or v2 (b_strings ext2) Hs Lv2) as Dsc2. set (inds2 := largest_first Or v2) in *.
    destruct (add_terms (Nat.min (length v2) nH) ext2 inds2 0 ba) as [b1|] eqn:Ea; [|discriminate]. cbn [rbind] in Eg. injection Eg as <- <-.
    destruct (explore_main ty H Hty HH _ _ _ _ _ Hc1 HA Ex2) as (Hc2 & _).
    split; [apply (add_terms_ok ty _ _ _ (canonical_list ty ext2 HC2) _ _ _ Hba Ea)|]. split; [exact Hc2|].
    exists (combine v (b_strings ext)), (combine cA sA), (combine v2 (b_strings ext2)).
    assert (CT' : commutator_terms ty H (c_terms o) (combine v (b_strings ext))) by (unfold c_terms; rewrite Eo; exact CT).
    assert (PA : picks nH (fun _ => True) (combine v (b_strings ext)) (combine cA sA)).
    { apply (picks_firstn nH _ _ inds (fun _ => true) (firstn nH inds)); auto; [intros; tauto|].
      f_equal. clear. induction inds as [|i l IH]; auto. cbn [filter]. f_equal; auto. }
    assert (Li : length inds2 = length v2). { rewrite (Permutation_length (proj1 Dsc2)), seq_length, combine_length. unfold vec in *. lia. }
    set (cb := fun i => match nth_error (b_strings ext2) i with Some s => negb (basis_mem ba s) | None => true end).
    assert (Hsub : forall i t, nth_error (combine v2 (b_strings ext2)) i = Some t -> (cb i = true <-> ~ In (snd t) (b_strings ba))).
    { intros i [c s] Ei. apply combine_nth_error in Ei. destruct Ei as [_ Ei]. unfold cb. rewrite Ei. cbn [snd].
      rewrite <- (std_mem ty ba s Hba) by (apply (canonical_list ty ext2 HC2); eapply nth_error_In; eauto). rewrite negb_true_iff. destruct (basis_mem ba s); split; congruence. }
    destruct (Nat.eq_dec (Nat.min (length v2) nH) 0) as [K0|K0].
    - assert (Ei : inds2 = []).
      { destruct (length v2) as [|m] eqn:Em2; [apply length_zero_iff_nil; congruence|]. assert (nH = 0) by lia. subst nH. exfalso.
        cbn [firstn] in Et, Ev. unfold take in Et. cbn [rmap] in Et. injection Et as <-.
        pose proof (explore_nothing _ _ _ _ _ _ EsA Ex2) as En.
        unfold basis_len in En. unfold vec in *. lia. }
      rewrite Ei in Ea. cbn [add_terms] in Ea. injection Ea as <-. exists []. split; auto. split; auto. split; auto. cbn [map]. rewrite app_nil_r. split; auto.
      apply (picks_firstn nH _ _ inds2 cb []); auto. rewrite Ei. cbn. rewrite firstn_nil. auto.
    - apply (add_terms_spec ty _ ext2 cb (canonical_list ty ext2 HC2)) in Ea; auto; [|apply (canonical_distinct ty ext2 HC2)| |lia|].
      + destruct Ea as (new & N1 & N2). rewrite Nat.sub_0_r in N2.
        replace (firstn (Nat.min (length v2) nH) (filter cb inds2)) with (firstn nH (filter cb inds2)) in N2.
        2:{ destruct (Nat.le_ge_cases (length v2) nH); [rewrite Nat.min_l by auto | rewrite Nat.min_r by auto; auto].
            assert (length (filter cb inds2) <= length v2) by (rewrite <- Li; apply filter_short). rewrite !firstn_all2 by (unfold vec in *; lia). auto. }
        assert (G : exists cs, length cs = length new /\ Forall2 (fun i t => nth_error (combine v2 (b_strings ext2)) i = Some t) (firstn nH (filter cb inds2)) (combine cs new)).
        { clear - N2 Lv2. induction N2 as [|i s l new E F IH]; [exists []; split; constructor|]. destruct IH as (cs & I1 & I2).
          destruct (nth_error v2 i) as [c|] eqn:Ec.
          - exists (c :: cs). split; [cbn; auto|]. constructor; auto. apply nth_combine; auto.
          - exfalso. apply nth_error_None in Ec. assert (i < length (b_strings ext2)) by (apply nth_error_Some; congruence). unfold vec in *. lia. }
        destruct G as (cs & G1 & G2). exists (combine cs new). rewrite map_snd_combine by auto. split; auto. split; auto. split; auto. split; auto.
        apply (picks_firstn nH _ _ inds2 cb (firstn nH (filter cb inds2))); auto.
      + eapply Permutation_NoDup; [apply Permutation_sym, (proj1 Dsc2) | apply seq_NoDup].
      + intros i s _ Ei. unfold cb. rewrite Ei. auto.
  Qed.


  Definition on_basis (b : Basis) (o : COp) : Prop := b_strings (c_basis o) = b_strings b /\ length (c_coeffs o) = basis_len b.
  Lemma grow_all_spec Or nH b : sorts_reals (gr_sort Or) -> std_basis ty b -> forall cur ba x b' x', std_basis ty ba -> cok x -> Forall (on_basis b) cur ->
    rfold (grow_many Or H nH b) cur (ba, x) = Ok (b', x') -> std_basis ty b' /\ cok x' /\ grown_all ty H nH (map c_terms cur) (b_strings ba) (b_strings b').
  Proof.
    intros Hs Hb. induction cur as [|o cur IH]; intros ba x b' x' Hba Hc F E; cbn [rfold] in E; [injection E as <- <-; cbn; auto|].
    destruct (grow_many Or H nH b (ba, x) o) as [[b1 x1]|] eqn:E1; [|discriminate]. cbn [rbind] in E. inversion F as [|? ? [F1 F2] F3]; subst.
    destruct (grow_many_spec _ _ _ _ _ _ _ _ Hs Hb Hba Hc F1 F2 E1) as (Hb1 & Hc1 & t1 & a & t2 & new & G1 & G2 & G3 & G4 & G5).
    destruct (IH _ _ _ _ Hb1 Hc1 F3 E) as (I1 & I2 & I3). split; auto. split; auto. cbn [map grown_all]. exists t1, a, t2, new. rewrite <- G5. auto.
  Qed.

  Variable Or : groracles.
  Hypotheses (Heig : real_solver (gr_eig Or)) (Hort : orthonormal_solver (gr_eig Or)) (Hsort : sorts_reals (gr_sort Or)).
  (** What is recorded without and with [orth_ops]. *)
  Definition rec_of (orth : option (list COp)) (o : COp) (e : R) : Prop := match orth with None => commutator_norm ty H o e | Some qs => penalised ty H qs o e end.
  Lemma many_vectors_ok orth k b x qs x' : (forall l, orth = Some l -> Forall (std_cop ty) l) -> cok x -> std_basis ty b -> many_vectors Or H orth k b x = Ok (qs, x') ->
    cok x' /\ orthonormal (map snd qs) /\
    (forall q, In q qs -> length (snd q) = basis_len b /\ real_vec (snd q) /\ norm2c (snd q) = 1%R /\
       forall o, c_coeffs o = snd q -> b_strings (c_basis o) = b_strings b -> rec_of orth o (fst q)).
  Proof.
    intros Hq Hc Hb E. unfold many_vectors in E. destruct (explore b H x None) as [[[L ext] x1]|] eqn:Ex; [|discriminate]. cbn [rbind] in E. cbv zeta in E.
    destruct (explore_main ty H Hty HH _ _ _ _ _ Hc Hb Ex) as (Hc1 & Hin & HC & R1 & R2 & D).
    set (n := basis_len b) in *. set (cols := dense_cols L) in *. set (DH := rreal (gram cols)) in *.
    assert (Vc : vectors (basis_len ext) cols) by (rewrite <- R1; apply dense_cols_vectors).
    assert (Lc : length cols = n) by (unfold cols; rewrite dense_cols_length; auto).
    pose proof (eq_ind _ (fun k => hermi k (gram cols)) (hermi_gram _ _ Vc) _ Lc) as HG.
    assert (SD : real_symmetric DH) by exact (rreal_symmetric _ _ HG).
    assert (LD : length DH = n) by (unfold DH; rewrite rreal_length, gram_length; auto).
    assert (VD : vectors n DH) by (apply map_vectors; apply HG).
    match type of E with context [rbind ?a _] => destruct a as [M|] eqn:EM; [|discriminate] end. cbn [rbind] in E.
    assert (SM : real_symmetric M /\ length M = n).
    { destruct orth as [l|]; [apply (orthogonalize_symmetric DH b l); auto | injection EM as <-; auto]. }
    destruct SM as [SM LM].
    match type of E with context [rbind ?a _] => destruct a as [ps|] eqn:Ep; [|discriminate] end. cbn [rbind] in E.
    assert (KP : exists nv, (forall q, In q ps -> In q (gr_eig Or nv M)) /\ orthonormal (map snd ps)).
    { destruct (_ && _); [injection Ep as <-; exists None; split; auto|]. exists (Some k). split; [apply (sort_pairs_in _ _ _ Ep)|].
      eapply take_orthonormal; [|exact Ep|apply Hort; auto].
      match goal with |- NoDup (gr_sort Or ?l) => destruct (Hsort l) as [Pm _]; apply (Permutation_NoDup (Permutation_sym Pm)), seq_NoDup end. }
    destruct KP as (nv & KI & KO).
    match type of E with context [rbind ?a _] => destruct a as [rs|] eqn:Er; [|discriminate] end. cbn [rbind] in E. injection E as -> <-. split; [auto|].
    assert (CN : forall o, length (c_coeffs o) = n -> real_vec (c_coeffs o) -> b_strings (c_basis o) = b_strings b -> commutator_norm ty H o (expectation DH (c_coeffs o))).
    { intros o Lo Ro Eb. exists ext, (mat_vec (basis_len ext) cols (c_coeffs o)). split; auto. split; [apply mat_vec_length; auto|].
      split; [symmetry; apply expectation_gram; auto; exact (eq_trans Lo (eq_sym Lc))|]. intros A Sc g Hr. unfold c_terms. rewrite Eb. apply D; auto. }
    destruct orth as [l|].
    - split.
      + replace (map snd ps) with (map snd (map (fun q : R * vec => (expectation M (snd q), snd q)) ps)) in KO by (rewrite map_map; reflexivity).
        eapply take_orthonormal; [|exact Er|exact KO].
        match goal with |- NoDup (gr_sort Or ?l) => destruct (Hsort l) as [Pm _]; apply (Permutation_NoDup (Permutation_sym Pm)), seq_NoDup end.
      + intros q Hin'. apply (sort_pairs_in _ _ _ Er) in Hin'. apply in_map_iff in Hin'. destruct Hin' as ([l0 v] & <- & Hin'). cbn [fst snd].
        destruct (Heig _ _ _ _ SM (KI _ Hin')) as (K1 & K2 & K3 & K4). assert (Lv : length v = n) by exact (eq_trans K1 LM). split; [exact Lv|]. split; auto. split; auto.
        intros o Eo Eb. destruct (exp_orthogonalize ty DH b l M v Hb (Hq l eq_refl) LD VD Lv K2 EM) as (us & U1 & U2).
        exists (expectation DH v), us. split; [rewrite <- Eo; apply CN; auto; rewrite Eo; auto|]. split; [|rewrite Eo; exact U2].
        clear - U1 Eb. induction U1 as [|q u l us [L K] F IH]; constructor; auto. split; [unfold basis_len; rewrite Eb; exact L|]. rewrite Eb. exact K.
    - injection Er as <-. split; [exact KO|]. intros [l v] Hq'. destruct (Heig _ _ _ _ SM (KI _ Hq')) as (K1 & K2 & K3 & K4). cbn [fst snd].
      assert (Lv : length v = n) by exact (eq_trans K1 LM). split; [exact Lv|]. split; auto. split; auto. intros o Eo Eb. cbn [rec_of]. injection EM as <-.
      rewrite <- (expectation_eigen DH l v K4 K3), <- Eo. apply CN; auto; rewrite Eo; auto.
  Qed.
End Many2.

Lemma nth_firstn {T} (l : list T) : forall k i, i < k -> nth_error (firstn k l) i = nth_error l i.
Proof. induction l as [|x l IH]; intros [|k] [|i] Hi; cbn; auto; try lia. apply IH. lia. Qed.
Lemma take_prefix {T} (l : list T) : forall k r, take l (seq 0 k) = Ok r -> r = firstn k l /\ length r = k.
Proof.
  intros k r E. assert (Lr : length r = k) by (unfold take in E; rewrite (rmap_length _ _ _ E), seq_length; auto). split; auto.
  pose proof (take_nth_error _ _ _ E) as N. apply nth_error_ext. intros i. destruct (nth_error r i) as [x|] eqn:Ei.
  - destruct (N i x Ei) as (j & J1 & J2). assert (Li : i < k) by (rewrite <- Lr; apply nth_error_Some; congruence).
    rewrite (nth_error_nth' _ 0) in J1 by (rewrite seq_length; auto). rewrite seq_nth in J1 by auto. cbn in J1. injection J1 as <-. rewrite <- J2.
    symmetry. apply nth_firstn; auto.
  - symmetry. apply nth_error_None. apply nth_error_None in Ei. rewrite firstn_length. lia.
Qed.
Lemma same_set_strings ty b c : std_basis ty b -> std_basis ty c -> (same_set b c = true <-> same_strings (b_strings b) (b_strings c)).
Proof.
  intros Hb Hc. unfold same_set, same_strings. rewrite andb_true_iff, !forallb_forall. split.
  - intros [K1 K2] s. split; intros Hs.
    + apply (P_SelectedCI.mem_std ty c s Hc); [apply Hb|]; auto.
    + apply (P_SelectedCI.mem_std ty b s Hb); [apply Hc|]; auto.
  - intros K. split; intros s Hs.
    + apply (P_SelectedCI.mem_std ty c s Hc); [apply Hb; auto|]. apply K; auto.
    + apply (P_SelectedCI.mem_std ty b s Hb); [apply Hc; auto|]. apply K; auto.
Qed.
Lemma random_span n vs (f : nat -> C) : forall is w, vectors n vs -> span n vs w -> forall us, incl us vs ->
  span n vs (fold_left (fun w p => vadd w (vscale (f (fst p)) (snd p))) (combine is us) w).
Proof.
  induction is as [|i is IH]; intros w Hv Hw us Hu; [exact Hw|]. destruct us as [|u us]; [exact Hw|]. cbn [combine fold_left fst snd]. apply IH; auto; [|intros z Hz; apply Hu; right; auto].
  apply span_plus; auto. apply span_scale; auto. apply span_in; auto. apply Hu. left; auto.
Qed.
