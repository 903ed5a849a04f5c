(** Proofs about selected_ci_greedy: one step and the loop. *)
From Coq Require Import String List ZArith Bool Arith Lia Permutation Reals QArith Qreals Qcanon Lra.
From Coquelicot Require Import Complex.
From Verif Require Import GC Exn M_OpString M_Tools M_Algebra M_Basis M_OpAlg M_Transform M_LinAlg M_Explore M_Core M_Greedy
  S_Alg S_Den S_Basis S_Built S_OpAlg S_Explore S_RScal S_CScal S_LinAlg S_Core S_Greedy
  L_Alg L_StrAlg L_StrOp L_Indep L_PropStr L_Basis L_Operator L_Heap L_PropBasis L_OpAlg L_Struct L_PropOpAlg L_Explore L_Explore2 L_Explore3 L_Explore4
  L_CScal L_LinAlg L_Inter L_Herm L_Core L_Commuting L_Greedy1 L_Greedy2.
Import ListNotations.
Local Open Scope nat_scope.
Local Open Scope alg_scope.

Lemma explore_cols b o st L ext st' : explore b o st None = Ok (L, ext, st') -> sm_cols L = basis_len b /\ sm_rows L = basis_len ext.
Proof.
  intros E. unfold explore in E. destruct (explore_update b o st) as [s|]; [|discriminate]. cbn [rbind] in E.
  destruct (rmap _ _) as [b2x|]; [|discriminate]. cbn [rbind] in E.
  match type of E with context [rfold (extend_term None ?s ?x) ?t ?a] => destruct (rfold (extend_term None s x) t a) as [p|]; [|discriminate] end.
  destruct p as [e i]. cbn [rbind] in E.
  match type of E with context [rfold (matrix_term ?a ?b ?c ?d) ?e ?f] => destruct (rfold (matrix_term a b c d) e f); [|discriminate] end. cbn [rbind] in E.
  unfold sm_make in E. destruct (forallb _ l); [|discriminate]. cbn [rbind] in E. injection E as <- <- _. auto.
Qed.

Section Greedy.
  Variables (ty : optype) (H : Operator) (rest : list Operator).
  Hypotheses (Hty : ty <> Fermion) (HH : std_op ty H) (Hrest : forall o, In o rest -> std_op ty o).
  Notation cok := (cache_ok ty (b_strings (o_basis H))).

  Lemma explore_main b st L ext st' : cok st -> std_basis ty b -> explore b H st None = Ok (L, ext, st') ->
    cok st' /\ (forall s, In s (b_strings b) -> In s (b_strings (x_basis st'))) /\ canonical_basis ty ext /\
    sm_rows L = basis_len ext /\ sm_cols L = basis_len b /\
    forall (A : StarAlg) (Sc : RScal A) (g : op -> Z -> A), rep ty g -> forall v,
      exact MCommutator (clincomb Sc g (combine v (b_strings b))) (lincomb g (op_terms H)) ==
      clincomb Sc g (combine (mat_vec (basis_len ext) (dense_cols L) v) (b_strings ext)).
  Proof.
    intros Hst Hb E. destruct (explore_ok ty H Hty HH b st None Hst Hb) as (L' & ext' & st2 & E' & Hc & HC & R1 & R2 & _ & D).
    rewrite E in E'. injection E' as <- <- <-.
    destruct (explore_update_ok ty Hty H st b HH Hst Hb) as (st3 & Eu & _ & HbX & _). rewrite (explore_inv _ _ _ _ _ _ _ E) in Eu. injection Eu as <-.
    repeat (split; [auto; fail|]). intros A Sc g Hr v. unfold clincomb at 1.
    apply (mat_vec_meaning Sc g MCommutator _ _ _ OS (den g)). apply Forall2_nth; [rewrite dense_cols_length, R2; reflexivity|].
    intros i s c Hi Hci. assert (Hlt : (i < sm_cols L)%nat) by (rewrite R2; unfold basis_len; apply nth_error_Some; congruence).
    pose proof (eq_trans (eq_sym (dense_cols_nth L i Hlt)) Hci) as Ec. injection Ec as <-.
    split; [unfold column; rewrite !map_length, seq_length; auto|]. rewrite clin_emb.
    replace (op_terms H) with (terms_near None H); [apply D; auto|].
    unfold terms_near. clear. induction (op_terms H) as [|t l IH]; auto. cbn [filter]. rewrite IH. reflexivity.
  Qed.
  Lemma canonical_list ext : canonical_basis ty ext -> std_list ty (b_strings ext).
  Proof. intros [_ HC] s Hs. destruct (HC s Hs). split; auto. apply canonical_std; auto. Qed.

  (* ------------------------------------------------------------ growing *)

  Lemma grow_rest Or nH A cA : std_basis ty A -> forall ops, (forall o, In o ops -> std_op ty o) -> forall acc acc', std_basis ty (fst acc) -> cok (snd acc) ->
    (forall s, In s (b_strings A) -> In s (b_strings (x_basis (snd acc)))) ->
    rfold (grow_com Or nH A cA) ops acc = Ok acc' -> std_basis ty (fst acc') /\ cok (snd acc').
  Proof.
    intros HA. induction ops as [|o ops IH]; intros Ho acc acc' Hb Hc Hin E; cbn [rfold] in E; [injection E as <-; auto|].
    unfold grow_com at 1 in E. destruct (explore A o (snd acc) None) as [[[L ext] x]|] eqn:Ex; [|discriminate]. cbn [rbind] in E.
    match type of E with context [add_terms ?k ?e ?i ?n ?b] => destruct (add_terms k e i n b) as [b1|] eqn:Ea; [|discriminate] end. cbn [rbind] in E.
    destruct (explore_keep ty _ _ _ _ _ _ _ Hc (Ho o (or_introl eq_refl)) HA Hin Ex) as [Hc1 EX].
    apply (IH (fun u Hu => Ho u (or_intror Hu)) (b1, x)) in E; auto; cbn [fst snd].
    - eapply add_terms_ok; [|exact Hb|exact Ea]. intros s Hs. apply (ext_std ty _ _ Hc1). eapply explore_ext; eauto.
    - rewrite EX. auto.
  Qed.
  Lemma grow_commutators_ok Or nH b o x b' x' : std_basis ty b -> cok x ->
    grow_commutators Or H (H :: rest) nH b o x = Ok (b', x') -> std_basis ty b' /\ cok x'.
  Proof.
    intros Hb Hc E. unfold grow_commutators in E. destruct (explore b H x None) as [[[L ext] x1]|] eqn:Ex; [|discriminate]. cbn [rbind] in E.
    destruct (explore_main _ _ _ _ _ Hc Hb Ex) as (Hc1 & _ & HC & _). apply canonical_list in HC.
    destruct (negb _); [discriminate|].
    match type of E with context [take (b_strings ext) ?i] => destruct (take (b_strings ext) i) as [sA|] eqn:Et; [|discriminate] end. cbn [rbind] in E.
    destruct (basis_new sA) as [A|] eqn:EA; [|discriminate]. cbn [rbind] in E.
    match type of E with context [take ?v ?i] => destruct (take v i) as [cA|]; [|discriminate] end. cbn [rbind] in E.
    assert (HA : std_basis ty A). { apply (std_new ty sA); auto. intros s Hs. apply HC. eapply take_in; eauto. }
    cbn [rfold] in E. destruct (grow_com Or nH A cA (b, x1) H) as [acc|] eqn:Eg; [|discriminate]. cbn [rbind] in E.
    unfold grow_com in Eg. cbn [fst snd] in Eg. destruct (explore A H x1 None) as [[[L2 ext2] x2]|] eqn:Ex2; [|discriminate]. cbn [rbind] in Eg.
    match type of Eg with context [add_terms ?k ?e ?i ?n ?b] => destruct (add_terms k e i n b) as [b1|] eqn:Ea; [|discriminate] end. cbn [rbind] in Eg. injection Eg as <-.
    destruct (explore_main _ _ _ _ _ Hc1 HA Ex2) as (Hc2 & Hin & HC2 & _). apply canonical_list in HC2.
    apply (grow_rest Or nH A cA HA rest Hrest (b1, x2) (b', x')) in E; cbn [fst snd] in *; auto. apply (add_terms_ok ty _ _ _ HC2 _ _ _ Hb Ea).
  Qed.

  Lemma anti_add_ok k acc p acc' : std_basis ty (fst (fst acc)) -> string_ok ty (fst p) -> string_ok ty (snd p) -> anti_add k acc p = Ok acc' ->
    std_basis ty (fst (fst acc')) /\ (std_list ty (snd (fst acc)) -> std_list ty (snd (fst acc'))).
  Proof.
    intros Hb H1 H2 E. destruct acc as [[b added] stop]. cbn [fst snd] in *. unfold anti_add in E. destruct stop; [injection E as <-; auto|].
    destruct (mode_spec ty MAnticommutator (fst p) (snd p) Hty H1 H2) as (c & os3 & R).
    rewrite (mr_run _ _ _ _ _ _ R) in E. cbn [rbind] in E. destruct os3 as [s|]; [|injection E as <-; auto].
    destruct (mr_some _ _ _ _ _ _ R s eq_refl) as (_ & Hs & Hcan & _). apply canonical_std in Hcan.
    destruct (_ && _); injection E as <-; cbn [fst snd]; auto. split; [apply std_add; auto|].
    intros Ha t Ht. apply in_app_or in Ht. destruct Ht as [Ht|[<-|[]]]; auto.
  Qed.
  Lemma anti_fold k : forall ps acc acc', (forall p, In p ps -> string_ok ty (fst p) /\ string_ok ty (snd p)) -> std_basis ty (fst (fst acc)) -> std_list ty (snd (fst acc)) ->
    rfold (anti_add k) ps acc = Ok acc' -> std_basis ty (fst (fst acc')) /\ std_list ty (snd (fst acc')).
  Proof.
    induction ps as [|p ps IH]; intros acc acc' Hp Hb Hs E; cbn [rfold] in E; [injection E as <-; auto|].
    destruct (anti_add k acc p) as [acc1|] eqn:Ea; [|discriminate]. cbn [rbind] in E. destruct (Hp p (or_introl eq_refl)) as [P1 P2].
    destruct (anti_add_ok _ _ _ _ Hb P1 P2 Ea) as [B1 B2]. apply (IH acc1); auto. intros q Hq. apply Hp. right; auto.
  Qed.
  Lemma grow_anticommutators_ok Or nO o b b' : std_list ty (b_strings (c_basis o)) -> std_basis ty b ->
    grow_anticommutators Or nO o b = Ok b' -> std_basis ty b'.
  Proof.
    intros Ho Hb E. unfold grow_anticommutators in E. destruct (take _ _) as [ss|] eqn:Et; [|discriminate]. cbn [rbind] in E.
    destruct (_ =? 0); [congruence|].
    assert (Hss : std_list ty ss) by (intros s Hs; apply Ho; eapply take_in; eauto).
    set (iss := combine _ ss) in E.
    assert (Hi : forall q, In q iss -> string_ok ty (snd q)). { intros [i s] Hq. apply in_combine_r in Hq. apply Hss; auto. }
    match type of E with context [rfold ?f ?l (b, [], false)] => destruct (rfold f l (b, [], false)) as [r1|] eqn:E1; [|discriminate] end. cbn [rbind] in E.
    match type of E with context [rfold ?f ?l ?a] => destruct (rfold f l a) as [r2|] eqn:E2; [|discriminate] end. cbn [rbind] in E. injection E as <-.
    apply anti_fold in E1; auto; [|intros p Hp|intros s []].
    2:{ apply in_flat_map in Hp. destruct Hp as (q & Hq & Hp). apply in_flat_map in Hp. destruct Hp as (q' & Hq' & Hp). destruct (_ =? _); [destruct Hp|destruct Hp as [<-|[]]]. cbn. auto. }
    destruct E1 as [B1 B2]. apply anti_fold in E2; auto; [apply E2| |intros s []].
    intros p Hp. apply in_flat_map in Hp. destruct Hp as (s & Hs & Hp). apply in_map_iff in Hp. destruct Hp as (t & <- & Ht). cbn. split; [apply Hss | apply B2]; auto.
  Qed.

  (* ------------------------------------------------------- the matrix *)

  Lemma com_rest b n : basis_len b = n -> std_basis ty b -> forall ops, (forall o, In o ops -> std_op ty o) -> forall M D x M' MH' x',
    length M = n -> real_symmetric M -> cok x -> (forall s, In s (b_strings b) -> In s (b_strings (x_basis x))) ->
    rfold (com_step b) ops (M, Some D, x) = Ok (M', MH', x') -> MH' = Some D /\ length M' = n /\ real_symmetric M' /\ cok x'.
  Proof.
    intros En Hb. induction ops as [|o ops IH]; intros Ho M D x M' MH' x' LM SM Hc Hin E; cbn [rfold] in E; [injection E as <- <- <-; auto|].
    unfold com_step at 1 in E. destruct (explore b o x None) as [[[L ext] x1]|] eqn:Ex; [|discriminate]. cbn [rbind] in E.
    destruct (explore_cols _ _ _ _ _ _ Ex) as [C1 C2].
    destruct (explore_keep ty _ _ _ _ _ _ _ Hc (Ho o (or_introl eq_refl)) Hb Hin Ex) as [Hc1 EX].
    assert (LD : length (rreal (gram (dense_cols L))) = n) by (rewrite rreal_length, gram_length, dense_cols_length; congruence).
    apply (IH (fun u Hu => Ho u (or_intror Hu))) in E; auto.
    - apply radd_length; auto.
    - apply (real_radd _ _ n); auto. eapply rreal_symmetric, hermi_gram, dense_cols_vectors.
    - rewrite EX. auto.
  Qed.

  Lemma fold_radd_hermi n : forall vs M, hermi n M -> (forall v, In v vs -> length v = n) -> hermi n (fold_left radd (map outer_rows vs) M).
  Proof.
    induction vs as [|v vs IH]; intros M HM Hv; cbn [map fold_left]; auto. apply IH; [|intros u Hu; apply Hv; right; auto].
    apply hermi_radd; auto. rewrite <- (Hv v (or_introl eq_refl)). apply hermi_outer.
  Qed.
  Lemma orth_vector_length b o v : orth_vector b o = Ok v -> length v = basis_len b.
  Proof. unfold orth_vector. destruct (rmap _ _); [|discriminate]. cbn [rbind]. intros E. injection E as <-. rewrite map_length, seq_length. auto. Qed.
  Lemma orthogonalize_symmetric M b ops M' : length M = basis_len b -> real_symmetric M -> orthogonalize_com_matrix M b ops = Ok M' ->
    real_symmetric M' /\ length M' = basis_len b.
  Proof.
    intros LM SM E. unfold orthogonalize_com_matrix in E. destruct (rmap (orth_vector b) ops) as [vs|] eqn:Ev; [|discriminate]. cbn [rbind] in E. injection E as <-.
    assert (HM : hermi (basis_len b) M) by (rewrite <- LM; apply real_hermi; auto).
    assert (HF : hermi (basis_len b) (radd M (rscale large_number (fold_left radd (map outer_rows vs) (rzero (basis_len b)))))).
    { apply hermi_radd; auto. apply hermi_rscale. apply fold_radd_hermi; [apply hermi_rzero|]. intros v Hv.
      destruct (rmap_in _ _ _ Ev v Hv) as (o & _ & Eo). eapply orth_vector_length; eauto. }
    split; [eapply rreal_symmetric; eauto|]. rewrite rreal_length. apply HF.
  Qed.

  Lemma sort_pairs_in Or ps qs : sort_pairs Or ps = Ok qs -> forall q, In q qs -> In q ps.
  Proof. apply take_in. Qed.

  Definition vec_ok (b : Basis) (q : R * vec) : Prop :=
    length (snd q) = basis_len b /\ real_vec (snd q) /\ norm2c (snd q) = 1%R /\
    forall o, c_coeffs o = snd q -> b_strings (c_basis o) = b_strings b -> commutator_norm ty H o (fst q).
  Variables (Or : groracles) (p : gparams).
  Hypotheses (Heig : real_solver (gr_eig Or)) (Hpt : gp_trans p = None).

  Definition min_ok (b : Basis) (q : R * vec) : Prop :=
    forall o, length (c_coeffs o) = basis_len b -> b_strings (c_basis o) = b_strings b -> real_vec (c_coeffs o) ->
      exists d, commutator_norm ty H o d /\ (fst q * norm2c (c_coeffs o) <= d)%R.

  Lemma sorted_least ps qs q qs' : sorts_reals (gr_sort Or) -> sort_pairs Or ps = Ok qs -> qs = q :: qs' -> forall r, In r ps -> (Rabs (fst q) <= Rabs (fst r))%R.
  Proof.
    intros Hs E -> r Hr. unfold sort_pairs in E. set (l := map (fun p => Rabs (fst p)) ps) in E. destruct (Hs l) as [Hp Ho].
    destruct (gr_sort Or l) as [|i is] eqn:Es; [discriminate|]. unfold take in E. cbn [rmap] in E.
    destruct (nth_error ps i) as [q0|] eqn:Ni; [|discriminate]. cbn [of_option rbind] in E. destruct (rmap _ is); [|discriminate]. cbn [rbind] in E. injection E as <- _.
    apply In_nth_error in Hr. destruct Hr as (j & Hj).
    assert (Lj : j < length l) by (unfold l; rewrite map_length; apply nth_error_Some; congruence).
    assert (Ij : In j (i :: is)) by (apply (Permutation_in j (Permutation_sym Hp)), in_seq; lia).
    assert (El : forall k x, nth_error ps k = Some x -> nth_error l k = Some (Rabs (fst x))) by (intros k x Hk; unfold l; rewrite nth_error_map, Hk; auto).
    apply In_nth_error in Ij. destruct Ij as ([|k] & Hk).
    - cbn in Hk. injection Hk as ->. rewrite Ni in Hj. injection Hj as ->. lra.
    - apply (Ho 0 (S k) i j _ _ ltac:(lia) eq_refl Hk (El _ _ Ni) (El _ _ Hj)).
  Qed.

  Lemma find_vectors_ok b x qs x' : cok x -> std_basis ty b -> find_vectors Or p (H :: rest) b x = Ok (qs, x') ->
    cok x' /\ (forall q, In q qs -> vec_ok b q) /\
    (rest = [] -> gp_orth p = None -> finds_lowest (gr_eig Or) -> sorts_reals (gr_sort Or) -> forall q qs', qs = q :: qs' -> min_ok b q).
  Proof.
    intros Hc Hb E. unfold find_vectors in E. set (n := basis_len b) in *. cbn [rfold] in E.
    destruct (com_step b (rzero n, None, x) H) as [acc|] eqn:Es; [|discriminate]. cbn [rbind] in E.
    unfold com_step in Es. destruct (explore b H x None) as [[[L ext] x1]|] eqn:Ex; [|discriminate]. cbn [rbind] in Es. injection Es as <-.
    destruct (explore_main _ _ _ _ _ Hc Hb Ex) as (Hc1 & Hin & HC & R1 & R2 & D).
    set (cols := dense_cols L) in *. set (DH := rreal (gram cols)) in *.
    assert (Vc : vectors (basis_len ext) cols) by (rewrite <- R1; apply dense_cols_vectors).
    assert (Lc : length cols = n) by (unfold cols; rewrite dense_cols_length; auto).
    pose proof (eq_ind _ (fun k => hermi k (gram cols)) (hermi_gram _ _ Vc) _ Lc) as HG.
    assert (SD : real_symmetric DH) by exact (rreal_symmetric _ _ HG).
    assert (LD : length DH = n) by (unfold DH; rewrite rreal_length, gram_length; auto).
    assert (VD : vectors n DH) by (apply map_vectors; apply HG).
    rewrite radd_zero in E by auto.
    destruct (rfold (com_step b) rest (DH, Some DH, x1)) as [[[M0 MH] x2]|] eqn:Er; [|discriminate]. cbn [rbind] in E.
    destruct (com_rest b n eq_refl Hb rest Hrest _ _ _ _ _ _ LD SD Hc1 Hin Er) as (-> & L0 & S0 & Hc2).
    match type of E with context [rbind ?a _] => destruct a as [M1|] eqn:E1; [|discriminate] end. cbn [rbind] in E. rewrite Hpt in E. cbn [rbind] in E.
    assert (SM : real_symmetric M1 /\ length M1 = n).
    { destruct (gp_orth p) as [ops|]; [apply (orthogonalize_symmetric M0 b ops); auto | injection E1 as <-; auto]. }
    destruct SM as [S1 L1].
    match type of E with context [rbind ?a _] => destruct a as [ps|] eqn:Ep; [|discriminate] end. cbn [rbind] in E.
    match type of E with context [rbind ?a _] => destruct a as [qs0|] eqn:Eq; [|discriminate] end. cbn [rbind] in E. injection E as -> <-.
    assert (KP : forall l v, In (l, v) ps -> length v = n /\ real_vec v /\ norm2c v = 1%R /\ rows_vec M1 v = map (Cmult (RtoC l)) v).
    { intros l v Hv. assert (Hv' : exists nv, In (l, v) (gr_eig Or nv M1)).
      { destruct (_ || _); [injection Ep as <-; eauto|]. eexists. eapply sort_pairs_in; eauto. }
      destruct Hv' as (nv & Hv'). rewrite <- L1. eapply Heig; eauto. }
    assert (NO : forall v o, c_coeffs o = v -> length v = n -> real_vec v -> b_strings (c_basis o) = b_strings b -> commutator_norm ty H o (expectation DH v)).
    { intros v o Ev Lv Rv Eb. exists ext, (mat_vec (basis_len ext) cols v). split; auto. split; [apply mat_vec_length; auto|].
      split; [symmetry; apply expectation_gram; auto; exact (eq_trans Lv (eq_sym Lc))|]. intros A Sc g Hr. unfold c_terms. rewrite Ev, Eb. apply D; auto. }
    split; auto. split.
    - intros [e v] Hq. destruct (_ || _) eqn:Eo in Eq.
      + pose proof (sort_pairs_in _ _ _ Eq _ Hq) as Hq'. apply in_map_iff in Hq'. destruct Hq' as ([l u] & Eu & Hu). cbn [snd] in Eu. injection Eu as <- <-.
        destruct (KP l u Hu) as (K1 & K2 & K3 & _). split; auto. split; auto. split; auto. intros o Eo' Eb. apply NO; auto.
      + injection Eq as <-. destruct (KP e v Hq) as (K1 & K2 & K3 & K4). split; auto. split; auto. split; auto. intros o Eo' Eb.
        apply orb_false_iff in Eo. destruct Eo as [O1 O2]. destruct rest as [|o2 r]; [|discriminate].
        cbn [rfold] in Er. injection Er as <- _. destruct (gp_orth p); [discriminate|]. injection E1 as <-.
        cbn [fst]. rewrite <- (expectation_eigen DH e v K4 K3). apply NO; auto.
    - intros -> Eo Hlow Hsort [e v] qs' ->. rewrite Eo in *. injection E1 as <-. cbn [rfold] in Er. injection Er as <- _. cbn in Eq. injection Eq as ->.
      assert (BE : below DH e).
      { destruct (Hlow DH SD) as [W1 W2]. destruct (_ || _); [injection Ep as Ep; eapply W1; eauto|].
        set (k := gp_vecs p) in *. destruct (W2 k) as (l & u & Hl & Bl).
        { intros F. rewrite F in Ep. destruct (Hsort []) as [P0 _]. apply Permutation_sym, Permutation_nil in P0. unfold sort_pairs in Ep. cbn [map] in Ep. rewrite P0 in Ep. discriminate. }
        pose proof (sorted_least _ _ _ _ Hsort Ep eq_refl (l, u) Hl) as Hle. cbn [fst] in Hle.
        assert (Pos : forall l u, In (l, u) (gr_eig Or (Some k) DH) -> (0 <= l)%R).
        { intros l0 u0 H0. destruct (Heig _ _ _ _ SD H0) as (K1 & K2 & K3 & K4). rewrite <- (expectation_eigen DH l0 u0 K4 K3). unfold DH.
          rewrite (expectation_gram (basis_len ext)); auto; [|exact (eq_trans K1 (eq_trans LD (eq_sym Lc)))]. rewrite <- sqsum_norm2c. apply sqsum_nonneg. }
        pose proof (sort_pairs_in _ _ _ Ep _ (or_introl eq_refl)) as He.
        rewrite !Rabs_right in Hle by (apply Rle_ge; eauto). intros w Lw Rw. eapply Rle_trans; [|apply (Bl w Lw Rw)].
        apply Rmult_le_compat_r; auto. rewrite <- sqsum_norm2c. apply sqsum_nonneg. }
      intros o Lo Eb Ro. exists (expectation DH (c_coeffs o)). split; [apply NO; auto|]. cbn [fst]. unfold expectation. rewrite vdot_inner. apply BE; auto. exact (eq_trans Lo (eq_sym LD)).
  Qed.
End Greedy.
