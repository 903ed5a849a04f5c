(** Proofs about the penalty matrix of _orthogonalize_com_matrix. *)
From Coq Require Import String List ZArith Bool Arith Lia Permutation Reals QArith Qreals Qcanon Lra.
From Coquelicot Require Import Complex.
From Verif Require Import GC Exn M_OpString M_Tools M_Algebra M_Basis M_OpAlg M_Transform M_LinAlg M_Explore M_Core M_Greedy
  S_Alg S_Den S_Basis S_Built S_OpAlg S_Explore S_RScal S_CScal S_LinAlg S_Core S_Greedy S_Fidelity S_Penalty
  L_Alg L_Basis L_PropBasis L_Explore L_Explore2 L_Explore3 L_Explore4
  L_CScal L_LinAlg L_Inter L_Herm L_Core L_Commuting L_Greedy1 L_Greedy2 L_Greedy3 L_Greedy4 L_Search L_Search2 L_Heap L_PartIso L_Diag2 L_PropOpAlg L_Operator L_Fidelity P_Fidelity.
Import ListNotations.
Local Open Scope nat_scope.

(* --------------------------------------------------------- quadratic forms *)
Lemma row_add (v : vec) : forall a b : vec, length a = length b -> csum (zip_with Cmult (vadd a b) v) = (csum (zip_with Cmult a v) + csum (zip_with Cmult b v))%C.
Proof.
  induction v as [|z v IH]; intros [|x a] [|y b] L; cbn in L; try discriminate; cbn; try (apply injective_projections; cbn; ring).
  change (fold_right Cplus (RtoC 0)) with csum. fold (vadd a b). rewrite (IH a b) by lia. ring.
Qed.
Lemma rows_radd n (v : vec) : forall A B, vectors n A -> vectors n B -> rows_vec (radd A B) v = vadd (rows_vec A v) (rows_vec B v).
Proof.
  induction A as [|a A IH]; intros [|b B] VA VB; cbn; auto. f_equal; [|apply IH; intros x Hx; [apply VA | apply VB]; right; auto].
  apply row_add. rewrite (VA a), (VB b) by (left; auto). auto.
Qed.
Lemma inner_vadd_r (v : vec) : forall x y : vec, length x = length y -> inner v (vadd x y) = (inner v x + inner v y)%C.
Proof.
  induction v as [|z v IH]; intros [|a x] [|b y] L; cbn in L; try discriminate; cbn; try (apply injective_projections; cbn; ring).
  fold (vadd x y). rewrite (IH x y) by lia. ring.
Qed.
Lemma exp_radd n A B v : vectors n A -> vectors n B -> length A = length B -> expectation (radd A B) v = (expectation A v + expectation B v)%R.
Proof.
  intros VA VB L. unfold expectation. rewrite !vdot_inner, (rows_radd n) by auto. rewrite inner_vadd_r by (unfold rows_vec; rewrite !map_length; auto). reflexivity.
Qed.
Lemma row_scale c (v : vec) : forall a : vec, csum (zip_with Cmult (vscale c a) v) = (c * csum (zip_with Cmult a v))%C.
Proof.
  induction v as [|z v IH]; intros [|x a]; cbn; try (apply injective_projections; cbn; ring).
  change (fold_right Cplus (RtoC 0)) with csum. fold (vscale c a). rewrite (IH a). ring.
Qed.
Lemma exp_rscale c A v : expectation (rscale c A) v = (c * expectation A v)%R.
Proof.
  unfold expectation. rewrite !vdot_inner. assert (E : rows_vec (rscale c A) v = vscale (RtoC c) (rows_vec A v)).
  { unfold rows_vec, rscale, vscale. rewrite !map_map. apply map_ext. intros a. apply row_scale. }
  rewrite E, inner_scale_r. cbn. ring.
Qed.
Lemma exp_rreal A v : real_vec v -> expectation (rreal A) v = expectation A v.
Proof. intros Hv. unfold expectation. rewrite !vdot_inner, rreal_rows, real_inner by auto. reflexivity. Qed.
Lemma exp_rzero n v : expectation (rzero n) v = 0%R.
Proof.
  unfold expectation. rewrite vdot_inner. assert (E : rows_vec (rzero n) v = vzero n).
  { unfold rows_vec, rzero. generalize n at 2 3. induction n0 as [|k IH]; cbn; auto. unfold vzero in *. cbn. f_equal; auto.
    clear. revert v. induction n as [|n IH]; intros [|z v]; cbn; auto. change (fold_right Cplus (RtoC 0)) with csum. rewrite IH. ring. }
  rewrite E. clear E. revert n. induction v as [|z v IH]; intros [|n]; cbn; auto. fold (vzero n). rewrite (IH n). ring.
Qed.
Lemma outer_row a u v : length u = length v -> csum (zip_with Cmult (map (fun b => (a * Cconj b)%C) u) v) = (a * inner u v)%C.
Proof.
  revert v. induction u as [|x u IH]; intros [|y v] L; cbn in L; try discriminate; cbn; [apply injective_projections; cbn; ring|].
  change (fold_right Cplus (RtoC 0)) with csum. rewrite (IH v) by lia. ring.
Qed.
Lemma exp_outer u v : length u = length v -> expectation (outer_rows u) v = overlap2 v u.
Proof.
  intros L. unfold expectation, overlap2. rewrite vdot_inner. assert (E : rows_vec (outer_rows u) v = vscale (inner u v) u).
  { unfold rows_vec, outer_rows, vscale. rewrite map_map. apply map_ext. intros a. rewrite outer_row by auto. apply Cmult_comm. }
  rewrite E, inner_scale_r, (inner_sym v u), cmod_sq by auto. destruct (inner v u) as [a b]. cbn. ring.
Qed.
Lemma outer_vectors u : vectors (length u) (outer_rows u).
Proof. intros r Hr. apply in_map_iff in Hr. destruct Hr as (a & <- & _). apply map_length. Qed.
Lemma radd_vec n A B : vectors n A -> vectors n B -> vectors n (radd A B).
Proof.
  unfold radd. revert B. induction A as [|a A IH]; intros [|b B] VA VB r Hr; cbn in Hr; try destruct Hr as [<-|Hr]; try contradiction.
  - apply vadd_length; [apply VA | apply VB]; left; auto.
  - apply (IH B); auto; intros x Hx; [apply VA | apply VB]; right; auto.
Qed.
Lemma exp_fold n v : length v = n -> forall us A, length A = n -> vectors n A -> vectors n us ->
  expectation (fold_left radd (map outer_rows us) A) v = (expectation A v + rsum_list (map (overlap2 v) us))%R.
Proof.
  intros Lv. induction us as [|u us IH]; intros A LA VA Vu; cbn [map fold_left rsum_list fold_right]; [unfold rsum_list; cbn; lra|].
  assert (Lu : length u = n) by (apply Vu; left; auto).
  assert (Vo : vectors n (outer_rows u)) by (rewrite <- Lu; apply outer_vectors).
  assert (Lo : length (outer_rows u) = n) by (unfold outer_rows; rewrite map_length; auto).
  rewrite IH; [|apply radd_length; auto|apply radd_vec; auto|intros x Hx; apply Vu; right; auto].
  rewrite (exp_radd n), exp_outer by (auto; unfold vec in *; congruence). unfold rsum_list. cbn [fold_right]. lra.
Qed.

(* ---------------------------------------------- the coefficients in a Basis *)
Lemma csum_pick ts : NoDup (map fst ts) -> forall (i : nat) (c : C), In (i, c) ts -> csum (map (fun p => if Nat.eqb (fst p) i then snd p else RtoC 0) ts) = c.
Proof.
  assert (Z : forall i ts, ~ In i (map fst ts) -> csum (map (fun p : nat * C => if Nat.eqb (fst p) i then snd p else RtoC 0) ts) = RtoC 0).
  { clear. intros i. induction ts as [|p ts IH]; intros Hn; cbn [map csum fold_right]; auto. change (fold_right Cplus (RtoC 0)) with csum. rewrite IH by (intros F; apply Hn; right; auto).
    destruct (Nat.eqb_spec (fst p) i) as [E|_]; [exfalso; apply Hn; left; auto|]. ring. }
  induction ts as [|p ts IH]; intros Nd i c Hin; [destruct Hin|]. cbn [map] in Nd. inversion Nd; subst. cbn [map csum fold_right]. change (fold_right Cplus (RtoC 0)) with csum.
  destruct Hin as [->|Hin].
  - cbn [fst snd] in *. rewrite Nat.eqb_refl, Z by auto. ring.
  - rewrite (IH H2 i c Hin). destruct (Nat.eqb_spec (fst p) i) as [E|_]; [|ring]. exfalso. apply H1. rewrite E. apply (in_map fst _ _ Hin).
Qed.
Lemma csum_none ts (i : nat) : ~ In i (map fst ts) -> csum (map (fun p : nat * C => if Nat.eqb (fst p) i then snd p else RtoC 0) ts) = RtoC 0.
Proof.
  induction ts as [|p ts IH]; intros Hn; cbn [map csum fold_right]; auto. change (fold_right Cplus (RtoC 0)) with csum. rewrite IH by (intros F; apply Hn; right; auto).
  destruct (Nat.eqb_spec (fst p) i) as [E|_]; [exfalso; apply Hn; left; auto|]. ring.
Qed.
Lemma orth_vector_ok ty q b u : std_cop ty q -> std_basis ty b -> orth_vector b q = Ok u -> coefficients_in q b u.
Proof.
  intros Ht Hb E. pose proof Ht as [(Tb & Tl & _) Ts]. pose proof Hb as [(Bb & _) Bs].
  assert (Bok : basis_ok b) by (apply built_ok; auto). assert (Tok : basis_ok (c_basis q)) by (apply built_ok; auto).
  unfold orth_vector in E. set (F := filter (fun t => basis_mem b (snd t)) (c_terms q)) in *.
  assert (HF : forall t, In t F -> std (snd t) /\ In (snd t) (b_strings b)).
  { intros [c s] Hin. apply filter_In in Hin. destruct Hin as [H1 H2]. cbn [snd] in *. unfold c_terms in H1. apply in_combine_r in H1. assert (std s) by auto. split; auto. apply mem_std in H2; auto. }
  set (idx := fun s => match basis_index b s with Ok i => i | Err _ => 0 end).
  assert (HI : forall t, In t F -> basis_index b (snd t) = Ok (idx (snd t)) /\ nth_error (b_strings b) (idx (snd t)) = Some (snd t)).
  { intros t Hin. destruct (HF t Hin) as [_ H2]. destruct (basis_index_in b (snd t) Bok H2) as (i & E1 & E2). unfold idx. rewrite E1. auto. }
  replace (rmap _ F) with (Ok (map (fun t : C * OS => (idx (snd t), fst t)) F)) in E.
  2:{ symmetry. apply L_Diag2.rmap_ok. intros t Hin. destruct (HI t Hin) as [E' _]. rewrite E'. reflexivity. }
  cbn [rbind] in E. injection E as <-.
  assert (NdF : NoDup (map snd F)) by (apply nodup_map_filter, nodup_combine_snd, distinct_NoDup, Tok).
  assert (Nd : NoDup (map fst (map (fun t => (idx (snd t), fst t)) F))).
  { rewrite map_map. cbn [fst]. clear - NdF HI. induction F as [|t F IH]; cbn; [constructor|]. cbn in NdF. inversion NdF; subst. constructor.
    - intros Hin. apply in_map_iff in Hin. destruct Hin as (u & E & Hu). apply H1. destruct (HI t (or_introl eq_refl)) as [_ E1]. destruct (HI u (or_intror Hu)) as [_ E2].
      rewrite E, E1 in E2. injection E2 as ->. apply in_map; auto.
    - apply IH; auto. intros u Hu. apply HI. right; auto. }
  split; [rewrite map_length, seq_length; auto|]. intros i s z Es Ez.
  rewrite nth_error_map in Ez. destruct (nth_error (seq 0 (basis_len b)) i) as [k|] eqn:Ek; [|discriminate]. cbn [option_map] in Ez. injection Ez as <-.
  assert (k = i). { assert (Li : i < length (seq 0 (basis_len b))) by (apply nth_error_Some; congruence). rewrite seq_length in Li. rewrite (nth_error_nth' _ 0) in Ek by (rewrite seq_length; auto). rewrite seq_nth in Ek by auto. cbn in Ek. congruence. }
  subst k. split.
  - intros c Hc. assert (HcF : In (c, s) F). { apply filter_In. split; auto. cbn. apply mem_std; auto; [apply Bs; eapply nth_error_In; eauto | eapply nth_error_In; eauto]. }
    destruct (HI _ HcF) as [E1 E2]. cbn [snd] in E1, E2.
    assert (Ei : basis_index b s = Ok i) by (apply index_std; auto; apply Bs; eapply nth_error_In; eauto).
    rewrite E1 in Ei. injection Ei as Ei. apply csum_pick; auto. rewrite <- Ei. apply (in_map (fun t => (idx (snd t), fst t)) F (c, s)); auto.
  - intros Hn. apply csum_none. intros Hin. rewrite map_map in Hin. apply in_map_iff in Hin. destruct Hin as (t & E & Ht'). cbn [fst] in E. destruct (HI t Ht') as [_ E2]. rewrite E, Es in E2. injection E2 as ->. apply Hn. apply filter_In in Ht'. apply in_map, Ht'.
Qed.

Lemma exp_orthogonalize ty D b ops M v : std_basis ty b -> Forall (std_cop ty) ops -> length D = basis_len b -> vectors (basis_len b) D -> length v = basis_len b -> real_vec v ->
  orthogonalize_com_matrix D b ops = Ok M -> exists us, Forall2 (fun q u => coefficients_in q b u) ops us /\
    expectation M v = (expectation D v + large_number * rsum_list (map (overlap2 v) us))%R.
Proof.
  intros Hb Ho LD VD Lv Rv E. unfold orthogonalize_com_matrix in E. destruct (rmap (orth_vector b) ops) as [us|] eqn:Eu; [|discriminate]. cbn [rbind] in E. injection E as <-.
  apply rmap_forall2 in Eu. assert (F : Forall2 (fun q u => coefficients_in q b u) ops us).
  { clear - Eu Ho Hb. induction Eu as [|q u ops us E F IH]; constructor; inversion Ho; subst; auto. apply (orth_vector_ok ty); auto. }
  exists us. split; auto. assert (Vu : vectors (basis_len b) us).
  { clear - F. induction F as [|q u ops us [L _] F IH]; intros x Hx; [destruct Hx|]. destruct Hx as [<-|Hx]; auto. }
  assert (VZ : vectors (basis_len b) (rzero (basis_len b))) by (intros r Hr; apply repeat_spec in Hr; subst r; apply vzero_length).
  assert (LZ : length (rzero (basis_len b)) = basis_len b) by apply repeat_length.
  assert (G : forall us A, vectors (basis_len b) us -> length A = basis_len b -> vectors (basis_len b) A -> length (fold_left radd (map outer_rows us) A) = basis_len b /\ vectors (basis_len b) (fold_left radd (map outer_rows us) A)).
  { clear. induction us as [|u us IH]; intros A Vu LA VA; cbn [map fold_left]; auto. assert (Lu : length u = basis_len b) by (apply Vu; left; auto).
    apply IH; [intros x Hx; apply Vu; right; auto|apply radd_length; auto; unfold outer_rows; rewrite map_length; auto|apply radd_vec; auto; rewrite <- Lu; apply outer_vectors]. }
  destruct (G us _ Vu LZ VZ) as [G1 G2].
  rewrite exp_rreal by auto. rewrite (exp_radd (basis_len b)); auto.
  - rewrite exp_rscale, (exp_fold (basis_len b)) by auto. rewrite exp_rzero. lra.
  - intros r Hr. apply in_map_iff in Hr. destruct Hr as (x & <- & Hx). rewrite vscale_length. apply G2; auto.
  - unfold rscale. rewrite map_length. congruence.
Qed.
