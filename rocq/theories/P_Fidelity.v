(** Property C102: highest_fidelity_operator. *)
From Coq Require Import String List ZArith Bool Arith Lia Reals Lra.
From Coquelicot Require Import Complex.
From Verif Require Import GC Exn M_OpString M_Tools M_Algebra M_Basis M_OpAlg M_Transform M_LinAlg M_Explore M_Core M_Greedy
  S_Alg S_Den S_Basis S_Built S_OpAlg S_Explore S_LinAlg S_Core S_Greedy S_Fidelity
  L_Basis L_Operator L_PropBasis L_Explore L_LinAlg L_Inter L_Herm L_Core L_Commuting L_PartIso L_Greedy1 L_Search L_Search2 L_Heap L_Diag2 L_Fidelity L_PropOpAlg L_PropOpAlg P_Core P_Default P_Greedy P_Search.
Import ListNotations.
Local Open Scope nat_scope.

Lemma set_all {T} : forall (ts : list (nat * T)) v, NoDup (map fst ts) -> (forall p, In p ts -> fst p < length v) ->
  let r := fold_left (fun v p => list_set v (fst p) (snd p)) ts v in
  length r = length v /\ (forall p, In p ts -> nth_error r (fst p) = Some (snd p)) /\ (forall i, ~ In i (map fst ts) -> nth_error r i = nth_error v i).
Proof.
  induction ts as [|p ts IH]; intros v Nd Hl; cbn [fold_left]; [repeat split; auto; intros ? []|].
  cbn [map] in Nd. apply NoDup_cons_iff in Nd. destruct Nd as [N1 N2].
  destruct (IH (list_set v (fst p) (snd p)) N2) as (L & I1 & I2); [intros q Hq; rewrite list_set_length; apply Hl; right; auto|].
  rewrite list_set_length in L. split; [auto|]. split.
  - intros q [<-|Hq]; auto. rewrite I2 by auto. rewrite list_set_nth, Nat.eqb_refl. rewrite (proj2 (Nat.ltb_lt _ _)); auto. apply Hl; left; auto.
  - intros i Hi. rewrite I2 by (intros Hc; apply Hi; right; auto). rewrite list_set_nth. destruct (Nat.eqb_spec (fst p) i); auto. exfalso. apply Hi. left; auto.
Qed.
Lemma nodup_combine_snd {A B} : forall (cs : list A) (ss : list B), NoDup ss -> NoDup (map snd (combine cs ss)).
Proof.
  induction cs as [|c cs IH]; intros [|s ss] N; cbn; try constructor; inversion N; subst; auto.
  intros Hin. apply in_map_iff in Hin. destruct Hin as ((a & b) & E & Hin). cbn in E. subst. apply in_combine_r in Hin. auto.
Qed.
Lemma nodup_map_filter {A B} (f : A -> B) p l : NoDup (map f l) -> NoDup (map f (filter p l)).
Proof.
  induction l as [|x l IH]; cbn; intros N; auto. inversion N; subst. destruct (p x); cbn; auto. constructor; auto.
  intros Hin. apply in_map_iff in Hin. destruct Hin as (y & E & Hy). apply filter_In in Hy. apply H1. rewrite <- E. apply in_map, Hy.
Qed.
Lemma target_vector ty target b : std_cop ty target -> std_basis ty b ->
  exists ts, rmap (fun t => let! i := basis_index b (snd t) in Ok (i, fst t)) (filter (fun t => basis_mem b (snd t)) (c_terms target)) = Ok ts /\
  coefficients_in target b (fold_left (fun v p => list_set v (fst p) (snd p)) ts (vzero (basis_len b))).
Proof.
  intros Ht Hb. pose proof Ht as [(Tb & Tl & _) Ts]. pose proof Hb as [(Bb & _) Bs].
  assert (Bok : basis_ok b) by (apply built_ok; auto). assert (Tok : basis_ok (c_basis target)) by (apply built_ok; auto).
  set (F := filter (fun t => basis_mem b (snd t)) (c_terms target)).
  assert (HF : forall t, In t F -> std (snd t) /\ In (snd t) (b_strings b)).
  { intros [c s] Hin. apply filter_In in Hin. destruct Hin as [H1 H2]. cbn [snd] in *. unfold c_terms in H1. apply in_combine_r in H1. assert (std s) by auto. split; auto. apply mem_std in H2; auto. }
  set (idx := fun s => match basis_index b s with Ok i => i | Err _ => 0 end).
  assert (HI : forall t, In t F -> basis_index b (snd t) = Ok (idx (snd t)) /\ nth_error (b_strings b) (idx (snd t)) = Some (snd t)).
  { intros t Hin. destruct (HF t Hin) as [_ H2]. destruct (basis_index_in b (snd t) Bok H2) as (i & E1 & E2). unfold idx. rewrite E1. auto. }
  exists (map (fun t => (idx (snd t), fst t)) F). split.
  { apply rmap_ok. intros t Hin. destruct (HI t Hin) as [E _]. rewrite E. reflexivity. }
  assert (NdF : NoDup (map snd F)) by (apply nodup_map_filter, nodup_combine_snd, distinct_NoDup, Tok).
  assert (Nd : NoDup (map fst (map (fun t => (idx (snd t), fst t)) F))).
  { rewrite map_map. cbn [fst]. clear - NdF HI. induction F as [|t F IH]; cbn; [constructor|]. cbn in NdF. inversion NdF; subst. constructor.
    - intros Hin. apply in_map_iff in Hin. destruct Hin as (u & E & Hu). apply H1. destruct (HI t (or_introl eq_refl)) as [_ E1]. destruct (HI u (or_intror Hu)) as [_ E2].
      rewrite E, E1 in E2. injection E2 as ->. apply in_map; auto.
    - apply IH; auto. intros u Hu. apply HI. right; auto. }
  destruct (set_all _ (vzero (basis_len b)) Nd) as (L & I1 & I2).
  { intros p Hp. apply in_map_iff in Hp. destruct Hp as (t & <- & Hin). cbn [fst]. rewrite vzero_length. apply nth_error_Some. destruct (HI t Hin) as [_ E]. congruence. }
  split; [rewrite L; apply vzero_length|]. intros i s z Es Ez. split.
  - intros c Hc. assert (HcF : In (c, s) F). { apply filter_In. split; auto. cbn. apply mem_std; auto; [apply Bs; eapply nth_error_In; eauto | eapply nth_error_In; eauto]. }
    destruct (HI _ HcF) as [E1 E2]. cbn [snd] in E1, E2.
    assert (Ei : basis_index b s = Ok i) by (apply index_std; auto; apply Bs; eapply nth_error_In; eauto).
    rewrite E1 in Ei. injection Ei as Ei. specialize (I1 (idx s, c)). cbn [fst snd] in I1. rewrite Ei in I1. rewrite I1 in Ez; [congruence|].
    rewrite <- Ei. apply (in_map (fun t => (idx (snd t), fst t)) F (c, s)); auto.
  - intros Hn. rewrite I2 in Ez.
    + unfold vzero in Ez. apply nth_error_In in Ez. apply repeat_spec in Ez. auto.
    + intros Hin. rewrite map_map in Hin. apply in_map_iff in Hin. destruct Hin as (t & E & Ht'). cbn [fst] in E. destruct (HI t Ht') as [_ E2]. rewrite E, Es in E2. injection E2 as ->. apply Hn. apply filter_In in Ht'. apply in_map, Ht'.
Qed.

(** C102: highest_fidelity_operator returns the combination of the given vectors with the
    largest overlap with the target. *)
Theorem C102_fidelity : forall ty target ps b,
  std_cop ty target -> std_basis ty b -> vectors (basis_len b) (map snd ps) -> orthonormal (map snd ps) ->
  exists t r f, coefficients_in target b t /\ highest_fidelity_operator target ps b = Ok (r, f) /\
    (forall u, span (basis_len b) (map snd ps) u -> norm2c u = 1%R -> (overlap2 u t <= f)%R) /\
    match r with
    | None => f = 0%R
    | Some (v, e) => (0 < f)%R /\ best_overlap (basis_len b) (map snd ps) t v /\ overlap2 v t = f /\
        (span (basis_len b) (map snd ps) t -> v = map (Cmult (RtoC (/ sqrt f))) t) /\
        (forall D, length D = basis_len b -> (forall q, In q ps -> (0 <= fst q)%R /\ rows_vec D (snd q) = map (Cmult (RtoC (fst q))) (snd q)) ->
           inner v (rows_vec D v) = RtoC e)
    end.
Proof.
  intros ty target ps b Ht Hb Hv Ho. destruct (target_vector ty target b Ht Hb) as (ts & Ets & Ct). set (n := basis_len b) in *.
  set (t := fold_left (fun v p => list_set v (fst p) (snd p)) ts (vzero n)) in *. assert (Lt : length t = n) by apply Ct.
  unfold highest_fidelity_operator. fold n. rewrite Ets. cbn [rbind]. fold t. cbv zeta.
  set (w := fold_left (fun w q => vadd w (vscale (vdot (snd q) t) (snd q))) ps (vzero n)).
  assert (Ew : w = fidw t ps (vzero n)).
  { unfold w, fidw. generalize (vzero n). clear. induction ps as [|q ps IH]; intros a; auto. cbn [fold_left]. rewrite vdot_inner. apply IH. }
  assert (Lw : length w = n) by (rewrite Ew; apply fidw_length; auto; apply vzero_length).
  assert (Sw : span n (map snd ps) w) by (rewrite Ew; apply fidw_span; auto; [intros q Hq; apply in_map; auto | apply span_zero]).
  assert (Nw : (vnorm w ^ 2 = sqsum w)%R) by (cbn; rewrite Rmult_1_r; apply vnorm_sq).
  assert (Pj : forall u, span n (map snd ps) u -> inner u t = inner u w) by (intros u Hu; rewrite Ew; symmetry; apply (fidw_proj n); auto).
  assert (UB : forall u, span n (map snd ps) u -> norm2c u = 1%R -> (overlap2 u t <= vnorm w ^ 2)%R).
  { intros u Hu Nu. unfold overlap2. rewrite (Pj u Hu), Nw. pose proof (cauchy_schwarz n u w (span_length n _ _ Hv Hu) Lw) as CS. rewrite (sqsum_norm2c u), Nu in CS. lra. }
  exists t. eexists. eexists. split; [exact Ct|]. split; [reflexivity|]. split; [exact UB|].
  destruct (Req_EM_T (vnorm w) 0) as [E0|N0]; [rewrite E0; cbn; ring|].
  pose proof (vnorm_nonneg w) as P0. assert (P : (0 < vnorm w)%R) by lra.
  assert (Sv : span n (map snd ps) (vscale (RtoC (/ vnorm w)) w)) by (apply span_scale; auto).
  assert (Nv : norm2c (vscale (RtoC (/ vnorm w)) w) = 1%R).
  { rewrite <- sqsum_norm2c. apply RtoC_inj. rewrite <- inner_self, inner_scale_l, inner_scale_r, inner_self, <- Nw, Cconj_R, <- !RtoC_mult. f_equal. field. auto. }
  assert (Ov : overlap2 (vscale (RtoC (/ vnorm w)) w) t = (vnorm w ^ 2)%R).
  { unfold overlap2. rewrite inner_scale_l, (Pj w Sw), inner_self, <- Nw, Cconj_R, <- RtoC_mult, cmod_sq. cbn. field. auto. }
  split; [apply pow_lt; auto|]. split; [split; [auto|split; [auto|]]; intros u Hu Nu; rewrite Ov; auto|]. split; [exact Ov|]. split.
  - intros St. replace (sqrt (vnorm w ^ 2)) with (vnorm w) by (symmetry; apply sqrt_pow2; auto). unfold vscale. f_equal. rewrite Ew. apply fidw_self; auto.
  - intros D LD HD. rewrite rows_vec_scale, inner_scale_l, inner_scale_r, Ew, (fidw_energy n); auto; [|intros q Hq; apply HD; auto].
    rewrite <- Ew, Cconj_R.
    assert (Es : forall a, RtoC (fold_left (fun e q => (e + Cmod (vdot (snd q) t) ^ 2 * Rabs (fst q))%R) ps a) = (RtoC a + csum (map (fun q => RtoC (fst q * Cmod (inner (snd q) t) ^ 2)) ps))%C).
    { clear - HD. unfold csum. induction ps as [|q ps IH]; intros a; cbn [fold_left map fold_right]; [ring|]. rewrite IH by (intros p Hp; apply HD; right; auto).
      rewrite vdot_inner, Rabs_pos_eq by (apply HD; left; auto). rewrite !RtoC_plus, !RtoC_mult. rewrite (Cmult_comm (RtoC (fst q))). symmetry. apply Cplus_assoc. }
    specialize (Es 0%R). match type of Es with RtoC ?x = (_ + ?y)%C => set (e := x) in *; assert (Ey : y = RtoC e) by (rewrite Es; symmetry; apply Cplus_0_l) end; rewrite Ey.
    rewrite <- !RtoC_mult. f_equal. cbn. field. auto.
Qed.
Print Assumptions C102_fidelity.

(** The target Z_1 and the vector (Z_1 + X_1)/sqrt 2 with eigenvalue 3. *)
Definition hf_pairs : list (R * vec) := [(3%R, gs_v)].
Lemma hf_basis : std_basis Pauli gs_B.
Proof.
  split; [split|].
  - apply (built_new [sZ1; sX1]). reflexivity.
  - intros s [<-|[<-|[]]]; [apply ok_Z1 | apply ok_X1].
  - intros s [<-|[<-|[]]]; left; reflexivity.
Qed.
Lemma hf_orth : orthonormal (map snd hf_pairs).
Proof.
  split.
  - intros v [<-|[]]. cbn -[gs_s]. pose proof gs_sq. apply C_ext; cbn -[gs_s]; nra.
  - intros [|i] [|j] u v Hij Ei Ej; cbn in Ei, Ej; try congruence; try (destruct i; discriminate); destruct j; discriminate.
Qed.
Example C102_example : std_cop Pauli gs_init /\ std_basis Pauli gs_B /\ vectors (basis_len gs_B) (map snd hf_pairs) /\ orthonormal (map snd hf_pairs) /\
  highest_fidelity_operator gs_init hf_pairs gs_B = Ok (Some (gs_v, 3%R), (/ 2)%R).
Proof.
  split; [apply gs_std_init|]. split; [apply hf_basis|]. split; [intros v [<-|[]]; reflexivity|]. split; [apply hf_orth|].
  pose proof gs_sq as Q. pose proof gs_pos as P.
  unfold highest_fidelity_operator. change (filter _ _) with [(RtoC 1, sZ1)]. change (rmap _ [(RtoC 1, sZ1)]) with (Ok [(0, RtoC 1)]). cbn [rbind fold_left]. 
  change (list_set (vzero (basis_len gs_B)) (fst (0, RtoC 1)) (snd (0, RtoC 1))) with [RtoC 1; RtoC 0]. cbv zeta. unfold hf_pairs. cbn [fold_left snd fst].
  assert (Ov : vdot gs_v [RtoC 1; RtoC 0] = RtoC gs_s) by (rewrite vdot_inner; apply C_ext; cbn -[gs_s]; ring).
  rewrite Ov. assert (Ew : vadd (vzero (basis_len gs_B)) (vscale (RtoC gs_s) gs_v) = [RtoC (/ 2); RtoC (/ 2)]).
  { cbn -[gs_s]. repeat f_equal; apply C_ext; cbn -[gs_s]; nra. }
  rewrite Ew. assert (En : vnorm [RtoC (/ 2); RtoC (/ 2)] = gs_s). { unfold vnorm. cbn. replace (_ + _)%R with (gs_s * gs_s)%R by nra. apply sqrt_square. lra. }
  rewrite En. destruct (Req_EM_T gs_s 0); [lra|].
  assert (Ei : (/ gs_s = 2 * gs_s)%R) by (apply (Rmult_eq_reg_l gs_s); [rewrite Rinv_r by auto; lra | auto]).
  assert (Ec : (Cmod (RtoC gs_s) ^ 2 = / 2)%R) by (rewrite cmod_sq; cbn -[gs_s]; nra).
  rewrite Ec, (Rabs_pos_eq 3) by lra. replace (gs_s ^ 2)%R with (/ 2)%R by (cbn -[gs_s]; lra). rewrite Ei.
  assert (E1 : vscale (RtoC (2 * gs_s)) [RtoC (/ 2); RtoC (/ 2)] = gs_v) by (unfold gs_v, vscale; cbn [map]; repeat f_equal; apply C_ext; cbn -[gs_s]; lra).
  rewrite E1. replace ((0 + / 2 * 3) / / 2)%R with 3%R by field. reflexivity.
Qed.
