(** C114-C116: the normal modes of quadratic Operators. *)
From Coq Require Import List ZArith Bool Arith Lia Permutation Sorted Setoid Morphisms Reals QArith Qreals Qcanon Lra.
From Coquelicot Require Import Complex.
From Verif Require Import GC Exn S_Alg S_Den S_Basis S_Conv S_RScal S_CFock S_CScal M_OpString M_Basis M_Conversion M_LinAlg M_Quad M_Core M_Greedy M_Modes S_LinAlg S_Core S_Greedy S_Quad S_Modes
  L_Alg L_Module L_CScal L_LinAlg L_Inter L_Herm L_Sparsify L_Quad L_Quad2 L_Quad3 L_Diagonalize L_Modes L_Modes2 L_Modes3 L_Modes4 L_Modes5 L_Modes6 L_CFock L_Conversion P_Greedy P_Quad.
Import M_LinAlg ListNotations.
Local Open Scope nat_scope.
Local Open Scope alg_scope.

(** C114.  With an exact eigensolver the n pairs (e, v) of [diagonalize_quadratic_tightbinding] give
    fermions f = Σ_j conj(v_j) c_j, and the Operator is Σ e f^* f. *)
Theorem C114_modes : forall Or o r n, convert (COperator o) Fermion false = Ok r ->
  (forall t, In t (op_terms r) -> real (fst t) /\ hopping n (snd t)) ->
  (forall M, tightbinding_matrix o n = Ok M -> exact_solution n (zentry M) (md_eigh Or None (rows_z n (zentry M)))) ->
  exists ps, diagonalize_tightbinding Or o n None = Ok ps /\ length ps = n /\
  forall (A : StarAlg) (S : RScal A) (c : Z -> A), CAR A c ->
    fermion_list (map (fun p => mode_of S n (snd p) c) ps) /\
    means c (op_terms r) == occupation S (map (fun p => (fst p, mode_of S n (snd p) c)) ps).
Proof.
  intros Or o r n Er Ht Hx. destruct (C59_tight_binding o r n Er (fun t H => proj2 (Ht t H))) as (M & EM & Ed & Hh & Hf).
  destruct (Hx M EM Hh) as [Hs Ho]. unfold diagonalize_tightbinding. rewrite EM. cbn [rbind]. rewrite z_array_rows, Ed. eexists. split; [reflexivity|].
  assert (V := full_vectors n _ _ (rows_z_length n (zentry M)) (proj1 Hs)). split.
  - apply (full_length n (rows_z n (zentry M))); auto; [apply rows_z_length | apply Hs|]. destruct Hs as [_ Hs]. rewrite rows_z_length in Hs. exact Hs.
  - intros A S c HC. split.
    + rewrite <- (map_map snd (fun v => mode_of S n v c)). apply tb_fermions; auto.
    + rewrite (Hf (fun t H => proj1 (Ht t H))). apply tb_sum; auto.
Qed.
Print Assumptions C114_modes.
(** With num_vecs = k, the k pairs are raised by f^* and no eigenvalue of the matrix outside their span is lower. *)
Theorem C114_lowest : forall Or o r n k, convert (COperator o) Fermion false = Ok r ->
  (forall t, In t (op_terms r) -> real (fst t) /\ hopping n (snd t)) ->
  (forall M, tightbinding_matrix o n = Ok M -> S_Quad.hermitian (zentry M) -> lowest_solution k (rows_z n (zentry M)) (md_eigh Or (Some (k, None)) (rows_z n (zentry M)))) ->
  exists ps M, diagonalize_tightbinding Or o n (Some k) = Ok ps /\ length ps = k /\ tightbinding_matrix o n = Ok M /\
  (forall e v, In (e, v) ps -> length v = n /\ v <> repeat (RtoC 0) n /\
     forall (A : StarAlg) (S : RScal A) (c : Z -> A), CAR A c -> ladder S (means c (op_terms r)) e ((mode_of S n v c)^*)) /\
  (forall mu w, length w = n -> rows_vec (rows_z n (zentry M)) w = map (Cmult (RtoC mu)) w ->
     span n (map snd ps) w \/ forall e v, In (e, v) ps -> (e <= mu)%R).
Proof.
  intros Or o r n k Er Ht Hx. destruct (C59_tight_binding o r n Er (fun t H => proj2 (Ht t H))) as (M & EM & Ed & Hh & Hf).
  destruct (Hx M EM Hh) as (He & Lk & Hl). unfold diagonalize_tightbinding. rewrite EM. cbn [rbind]. rewrite z_array_rows, Ed. eexists. exists M. split; [reflexivity|]. split; auto. split; auto.
  rewrite rows_z_length in Hl. split; auto. intros e v Hin. destruct (He e v Hin) as (Lv & Nv & Ev). rewrite rows_z_length in Lv, Nv. split; auto. split; auto.
  intros A S c HC. unfold ladder. rewrite (Hf (fun t H => proj1 (Ht t H)) A c). apply tb_ladder; auto.
Qed.
Print Assumptions C114_lowest.
(** Operators with other strings are refused. *)
Theorem C114_refused : forall Or o r n nv t, convert (COperator o) Fermion false = Ok r -> In t (op_terms r) -> os_ops (snd t) <> [OCDag; OC] ->
  exists e, diagonalize_tightbinding Or o n nv = Err e.
Proof.
  intros Or o r n nv t Er Hin Hne. unfold diagonalize_tightbinding, tightbinding_matrix, concat_terms. rewrite Er. cbn [rbind].
  destruct (rmap tb_term (op_terms r)) as [l|e] eqn:E; [|exists e; reflexivity]. exfalso.
  assert (X : exists y, tb_term t = Ok y).
  { clear - E Hin. revert l E. induction (op_terms r) as [|a ts IH]; intros l E; [destruct Hin|]. cbn [rmap] in E. destruct (tb_term a) as [y|] eqn:Ea; [|discriminate]. cbn [rbind] in E.
    destruct (rmap tb_term ts) as [l'|]; [|discriminate]. destruct Hin as [<-|Hin]; [eauto | eapply IH; eauto]. }
  destruct X as [y X]. unfold tb_term in X. destruct (os_ops (snd t)) as [|[] [|[] [|]]]; try discriminate. apply Hne; auto.
Qed.
Print Assumptions C114_refused.

(** C115.  With an exact eigensolver [diagonalize_bdg] returns n energies and columns u, v of U and V
    so that γ = Σ_j conj(u_j) c_j + conj(v_j) c^*_j satisfies [H, γ] = e γ with e >= 0, in descending order;
    the anticommutators of γ and γ^* are those of fermions. *)
Theorem C115_ladder : forall Or o r n sigma, (o_type o = Fermion /\ r = o) \/ (o_type o = Majorana /\ convert (COperator o) Fermion false = Ok r) ->
  (forall t, In t (op_terms r) -> real (fst t) /\ quadratic_fermion n (snd t)) -> sorts_reals (md_sort Or) ->
  (forall M, bdg_matrix o n = Ok M -> exact_solution (2 * n) (zentry M) (md_eigh Or None (rows_z (2 * n) (zentry M)))) ->
  exists es us vs, diagonalize_bdg Or o n sigma None = Ok (es, us, vs) /\ length es = n /\ length us = n /\ length vs = n /\
  (forall v, In v us \/ In v vs -> length v = n) /\ StronglySorted Rge es /\ (forall e, In e es -> (0 <= e)%R) /\
  forall (A : StarAlg) (S : RScal A) (c : Z -> A), CAR A c ->
    (forall k e u v, nth_error es k = Some e -> nth_error us k = Some u -> nth_error vs k = Some v -> ladder S (means c (op_terms r)) e (bogoliubov S n u v c)) /\
    (forall j k u v u' v', nth_error us j = Some u -> nth_error vs j = Some v -> nth_error us k = Some u' -> nth_error vs k = Some v' ->
       bogoliubov S n u v c * (bogoliubov S n u' v' c)^* + (bogoliubov S n u' v' c)^* * bogoliubov S n u v c == (if Nat.eqb j k then g1 else g0) · aone).
Proof. exact bdg_result. Qed.
Print Assumptions C115_ladder.
(** If all energies are positive, the γ are fermions, and the Operator is Σ e (γ γ^* - ½) + ½ tr. *)
Theorem C115_modes : forall Or o r n sigma es us vs, (o_type o = Fermion /\ r = o) \/ (o_type o = Majorana /\ convert (COperator o) Fermion false = Ok r) ->
  (forall t, In t (op_terms r) -> real (fst t) /\ quadratic_fermion n (snd t)) -> sorts_reals (md_sort Or) ->
  (forall M, bdg_matrix o n = Ok M -> exact_solution (2 * n) (zentry M) (md_eigh Or None (rows_z (2 * n) (zentry M)))) ->
  diagonalize_bdg Or o n sigma None = Ok (es, us, vs) -> (forall e, In e es -> (0 < e)%R) -> exists M, bdg_matrix o n = Ok M /\
  forall (A : StarAlg) (S : RScal A) (c : Z -> A), CAR A c ->
    let gs := map (fun q => bogoliubov S n (fst q) (snd q) c) (combine us vs) in
    fermion_list gs /\ means c (op_terms r) + rs S (rtotal es / 2) aone == emptiness S (combine es gs) + gmul half (trace n (zentry M)) · aone.
Proof. intros Or o r n sigma es us vs H1 H2 H3 H4. exact (bdg_result_positive Or o r n sigma H1 H2 H3 H4 es us vs). Qed.
Print Assumptions C115_modes.

(** With num_vecs = k the solver is called with k and sigma; of its pairs, sorted, the first n are kept, and
    the γ of an eigenvalue l satisfies [H, γ] = -l γ; the energy returned is |l|. *)
Theorem C115_num_vecs : forall Or o r n k sigma, (o_type o = Fermion /\ r = o) \/ (o_type o = Majorana /\ convert (COperator o) Fermion false = Ok r) ->
  (forall t, In t (op_terms r) -> real (fst t) /\ quadratic_fermion n (snd t)) -> sorts_reals (md_sort Or) ->
  (forall M, bdg_matrix o n = Ok M -> S_Quad.hermitian (zentry M) ->
     eigenpairs (rows_z (2 * n) (zentry M)) (md_eigh Or (Some (k, sigma)) (rows_z (2 * n) (zentry M))) /\
     length (md_eigh Or (Some (k, sigma)) (rows_z (2 * n) (zentry M))) = k) ->
  exists M qs es us vs, bdg_matrix o n = Ok M /\ Permutation qs (md_eigh Or (Some (k, sigma)) (rows_z (2 * n) (zentry M))) /\ StronglySorted Rle (map fst qs) /\
  diagonalize_bdg Or o n sigma (Some k) = Ok (es, us, vs) /\ length es = min n k /\ length us = min n k /\ length vs = min n k /\
  forall i l w e u v, nth_error qs i = Some (l, w) -> nth_error es i = Some e -> nth_error us i = Some u -> nth_error vs i = Some v ->
    e = Rabs l /\ w = u ++ v /\ length u = n /\ length v = n /\
    forall (A : StarAlg) (S : RScal A) (c : Z -> A), CAR A c -> ladder S (means c (op_terms r)) (- l) (bogoliubov S n u v c).
Proof. exact bdg_result_some. Qed.
Print Assumptions C115_num_vecs.

(* ------------------------------------------------------------- examples *)

Definition rh : R := sqrt (1 / 2).
Lemma rh_sq : (rh * rh = 1 / 2)%R.
Proof. apply sqrt_sqrt. lra. Qed.
Definition cvec (l : list R) : list C := map RtoC l.
Lemma exact_of m F ps : length ps = m -> (forall l v, In (l, v) ps -> length v = m /\ rows_vec (rows_z m F) v = map (Cmult (RtoC l)) v) -> orthonormal (map snd ps) -> exact_solution m F ps.
Proof.
  intros L E O _. assert (V : vectors m (map snd ps)) by (intros v Hv; apply in_map_iff in Hv; destruct Hv as ([l v'] & <- & H); apply (E l v' H)).
  split; auto. split.
  - intros l v H. destruct (E l v H) as [L1 E1]. rewrite rows_z_length. split; auto. split; auto. intros ->.
    assert (X : inner (repeat (RtoC 0) m) (repeat (RtoC 0) m) = RtoC 1) by (apply O; apply in_map_iff; exists (l, repeat (RtoC 0) m); auto).
    pose proof (inner_zero_l m (vzero m)) as Z0. unfold vzero in Z0. rewrite X in Z0. apply RtoC_inj in Z0. lra.
  - rewrite rows_z_length. apply orthonormal_full; auto. rewrite map_length. auto.
Qed.
Definition rdot (u v : list R) : R := fold_right Rplus 0%R (map (fun p => fst p * snd p)%R (combine u v)).
Lemma inner_cvec u : forall v, inner (cvec u) (cvec v) = RtoC (rdot u v).
Proof.
  induction u as [|x u IH]; intros [|y v]; auto. unfold inner, cvec, rdot in *. cbn [map zip_with fold_right combine fst snd].
  rewrite IH. rewrite RtoC_plus, RtoC_mult, Cconj_R. auto.
Qed.
Lemma rows_cvec rows v : rows_vec (map cvec rows) (cvec v) = cvec (map (fun r => rdot r v) rows).
Proof.
  unfold rows_vec, cvec. rewrite !map_map. apply map_ext. intros r. fold (cvec r). revert v. induction r as [|x r IH]; intros [|y v]; auto.
  unfold csum, cvec, rdot in *. cbn [map zip_with fold_right combine fst snd]. rewrite IH, RtoC_plus, RtoC_mult. auto.
Qed.
Lemma scale_cvec l v : map (Cmult (RtoC l)) (cvec v) = cvec (map (Rmult l) v).
Proof. unfold cvec. rewrite !map_map. apply map_ext. intros x. symmetry. apply RtoC_mult. Qed.
Lemma real_orthonormal (vs : list (list R)) : (forall i j u v, nth_error vs i = Some u -> nth_error vs j = Some v -> rdot u v = if Nat.eqb i j then 1%R else 0%R) -> orthonormal (map cvec vs).
Proof.
  intros H. split.
  - intros v Hv. apply in_map_iff in Hv. destruct Hv as (u & <- & Hu). apply In_nth_error in Hu. destruct Hu as (i & Hi). rewrite inner_cvec, (H i i u u Hi Hi), Nat.eqb_refl. auto.
  - intros i j v w Hi Hj N. apply nth_map_inv in Hi, Hj. destruct Hi as (p & Ei & ->), Hj as (q & Ej & ->). rewrite inner_cvec, (H i j p q Ei Ej). destruct (Nat.eqb_spec i j); [contradiction | auto].
Qed.
(** A solver for a real matrix. *)
Lemma real_exact m F rows (ps : list (R * list R)) : rows_z m F = map cvec rows -> length ps = m ->
  (forall l v, In (l, v) ps -> length v = m /\ map (fun r => rdot r v) rows = map (Rmult l) v) ->
  (forall i j u v, nth_error (map snd ps) i = Some u -> nth_error (map snd ps) j = Some v -> rdot u v = if Nat.eqb i j then 1%R else 0%R) ->
  exact_solution m F (map (fun p => (fst p, cvec (snd p))) ps).
Proof.
  intros ER L E O. apply exact_of; [rewrite map_length; auto | | rewrite map_map; cbn [snd]; rewrite <- (map_map snd cvec); apply real_orthonormal; auto].
  intros l v H. apply in_map_iff in H. destruct H as ([l' v'] & X & H). cbn [fst snd] in X. assert (X1 : l' = l) by (injection X; auto). assert (X2 : cvec v' = v) by (injection X; auto). subst l v. destruct (E l' v' H) as [L1 E1].
  split; [unfold cvec; rewrite map_length; auto|]. transitivity (rows_vec (map cvec rows) (cvec v')); [f_equal; exact ER|]. rewrite rows_cvec, E1, <- scale_cvec. auto.
Qed.
Lemma some_inj {T} (x y : T) : Some x = Some y -> x = y.
Proof. intros H. injection H. auto. Qed.
Definition md_of (ps : list (R * list R)) : mdoracles := mkMd (fun _ _ => map (fun p => (fst p, cvec (snd p))) ps) argsort.

Definition m_hop : OS := mkOS [OCDag; OC] [0%Z; 1%Z] Fermion p_one.
Definition m_pair : OS := mkOS [OCDag; OCDag] [0%Z; 1%Z] Fermion p_one.
Ltac real_rows := unfold rows_z, cvec; cbn [below seq map];
  repeat match goal with |- _ :: _ = _ :: _ => apply f_equal2 | |- [] = [] => reflexivity end;
  unfold to_C, RtoC; apply f_equal2; match goal with |- Q2R ?q = _ => let q' := eval vm_compute in q in change q with q'; unfold Q2R; cbn [Qnum Qden]; lra end.
Ltac rlists := cbn; repeat match goal with |- _ :: _ = _ :: _ => apply f_equal2 | |- [] = [] => reflexivity end; try lra; pose proof rh_sq; try nra.
Ltac each_pair H := cbn [In] in H; repeat match type of H with _ \/ _ => destruct H as [H|H] end; try contradiction; apply pair_equal_spec in H; destruct H as [<- <-].

(** Example: c^*_0 c_1 + h.c. has the modes (c_0 ∓ c_1)/√2. *)
Definition tb_pairs : list (R * list R) := [((-1)%R, [rh; (- rh)%R]); (1%R, [rh; rh])].
Example C114_example : exists o, op_new [g1] [m_hop] None = Ok o /\ convert (COperator o) Fermion false = Ok o /\
  (forall t, In t (op_terms o) -> real (fst t) /\ hopping 2 (snd t)) /\
  (forall M, tightbinding_matrix o 2 = Ok M -> exact_solution 2 (zentry M) (md_eigh (md_of tb_pairs) None (rows_z 2 (zentry M)))) /\
  diagonalize_tightbinding (md_of tb_pairs) o 2 None = Ok [((-1)%R, cvec [rh; (- rh)%R]); (1%R, cvec [rh; rh])] /\
  exists (A : StarAlg) (S : RScal A) (c : Z -> A), CAR A c /\ ~ (@aone A == azero).
Proof.
  eexists. split; [vm_compute; reflexivity|]. split; [vm_compute; reflexivity|]. split; [|split; [|split] ].
  - intros t H. destruct H as [<-|[] ]. split; [reflexivity|]. exists 0%Z, 1%Z. repeat split; cbn; auto; lia.
  - intros M EM. vm_compute in EM. injection EM as <-. apply (real_exact 2 _ [[0; 1]; [1; 0]]%R tb_pairs); [real_rows | reflexivity | |].
    + intros l v H. unfold tb_pairs in H. each_pair H; (split; [reflexivity | rlists]).
    + intros [|[|[|]]] [|[|[|]]] u v X Y; cbn in X, Y; try discriminate; apply some_inj in X, Y; subst; rlists.
  - unfold diagonalize_tightbinding. match goal with |- context [tightbinding_matrix ?o 2] => destruct (tightbinding_matrix o 2) as [M|] eqn:EM end; [reflexivity | vm_compute in EM; discriminate].
  - exists CFock, cfock_real, (cmaj cgen). split; [apply cmaj_car; exact cfock_majorana | exact cfock_nontrivial].
Qed.

Definition tb_lowest : list (R * list R) := [((-1)%R, [rh; (- rh)%R])].
Example C114_lowest_example : exists o, op_new [g1] [m_hop] None = Ok o /\ convert (COperator o) Fermion false = Ok o /\
  forall M, tightbinding_matrix o 2 = Ok M -> S_Quad.hermitian (zentry M) -> lowest_solution 1 (rows_z 2 (zentry M)) (md_eigh (md_of tb_lowest) (Some (1, None)) (rows_z 2 (zentry M))).
Proof.
  eexists. split; [vm_compute; reflexivity|]. split; [vm_compute; reflexivity|]. intros M EM _. vm_compute in EM. injection EM as <-.
  match goal with |- lowest_solution 1 (rows_z 2 ?F) _ => assert (ER : rows_z 2 F = map cvec [[0; 1]; [1; 0]]%R) by real_rows end. rewrite ER.
  assert (Nr : rh <> 0%R) by (intros X; pose proof rh_sq as Y; rewrite X in Y; lra). split; [|split; [reflexivity|] ].
  - intros l v [H|[] ]. cbn [fst snd] in H. apply pair_equal_spec in H. destruct H as [<- <-]. split; [reflexivity|]. split.
    + intros X. apply (f_equal (fun l => nth 0 l (RtoC 0))) in X. apply RtoC_inj in X. auto.
    + rewrite rows_cvec, scale_cvec. f_equal. rlists.
  - cbn [length map]. intros mu [|a [|b [|]]] L E; try discriminate. pose proof (f_equal (fun l => nth 0 l (RtoC 0)) E) as E0. pose proof (f_equal (fun l => nth 1 l (RtoC 0)) E) as E1. clear E.
    cbn [rows_vec map cvec nth zip_with] in E0, E1. unfold csum in E0, E1. cbn [fold_right] in E0, E1.
    destruct (Ceq_dec (a + b)%C (RtoC 0)) as [Z|Nz].
    + left. assert (Eb : b = (- a)%C) by (replace b with (a + b - a)%C by ring; rewrite Z; ring). subst b.
      replace [a; (- a)%C] with (zip_with Cplus (map (Cmult (a / RtoC rh)%C) (cvec [rh; (- rh)%R])) (repeat (RtoC 0) 2)); [apply span_add; [left; reflexivity | apply span_zero]|].
      assert (Nc : RtoC rh <> RtoC 0) by (intros X; apply RtoC_inj in X; auto).
      cbn [cvec map zip_with repeat]. apply f_equal2; [field; auto|]. apply f_equal2; [rewrite RtoC_opp; field; auto | reflexivity].
    + right. intros l v [H|[] ]. cbn [fst snd] in H. apply pair_equal_spec in H. destruct H as [<- _].
      assert (X : RtoC mu = RtoC 1).
      { assert (Y : (RtoC mu * (a + b))%C = (RtoC 1 * (a + b))%C) by (transitivity (RtoC mu * a + RtoC mu * b)%C; [ring|]; rewrite <- E0, <- E1; ring).
        replace (RtoC mu) with (RtoC mu * (a + b) / (a + b))%C by (field; auto). rewrite Y. field. auto. }
      apply RtoC_inj in X. lra.
Qed.

(** Example: c^*_0 c^*_1 + h.c. *)
Definition pair_pairs : list (R * list R) := [((-1)%R, [rh; 0; 0; (- rh)%R]%R); ((-1)%R, [0; rh; rh; 0]%R); (1%R, [rh; 0; 0; rh]%R); (1%R, [0; rh; (- rh); 0]%R)].
Lemma low_energies Or o n ps es us vs M sigma : sorts_reals (md_sort Or) -> bdg_matrix o n = Ok M -> md_eigh Or None (z_array M) = ps ->
  diagonalize_bdg Or o n sigma None = Ok (es, us, vs) -> forall e, In e es -> exists l v, In (l, v) ps /\ e = Rabs l.
Proof.
  intros Hs EM Ep E e He. unfold diagonalize_bdg in E. rewrite EM in E. cbn [rbind] in E. rewrite Ep in E. destruct (take ps (md_sort Or (map fst ps))) as [qs|] eqn:Eq; [|discriminate]. cbn [rbind] in E.
  assert (E1 : es = map (fun p => Rabs (fst p)) (firstn n qs)) by (injection E; auto). rewrite E1 in He. apply in_map_iff in He. destruct He as ([l v] & <- & Hin). exists l, v. split; auto.
  destruct (Hs (map fst ps)) as [P _]. rewrite map_length in P. apply (Permutation_in _ (take_perm ps _ qs P Eq)). rewrite <- (firstn_skipn n qs). apply in_or_app; auto.
Qed.
Example C115_example : exists o es us vs, op_new [g1] [m_pair] None = Ok o /\ o_type o = Fermion /\
  (forall t, In t (op_terms o) -> real (fst t) /\ quadratic_fermion 2 (snd t)) /\ sorts_reals (md_sort (md_of pair_pairs)) /\
  (forall M, bdg_matrix o 2 = Ok M -> exact_solution (2 * 2) (zentry M) (md_eigh (md_of pair_pairs) None (rows_z (2 * 2) (zentry M)))) /\
  diagonalize_bdg (md_of pair_pairs) o 2 None None = Ok (es, us, vs) /\ es = [1%R; 1%R] /\ forall e, In e es -> (0 < e)%R.
Proof.
  destruct (op_new [g1] [m_pair] None) as [o|] eqn:Eo; [|discriminate].
  assert (Ht : forall t, In t (op_terms o) -> real (fst t) /\ quadratic_fermion 2 (snd t)).
  { vm_compute in Eo. injection Eo as <-. intros t H. destruct H as [<-|[] ]. split; [reflexivity|]. right. exists 0%Z, 1%Z. repeat split; cbn; auto; lia. }
  assert (Hx : forall M, bdg_matrix o 2 = Ok M -> exact_solution (2 * 2) (zentry M) (md_eigh (md_of pair_pairs) None (rows_z (2 * 2) (zentry M)))).
  { vm_compute in Eo. injection Eo as <-. intros M EM. vm_compute in EM. injection EM as <-. apply (real_exact 4 _ [[0; 0; 0; 1]; [0; 0; -1; 0]; [0; -1; 0; 0]; [1; 0; 0; 0]]%R pair_pairs); [real_rows | reflexivity | |].
    + intros l v H. unfold pair_pairs in H. each_pair H; (split; [reflexivity | rlists]).
    + intros [|[|[|[|[|]]]]] [|[|[|[|[|]]]]] u v X Y; cbn in X, Y; try discriminate; apply some_inj in X, Y; subst; rlists. }
  assert (Hr : (o_type o = Fermion /\ o = o) \/ (o_type o = Majorana /\ convert (COperator o) Fermion false = Ok o)) by (left; vm_compute in Eo; injection Eo as <-; auto).
  assert (Hty : o_type o = Fermion) by (vm_compute in Eo; injection Eo as <-; auto).
  destruct (C115_ladder (md_of pair_pairs) o o 2 None Hr Ht argsort_sorts Hx) as (es & us & vs & E & Le & _). exists o, es, us, vs.
  assert (EM : exists M, bdg_matrix o 2 = Ok M) by (vm_compute in Eo; injection Eo as <-; eexists; vm_compute; reflexivity). destruct EM as [M EM].
  assert (H1 : forall e, In e es -> e = 1%R).
  { intros e He. destruct (low_energies (md_of pair_pairs) o 2 _ es us vs M None argsort_sorts EM eq_refl E e He) as (l & v & Hin & ->).
    apply in_map_iff in Hin. destruct Hin as ([l' v'] & X & Hin). cbn [fst snd] in X. assert (X1 : l' = l) by (injection X; auto). subst l'. unfold pair_pairs in Hin.
    each_pair Hin; unfold Rabs; destruct (Rcase_abs _); lra. }
  do 6 (split; [first [reflexivity | apply argsort_sorts | assumption]|]). split.
  - destruct es as [|e1 [|e2 [|]]]; try discriminate. rewrite (H1 e1), (H1 e2) by (cbn; auto). auto.
  - intros e He. rewrite (H1 e He). lra.
Qed.

(** C116 is false: with zero energies the γ need not be fermions.  For the Kitaev chain
    -c^*_0 c_1 + c^*_0 c^*_1 + h.c. an exact solver may return γ = (c_0 - c^*_0)/√2, whose square is -½. *)
Definition kit_pairs : list (R * list R) := [((-2)%R, [1/2; 1/2; 1/2; -1/2]%R); (0%R, [rh; 0; (- rh); 0]%R); (0%R, [0; rh; 0; rh]%R); (2%R, [1/2; -1/2; 1/2; 1/2]%R)].
Theorem C116_zero_modes_refuted : exists Or o es us vs u v, op_new [gm1; g1] [m_hop; m_pair] None = Ok o /\ o_type o = Fermion /\
  (forall t, In t (op_terms o) -> real (fst t) /\ quadratic_fermion 2 (snd t)) /\ sorts_reals (md_sort Or) /\
  (forall M, bdg_matrix o 2 = Ok M -> exact_solution (2 * 2) (zentry M) (md_eigh Or None (rows_z (2 * 2) (zentry M)))) /\
  diagonalize_bdg Or o 2 None None = Ok (es, us, vs) /\ es = [2%R; 0%R] /\ nth_error us 1 = Some u /\ nth_error vs 1 = Some v /\
  forall (A : StarAlg) (S : RScal A) (c : Z -> A), CAR A c -> bogoliubov S 2 u v c * bogoliubov S 2 u v c == gopp half · aone.
Proof.
  destruct (op_new [gm1; g1] [m_hop; m_pair] None) as [o|] eqn:Eo; [|discriminate].
  exists (md_of kit_pairs), o, [2%R; 0%R], [cvec [1/2; 1/2]%R; cvec [rh; 0]%R], [cvec [1/2; -1/2]%R; cvec [- rh; 0]%R], (cvec [rh; 0]%R), (cvec [- rh; 0]%R).
  split; [auto|]. split; [vm_compute in Eo; injection Eo as <-; auto|]. split; [|split; [|split; [|split] ] ].
  - vm_compute in Eo. injection Eo as <-. intros t H. destruct H as [<-|[<-|[] ] ]; (split; [reflexivity|]); [left | right]; exists 0%Z, 1%Z; repeat split; cbn; auto; lia.
  - apply argsort_sorts.
  - vm_compute in Eo. injection Eo as <-. intros M EM. vm_compute in EM. injection EM as <-. apply (real_exact 4 _ [[0; -1; 0; 1]; [-1; 0; -1; 0]; [0; -1; 0; 1]; [1; 0; 1; 0]]%R kit_pairs); [real_rows | reflexivity | |].
    + intros l v H. unfold kit_pairs in H. each_pair H; (split; [reflexivity | rlists]).
    + intros [|[|[|[|[|]]]]] [|[|[|[|[|]]]]] u v X Y; cbn in X, Y; try discriminate; apply some_inj in X, Y; subst; rlists.
  - assert (EM : exists M, bdg_matrix o 2 = Ok M) by (vm_compute in Eo; injection Eo as <-; eexists; vm_compute; reflexivity). destruct EM as [M EM]. unfold diagonalize_bdg. rewrite EM. cbn [rbind].
    assert (Es : argsort [(-2)%R; 0%R; 0%R; 2%R] = [0; 1; 2; 3]).
    { unfold argsort. cbn [length seq fold_right rins nth]. repeat (destruct (Rle_lt_dec _ _); try lra; cbn [rins nth]). reflexivity. }
    change (md_sort (md_of kit_pairs) (map fst (md_eigh (md_of kit_pairs) None (z_array M)))) with (argsort [(-2)%R; 0%R; 0%R; 2%R]). rewrite Es. clear.
    unfold md_of, md_eigh, kit_pairs, take. cbn [map rmap nth_error of_option rbind fst snd firstn skipn cvec]. 
    replace (Rabs (-2)) with 2%R by (unfold Rabs; destruct (Rcase_abs _); lra). rewrite Rabs_R0. reflexivity.
  - split; auto. split; auto. split; auto. intros A S c HC.
    assert (Ls : length (cvec [rh; 0]%R ++ cvec [- rh; 0]%R) = 4) by reflexivity.
    assert (X := bdg_anti S 2 c HC _ _ Ls Ls). rewrite (mode_split S 2 c (cvec [rh; 0]%R) (cvec [- rh; 0]%R) eq_refl eq_refl) in X.
    rewrite (cs_eq S _ (RtoC (-1))) in X.
    + set (x := bogoliubov _ _ _ _ _ * _) in *. transitivity (half · (x + x)); [msolve [x]; apply GC_ext; apply Qc_is_canon; vm_compute; reflexivity|]. rewrite X, cs_real, rs_half.
      assert (Y := rs_half S (-1) aone). assert (Y2 := rs_opp S 1 aone). rewrite <- Y. replace (-1)%R with (- (1))%R by lra. rewrite Y2. rewrite <- cs_real, cs_1, ascal_ascal. replace (gmul half gm1) with (gopp half) by (apply GC_ext; apply Qc_is_canon; vm_compute; reflexivity). reflexivity.
    + assert (Ep : partner 2 (cvec [rh; 0]%R ++ cvec [- rh; 0]%R) = cvec [- rh; 0; rh; 0]%R).
      { change (partner 2 (cvec [rh; 0]%R ++ cvec [- rh; 0]%R)) with [Cconj (RtoC (- rh)); Cconj (RtoC 0); Cconj (RtoC rh); Cconj (RtoC 0)]. rewrite !Cconj_R. reflexivity. }
      rewrite Ep. change (cvec [rh; 0]%R ++ cvec [- rh; 0]%R) with (cvec [rh; 0; - rh; 0]%R). rewrite inner_cvec. f_equal. unfold rdot. cbn [combine map fold_right fst snd]. pose proof rh_sq. lra.
Qed.
Print Assumptions C116_zero_modes_refuted.
(** With num_vecs the solver may return positive eigenvalues (for c^*_0 c^*_1 + h.c., num_vecs = 1 and sigma = 3/2
    the eigenvalue 1, the one below sigma); then γ lowers the energy instead of raising it. *)
Definition upper_pairs : list (R * list R) := [(1%R, [rh; 0; 0; rh]%R)].
Theorem C116_num_vecs_refuted : exists Or o sigma u v, op_new [g1] [m_pair] None = Ok o /\ o_type o = Fermion /\
  (forall t, In t (op_terms o) -> real (fst t) /\ quadratic_fermion 2 (snd t)) /\ sorts_reals (md_sort Or) /\
  (forall M, bdg_matrix o 2 = Ok M -> eigenpairs (rows_z 4 (zentry M)) (md_eigh Or (Some (1, sigma)) (rows_z 4 (zentry M)))) /\
  diagonalize_bdg Or o 2 sigma (Some 1) = Ok ([1%R], [u], [v]) /\
  forall (A : StarAlg) (S : RScal A) (c : Z -> A), CAR A c -> ~ (@aone A == azero) ->
    ladder S (means c (op_terms o)) (-1) (bogoliubov S 2 u v c) /\ ~ ladder S (means c (op_terms o)) 1 (bogoliubov S 2 u v c).
Proof.
  destruct (op_new [g1] [m_pair] None) as [o|] eqn:Eo; [|discriminate].
  assert (Hty : o_type o = Fermion) by (vm_compute in Eo; injection Eo as <-; auto).
  assert (Ht : forall t, In t (op_terms o) -> real (fst t) /\ quadratic_fermion 2 (snd t)).
  { vm_compute in Eo. injection Eo as <-. intros t H. destruct H as [<-|[] ]. split; [reflexivity|]. right. exists 0%Z, 1%Z. repeat split; cbn; auto; lia. }
  destruct (bdg_ok o o 2 (or_introl (conj Hty eq_refl)) Ht) as (M & EM & Ed & Hh & Hp & Hf).
  assert (ER : rows_z 4 (zentry M) = map cvec [[0; 0; 0; 1]; [0; 0; -1; 0]; [0; -1; 0; 0]; [1; 0; 0; 0]]%R).
  { clear - Eo EM. vm_compute in Eo. injection Eo as <-. vm_compute in EM. injection EM as <-. real_rows. }
  assert (EV : rows_vec (rows_z 4 (zentry M)) (cvec [rh; 0; 0; rh]%R) = map (Cmult (RtoC 1)) (cvec [rh; 0; 0; rh]%R)).
  { transitivity (rows_vec (map cvec [[0; 0; 0; 1]; [0; 0; -1; 0]; [0; -1; 0; 0]; [1; 0; 0; 0]]%R) (cvec [rh; 0; 0; rh]%R)); [f_equal; exact ER|]. rewrite rows_cvec, scale_cvec. f_equal. rlists. }
  assert (Nr : rh <> 0%R) by (intros X; pose proof rh_sq as Y; rewrite X in Y; lra).
  exists (md_of upper_pairs), o, (Some (3 / 2)%R), (cvec [rh; 0]%R), (cvec [0; rh]%R). split; auto. split; auto. split; auto. split; [apply argsort_sorts|]. split; [|split].
  - intros M' EM'. rewrite EM in EM'. injection EM' as <-. intros l v [H|[] ]. cbn [fst snd] in H. apply pair_equal_spec in H. destruct H as [<- <-]. rewrite rows_z_length. split; [reflexivity|]. split; [|exact EV].
    intros X. apply (f_equal (fun l => nth 0 l (RtoC 0))) in X. apply RtoC_inj in X. auto.
  - unfold diagonalize_bdg. rewrite EM. cbn [rbind]. change (md_sort (md_of upper_pairs) _) with (argsort [1%R]). change (argsort [1%R]) with [0].
    unfold md_of, md_eigh, upper_pairs, take. cbn [map rmap nth_error of_option rbind fst snd firstn skipn cvec]. rewrite Rabs_R1. reflexivity.
  - intros A S c HC NT. assert (E := mode_split S 2 c (cvec [rh; 0]%R) (cvec [0; rh]%R) eq_refl eq_refl).
    assert (L1 : ladder S (means c (op_terms o)) (- (1)) (bogoliubov S 2 (cvec [rh; 0]%R) (cvec [0; rh]%R) c)).
    { unfold ladder. rewrite <- E, (Hf A c HC). apply bdg_ladder; auto. }
    replace (- (1))%R with (-1)%R in L1 by lra. split; auto. intros L2. unfold ladder in L1, L2. rewrite L1 in L2. apply NT.
    set (g := bogoliubov _ _ _ _ _) in *. assert (Z : g == azero).
    { rewrite aadd_comm, (aadd_comm A (g * _)) in L2. apply aadd_cancel_r in L2. assert (Y := rs_opp S 1 g). replace (- (1))%R with (-1)%R in Y by lra. rewrite Y, <- cs_real, cs_1 in L2.
      apply (ascal_cancel g2); [discriminate|]. rewrite ascal_zero. transitivity (g + g); [msolve [g]; gring|]. rewrite <- L2 at 1. msolve [g]; gring. }
    assert (Y := dual_anti S 4 (nambu 2 c) (nambu_dual S 2 c HC) (cvec [rh; 0]%R ++ cvec [0; rh]%R) (cvec [rh; 0]%R ++ cvec [0; rh]%R) eq_refl eq_refl).
    change 4 with (2 * 2)%nat in Y. rewrite E in Y. fold g in Y. rewrite Z, amul_0_l, amul_0_r, aadd_0_r in Y. rewrite Y.
    rewrite (cs_eq S _ (RtoC 1)), cs_1; [reflexivity|]. change (cvec [rh; 0]%R ++ cvec [0; rh]%R) with (cvec [rh; 0; 0; rh]%R). rewrite inner_cvec. f_equal. unfold rdot. cbn [combine map fold_right fst snd]. pose proof rh_sq. lra.
Qed.
Print Assumptions C116_num_vecs_refuted.

(** Example for C115_num_vecs: the same operator and solver. *)

Example C115_num_vecs_example : exists Or o sigma, op_new [g1] [m_pair] None = Ok o /\ o_type o = Fermion /\
  (forall t, In t (op_terms o) -> real (fst t) /\ quadratic_fermion 2 (snd t)) /\ sorts_reals (md_sort Or) /\
  (forall M, bdg_matrix o 2 = Ok M -> S_Quad.hermitian (zentry M) ->
     eigenpairs (rows_z (2 * 2) (zentry M)) (md_eigh Or (Some (1, sigma)) (rows_z (2 * 2) (zentry M))) /\
     length (md_eigh Or (Some (1, sigma)) (rows_z (2 * 2) (zentry M))) = 1).
Proof.
  destruct (op_new [g1] [m_pair] None) as [o|] eqn:Eo; [|discriminate].
  assert (Hty : o_type o = Fermion) by (vm_compute in Eo; injection Eo as <-; auto).
  assert (Ht : forall t, In t (op_terms o) -> real (fst t) /\ quadratic_fermion 2 (snd t)).
  { vm_compute in Eo. injection Eo as <-. intros t H. destruct H as [<-|[] ]. split; [reflexivity|]. right. exists 0%Z, 1%Z. repeat split; cbn; auto; lia. }
  exists (md_of upper_pairs), o, (Some (3 / 2)%R). split; auto. split; auto. split; auto. split; [apply argsort_sorts|].
  intros M EM _. assert (ER : rows_z 4 (zentry M) = map cvec [[0; 0; 0; 1]; [0; 0; -1; 0]; [0; -1; 0; 0]; [1; 0; 0; 0]]%R).
  { clear - Eo EM. vm_compute in Eo. injection Eo as <-. vm_compute in EM. injection EM as <-. real_rows. }
  assert (EV : rows_vec (rows_z 4 (zentry M)) (cvec [rh; 0; 0; rh]%R) = map (Cmult (RtoC 1)) (cvec [rh; 0; 0; rh]%R)).
  { transitivity (rows_vec (map cvec [[0; 0; 0; 1]; [0; 0; -1; 0]; [0; -1; 0; 0]; [1; 0; 0; 0]]%R) (cvec [rh; 0; 0; rh]%R)); [f_equal; exact ER|]. rewrite rows_cvec, scale_cvec. f_equal. rlists. }
  assert (Nr : rh <> 0%R) by (intros X; pose proof rh_sq as Y; rewrite X in Y; lra).
  split; [|reflexivity]. intros l v [H|[] ]. cbn [fst snd] in H. apply pair_equal_spec in H. destruct H as [<- <-]. rewrite rows_z_length. split; [reflexivity|]. split; [|exact EV].
  intros X. apply (f_equal (fun l => nth 0 l (RtoC 0))) in X. apply RtoC_inj in X. auto.
Qed.
