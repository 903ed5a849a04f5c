(** Properties C108-C109: selected_ci_greedy_many_ops2. *)
From Coq Require Import String List ZArith Bool Arith Lia Permutation Sorted Reals QArith Qreals Qcanon Lra.
From Coquelicot Require Import Complex.
From Verif Require Import GC Exn M_OpString M_Tools M_Algebra M_Basis M_OpAlg M_Transform M_LinAlg M_Explore M_Core M_Greedy M_SelectedCI M_ManyOps2
  S_Alg S_Den S_Basis S_Built S_OpAlg S_Explore S_RScal S_CFock S_CScal S_LinAlg S_Core S_Greedy S_Search S_Fidelity S_Target S_Penalty S_ManyOps2
  L_Alg L_Basis L_Operator L_Heap L_PropBasis L_PropStr L_PropOpAlg L_Explore L_Explore2 L_Explore3 L_Explore4 L_CScal L_CFock L_Lie L_LinAlg L_Inter L_Herm L_Core L_Commuting L_Diag2
  L_Greedy1 L_Greedy2 L_Greedy3 L_Greedy4 L_Search L_Search2 L_Target L_Trans8 L_Penalty L_ManyOps2 P_Core P_Default P_Greedy P_Search P_Fidelity P_SelectedCI P_ManyOps.
Import ListNotations.
Local Open Scope nat_scope.

Lemma orthonormal_firstn k vs : orthonormal vs -> orthonormal (firstn k vs).
Proof.
  intros [O1 O2]. split; [intros v Hv; apply O1; rewrite <- (firstn_skipn k vs); apply in_or_app; auto|].
  intros i j v w Hi Hj N. assert (Li : i < length (firstn k vs)) by (apply nth_error_Some; congruence). assert (Lj : j < length (firstn k vs)) by (apply nth_error_Some; congruence).
  rewrite firstn_length in Li, Lj. rewrite nth_firstn in Hi, Hj by lia. apply (O2 i j); auto.
Qed.

Section Steps2.
  Variables (ty : optype) (H : Operator) (Or : groracles) (rand : nat -> nat -> R) (nHs : list nat) (thr : R) (size num_ops : nat) (orth : option (list COp)).
  Hypotheses (Hty : ty <> Fermion) (HH : std_op ty H) (Heig : real_solver (gr_eig Or)) (Hort : orthonormal_solver (gr_eig Or)) (Hsort : sorts_reals (gr_sort Or)) (Hn : num_ops <> 0) (Horth : forall l, orth = Some l -> Forall (std_cop ty) l).
  Notation cok := (cache_ok ty (b_strings (o_basis H))).
  Definition mst_ok (st : mstate) : Prop :=
    std_basis ty (m_basis st) /\ Forall (on_basis (m_basis st)) (m_cur st) /\ length (m_cur st) = num_ops /\ cok (m_cache st) /\
    std_basis ty (m_prev st) /\ (forall p, m_prevprev st = Some p -> std_basis ty p).

  Lemma stop_iff step b1 prev pp : std_basis ty b1 -> std_basis ty prev -> (forall p, pp = Some p -> std_basis ty p) ->
    (negb (step =? 0) && (same_set b1 prev || match pp with Some p => same_set b1 p | None => false end) = true <->
     repeats step (b_strings prev) (option_map b_strings pp) (b_strings b1)).
  Proof.
    intros Hb Hp Hpp. unfold repeats. rewrite andb_true_iff, orb_true_iff, negb_true_iff, Nat.eqb_neq, (same_set_strings ty) by auto.
    apply and_iff_compat_l. apply or_iff_compat_l. destruct pp as [p|]; cbn [option_map].
    - rewrite (same_set_strings ty) by auto. split; [intros; exists (b_strings p); auto|]. intros (q & E & K). injection E as <-. auto.
    - split; [discriminate|]. intros (q & E & _). discriminate.
  Qed.

  Lemma many2_steps_ok : forall n step st ops norms, mst_ok st -> many2_steps Or rand H orth nHs thr size num_ops n step st = Ok (ops, norms) ->
    many2_found ty H (rec_of ty H orth) nHs thr size (step + n) step (map c_terms (m_cur st)) (b_strings (m_basis st)) (b_strings (m_prev st)) (option_map b_strings (m_prevprev st)) ops norms.
  Proof.
    induction n as [|n IH]; intros step st ops norms (Sb & So & Lc & Sx & Sp & Spp) E; cbn [many2_steps] in E; [injection E as <- <-; cbn; left; lia|].
    assert (G : exists nH b1 x1, nth_error nHs step = Some nH /\ rfold (grow_many Or H nH (m_basis st)) (m_cur st) (m_basis st, m_cache st) = Ok (b1, x1) /\
      match m_cur st with
        | [] => Ok (m_basis st, m_cache st)
        | _ => let! nH := of_option IndexError (nth_error nHs step) in
               rfold (grow_many Or H nH (m_basis st)) (m_cur st) (m_basis st, m_cache st)
        end = Ok (b1, x1)).
    { match type of E with context [rbind ?a _] => destruct a as [[b1 x1]|] eqn:Eg; [|discriminate] end.
      destruct (m_cur st) as [|c cur] eqn:Ec; [cbn in Lc; congruence|]. destruct (nth_error nHs step) as [nH|] eqn:En; [|discriminate]. cbn [of_option rbind] in Eg. exists nH, b1, x1. auto. }
    destruct G as (nH & b1 & x1 & EnH & Eg & Em). rewrite Em in E. clear Em. cbn [rbind] in E.
    destruct (grow_all_spec ty H Hty HH Or nH _ Hsort Sb _ _ _ _ _ Sb Sx So Eg) as (Sb1 & Sx1 & Gr).
    pose proof (stop_iff step b1 (m_prev st) (m_prevprev st) Sb1 Sp Spp) as St.
    destruct (negb (step =? 0) && _) eqn:Es.
    { injection E as <- <-. cbn [many2_found]. right. exists nH, (b_strings b1). split; auto. split; auto. apply St; auto. }
    assert (Ns : ~ repeats step (b_strings (m_prev st)) (option_map b_strings (m_prevprev st)) (b_strings b1)) by (intros F; apply St in F; discriminate). clear St Es.
    destruct (many_vectors Or H orth num_ops b1 x1) as [[qs x2]|] eqn:Ev; [|discriminate]. cbn [rbind] in E.
    destruct (many_vectors_ok ty H Hty HH Or Heig Hort Hsort _ _ _ _ _ _ Horth Sx1 Sb1 Ev) as (Sx2 & Oq & Kq).
    destruct (nth_error qs 0) as [q0|] eqn:Eq0; [|discriminate]. cbn [of_option rbind] in E.
    destruct (take (map snd qs) (seq 0 num_ops)) as [vs|] eqn:Et; [|discriminate]. cbn [rbind] in E.
    destruct (take_prefix _ _ _ Et) as [Evs Lvs].
    destruct (rmap (fun v => cop_new v (b_strings b1) None) vs) as [os|] eqn:Eo; [|discriminate]. cbn [rbind] in E. cbv zeta in E.
    set (r := fold_left _ _ _) in E.
    destruct (gtruncate Or b1 _ thr size) as [b2|] eqn:E2; [|discriminate]. cbn [rbind] in E.
    match type of E with context [rbind ?a _] => destruct a as [cur|] eqn:Ecur; [|discriminate] end. cbn [rbind] in E.
    match type of E with context [rbind ?a _] => destruct a as [[rops rnorms]|] eqn:Er; [|discriminate] end. cbn [rbind] in E. injection E as <- <-.
    set (qs' := firstn num_ops qs). assert (Evs' : vs = map snd qs') by (rewrite Evs; apply firstn_map).
    assert (Kq' : forall q, In q qs' -> In q qs) by (intros q Hq; unfold qs' in Hq; rewrite <- (firstn_skipn num_ops qs); apply in_or_app; auto).
    assert (Vv : vectors (basis_len b1) vs). { intros v Hv. rewrite Evs' in Hv. apply in_map_iff in Hv. destruct Hv as (q & <- & Hq). apply Kq; auto. }
    assert (Ne : b_strings b1 <> []).
    { intros F. destruct (Kq q0 (nth_error_In _ _ Eq0)) as (K1 & _ & K2 & _). unfold basis_len in K1. rewrite F in K1. destruct (snd q0); [|discriminate]. cbn in K2. lra. }
    pose proof (proj2 (proj1 (std_basis_ok ty b1) Sb1)) as Hs1. apply rmap_forall2 in Eo.
    assert (Fo : Forall2 (fun v o => c_coeffs o = v /\ b_strings (c_basis o) = b_strings b1 /\ std_cop ty o) vs os).
    { clear - Eo Vv Hs1 Ne. induction Eo as [|v o vs os E F IH]; constructor; [|apply IH; intros u Hu; apply Vv; right; auto].
      destruct (cop_new_std ty _ _ _ _ Hs1 E) as (O1 & O2 & O3). split; auto. split; auto. apply O3; auto. apply (Vv v). left; auto. }
    assert (Ecs : map c_coeffs os = vs). { clear - Fo. induction Fo as [|v o vs os [E _] F IH]; cbn; auto. f_equal; auto. }
    assert (Los : length os = num_ops) by (rewrite <- Lvs, <- Ecs, map_length; auto).
    assert (Sr : span (length (b_strings b1)) vs (vscale (RtoC (/ vnorm r)) r)).
    { apply (span_scale (basis_len b1) vs). apply (random_span (basis_len b1) vs (fun i => RtoC (rand step i))); auto; [apply span_zero | apply incl_refl]. }
    assert (Lr : length (vscale (RtoC (/ vnorm r)) r) = basis_len b1) by (apply (L_LinAlg.span_length (basis_len b1) vs Vv); exact Sr).
    destruct (gtruncate_spec ty Or Hsort _ _ _ _ _ Sb1 Lr E2) as (Sb2 & kept & P1 & P2).
    pose proof (proj2 (proj1 (std_basis_ok ty b2) Sb2)) as Hs2. apply rmap_forall2 in Ecur.
    assert (Fc : Forall2 (fun v c => c_coeffs c = firstn (basis_len b2) v /\ on_basis b2 c) vs cur).
    { clear - Ecur Hs2 Sb2. induction Ecur as [|v c vs cur E F IH]; constructor; auto.
      destruct (rmap _ (b_strings b2)) as [cs|] eqn:E1; [|discriminate]. cbn [rbind] in E. destruct (own_coefficients ty b2 v Sb2 _ E1) as [C1 C2].
      destruct (cop_new_std ty _ _ _ _ Hs2 E) as (O1 & O2 & _). split; [congruence|]. split; auto. rewrite O1. exact C2. }
    cbn [many2_found]. split; [lia|]. split; [rewrite map_length; congruence|]. exists nH, (b_strings b1). do 3 (split; [auto|]). split.
    { replace (firstn num_ops (map fst qs)) with (map fst qs') by (symmetry; apply firstn_map). rewrite Evs' in Fo. clear - Fo Kq Kq'. revert os Fo. induction qs' as [|q l IH]; intros os Fo; inversion Fo as [|? o ? ? (F1 & F2 & F3) F]; subst; constructor.
      - destruct (Kq q (Kq' q (or_introl eq_refl))) as (K1 & K2 & K3 & K4). rewrite F1. auto 10.
      - apply IH; auto. intros z Hz. apply Kq'. right; auto. }
    rewrite Ecs. split; [rewrite Evs; apply orthonormal_firstn; auto|].
    exists (vscale (RtoC (/ vnorm r)) r), kept. split; [exact Sr|]. split; [exact P1|].
    replace (step + S n) with (S step + n) by lia.
    replace (map (fun o => combine (firstn (length kept) (c_coeffs o)) (map snd kept)) os) with (map c_terms cur).
    2:{ assert (Lk : length kept = basis_len b2) by (unfold basis_len; rewrite P2, map_length; auto). rewrite Lk, <- P2. rewrite <- Ecs in Fc. clear - Fc. revert cur Fc. induction os as [|o os IH]; intros cur Fc; cbn in Fc; inversion Fc as [|? c ? ? (F1 & F2 & F3) F]; subst; auto.
        cbn [map]. f_equal; auto. unfold c_terms. rewrite F1, F2. auto. }
    rewrite <- P2. apply (IH (S step) (mkM b2 cur x2 b1 (Some (m_prev st)))); auto.
    split; [exact Sb2|]. cbn [m_basis m_cur m_cache m_prev m_prevprev]. split; [|split; [|split; [auto|split; [auto|]]]].
    - clear - Fc. induction Fc as [|v c vs cur [_ F1] F IH]; constructor; auto.
    - rewrite <- Lvs. clear - Fc. induction Fc; cbn; auto.
    - intros p Ep. injection Ep as <-. auto.
  Qed.
End Steps2.

Lemma union_loop ty bs : Forall (std_basis ty) bs -> forall b, std_basis ty b ->
  std_basis ty (fold_left basis_iadd bs b) /\ forall s, In s (b_strings (fold_left basis_iadd bs b)) <-> In s (b_strings b) \/ exists e, In e bs /\ In s (b_strings e).
Proof.
  induction 1 as [|e bs He F IH]; intros b Hb; cbn [fold_left].
  - split; auto. intros s. split; auto. intros [K|(e & [] & _)]; auto.
  - destruct (IH (basis_iadd b e) (iadd_std ty b e Hb He)) as [I1 I2]. split; auto. intros s. rewrite I2.
    destruct (basis_iadd_ok b e (built_ok _ (proj1 (proj1 Hb)))) as [_ Ha]. split.
    + intros [K|(z & Z1 & Z2)]; [|right; exists z; split; auto; right; auto]. destruct (append_new_in _ _ _ Ha s K); auto. right. exists e. split; [left|]; auto.
    + intros [K|(z & [->|Z1] & Z2)]; [|left|right; exists z; auto].
      * left. apply (append_new_left _ _ _ Ha s K).
      * destruct (append_new_right _ _ _ Ha s Z2) as (v & Hv & Kv). pose proof (iadd_std ty b z Hb He) as Hi. apply std_key in Kv; [|apply Hi; auto|apply He; auto]. subst v. auto.
Qed.
Lemma std_empty ty : std_basis ty basis_empty.
Proof. apply std_basis_ok. split; [apply basis_ok_empty|intros s []]. Qed.
Lemma std_cop_basis ty o : std_cop ty o -> std_basis ty (c_basis o).
Proof. intros [(Bb & Lc & Tt & Ts) Std]. split; [split; auto | auto]. Qed.

Lemma in_basis_ok ty b o o' : std_basis ty b -> std_cop ty o -> (forall s, In s (b_strings (c_basis o)) -> In s (b_strings b)) -> in_basis b o = Ok o' ->
  on_basis b o' /\ rewritten (b_strings b) o (c_terms o').
Proof.
  intros Hb Ho Hin E. unfold in_basis in E. destruct (target_vector ty o b Ho Hb) as (ts & Ets & CL & Cc).
  replace (filter (fun t => basis_mem b (snd t)) (c_terms o)) with (c_terms o) in Ets.
  2:{ symmetry. assert (K : forall t, In t (c_terms o) -> basis_mem b (snd t) = true).
      { intros [c s] Ht. apply in_combine_r in Ht. cbn [snd]. apply (P_SelectedCI.mem_std ty b s Hb); auto. apply Hb; auto. }
      clear - K. induction (c_terms o) as [|t l IH]; auto. cbn [filter]. rewrite K by (left; auto). f_equal. apply IH. intros; apply K; right; auto. }
  rewrite Ets in E. cbn [rbind] in E. set (v := fold_left _ _ _) in *.
  destruct (cop_new_std ty _ _ _ _ (proj2 (proj1 (std_basis_ok ty b) Hb)) E) as (O1 & O2 & _).
  split; [split; [auto | rewrite O1; auto]|]. split; [unfold c_terms; rewrite O1, O2; apply map_snd_combine; auto|].
  intros c s Hcs. unfold c_terms in Hcs. rewrite O1, O2 in Hcs. apply In_nth_error in Hcs. destruct Hcs as (i & Hi). apply combine_nth_error in Hi. destruct Hi as [Hi1 Hi2]. apply (Cc i s c Hi2 Hi1).
Qed.

Lemma many2_ok : forall ty H Or rand inits n nHs thr size orth ops norms, ty <> Fermion -> std_op ty H -> inits <> [] -> Forall (std_cop ty) inits ->
  (forall l, orth = Some l -> Forall (std_cop ty) l) -> real_solver (gr_eig Or) -> orthonormal_solver (gr_eig Or) -> sorts_reals (gr_sort Or) ->
  many_ops2 Or rand inits H n nHs thr size orth = Ok (ops, norms) ->
  exists l0 oss, NoDup l0 /\ (forall s, In s l0 <-> exists o, In o inits /\ In s (b_strings (c_basis o))) /\ Forall2 (rewritten l0) inits oss /\
    many2_found ty H (rec_of ty H orth) nHs thr size n 0 oss l0 l0 None ops norms.
Proof.
  intros ty H Or rand inits n nHs thr size orth ops norms Hty HH Ne Hi Hq Heig Hort Hsort E. unfold many_ops2 in E.
  destruct (np_max _) as [mx|]; [|discriminate]. cbn [rbind] in E. cbv zeta in E.
  destruct (rmap (in_basis (union_basis inits)) inits) as [cur|] eqn:Ec; [|discriminate]. cbn [rbind] in E.
  assert (HF : Forall (std_basis ty) (map c_basis inits)). { clear - Hi. induction Hi; constructor; auto. apply std_cop_basis; auto. }
  destruct (union_loop ty _ HF basis_empty (std_empty ty)) as [U1 U2]. fold (union_basis inits) in U1, U2.
  apply rmap_forall2 in Ec.
  assert (G : Forall2 (fun o c => on_basis (union_basis inits) c /\ rewritten (b_strings (union_basis inits)) o (c_terms c)) inits cur).
  { assert (Inc : forall o, In o inits -> std_cop ty o /\ forall s, In s (b_strings (c_basis o)) -> In s (b_strings (union_basis inits))).
    { intros o Ho. split; [eapply Forall_forall; eauto|]. intros s Hs. apply U2. right. exists (c_basis o). split; auto. apply in_map; auto. }
    revert Ec Inc U1. generalize (union_basis inits). intros b Ec Inc U1. clear - Ec Inc U1. induction Ec as [|o c l cur E F IH]; constructor; [|apply IH; intros; apply Inc; right; auto].
    apply (in_basis_ok ty); auto; apply Inc; left; auto. }
  exists (b_strings (union_basis inits)), (map c_terms cur). split; [apply distinct_NoDup; apply built_ok; apply U1|]. split.
  { intros s. rewrite U2. split; [intros [[]|(e & E1 & E2)]|]; [|intros (o & O1 & O2); right; exists (c_basis o); split; auto; apply in_map; auto].
    apply in_map_iff in E1. destruct E1 as (o & <- & Ho). eauto. }
  split; [clear - G; revert G; generalize (union_basis inits); intros b G; induction G as [|o c l cur [_ E] F IH]; cbn; constructor; auto|].
  assert (Hn : length inits <> 0) by (destruct inits; [congruence|discriminate]).
  pose proof (many2_steps_ok ty H Or rand nHs thr size (length inits) orth Hty HH Heig Hort Hsort Hn Hq n 0 (mkM (union_basis inits) cur cache_empty (union_basis inits) None) ops norms) as M.
  cbn [m_basis m_cur m_cache m_prev m_prevprev option_map] in M. apply M; auto.
  - split; [exact U1|]. cbn [m_basis m_cur m_cache m_prev m_prevprev]. split; [|split; [|split; [|split; [exact U1|discriminate]]]].
    + clear - G. revert G. generalize (union_basis inits). intros b G. induction G as [|o c l cur [E _] F IH]; constructor; auto.
    + symmetry. clear - G. revert G. generalize (union_basis inits). intros b G. induction G; cbn; auto.
    + apply cache_ok_empty.
Qed.

(** C108.  The steps of selected_ci_greedy_many_ops2 without [orth_ops]. *)
Theorem C108_many2 : forall ty H Or rand inits n nHs thr size ops norms, ty <> Fermion -> std_op ty H -> inits <> [] -> Forall (std_cop ty) inits ->
  real_solver (gr_eig Or) -> orthonormal_solver (gr_eig Or) -> sorts_reals (gr_sort Or) ->
  many_ops2 Or rand inits H n nHs thr size None = Ok (ops, norms) ->
  exists l0 oss, NoDup l0 /\ (forall s, In s l0 <-> exists o, In o inits /\ In s (b_strings (c_basis o))) /\ Forall2 (rewritten l0) inits oss /\
    many2_found ty H (commutator_norm ty H) nHs thr size n 0 oss l0 l0 None ops norms.
Proof. intros ty H Or rand inits n nHs thr size ops norms Hty HH Ne Hi Heig Hort Hsort E. apply (many2_ok ty H Or rand inits n nHs thr size None ops norms); auto. discriminate. Qed.
Print Assumptions C108_many2.
(** C109.  With [orth_ops] the steps are the same, but the numbers contain the penalty. *)
Theorem C109_penalty_partial : forall ty H Or rand inits n nHs thr size qs ops norms, ty <> Fermion -> std_op ty H -> inits <> [] -> Forall (std_cop ty) inits -> Forall (std_cop ty) qs ->
  real_solver (gr_eig Or) -> orthonormal_solver (gr_eig Or) -> sorts_reals (gr_sort Or) ->
  many_ops2 Or rand inits H n nHs thr size (Some qs) = Ok (ops, norms) ->
  exists l0 oss, NoDup l0 /\ (forall s, In s l0 <-> exists o, In o inits /\ In s (b_strings (c_basis o))) /\ Forall2 (rewritten l0) inits oss /\
    many2_found ty H (penalised ty H qs) nHs thr size n 0 oss l0 l0 None ops norms.
Proof.
  intros ty H Or rand inits n nHs thr size qs ops norms Hty HH Ne Hi Hq Heig Hort Hsort E. apply (many2_ok ty H Or rand inits n nHs thr size (Some qs) ops norms); auto. intros l El. injection El as <-. auto.
Qed.
Print Assumptions C109_penalty_partial.

(* ------------------------------------------------------------------ example *)
Definition mq_D : list vec := [[RtoC 0]].
Definition mq_eig : eigensolver := fun nv M => if vecs_dec M mq_D then [(0%R, [RtoC 1])] else if vecs_dec M mo_M then mo_ps else [].
Definition mq_or : groracles := mkGOr mq_eig argsort.
Lemma mq_cases nv M : mq_eig nv M = [(0%R, [RtoC 1])] /\ M = mq_D \/ mq_eig nv M = mo_ps /\ M = mo_M \/ mq_eig nv M = [].
Proof. unfold mq_eig. destruct (vecs_dec M mq_D); auto. destruct (vecs_dec M mo_M); auto. Qed.
Lemma mq_hit nv : mq_eig nv mq_D = [(0%R, [RtoC 1])].
Proof. unfold mq_eig. destruct (vecs_dec mq_D mq_D); congruence. Qed.
Lemma mq_hit2 nv : mq_eig nv mo_M = mo_ps.
Proof.
  unfold mq_eig. destruct (vecs_dec mo_M mq_D) as [F|]; [|destruct (vecs_dec mo_M mo_M); congruence].
  exfalso. unfold mo_M, mq_D in F. pose proof large_4 as L4. injection F as F. lra.
Qed.
Lemma mq_real : real_solver mq_eig.
Proof.
  intros nv M l v _ Hin. destruct (mq_cases nv M) as [[E ->]|[[E ->]|E]]; rewrite E in Hin; [destruct Hin as [F|[]] | destruct Hin as [F|[]] | destruct Hin];
    injection F as <- <-; (split; [reflexivity|]); (split; [intros z [<-|[]]; reflexivity|]);
    (split; [unfold norm2c; cbn; lra|]); cbn -[large_number]; unfold csum; cbn -[large_number]; repeat (match goal with |- _ :: _ = _ :: _ => f_equal end); apply injective_projections; cbn -[large_number]; ring.
Qed.
Lemma mq_orthonormal : orthonormal_solver mq_eig.
Proof.
  intros nv M _.
  assert (K : orthonormal [[RtoC 1]]).
  { split; [intros v [<-|[]]; cbn; apply injective_projections; cbn; ring|]. intros [|[|i]] [|[|j]] v w Hi Hj N; try discriminate; try congruence. }
  destruct (mq_cases nv M) as [[E _]|[[E _]|E]]; rewrite E; [exact K | exact K|]. split; [intros v []|intros [|i] j v w F; discriminate].
Qed.
Lemma mq_grow x1 x2 : explore mo_B gi_H x1 None = Ok (mo_L1, basis_empty, x2) -> forall x3, explore basis_empty gi_H x2 None = Ok (mkSM 0 0 [], basis_empty, x3) ->
  grow_many mq_or gi_H 1 mo_B (mo_B, x1) go_q = Ok (mo_B, x3).
Proof.
  intros E1 x3 E2. unfold grow_many. cbn [snd fst]. rewrite E1. cbn [rbind]. change (negb (length (c_coeffs go_q) =? sm_cols mo_L1)) with false. cbv beta iota zeta.
  change (rows_vec (dense_rows mo_L1) (c_coeffs go_q)) with (@nil C). change (largest_first mq_or []) with (@nil nat). cbn [length Nat.min firstn].
  change (take (b_strings basis_empty) []) with (Ok (@nil OS)). cbn [rbind]. change (basis_new []) with (Ok basis_empty). cbn [rbind].
  change (take (@nil C) []) with (Ok (@nil C)). cbn [rbind]. unfold grow_com. cbn [snd fst]. rewrite E2. reflexivity.
Qed.
Definition mq_x4 := Eval vm_compute in snd (ex_get (explore mo_B gi_H mo_x3 None)).
Lemma mq_e4 : explore mo_B gi_H mo_x3 None = Ok (mo_L1, basis_empty, mq_x4). Proof. vm_compute. reflexivity. Qed.
Definition mq_x5 := Eval vm_compute in snd (ex_get (explore basis_empty gi_H mq_x4 None)).
Lemma mq_e5 : explore basis_empty gi_H mq_x4 None = Ok (mkSM 0 0 [], basis_empty, mq_x5). Proof. vm_compute. reflexivity. Qed.
Lemma mq_vectors : many_vectors mq_or gi_H None 1 mo_B mo_x2 = Ok ([(0%R, [RtoC 1])], mo_x3).
Proof. unfold many_vectors. rewrite mo_e3. cbn [rbind]. rewrite mo_matrix. cbv zeta. cbn [rbind]. change (basis_len mo_B <? 20) with true. change (1 <? 20) with true. cbn [andb]. cbn [mq_or gr_eig]. fold mq_D. rewrite mq_hit. reflexivity. Qed.
Lemma mq_truncate v thr : (thr < Cmod v)%R -> gtruncate mq_or mo_B [v] thr 2 = Ok mo_B.
Proof.
  intros Hv. unfold gtruncate. change (largest_first mq_or [v]) with [0]. cbn [rmap nth_error of_option rbind filter snd].
  rewrite (proj2 (lt_dec_true thr (Cmod v))) by auto. reflexivity.
Qed.
Lemma mq_random : vscale (RtoC (/ vnorm [RtoC 1])) [RtoC 1] = [RtoC 1].
Proof.
  replace (vnorm [RtoC 1]) with 1%R; [unfold vscale; cbn [map]; f_equal; apply injective_projections; cbn; field|].
  unfold vnorm. cbn. replace (1 * 1 + 0 * 0 + 0)%R with 1%R by ring. symmetry. apply sqrt_1.
Qed.
Lemma mq_run : many_ops2 mq_or (fun _ _ => 1%R) [go_q] gi_H 2 [1; 1] 0 2 None = Ok ([[go_q]], [[0%R]]).
Proof.
  unfold many_ops2. change (union_basis [go_q]) with mo_B. replace (np_max (all_labels (o_basis gi_H))) with (Ok (A := Z) 1%Z) by (vm_compute; reflexivity). cbn [rbind]. cbv zeta.
  replace (rmap (in_basis mo_B) [go_q]) with (Ok [go_q]) by reflexivity. cbn [rbind length].
  cbn [many2_steps m_cur nth_error of_option rbind m_basis m_cache rfold].
  rewrite (mq_grow _ _ mo_e1 _ mo_e2). cbn [rbind Nat.eqb negb andb]. rewrite mq_vectors. cbn [rbind nth_error of_option map snd fst seq].
  change (take [[RtoC 1]] [0]) with (Ok [[RtoC 1]]). cbn [rbind rmap]. change (cop_new [RtoC 1] (b_strings mo_B) None) with (Ok go_q). cbn [rbind]. cbv zeta.
  replace (fold_left _ (combine [0] [[RtoC 1]]) _) with [RtoC 1] by (cbn; f_equal; apply injective_projections; cbn; ring).
  rewrite mq_random, mq_truncate by (rewrite Cmod_1; lra). cbn [rbind].
  change (rmap _ (b_strings mo_B)) with (Ok [RtoC 1]). cbn [rbind]. change (cop_new [RtoC 1] (b_strings mo_B) None) with (Ok go_q). cbn [rbind].
  cbn [m_cur nth_error of_option rbind m_basis m_cache rfold m_prev m_prevprev].
  rewrite (mq_grow _ _ mq_e4 _ mq_e5). cbn [rbind]. change (same_set mo_B mo_B) with true. reflexivity.
Qed.
Example C108_example : std_op Pauli gi_H /\ Forall (std_cop Pauli) [go_q] /\ real_solver (gr_eig mq_or) /\ orthonormal_solver (gr_eig mq_or) /\ sorts_reals (gr_sort mq_or) /\
  many_ops2 mq_or (fun _ _ => 1%R) [go_q] gi_H 2 [1; 1] 0 2 None = Ok ([[go_q]], [[0%R]]).
Proof.
  split; [apply gi_std_H|]. split; [constructor; [apply mo_std_q | constructor]|]. split; [apply mq_real|]. split; [apply mq_orthonormal|]. split; [apply argsort_sorts | apply mq_run].
Qed.

(** C109 is false: with [orth_ops] the recorded number is not the norm of the commutator: it contains the
    penalty for the overlap with the Operators of [orth_ops]. *)
Lemma mq_vectors_orth : many_vectors mq_or gi_H (Some [gi_Z]) 1 mo_B mo_x2 = Ok ([(large_number, [RtoC 1])], mo_x3).
Proof.
  unfold many_vectors. rewrite mo_e3. cbn [rbind]. rewrite mo_matrix. cbv zeta. rewrite mo_orth. cbn [rbind]. change (basis_len mo_B <? 20) with true. change (1 <? 20) with true. cbn [andb].
  cbn [mq_or gr_eig]. rewrite mq_hit2. cbn [rbind]. unfold mo_ps. cbn [map snd]. replace (expectation mo_M [RtoC 1]) with large_number by (unfold expectation; cbn -[large_number]; unfold csum; cbn -[large_number]; lra). reflexivity.
Qed.
Lemma gi_std_Z : std_cop Pauli gi_Z.
Proof. destruct gi_std_init as [(K1 & K2 & K3 & K4) K5]. split; [split; [exact K1|split; [reflexivity|split; [reflexivity|exact K4]]] | exact K5]. Qed.
Lemma mq_run_orth : many_ops2 mq_or (fun _ _ => 1%R) [go_q] gi_H 1 [1] 0 2 (Some [gi_Z]) = Ok ([[go_q]], [[large_number]]).
Proof.
  unfold many_ops2. change (union_basis [go_q]) with mo_B. replace (np_max (all_labels (o_basis gi_H))) with (Ok (A := Z) 1%Z) by (vm_compute; reflexivity). cbn [rbind]. cbv zeta.
  replace (rmap (in_basis mo_B) [go_q]) with (Ok [go_q]) by reflexivity. cbn [rbind length].
  cbn [many2_steps m_cur nth_error of_option rbind m_basis m_cache rfold].
  rewrite (mq_grow _ _ mo_e1 _ mo_e2). cbn [rbind Nat.eqb negb andb]. rewrite mq_vectors_orth. cbn [rbind nth_error of_option map snd fst seq].
  change (take [[RtoC 1]] [0]) with (Ok [[RtoC 1]]). cbn [rbind rmap]. change (cop_new [RtoC 1] (b_strings mo_B) None) with (Ok go_q). cbn [rbind]. cbv zeta.
  replace (fold_left _ (combine [0] [[RtoC 1]]) _) with [RtoC 1] by (cbn; f_equal; apply injective_projections; cbn; ring).
  rewrite mq_random, mq_truncate by (rewrite Cmod_1; lra). cbn [rbind].
  change (rmap _ (b_strings mo_B)) with (Ok [RtoC 1]). cbn [rbind]. change (cop_new [RtoC 1] (b_strings mo_B) None) with (Ok go_q). reflexivity.
Qed.
Local Open Scope alg_scope.
Theorem C109_refuted : exists H Or rand i q nHs thr size o e,
  std_op Pauli H /\ std_cop Pauli i /\ std_cop Pauli q /\ real_solver (gr_eig Or) /\ orthonormal_solver (gr_eig Or) /\ sorts_reals (gr_sort Or) /\
  many_ops2 Or rand [i] H 1 nHs thr size (Some [q]) = Ok ([[o]], [[e]]) /\ ~ commutator_norm Pauli H o e.
Proof.
  exists gi_H, mq_or, (fun _ _ => 1%R), go_q, gi_Z, [1], 0%R, 2, go_q, large_number.
  split; [apply gi_std_H|]. split; [apply mo_std_q|]. split; [apply gi_std_Z|]. split; [apply mq_real|]. split; [apply mq_orthonormal|]. split; [apply argsort_sorts|].
  split; [apply mq_run_orth|]. intros F.
  assert (Hc : cache_ok Pauli (b_strings (o_basis gi_H)) mo_x2).
  { pose proof (std_cop_basis Pauli go_q mo_std_q) as SB.
    destruct (grow_many_spec Pauli gi_H ltac:(discriminate) gi_std_H mq_or 1 mo_B mo_B go_q cache_empty mo_B mo_x2 argsort_sorts SB SB (cache_ok_empty _ _) eq_refl eq_refl (mq_grow _ _ mo_e1 _ mo_e2)) as (_ & K & _). exact K. }
  destruct (many_vectors_ok Pauli gi_H ltac:(discriminate) gi_std_H mq_or mq_real mq_orthonormal argsort_sorts None _ _ _ _ _ ltac:(discriminate) Hc (std_cop_basis Pauli go_q mo_std_q) mq_vectors) as (_ & _ & K).
  destruct (K _ (or_introl eq_refl)) as (_ & _ & _ & K4). specialize (K4 go_q eq_refl eq_refl). cbn [fst] in K4.
  pose proof (commutator_norm_unique Pauli ltac:(discriminate) gi_H go_q _ _ F K4) as Q. pose proof large_4 as L4. lra.
Qed.
Print Assumptions C109_refuted.
Example C109_example : std_op Pauli gi_H /\ Forall (std_cop Pauli) [go_q] /\ Forall (std_cop Pauli) [gi_Z] /\ real_solver (gr_eig mq_or) /\ orthonormal_solver (gr_eig mq_or) /\ sorts_reals (gr_sort mq_or) /\
  many_ops2 mq_or (fun _ _ => 1%R) [go_q] gi_H 1 [1] 0 2 (Some [gi_Z]) = Ok ([[go_q]], [[(10 ^ 10)%R]]).
Proof.
  split; [apply gi_std_H|]. split; [constructor; [apply mo_std_q | constructor]|]. split; [constructor; [apply gi_std_Z | constructor]|]. split; [apply mq_real|]. split; [apply mq_orthonormal|]. split; [apply argsort_sorts | apply mq_run_orth].
Qed.
