(** C117-C119: the ladder operators of [_ladder_operators]. *)
From Coq Require Import List ZArith Bool Arith Lia Permutation Sorted Setoid Morphisms Reals QArith Qreals Qcanon Lra.
From Coquelicot Require Import Complex.
From Verif Require L_Heap.
From Verif Require Import GC Exn S_Alg S_Den S_Basis S_OpAlg S_RScal S_CFock S_CScal M_OpString M_Algebra M_Basis M_OpAlg M_LinAlg M_Core M_Greedy M_Ladder S_LinAlg S_Core S_Greedy S_Transform S_Modes S_SelectedCI S_Ladder
  L_Alg L_CScal L_LinAlg L_Inter L_Herm L_Core L_Sparsify L_Commuting L_Basis L_Operator L_PropBasis L_OpAlg L_PropOpAlg L_Diagonalize L_Modes2 L_CFock L_Conversion L_Cumulative L_Ladder L_Ladder2 L_Ladder3 L_Ladder4 L_Ladder5 L_Ladder6 P_Greedy P_Modes P_SelectedCI.
Import M_LinAlg ListNotations.
Local Open Scope nat_scope.
Local Open Scope alg_scope.

(** C117.  Let the commutators of the strings of the Basis with those of a hermitian Operator H stay
    in the Basis.  Then the vectors R of [_ladder_operators] are orthonormal, satisfy
    [H, R] = l R with their eigenvalues l > tol, in ascending order, and every R in the span of the
    Basis with [H, R] = l R, l > tol, is a combination of those with this eigenvalue. *)
Theorem C117_ladder_operators : forall ty b o Or tol, ty <> Fermion -> canonical_basis ty b -> good_op ty o -> real_coeffs o -> closed_under ty o b ->
  exact_hermitian_solver (basis_len b) (la_eigh Or) -> sorts_reals (la_sort Or) -> (0 < tol)%R ->
  exists vs ls, ladder_operators Or b o tol = Ok (vs, ls) /\ length vs = length ls /\ StronglySorted Rle ls /\ orthonormal vs /\
    (forall i v l, nth_error vs i = Some v -> nth_error ls i = Some l -> length v = basis_len b /\ (tol < l)%R /\
       forall (A : StarAlg) (S : RScal A) (g : op -> Z -> A), rep ty g -> ladder S (lincomb g (op_terms o)) l (cden S g (CBasis b) v)) /\
    (forall (A : StarAlg) (S : RScal A) (g : op -> Z -> A) v l, rep ty g -> ~ (@aone A == azero) -> length v = basis_len b -> (tol < l)%R ->
       ladder S (lincomb g (op_terms o)) l (cden S g (CBasis b) v) ->
       exists us, (forall u, In u us -> exists i, nth_error vs i = Some u /\ nth_error ls i = Some l) /\ span (basis_len b) us v).
Proof. intros. apply (ladder_closed ty b o Or tol); auto. Qed.
Print Assumptions C117_ladder_operators.

(* ------------------------------------------------------------- examples *)

(** The matrix ((0, ix), (-ix, 0)) has the eigenvalues x and -x. *)
Definition lad_eigh (M : list vec) : list (R * vec) :=
  match M with
  | [] => []
  | [_] => [(0%R, [RtoC 1])]
  | _ => let x := Im (nth 1 (nth 0 M []) (RtoC 0)) in [(x, [(rh, 0); (0, - rh)]%R); ((- x)%R, [(rh, 0); (0, rh)]%R)]
  end.
Definition lad_ex : lad_oracles := mkLad lad_eigh (fun _ _ => ([], [])) (fun _ _ => []) argsort.
Ltac vec_eq := repeat match goal with |- _ :: _ = _ :: _ => apply f_equal2 | |- [] = [] => reflexivity end; try (apply C_eq; cbn); try lra; pose proof rh_sq; try nra.
Lemma small_exact (M : list (list C)) (ps : list (R * list C)) : length ps = length M ->
  (forall l v, In (l, v) ps -> length v = length M /\ rows_vec M v = map (Cmult (RtoC l)) v) -> orthonormal (map snd ps) -> full_solution M ps.
Proof.
  intros L E O. assert (V : vectors (length M) (map snd ps)) by (intros v Hv; apply in_map_iff in Hv; destruct Hv as ([l v'] & <- & H); apply (E l v' H)).
  split.
  - intros l v H. destruct (E l v H) as [L1 E1]. split; auto. split; auto. intros ->.
    assert (X : inner (repeat (RtoC 0) (length M)) (repeat (RtoC 0) (length M)) = RtoC 1) by (apply O; apply in_map_iff; exists (l, repeat (RtoC 0) (length M)); auto).
    pose proof (inner_zero_l (length M) (vzero (length M))) as Z0. unfold vzero in Z0. rewrite X in Z0. apply RtoC_inj in Z0. lra.
  - apply orthonormal_full; auto. rewrite map_length. auto.
Qed.
Lemma lad_pair_orthonormal : orthonormal [[(rh, 0); (0, - rh)]%R; [(rh, 0); (0, rh)]%R].
Proof.
  split.
  - intros v [<-|[<-|[]]]; apply C_eq; cbn; pose proof rh_sq; nra.
  - intros [|[|[|]]] [|[|[|]]] v w X Y N; cbn in X, Y; try discriminate; try lia; apply some_inj in X, Y; subst; apply C_eq; cbn; pose proof rh_sq; nra.
Qed.
Lemma lad_eigh_exact : exact_hermitian_solver 2 lad_eigh.
Proof.
  intros M LM [HR HM]. destruct M as [|r1 [|r2 [|r3 M]]]; [| | | cbn in LM; lia].
  - split; [apply small_exact; [reflexivity | intros l v [] | split; [intros v [] | intros [|] j v w X; discriminate]] | split; [intros v [] | intros [|] j v w X; discriminate]].
  - pose proof (HR r1 (or_introl eq_refl)) as L1. destruct r1 as [|x [|]]; try discriminate. destruct (HM 0 0) as [H1 H2]. cbn [nth] in H1, H2. destruct x as [p q]. cbn in H1, H2.
    unfold Cconj in H1. cbn in H1. apply pair_equal_spec in H1. destruct H1 as [_ H1].
    assert (O : orthonormal [[RtoC 1]]).
    { split; [intros v [<-|[]]; apply C_eq; cbn; lra | intros [|[|]] [|[|]] v w X Y N; cbn in X, Y; try discriminate; lia]. }
    split; [apply small_exact; [reflexivity | | exact O] | exact O]. intros l v H. cbn in H. destruct H as [H|[]]. apply pair_equal_spec in H. destruct H as [<- <-].
    split; [reflexivity|]. unfold rows_vec, csum. cbn [map zip_with fold_right]. vec_eq.
  - pose proof (HR r1 (or_introl eq_refl)) as L1. pose proof (HR r2 (or_intror (or_introl eq_refl))) as L2. destruct r1 as [|a [|c [|]]]; try discriminate. destruct r2 as [|d [|e [|]]]; try discriminate.
    destruct (HM 0 0) as [H1 H2]. destruct (HM 0 1) as [H3 H4]. destruct (HM 1 1) as [H5 H6]. cbn [nth] in *. destruct a as [a1 a2], c as [c1 c2], d as [d1 d2], e as [e1 e2]. unfold Cconj in *. cbn in *.
    apply pair_equal_spec in H1, H3, H5. destruct H1 as [_ H1], H3 as [H3 H7], H5 as [_ H5].
    split; [apply small_exact; [reflexivity | | exact lad_pair_orthonormal] | exact lad_pair_orthonormal].
    intros l v [H|[H|[]]]; apply pair_equal_spec in H; destruct H as [<- <-]; (split; [reflexivity|]); unfold rows_vec, csum; cbn [map zip_with fold_right]; vec_eq.
Qed.

Definition gint (a c : Z) : GC := mkGC (Q2Qc (inject_Z a)) (Q2Qc (inject_Z c)).
Lemma gint_C a c : to_C (gint a c) = (IZR a, IZR c).
Proof. unfold to_C, gint. cbn [re im]. f_equal; change (this (Q2Qc ?q)) with (Qred q); rewrite (Qeq_eqR _ _ (Qred_correct _)); unfold Q2R, inject_Z; cbn; field. Qed.
Ltac gint_tac := apply GC_ext; apply Qc_is_canon; vm_compute; reflexivity.

Lemma pauli_can o l : canonical (mkOS [o] [l] Pauli p_one).
Proof. split; [repeat constructor | left; reflexivity]. Qed.
(** The raising operator X + iY of Z. *)
Example C117_example : exists b o, basis_new [sX1; sY1] = Ok b /\ op_new [g1] [sZ1] None = Ok o /\ canonical_basis Pauli b /\ good_op Pauli o /\ real_coeffs o /\ closed_under Pauli o b /\
  exact_hermitian_solver (basis_len b) (la_eigh lad_ex) /\ sorts_reals (la_sort lad_ex) /\
  (forall (A : StarAlg) (S : RScal A) (g : op -> Z -> A), rep Pauli g -> ladder S (lincomb g (op_terms o)) 2 (cden S g (CBasis b) [RtoC 1; (0, 1)%R])) /\
  exists vs ls, ladder_operators lad_ex b o (1 / 10) = Ok (vs, ls) /\ In 2%R ls.
Proof.
  destruct (basis_new [sX1; sY1]) as [b|] eqn:Eb; [|vm_compute in Eb; discriminate]. destruct (op_new [g1] [sZ1] None) as [o|] eqn:Eo; [|vm_compute in Eo; discriminate].
  exists b, o. split; auto. split; auto.
  assert (Sb : b_strings b = [sX1; sY1]) by (apply basis_new_ok in Eb; apply Eb).
  assert (Gb : good_basis Pauli b) by (apply (good_basis_intro Pauli _ _ Eb); intros s [<-|[<-|[]]]; [apply ok_X1 | apply ok_Y1]).
  assert (Hb : canonical_basis Pauli b).
  { split; [apply Gb|]. intros s Hs. split; [apply Gb; auto|]. rewrite Sb in Hs. destruct Hs as [<-|[<-|[]]]; apply pauli_can. }
  assert (Lb : basis_len b = 2) by (unfold basis_len; rewrite Sb; reflexivity).
  assert (So : b_strings (o_basis o) = [sZ1]) by (vm_compute in Eo; injection Eo as <-; reflexivity).
  assert (Ho : good_op Pauli o).
  { apply (good_op_intro Pauli _ _ _ Eo); auto; [vm_compute in Eo; injection Eo as <-; reflexivity | intros s [<-|[]]; apply ok_Z1]. }
  assert (Hr : real_coeffs o).
  { vm_compute in Eo. injection Eo as <-. intros c [<-|[]]. gint_tac. }
  assert (Hc : closed_under Pauli o b).
  { intros s c u Hs Hc Hu. rewrite Sb in Hs |- *. rewrite So in Hc. destruct Hc as [<-|[]].
    apply (commutes_iff Pauli ltac:(discriminate)) in Hu; [|destruct Hs as [<-|[<-|[]]]; [apply ok_X1 | apply ok_Y1] | apply ok_Z1]. destruct Hu as (k & Hu).
    destruct Hs as [<-|[<-|[]]]; vm_compute in Hu; injection Hu as _ <-; [right; left | left]; reflexivity. }
  assert (Hs : exact_hermitian_solver (basis_len b) (la_eigh lad_ex)) by (rewrite Lb; apply lad_eigh_exact).
  assert (Hl : forall (A : StarAlg) (S : RScal A) (g : op -> Z -> A), rep Pauli g -> ladder S (lincomb g (op_terms o)) 2 (cden S g (CBasis b) [RtoC 1; (0, 1)%R])).
  { intros A S g Hg. destruct (op_neg o) as [m|] eqn:Em; [|vm_compute in Eo; injection Eo as <-; vm_compute in Em; discriminate].
    apply (ladder_intro Pauli o b ltac:(discriminate) Hb Ho Hr A S g m); auto.
    - intros z s c k t H _ Hcm E. assert (Hs' : In s (b_strings b)) by (eapply in_combine_r; eauto). apply (Hc s c t Hs').
      + destruct (neg_ok Pauli o Ho Hr) as (m' & Em' & _ & _ & Bm & _). rewrite Em in Em'. injection Em' as <-. rewrite <- Bm. auto.
      + apply (commutes_iff Pauli ltac:(discriminate)); [apply Gb; auto | | eauto]. destruct (neg_ok Pauli o Ho Hr) as (m' & Em' & Hm & _). rewrite Em in Em'. injection Em' as <-. apply Hm. auto.
    - rewrite Sb. assert (G : gcoef m sX1 sX1 = gint 0 0 /\ gcoef m sX1 sY1 = gint 0 (-2) /\ gcoef m sY1 sX1 = gint 0 2 /\ gcoef m sY1 sY1 = gint 0 0).
      { vm_compute in Eo. injection Eo as <-. vm_compute in Em. injection Em as <-. repeat split; gint_tac. }
      destruct G as (G1 & G2 & G3 & G4). intros t [<-|[<-|[]]].
      + rewrite (tcoef_nth Pauli [sX1; sY1] ltac:(rewrite <- Sb; apply L_Cumul2.built_nodup, Hb) ltac:(rewrite <- Sb; apply Gb) _ 0 sX1 eq_refl). cbn [map]. rewrite G1, G2, !gint_C. unfold csum. cbn [zip_with fold_right nth]. apply C_eq; cbn; lra.
      + rewrite (tcoef_nth Pauli [sX1; sY1] ltac:(rewrite <- Sb; apply L_Cumul2.built_nodup, Hb) ltac:(rewrite <- Sb; apply Gb) _ 1 sY1 eq_refl). cbn [map]. rewrite G3, G4, !gint_C. unfold csum. cbn [zip_with fold_right nth]. apply C_eq; cbn; lra. }
  do 5 (split; [assumption|]). split; [exact argsort_sorts|]. split; [assumption|].
  destruct (C117_ladder_operators Pauli b o lad_ex (1 / 10) ltac:(discriminate) Hb Ho Hr Hc Hs argsort_sorts ltac:(lra)) as (vs & ls & E & _ & _ & _ & _ & Cm).
  exists vs, ls. split; auto.
  destruct (Cm _ cfock_real cgen [RtoC 1; (0, 1)%R] 2%R (some_rep Pauli ltac:(discriminate)) cfock_nontrivial ltac:(rewrite Lb; reflexivity) ltac:(lra) (Hl _ _ _ (some_rep Pauli ltac:(discriminate)))) as (us & Hu & Sp).
  destruct us as [|u us].
  - exfalso. apply span_nil in Sp. rewrite Lb in Sp. unfold vzero in Sp. cbn in Sp. injection Sp. intros. lra.
  - destruct (Hu u (or_introl eq_refl)) as (i & _ & Hi). eapply nth_error_In; eauto.
Qed.

(** Majorana operators A_i, and iA_iA_j. *)
Definition maj (i : Z) : OS := mkOS [OA] [i] Majorana p_one.
Definition pair (i j : Z) : OS := mkOS [OA; OA] [i; j] Majorana p_j.
Lemma ok_maj i : string_ok Majorana (maj i).
Proof. string_ok_tac. Qed.
Lemma can_maj i : canonical (maj i).
Proof. split; [repeat constructor | left; reflexivity]. Qed.
Lemma ok_pair i j : i <> j -> string_ok Majorana (pair i j).
Proof.
  intros N. split; [reflexivity|]. split; [reflexivity|]. split; [intros o H; cbn in H; intuition (subst; reflexivity)|].
  split; [constructor; [intros [H|[]]; congruence | repeat constructor; intros []] | reflexivity].
Qed.
Definition maj_strings := [maj 0; maj 1; maj 2].
Lemma maj_basis b : basis_new maj_strings = Ok b -> b_strings b = maj_strings /\ basis_len b = 3 /\ canonical_basis Majorana b.
Proof.
  intros E. assert (G : good_basis Majorana b) by (apply (good_basis_intro Majorana _ _ E); intros s Hs; cbn in Hs; repeat destruct Hs as [<-|Hs]; try destruct Hs; apply ok_maj).
  assert (S : b_strings b = maj_strings) by (apply basis_new_ok in E; apply E). split; auto. split; [unfold basis_len; rewrite S; reflexivity|].
  split; [apply G|]. intros s Hs. split; [apply G; auto|]. rewrite S in Hs. cbn in Hs. repeat destruct Hs as [<-|Hs]; try destruct Hs; apply can_maj.
Qed.
Lemma pairs_op ps o : op_new (map (fun _ => g1) ps) (map (fun p => pair (fst p) (snd p)) ps) None = Ok o -> ps <> [] -> (forall p, In p ps -> fst p <> snd p) ->
  good_op Majorana o /\ real_coeffs o.
Proof.
  intros E N D. assert (M : b_strings (o_basis o) = map (fun p => pair (fst p) (snd p)) ps /\ o_coeffs o = map (fun _ => g1) ps /\ o_type o = Majorana).
  { unfold op_new in E. apply L_Heap.rbind_ok in E. destruct E as (b & Hb & E). apply basis_new_ok in Hb. destruct Hb as [Sb _]. unfold op_of_basis in E. rewrite Sb in E.
    destruct ps as [|p ps]; [contradiction|]. cbn [map] in E. injection E as <-. cbn. rewrite Sb. auto. }
  destruct M as (M1 & M2 & M3). split.
  - apply (good_op_intro Majorana _ _ _ E); auto; [rewrite !map_length; auto|]. intros s Hs. apply in_map_iff in Hs. destruct Hs as (p & <- & Hp). apply ok_pair. auto.
  - intros c Hc. rewrite M2 in Hc. apply in_map_iff in Hc. destruct Hc as (p & <- & _). gint_tac.
Qed.

(** C119.  [_ladder_operators] misses ladder operators when there are strings outside of the Basis,
    with any singular value decomposition: it only looks at as many right singular vectors as the
    matrix has singular values.  In the Basis A_0, A_1, A_2 the operator iA_0 + A_1 is a ladder
    operator of iA_0A_1 + iA_2A_3, but nothing is returned. *)
Theorem C119_complete_refuted : exists b o, canonical_basis Majorana b /\ good_op Majorana o /\ real_coeffs o /\
  (forall (A : StarAlg) (S : RScal A) (g : op -> Z -> A), rep Majorana g -> ladder S (lincomb g (op_terms o)) 2 (cden S g (CBasis b) [(0, 1)%R; RtoC 1; RtoC 0])) /\
  forall Or tol, (0 < tol)%R -> sorts_reals (la_sort Or) ->
    (forall n M, length (fst (la_svd Or n M)) = Nat.min (length M) n /\ length (snd (la_svd Or n M)) = n) ->
    (forall M, length M <= 1 -> eigenpairs M (la_eigh Or M)) ->
    ladder_operators Or b o tol = Ok ([], []).
Proof.
  destruct (basis_new maj_strings) as [b|] eqn:Eb; [|vm_compute in Eb; discriminate].
  destruct (op_new [g1; g1] [pair 0 1; pair 2 3] None) as [o|] eqn:Eo; [|vm_compute in Eo; discriminate].
  exists b, o. destruct (maj_basis b Eb) as (Sb & Lb & Hb). destruct (pairs_op [(0, 1); (2, 3)]%Z o Eo ltac:(discriminate)) as [Ho Hr]; [intros p [<-|[<-|[]]]; discriminate|].
  split; auto. split; auto. split; auto.
  destruct (op_neg o) as [m|] eqn:Em; [|vm_compute in Eo; injection Eo as <-; vm_compute in Em; discriminate]. split.
  - intros A S g Hg. apply (ladder_intro Majorana o b ltac:(discriminate) Hb Ho Hr A S g m); auto.
    + intros z s c k t H Nz Hc E. rewrite Sb in H. vm_compute in Eo. injection Eo as <-. vm_compute in Em. injection Em as <-. cbn [b_strings o_basis] in Hc. rewrite Sb.
      cbn [combine maj_strings] in H. destruct H as [H|[H|[H|[]]]]; apply pair_equal_spec in H; destruct H as [<- <-]; [| | contradiction Nz; reflexivity];
        destruct Hc as [<-|[<-|[]]]; vm_compute in E; try discriminate; injection E as _ <-; [right; left | left]; reflexivity.
    + rewrite Sb. assert (G : map (fun t => map (gcoef m t) maj_strings) maj_strings = [[gint 0 0; gint 0 2; gint 0 0]; [gint 0 (-2); gint 0 0; gint 0 0]; [gint 0 0; gint 0 0; gint 0 0]]).
      { vm_compute in Eo. injection Eo as <-. vm_compute in Em. injection Em as <-. cbn [map maj_strings]. repeat apply f_equal2; try reflexivity; gint_tac. }
      assert (T : forall i t, nth_error maj_strings i = Some t -> csum (zip_with Cmult [(0, 1)%R; RtoC 1; RtoC 0] (map to_C (nth i (map (fun t => map (gcoef m t) maj_strings) maj_strings) []))) = (RtoC 2 * tcoef (combine [(0, 1)%R; RtoC 1; RtoC 0] maj_strings) t)%C).
      { intros i t Ht. rewrite G. rewrite (tcoef_nth Majorana maj_strings ltac:(rewrite <- Sb; apply L_Cumul2.built_nodup, Hb) ltac:(rewrite <- Sb; apply Hb) _ i t Ht).
        destruct i as [|[|[|i]]]; [| | | destruct i; discriminate]; cbn [nth map]; rewrite !gint_C; unfold csum; cbn [zip_with fold_right]; apply C_eq; cbn; lra. }
      intros t Ht. apply In_nth_error in Ht. destruct Ht as (i & Hi). refine (eq_trans _ (T i t Hi)). f_equal. f_equal. rewrite (nthm (fun t => map (gcoef m t) maj_strings) _ _ _ t Hi), map_map. reflexivity.
  - intros Or tol Ht Hs Hv He.
    destruct (liouvillian_matrix MCommutator (ABasis b) m) as [[L E]|] eqn:HL; [|vm_compute in Eb; injection Eb as <-; vm_compute in Eo; injection Eo as <-; vm_compute in Em; injection Em as <-; vm_compute in HL; discriminate].
    rewrite (ladder_run Or b o tol m L E [(0, maj 1); (1, maj 0)] [2] [1; 0] Em HL) by
      (vm_compute in Eb; injection Eb as <-; vm_compute in Eo; injection Eo as <-; vm_compute in Em; injection Em as <-; vm_compute in HL; injection HL as <- <-; vm_compute; solve [reflexivity | discriminate]).
    destruct (Hv (length [1; 0]) (sub_rows L [2] [1; 0])) as [L1 L2].
    destruct (la_svd Or (length [1; 0]) (sub_rows L [2] [1; 0])) as [[|sv [|]] vs]; try discriminate. cbn in L2. destruct vs as [|v1 vs]; [discriminate|].
    assert (NV : exists V, null_vectors tol ([sv], v1 :: vs) = Ok V /\ length V <= 1).
    { unfold null_vectors. cbn [fst snd length seq combine filter map]. destruct (lt_dec (Rabs sv) tol); cbn; eauto. }
    destruct NV as (V & -> & LV). cbn [rbind].
    rewrite (single_partner tol (hermitian_part (project_super V (sub_rows L (map fst [(0, maj 1); (1, maj 0)]) [1; 0])))).
    + cbn [map]. destruct (Hs []) as [P _]. apply Permutation_sym, Permutation_nil in P. rewrite P. reflexivity.
    + unfold hermitian_part, project_super. rewrite !map_length, seq_length. auto.
    + intros r Hr'. unfold hermitian_part in Hr'. apply in_map_iff in Hr'. destruct Hr' as (i & <- & Hi). apply in_seq in Hi. rewrite map_length, seq_length. unfold project_super in *. rewrite !map_length in *. lia.
    + auto.
    + apply He. unfold hermitian_part, project_super. rewrite !map_length, seq_length. auto.
Qed.
Print Assumptions C119_complete_refuted.

(** Oracles that meet the hypotheses: a decomposition of the matrices that are zero. *)
Definition one_eigh (M : list vec) : list (R * vec) :=
  match M with [[x]] => if Req_EM_T (Im x) 0 then [(Re x, [RtoC 1])] else [] | _ => [] end.
Definition lad_zero : lad_oracles := mkLad one_eigh (fun n M => (repeat 0%R (Nat.min (length M) n), L_PartIso.units n)) (fun _ _ => []) argsort.
Example C119_example : sorts_reals (la_sort lad_zero) /\
  (forall n M, length (fst (la_svd lad_zero n M)) = Nat.min (length M) n /\ length (snd (la_svd lad_zero n M)) = n) /\
  (forall M, length M <= 1 -> eigenpairs M (la_eigh lad_zero M)) /\ exact_svd 2 [[RtoC 0; RtoC 0]] (la_svd lad_zero 2 [[RtoC 0; RtoC 0]]) /\
  la_eigh lad_zero [[RtoC 2]] = [(2%R, [RtoC 1])].
Proof.
  split; [exact argsort_sorts|]. split; [intros n M; split; [apply repeat_length | unfold la_svd, lad_zero, L_PartIso.units; cbn [snd]; rewrite map_length, seq_length; auto]|]. split; [|split].
  - intros M LM l v H. cbn [la_eigh lad_zero] in H. destruct M as [|[|x [|]] [|]]; try destruct H. cbn [one_eigh] in H. destruct (Req_EM_T (Im x) 0) as [Zx|]; [|destruct H]. destruct H as [H|[]].
    apply pair_equal_spec in H. destruct H as [<- <-]. split; auto. split; [intros X; injection X; intros; lra|]. unfold rows_vec, csum. cbn [map zip_with fold_right]. apply f_equal2; auto.
    destruct x as [p q]. cbn in Zx |- *. apply C_eq; cbn; subst; lra.
  - split; [reflexivity|]. split; [reflexivity|]. split; [intros v [<-|[<-|[]]]; reflexivity|]. split; [apply L_PartIso.units_orthonormal|].
    intros i v Hi. assert (Z : nth i [0%R] 0%R = 0%R) by (destruct i as [|[|]]; reflexivity). cbn [la_svd lad_zero fst length Nat.min repeat]. rewrite Z. split; [lra|]. intros u Lu.
    destruct u as [|x [|y [|]]]; try discriminate. assert (Lv : length v = 2) by (apply nth_error_In in Hi; destruct Hi as [<-|[<-|[]]]; reflexivity). destruct v as [|z [|t [|]]]; try discriminate.
    unfold rows_vec, csum, inner. cbn [map zip_with fold_right]. apply C_eq; cbn; lra.
  - cbn [la_eigh lad_zero one_eigh]. destruct (Req_EM_T (Im (RtoC 2)) 0) as [|N]; [reflexivity | contradiction N; reflexivity].
Qed.

(** C118.  With strings outside of the Basis the vectors of [_ladder_operators] need not be ladder
    operators: the commutators of the right null vectors need not be combinations of these vectors
    again.  For H = iA_0A_1 + iA_1A_2 + iA_2A_3 + iA_2A_4 + iA_2A_5 and the Basis A_0, A_1, A_2 it
    returns (iA_0 + A_1)/sqrt(2), whose commutator with H has the component A_2. *)
Definition out_rows : list vec := repeat [RtoC 0; RtoC 0; (0, - (2))%R] 3.
Definition out_svd : list R * list vec := ([2 * sqrt 3; 0; 0]%R, [[RtoC 0; RtoC 0; RtoC 1]; [RtoC 1; RtoC 0; RtoC 0]; [RtoC 0; RtoC 1; RtoC 0]]).
Definition lad_out : lad_oracles := mkLad lad_eigh (fun n M => if Nat.eqb n 3 then if list_eq_dec (list_eq_dec Ceq_dec) M out_rows then out_svd else ([], []) else ([], []))
  (fun _ _ => []) argsort.
Definition out_vec : vec := [(0, rh)%R; RtoC rh; RtoC 0].
Lemma out_svd_exact n M : la_svd lad_out n M = ([], []) \/ exact_svd n M (la_svd lad_out n M).
Proof.
  cbn [la_svd lad_out]. destruct (Nat.eqb_spec n 3) as [->|]; auto. destruct (list_eq_dec (list_eq_dec Ceq_dec) M out_rows) as [->|]; auto. right.
  split; [reflexivity|]. split; [reflexivity|]. split; [intros v [<-|[<-|[<-|[]]]]; reflexivity|]. split.
  - split; [intros v [<-|[<-|[<-|[]]]]; apply C_eq; cbn; lra|].
    intros [|[|[|[|]]]] [|[|[|[|]]]] v w X Y N; cbn in X, Y; try discriminate; try lia; apply some_inj in X, Y; subst; apply C_eq; cbn; lra.
  - assert (S3 : (sqrt 3 * sqrt 3 = 3)%R) by (apply sqrt_sqrt; lra). pose proof (sqrt_pos 3) as S4.
    intros [|[|[|[|]]]] v X; cbn in X; try discriminate; apply some_inj in X; subst; (split; [cbn [fst out_svd nth]; lra|]);
      intros u Lu; destruct u as [|[x1 x2] [|[y1 y2] [|[z1 z2] [|]]]]; try discriminate; unfold out_rows, rows_vec, csum, inner; cbn [repeat map zip_with fold_right fst out_svd nth];
      try replace (2 * sqrt 3 * (2 * sqrt 3))%R with 12%R by lra; apply C_eq; cbn; lra.
Qed.
Theorem C118_sound_refuted : exists Or b o v, canonical_basis Majorana b /\ good_op Majorana o /\ real_coeffs o /\
  exact_hermitian_solver 2 (la_eigh Or) /\ (forall n M, la_svd Or n M = ([], []) \/ exact_svd n M (la_svd Or n M)) /\ sorts_reals (la_sort Or) /\
  (forall tol, (0 < tol < 1)%R -> ladder_operators Or b o tol = Ok ([v], [2%R])) /\
  forall (A : StarAlg) (S : RScal A) (g : op -> Z -> A), rep Majorana g -> ~ (@aone A == azero) -> ~ ladder S (lincomb g (op_terms o)) 2 (cden S g (CBasis b) v).
Proof.
  destruct (basis_new maj_strings) as [b|] eqn:Eb; [|vm_compute in Eb; discriminate].
  destruct (op_new [g1; g1; g1; g1; g1] [pair 0 1; pair 1 2; pair 2 3; pair 2 4; pair 2 5] None) as [o|] eqn:Eo; [|vm_compute in Eo; discriminate].
  exists lad_out, b, o, out_vec. destruct (maj_basis b Eb) as (Sb & Lb & Hb). destruct (pairs_op [(0, 1); (1, 2); (2, 3); (2, 4); (2, 5)]%Z o Eo ltac:(discriminate)) as [Ho Hr]; [intros p Hp; cbn in Hp; repeat destruct Hp as [<-|Hp]; try destruct Hp; discriminate|].
  split; auto. split; auto. split; auto. split; [exact lad_eigh_exact|]. split; [exact out_svd_exact|]. split; [exact argsort_sorts|].
  destruct (op_neg o) as [m|] eqn:Em; [|vm_compute in Eo; injection Eo as <-; vm_compute in Em; discriminate]. split.
  - intros tol Ht.
    destruct (liouvillian_matrix MCommutator (ABasis b) m) as [[L E]|] eqn:HL; [|vm_compute in Eb; injection Eb as <-; vm_compute in Eo; injection Eo as <-; vm_compute in Em; injection Em as <-; vm_compute in HL; discriminate].
    rewrite (ladder_run lad_out b o tol m L E [(0, maj 1); (1, maj 0); (2, maj 2)] [3; 4; 5] [1; 0; 2] Em HL) by
      (vm_compute in Eb; injection Eb as <-; vm_compute in Eo; injection Eo as <-; vm_compute in Em; injection Em as <-; vm_compute in HL; injection HL as <- <-; vm_compute; solve [reflexivity | discriminate]).
    assert (G : map (fun i => map (sm_entry L i) [1; 0; 2]) [0; 1; 2] = [[gint 0 0; gint 0 (-2); gint 0 2]; [gint 0 2; gint 0 0; gint 0 0]; [gint 0 (-2); gint 0 0; gint 0 0]] /\
      map (fun i => map (sm_entry L i) [1; 0; 2]) [3; 4; 5] = repeat [gint 0 0; gint 0 0; gint 0 (-2)] 3).
    { vm_compute in Eb. injection Eb as <-. vm_compute in Eo. injection Eo as <-. vm_compute in Em. injection Em as <-. vm_compute in HL. injection HL as <- <-.
      split; cbn [map repeat]; repeat apply f_equal2; try reflexivity; gint_tac. }
    destruct G as [G1 G2]. clear HL. change (map fst [(0, maj 1); (1, maj 0); (2, maj 2)]) with [0; 1; 2]. rewrite !sub_rows_map, G1, G2. clear G1 G2. cbn [repeat map]. rewrite !gint_C.
    match goal with |- context [la_svd lad_out ?n ?M] => assert (X : la_svd lad_out n M = out_svd) end.
    { cbn [la_svd lad_out length Nat.eqb]. match goal with |- (if ?d then _ else _) = _ => destruct d as [|N] end; auto. contradiction N. unfold out_rows. cbn [repeat]. repeat apply f_equal2; try reflexivity; apply C_eq; cbn; lra. }
    rewrite X. clear X.
    assert (NV : null_vectors tol out_svd = Ok [[RtoC 1; RtoC 0; RtoC 0]; [RtoC 0; RtoC 1; RtoC 0]]).
    { assert (S3 : (sqrt 3 * sqrt 3 = 3)%R) by (apply sqrt_sqrt; lra). pose proof (sqrt_pos 3) as S4.
      assert (A1 : lt_dec (Rabs (2 * sqrt 3)) tol = false). { apply not_true_is_false. intros H. apply lt_dec_true in H. rewrite Rabs_pos_eq in H by nra. nra. }
      assert (A2 : lt_dec (Rabs 0) tol = true) by (apply lt_dec_true; rewrite Rabs_R0; lra).
      unfold null_vectors, out_svd. cbn [fst snd length seq combine filter]. rewrite A1, A2. reflexivity. }
    rewrite NV. cbn [rbind].
    match goal with |- context [hermitian_part ?M] => assert (HP : hermitian_part M = [[(0, 0); (0, -2)]; [(0, 2); (0, 0)]]%R) end.
    { unfold hermitian_part, project_super. cbn [map length seq nth]. unfold rows_vec, vdot, csum. cbn [map zip_with fold_right]. repeat apply f_equal2; try reflexivity; apply C_eq; cbn; lra. }
    rewrite HP. clear HP. cbn [la_eigh lad_out lad_eigh nth Im snd].
    assert (PT : partnered tol [((-2)%R, [(rh, 0); (0, - rh)]%R); ((- -2)%R, [(rh, 0); (0, rh)]%R)] = [((- -2)%R, [(rh, 0); (0, rh)]%R)]).
    { unfold partnered. cbn [filter fst existsb].
      assert (A1 : lt_dec tol (-2) = false) by (apply not_true_is_false; intros H; apply lt_dec_true in H; lra).
      assert (A2 : lt_dec tol (- -2) = true) by (apply lt_dec_true; lra). assert (A3 : lt_dec 0 tol = true) by (apply lt_dec_true; lra).
      assert (A4 : lt_dec (Rabs (- -2 + -2)) tol = true) by (apply lt_dec_true; replace (- -2 + -2)%R with 0%R by ring; rewrite Rabs_R0; lra).
      rewrite A1, A2, A3, A4. reflexivity. }
    rewrite PT. cbn [map fst la_sort lad_out]. destruct (argsort_sorts [(- -2)%R]) as [P _]. cbn [length seq] in P. apply Permutation_sym, Permutation_length_1_inv in P. rewrite P. cbn [take rmap nth_error of_option rbind map fst snd].
    rewrite Lb. replace (- -2)%R with 2%R by ring. f_equal. f_equal. f_equal. unfold scatter, out_vec. cbn [seq map length mat_vec combine fold_left Nat.eqb fst snd].
    unfold vzero, vadd, vscale. cbn [repeat map zip_with combine fold_left Nat.eqb fst snd]. repeat apply f_equal2; try reflexivity; apply C_eq; cbn; lra.
  - intros A S g Hg Hn HL. pose proof (ladder_coefs Majorana o b ltac:(discriminate) Hb Ho Hr A S g m out_vec 2 (maj 2) Hg Hn Em HL (ok_maj 2)) as X. rewrite Sb in X.
    rewrite (tcoef_nth Majorana maj_strings ltac:(rewrite <- Sb; apply L_Cumul2.built_nodup, Hb) ltac:(rewrite <- Sb; apply Hb) _ 2 (maj 2) eq_refl) in X. cbn [map maj_strings] in X.
    assert (G : gcoef m (maj 2) (maj 0) = gint 0 0 /\ gcoef m (maj 2) (maj 1) = gint 0 (-2) /\ gcoef m (maj 2) (maj 2) = gint 0 0).
    { vm_compute in Eo. injection Eo as <-. vm_compute in Em. injection Em as <-. repeat split; gint_tac. }
    destruct G as (G1 & G2 & G3). rewrite G1, G2, G3, !gint_C in X. unfold out_vec, csum in X. cbn [zip_with fold_right nth] in X. apply (f_equal Im) in X. cbn in X.
    pose proof rh_sq as Y. assert (Z : rh = 0%R) by lra. rewrite Z in Y. lra.
Qed.
Print Assumptions C118_sound_refuted.
