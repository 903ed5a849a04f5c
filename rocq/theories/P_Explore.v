(** Properties C60-C62: the caching exploration and the truncations of selected_ci. *)
From Coq Require Import String List ZArith Bool Arith Lia Permutation QArith Qcanon.
From Verif Require Import GC Exn S_Alg S_Den S_Fock S_Basis S_Built S_OpAlg S_Explore M_OpString M_Algebra M_Basis M_OpAlg M_Explore
  L_PropStr L_Fock L_Indep L_Basis L_Operator L_Heap L_PropBasis L_OpAlg L_Struct L_PropOpAlg L_Explore L_Explore3 L_Explore4.
Import ListNotations.
Local Open Scope nat_scope.
Local Open Scope alg_scope.

(** C60: after any history of explorations with one Operator, an exploration returns a matrix whose
    columns are the commutators with the considered terms, over exactly the strings reached. *)
Theorem C60_explore : forall ty H st b allowed, ty <> Fermion -> std_op ty H -> explored ty H st -> std_basis ty b ->
  exists L ext st', explore b H st allowed = Ok (L, ext, st') /\ explored ty H st' /\ canonical_basis ty ext /\
    sm_rows L = basis_len ext /\ sm_cols L = basis_len b /\
    (forall e, In e (b_strings ext) <-> exists S t k, In S (b_strings b) /\ In t (terms_near allowed H) /\ operation_opstring MCommutator S (snd t) = Ok (k, Some e)) /\
    forall a S, nth_error (b_strings b) a = Some S -> forall (Al : StarAlg) (g : op -> Z -> Al), rep ty g ->
      exact MCommutator (den g S) (lincomb g (terms_near allowed H)) == lincomb g (combine (column L a) (b_strings ext)).
Proof.
  intros ty H st b allowed Hty HH Hst Hb.
  destruct (explore_ok ty H Hty HH b st allowed (explored_ok ty H Hty HH st Hst) Hb) as (L & ext & st' & E & _ & R).
  exists L, ext, st'. split; auto. split; auto. eapply explored_step; eauto.
Qed.
Print Assumptions C60_explore.

(** The entries are those of the matrix computed from scratch. *)
Theorem C60_from_scratch : forall ty H st b L ext st', ty <> Fermion -> std_op ty H -> explored ty H st -> std_basis ty b ->
  explore b H st None = Ok (L, ext, st') ->
  exists L0 C0, liouvillian_matrix MCommutator (ABasis b) H = Ok (L0, C0) /\
    forall a, a < basis_len b -> forall e c,
      has_coeff (combine (column L a) (b_strings ext)) e c <-> has_coeff (combine (column L0 a) (b_strings C0)) e c.
Proof.
  intros ty H st b L ext st' Hty HH Hst Hb E.
  destruct (C60_explore ty H st b None Hty HH Hst Hb) as (L' & ext' & st2 & E' & _ & HC & RL & CL & _ & DL). rewrite E in E'. injection E' as <- <- <-.
  destruct (liouvillian_strings_proof ty MCommutator b H Hty (proj1 Hb) (proj1 HH)) as (L0 & C0 & E0 & HC0 & R0 & _ & _ & D0).
  exists L0, C0. split; auto. intros a Ha. destruct (nth_len (b_strings b) a Ha) as (S & HS).
  apply (same_columns ty ext C0 L L0 (fun Al g => exact MCommutator (den g S) (lincomb g (op_terms H)))); auto.
  intros Al g Hr. rewrite <- (DL a S HS Al g Hr). replace (terms_near None H) with (op_terms H); [reflexivity|].
  unfold terms_near. clear. induction (op_terms H) as [|t l IH]; auto. cbn [filter]. rewrite <- IH. reflexivity.
Qed.
Print Assumptions C60_from_scratch.

(** Two explorations of X_1, X_2 with H = Z_1 + 3 X_1 X_2 after exploring Z_2: nothing is lost. *)
Definition eH := mkOperator [g1; gz 3] (mkBasis [sZ1; sXX] [(sZ1, 0); (sXX, 1)]) Pauli.
Definition eb1 := mkBasis [sZ2] [(sZ2, 0)].
Definition eb2 := mkBasis [sX1; sZ2] [(sX1, 0); (sZ2, 1)].
Lemma eH_std : std_op Pauli eH.
Proof.
  split; [apply (good_op_intro Pauli [g1; gz 3] [sZ1; sXX]); try reflexivity; intros s [<-|[<-|[] ] ]; [apply ok_Z1 | apply ok_XX]|].
  intros s [<-|[<-|[] ] ]; left; reflexivity.
Qed.
Lemma eb1_std : std_basis Pauli eb1.
Proof. split; [apply (good_basis_intro Pauli [sZ2]); [reflexivity | intros s [<-|[] ]; apply ok_Z2]|]. intros s [<-|[] ]; left; reflexivity. Qed.
Lemma eb2_std : std_basis Pauli eb2.
Proof.
  split; [apply (good_basis_intro Pauli [sX1; sZ2]); [reflexivity | intros s [<-|[<-|[] ] ]; [apply ok_X1 | apply ok_Z2]]|].
  intros s [<-|[<-|[] ] ]; left; reflexivity.
Qed.
Lemma e_run : exists L1 e1 st1, explore eb1 eH cache_empty None = Ok (L1, e1, st1) /\ exists L2 e2 st2, explore eb2 eH st1 None = Ok (L2, e2, st2) /\
  b_strings e2 = [sY1; mkOS [OX; OY] [1%Z; 2%Z] Pauli p_one] /\
  column L2 0 = [gopp (gmul g2 gi); g0] /\ column L2 1 = [g0; gmul (gz 6) gi] /\
  b_strings (x_ext st2) = [mkOS [OX; OY] [1%Z; 2%Z] Pauli p_one; sY1] /\
  exists L3 e3 st3, explore eb2 eH st2 (Some [2%Z]) = Ok (L3, e3, st3) /\ b_strings e3 = [mkOS [OX; OY] [1%Z; 2%Z] Pauli p_one] /\ column L3 0 = [g0].
Proof.
  do 3 eexists. split; [reflexivity|]. do 3 eexists. split; [reflexivity|]. split; [reflexivity|]. split; [reflexivity|]. split; [reflexivity|]. split; [reflexivity|].
  do 3 eexists. split; [reflexivity|]. split; reflexivity.
Qed.
Example C60_example : std_op Pauli eH /\ std_basis Pauli eb2 /\ exists L1 e1 st1 L2 e2 st2, explored Pauli eH st1 /\
  explore eb1 eH cache_empty None = Ok (L1, e1, st1) /\ explore eb2 eH st1 None = Ok (L2, e2, st2) /\
  b_strings e2 = [sY1; mkOS [OX; OY] [1%Z; 2%Z] Pauli p_one] /\
  column L2 0 = [gopp (gmul g2 gi); g0] /\ column L2 1 = [g0; gmul (gz 6) gi] /\
  b_strings (x_ext st2) = [mkOS [OX; OY] [1%Z; 2%Z] Pauli p_one; sY1] /\
  exists L3 e3 st3, explore eb2 eH st2 (Some [2%Z]) = Ok (L3, e3, st3) /\ b_strings e3 = [mkOS [OX; OY] [1%Z; 2%Z] Pauli p_one] /\ column L3 0 = [g0].
Proof.
  split; [apply eH_std|]. split; [apply eb2_std|]. destruct e_run as (L1 & e1 & st1 & E1 & L2 & e2 & st2 & R). exists L1, e1, st1, L2, e2, st2.
  split; [|split; auto]. eapply explored_step; [apply explored_none | apply eb1_std | exact E1].
Qed.

(** C61 is false: sharing the cache, the matrix of a second Operator with other strings is always
    empty on a basis that has been explored before ... *)
Theorem C61_second_operator_refuted : forall ty H1 H2 b allowed L ext st1, ty <> Fermion -> std_op ty H1 -> std_op ty H2 -> std_basis ty b ->
  (forall s, In s (b_strings (o_basis H1)) -> ~ In s (b_strings (o_basis H2))) ->
  explore b H1 cache_empty allowed = Ok (L, ext, st1) ->
  exists st2, explore b H2 st1 None = Ok (mkSM 0 (basis_len b) [], basis_empty, st2).
Proof.
  intros ty H1 H2 b allowed L ext st1 Hty HH1 HH2 Hb Hd E.
  apply (second_operator ty H1 H2 b cache_empty allowed Hty HH1 HH2 Hb Hd L ext st1); auto. apply explored_none.
Qed.
Print Assumptions C61_second_operator_refuted.
(** ... although the commutators are not zero: [X_1, Y_1] = 2i Z_1 is lost after exploring with Z_1. *)
Theorem C61_wrong_refuted : exists H1 H2 b L ext st1 L2 st2 L0 C0, std_op Pauli H1 /\ std_op Pauli H2 /\ std_basis Pauli b /\
  explore b H1 cache_empty None = Ok (L, ext, st1) /\ explore b H2 st1 None = Ok (L2, basis_empty, st2) /\
  liouvillian_matrix MCommutator (ABasis b) H2 = Ok (L0, C0) /\ b_strings C0 = [sZ1] /\ column L0 0 = [gmul g2 gi].
Proof.
  exists (mkOperator [g1] (mkBasis [sZ1] [(sZ1, 0)]) Pauli), (mkOperator [g1] (mkBasis [sY1] [(sY1, 0)]) Pauli), (mkBasis [sX1] [(sX1, 0)]).
  do 7 eexists. split; [split; [apply (good_op_intro Pauli [g1] [sZ1]); try reflexivity; intros s [<-|[] ]; apply ok_Z1 | intros s [<-|[] ]; left; reflexivity]|].
  split; [split; [apply (good_op_intro Pauli [g1] [sY1]); try reflexivity; intros s [<-|[] ]; apply ok_Y1 | intros s [<-|[] ]; left; reflexivity]|].
  split; [split; [apply (good_basis_intro Pauli [sX1]); [reflexivity | intros s [<-|[] ]; apply ok_X1] | intros s [<-|[] ]; left; reflexivity]|].
  split; [reflexivity|]. split; [reflexivity|]. split; [reflexivity|]. split; reflexivity.
Qed.
Print Assumptions C61_wrong_refuted.

(** C62: [_truncate_basis] keeps the strings of the largest coefficients above the threshold. *)
Theorem C62_truncate_basis : forall b vec perm thr size, built b -> length vec = basis_len b -> sorts vec perm -> (0 <= thr)%Qc ->
  exists r inds, truncate_basis b vec perm thr size = Ok r /\ built r /\ NoDup inds /\
    Forall2 (fun i s => nth_error (b_strings b) i = Some s) inds (b_strings r) /\
    length inds = Nat.min size (length (filter (largeb thr) vec)) /\
    (forall i, In i inds -> exists c, nth_error vec i = Some c /\ large thr c) /\
    (forall i j c d, In i inds -> ~ In j inds -> nth_error vec i = Some c -> nth_error vec j = Some d -> large thr d -> (norm2 d <= norm2 c)%Qc).
Proof. intros b vec perm thr size Hb Hl Hs _. apply truncate_basis_ok; auto. Qed.
Print Assumptions C62_truncate_basis.
(** [_truncate_operator] moreover keeps the coefficient of each string; it raises ValueError if nothing is left. *)
Theorem C62_truncate_operator : forall o perm thr size, made o -> sorts (o_coeffs o) perm -> (0 <= thr)%Qc ->
  (size <> 0 -> (exists c, In c (o_coeffs o) /\ large thr c) -> exists r, truncate_operator o perm thr size = Ok r /\ made r /\
    op_len r = Nat.min size (length (filter (largeb thr) (o_coeffs o))) /\
    (forall c s, In (c, s) (op_terms r) -> In (c, s) (op_terms o) /\ large thr c) /\
    (forall c s d t, In (c, s) (op_terms r) -> In (d, t) (op_terms o) -> ~ In (d, t) (op_terms r) -> large thr d -> (norm2 d <= norm2 c)%Qc)) /\
  (size = 0 \/ (forall c, In c (o_coeffs o) -> ~ large thr c) -> truncate_operator o perm thr size = Err ValueError).
Proof. intros o perm thr size Ho Hs _. apply truncate_operator_ok; auto. Qed.
Print Assumptions C62_truncate_operator.
(** In [selected_ci_greedy] the truncated Operator gets the first coefficients of the vector in the
    old order: the k-th kept string has the coefficient of the k-th string before the truncation. *)
Theorem C62_greedy_refuted : (forall b vec perm thr size r o, greedy_truncate b vec perm thr size = Ok (r, o) ->
    truncate_basis b vec perm thr size = Ok r /\ o_coeffs o = firstn (basis_len r) vec) /\
  exists b vec perm thr r o, built b /\ length vec = basis_len b /\ sorts vec perm /\ (0 <= thr)%Qc /\
    greedy_truncate b vec perm thr 1 = Ok (r, o) /\ combine vec (b_strings b) = [(g1, sX1); (gz 5, sZ1)] /\ op_terms o = [(g1, sZ1)].
Proof.
  split; [intros; eapply greedy_coeffs; eauto|].
  exists (mkBasis [sX1; sZ1] [(sX1, 0); (sZ1, 1)]), [g1; gz 5], [0; 1], 0%Qc. do 2 eexists.
  split; [apply (good_basis_intro Pauli [sX1; sZ1]); [reflexivity | intros s [<-|[<-|[] ] ]; [apply ok_X1 | apply ok_Z1]]|].
  split; [reflexivity|]. split.
  { split; [apply Permutation_refl|]. intros p q i j x y Hpq Hi Hj Hx Hy. destruct p as [|[|[|p] ] ], q as [|[|[|q] ] ]; try discriminate; try lia.
    cbn in Hi, Hj. injection Hi as <-. injection Hj as <-. cbn in Hx, Hy. injection Hx as <-. injection Hy as <-. vm_compute. discriminate. }
  split; [discriminate|]. split; [reflexivity|]. split; reflexivity.
Qed.
Print Assumptions C62_greedy_refuted.
Example C62_example : exists o r, made o /\ op_terms o = [(g1, sX1); (gz 5, sZ1); (gi, sY1)] /\ sorts (o_coeffs o) [0; 2; 1] /\
  truncate_operator o [0; 2; 1] (Q2Qc (1 # 2)) 2 = Ok r /\ op_terms r = [(gz 5, sZ1); (gi, sY1)].
Proof.
  exists (mkOperator [g1; gz 5; gi] (mkBasis [sX1; sZ1; sY1] [(sX1, 0); (sZ1, 1); (sY1, 2)]) Pauli). eexists.
  split; [exists [g1; gz 5; gi], [sX1; sZ1; sY1], None; split; reflexivity|]. split; [reflexivity|]. split.
  { split; [apply perm_skip, perm_swap|]. intros p q i j x y Hpq Hi Hj Hx Hy.
    destruct p as [|[|[|[|p] ] ] ], q as [|[|[|[|q] ] ] ]; try discriminate; try lia; cbn in Hi, Hj; injection Hi as <-; injection Hj as <-; cbn in Hx, Hy;
    injection Hx as <-; injection Hy as <-; vm_compute; discriminate. }
  split; reflexivity.
Qed.
