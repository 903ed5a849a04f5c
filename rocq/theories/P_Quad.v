(** C59: the matrices of quadratic Operators. *)
From Coq Require Import List ZArith Bool Arith QArith Qcanon Lia.
From Verif Require Import GC Exn S_Alg S_Den S_Basis S_Conv S_Quad M_OpString M_Basis M_Conversion M_Quad
  L_Alg L_Operator L_ConvAlg L_Conversion L_Quad L_Quad2 L_Quad3.
Import ListNotations.
Local Open Scope alg_scope.
Local Ltac gcs := vm_compute; repeat first [reflexivity | apply Qc_is_canon; reflexivity | apply f_equal2].

(** The matrix A of [diagonalize_quadratic] for a Majorana Operator is real and antisymmetric and, for
    real coefficients, the Operator is (i/4) Σ A_jk m_j m_k with m = a_0, b_0, a_1, b_1, ... *)
Theorem C59_majorana : forall o n, op_ok o -> o_type o = Majorana ->
  (forall t, In t (op_terms o) -> string_ok Majorana (snd t) /\ quadratic_majorana n (snd t)) -> exists M,
  quadratic_matrix o n = Ok M /\ z_dim M = (2 * n)%nat /\ antisymmetric (zentry M) /\ real_entries (zentry M) /\
  ((forall t, In t (op_terms o) -> real (fst t)) -> forall (A : StarAlg) (g : op -> Z -> A), rep Majorana g ->
     lincomb g (op_terms o) == gmul gi (gmul half half) · form (2 * n) (zentry M) (maj g) (maj g)).
Proof. exact majorana_quadratic. Qed.
Print Assumptions C59_majorana.
(** Any other string, or a label that is not below n, is refused. *)
Theorem C59_majorana_refused : forall o n, o_type o = Majorana ->
  (forall t, In t (op_terms o) -> string_ok Majorana (snd t)) ->
  ~ (forall t, In t (op_terms o) -> quadratic_majorana n (snd t)) -> quadratic_matrix o n = Err ValueError.
Proof. exact majorana_quadratic_only. Qed.
Print Assumptions C59_majorana_refused.
(** For a Fermion Operator the same holds up to a multiple of the identity. *)
Theorem C59_fermion : forall o n, op_ok o -> op_std o -> o_type o = Fermion ->
  (forall t, In t (op_terms o) -> real (fst t) /\ quadratic_fermion n (snd t)) -> exists M k,
  quadratic_matrix o n = Ok M /\ z_dim M = (2 * n)%nat /\ antisymmetric (zentry M) /\ real_entries (zentry M) /\
  (forall (A : StarAlg) (c : Z -> A), CAR A c ->
     means c (op_terms o) == gmul gi (gmul half half) · form (2 * n) (zentry M) (maj (gmaj c)) (maj (gmaj c)) + k · aone).
Proof. exact fermion_quadratic. Qed.
Print Assumptions C59_fermion.
(** Pauli Operators are refused. *)
Theorem C59_pauli : forall o n, o_type o = Pauli -> quadratic_matrix o n = Err ValueError /\ bdg_matrix o n = Err ValueError.
Proof. intros o n H. unfold quadratic_matrix, bdg_matrix. rewrite H. auto. Qed.
Print Assumptions C59_pauli.
(** The imaginary part of a coefficient is lost: the matrix of i d_0 is zero. *)
Theorem C59_complex_refuted : exists o M, op_ok o /\ op_terms o = [(gi, mkOS [OD] [0%Z] Majorana p_one)] /\
  quadratic_matrix o 1 = Ok M /\ (forall j k, zentry M j k = g0) /\
  (forall (A : StarAlg) (g : op -> Z -> A), rep Majorana g -> lincomb g (op_terms o) == azero -> aone == (azero : A)).
Proof.
  destruct (op_new_ok [gi] [mkOS [OD] [0%Z] Majorana p_one] None) as (o & Eo & Ho & _).
  { intros i j s t Hi Hj _. destruct i as [|[|]], j as [|[|]]; try discriminate; auto. }
  { reflexivity. } { left. discriminate. }
  exists o, (mkZMat 2 (quad_entries 0 1 gm1 gi)). vm_compute in Eo. injection Eo as <-.
  split; [exact Ho|]. split; [reflexivity|]. split; [vm_compute; reflexivity|]. split.
  - intros j k. unfold zentry, quad_entries. cbn [z_data map fold_right fst snd].
    destruct (_ && _), (_ && _); apply GC_ext; apply Qc_is_canon; reflexivity.
  - intros A g R H. unfold lincomb, den in H. cbn [op_terms o_coeffs o_basis combine b_strings map fst snd asum fold_right aprod os_ops os_labels os_pref pval p_one] in H.
    rewrite amul_1_r, aadd_0_r, ascal_ascal in H. destruct R as [? ? H1 H2 ? ? ? H4]. rewrite (H4 0%Z), ascal_ascal in H.
    assert (H' : g OA 0%Z * g OB 0%Z == azero).
    { apply (ascal_cancel (gmul (gmul gi g1) (gopp gi))); [discriminate|]. rewrite ascal_zero. exact H. }
    rewrite <- (H1 0%Z). rewrite <- (amul_1_r A (g OA 0%Z)) at 1. rewrite <- (H2 0%Z).
    rewrite !amul_assoc, H', !amul_0_l. reflexivity.
Qed.
Print Assumptions C59_complex_refuted.

(** The matrix of [diagonalize_quadratic_tightbinding] is Hermitian and the Operator is Σ t_jk c^*_j c_k. *)
Theorem C59_tight_binding : forall o r n, convert (COperator o) Fermion false = Ok r ->
  (forall t, In t (op_terms r) -> hopping n (snd t)) -> exists M,
  tightbinding_matrix o n = Ok M /\ z_dim M = n /\ hermitian (zentry M) /\
  ((forall t, In t (op_terms r) -> real (fst t)) -> forall (A : StarAlg) (c : Z -> A),
     means c (op_terms r) == form n (zentry M) (fun j => (c j)^*) c).
Proof. exact tightbinding_ok. Qed.
Print Assumptions C59_tight_binding.

(** The matrix of [diagonalize_bdg] is Hermitian and symmetric between particles and holes, and the
    Operator is ½ Σ H_jk Ψ^*_j Ψ_k + ½ tr with Ψ = (c_0, ..., c_(n-1), c^*_0, ..., c^*_(n-1)). *)
Theorem C59_bdg : forall o r n, (o_type o = Fermion /\ r = o) \/ (o_type o = Majorana /\ convert (COperator o) Fermion false = Ok r) ->
  (forall t, In t (op_terms r) -> real (fst t) /\ quadratic_fermion n (snd t)) -> exists M,
  bdg_matrix o n = Ok M /\ z_dim M = (2 * n)%nat /\ hermitian (zentry M) /\ ph_symmetric n (zentry M) /\
  (forall (A : StarAlg) (c : Z -> A), CAR A c ->
     means c (op_terms r) == half · form (2 * n) (zentry M) (fun j => (nambu n c j)^*) (nambu n c) + gmul half (trace n (zentry M)) · aone).
Proof. exact bdg_ok. Qed.
Print Assumptions C59_bdg.

(** Examples: i a_0 b_1 + 2 d_1; c^*_0 c_1 + h.c. + 3 c^*_1 c_1 and with 1j c^*_1 c^*_0 + h.c. *)
Definition q_ab : OS := mkOS [OA; OB] [0%Z; 1%Z] Majorana p_j.
Definition q_d : OS := mkOS [OD] [1%Z] Majorana p_one.
Definition q_hop : OS := mkOS [OCDag; OC] [0%Z; 1%Z] Fermion p_one.
Definition q_num : OS := mkOS [OCDag; OC] [1%Z; 1%Z] Fermion p_one.
Definition q_pair : OS := mkOS [OCDag; OCDag] [1%Z; 0%Z] Fermion p_j.
Definition table (n : nat) (M : zmat) : list (list GC) := map (fun i => map (zentry M i) (below n)) (below n).

Example C59_example_majorana : exists o M, op_new [g1; g2] [q_ab; q_d] None = Ok o /\ o_type o = Majorana /\
  (forall t, In t (op_terms o) -> real (fst t) /\ string_ok Majorana (snd t) /\ quadratic_majorana 2 (snd t)) /\
  quadratic_matrix o 2 = Ok M /\
  table 4 M = [[g0; g0; g0; g2]; [g0; g0; g0; g0]; [g0; g0; g0; gz (-4)]; [gz (-2); g0; gz 4; g0]] /\
  quadratic_matrix o 1 = Err ValueError.
Proof.
  do 2 eexists. split; [vm_compute; reflexivity|]. split; [reflexivity|]. split.
  - intros t H. destruct H as [<-|[<-|[] ] ]; cbn [fst snd].
    + split; [reflexivity|]. split.
      * repeat split; cbn; auto; [intros x H; destruct H as [<-|[<-|[] ] ]; reflexivity | repeat constructor; cbn; intuition lia].
      * split; [cbn; intros l H; destruct H as [<-|[<-|[] ] ]; lia|]. right. exists OA, OB. repeat split; discriminate.
    + split; [reflexivity|]. split.
      * repeat split; cbn; auto; [intros x H; destruct H as [<-|[] ]; reflexivity | repeat constructor; cbn; intuition lia].
      * split; [cbn; intros l H; destruct H as [<-|[] ]; lia|]. left. reflexivity.
  - split; [vm_compute; reflexivity|]. split; [gcs|]. vm_compute; reflexivity.
Qed.
Example C59_example_fermion : exists o M T B, op_new [g1; gz 3; g1] [q_hop; q_num; q_pair] None = Ok o /\ o_type o = Fermion /\
  (forall t, In t (op_terms o) -> real (fst t) /\ quadratic_fermion 2 (snd t)) /\
  quadratic_matrix o 2 = Ok M /\ (exists oh, op_new [g1; gz 3] [q_hop; q_num] None = Ok oh /\
     convert (COperator oh) Fermion false = Ok oh /\ (forall t, In t (op_terms oh) -> hopping 2 (snd t)) /\ tightbinding_matrix oh 2 = Ok T) /\
  bdg_matrix o 2 = Ok B /\
  table 2 T = [[g0; g1]; [g1; gz 3]] /\
  table 4 B = [[g0; g1; g0; gopp gi]; [g1; gz 3; gi; g0]; [g0; gopp gi; g0; gm1]; [gi; g0; gm1; gz (-3)]].
Proof.
  do 4 eexists. split; [vm_compute; reflexivity|]. split; [reflexivity|].
  assert (H1 : hopping 2 q_hop) by (exists 0%Z, 1%Z; repeat split; cbn; auto; lia).
  assert (H2 : hopping 2 q_num) by (exists 1%Z, 1%Z; repeat split; cbn; auto; lia).
  assert (H3 : pairing 2 q_pair) by (exists 1%Z, 0%Z; repeat split; cbn; auto; lia). split.
  - intros t H. destruct H as [<-|[<-|[<-|[] ] ] ]; (split; [reflexivity|]); [left|left|right]; auto.
  - split; [vm_compute; reflexivity|]. split.
    + eexists. split; [vm_compute; reflexivity|]. split; [vm_compute; reflexivity|]. split; [|vm_compute; reflexivity].
      intros t H. destruct H as [<-|[<-|[] ] ]; auto.
    + split; [vm_compute; reflexivity|]. split; gcs.
Qed.
