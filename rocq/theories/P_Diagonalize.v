(** Properties C112-C113: diagonalize. *)
From Coq Require Import List ZArith NArith Bool Arith Lia Permutation Sorted Reals QArith Qreals Qcanon Lra.
From Coquelicot Require Import Complex.
From Verif Require Import GC Exn M_OpString M_Basis M_OpAlg M_Diag M_Conversion M_LinAlg M_Core M_Greedy M_Diagonalize
  S_Alg S_Den S_Basis S_Built S_Conv S_LinAlg S_Core S_Greedy S_Diag S_Diagonalize
  L_Alg L_LinAlg L_Operator L_PropBasis L_Conversion2 L_Diag1 L_Diag3 L_Diagonalize L_Diagonalize2 P_Diag P_Conversion P_Greedy.
Import ListNotations.
Local Open Scope nat_scope.

(** What the Hermitian mode returns for the matrix [H]: all levels, or the [k] lowest. *)
Definition solved (Or : dgoracles) (a : convert_arg) (n : nat) (H : N -> N -> GC) : Prop :=
  (exists qs, diagonalize Or a n true None = Ok (Hermitian qs) /\ ordered_levels n H qs /\ all_levels n H qs) /\
  forall k, k < 2 ^ n -> exists qs, diagonalize Or a n true (Some k) = Ok (Hermitian qs) /\ ordered_levels n H qs /\ lowest_levels n k H qs.

(** C112: with an exact eigensolver diagonalize returns orthonormal eigenvectors of the matrix of
    the Operator, in ascending order; all eigenvalues are found, the first is the minimum of the
    energy; with [num_vecs] they are the lowest ones. *)
Theorem C112_pauli : forall Or n o, on_spins n o -> (forall z, In z (o_coeffs o) -> im z = 0%Qc) -> o_type o = Pauli ->
  exact_eigh (dg_eigh Or) n (matrix_of n (op_terms o)) -> sorts_reals (dg_sort Or) -> solved Or (COperator o) n (matrix_of n (op_terms o)).
Proof.
  intros Or n o Hon Hr Ht Hx Hs. apply (diagonalize_levels Or n (COperator o) o); auto.
  - rewrite <- Ht. apply C43_same_type; [apply made_ok, Hon|]. intros s Hin. rewrite Ht. apply (proj2 Hon s Hin).
  - intros z Hz. apply conj_real. auto.
Qed.
Print Assumptions C112_pauli.
(** For Hermitian Operators of any type the matrix is that of the converted Operator, which is the
    same operator up to a multiple of the identity. *)
Lemma hermitian_dom n s : hermitian_string n s -> conv_dom s Pauli /\ conv_prod s Pauli false.
Proof.
  intros (_ & Hl & Hs). split.
  - split; [|intros _ _ l Hin; apply Hl in Hin; lia]. destruct (os_type s); auto. destruct Hs as (I & J & F & NI & NJ & Hn & _). exists I, J. auto.
  - intros Ht _ I J F. rewrite Ht in Hs. destruct Hs as (I' & J' & F' & _ & _ & _ & _ & P). destruct (L_ConvFerm.labels_of_form I J s F) as [A1 A2]. destruct (L_ConvFerm.labels_of_form I' J' s F') as [B1 B2].
    rewrite <- A1, <- A2, B1, B2. auto.
Qed.
Theorem C112_any_type : forall Or n o, hermitian_operator n o -> sorts_reals (dg_sort Or) -> exists r k,
  convert (COperator o) Pauli false = Ok r /\ on_spins n r /\
  (forall (A : StarAlg) (c : Z -> A), CAR A c -> (means c (op_terms o) == means c (op_terms r) + k · aone)%alg) /\
  (exact_eigh (dg_eigh Or) n (matrix_of n (op_terms r)) -> solved Or (COperator o) n (matrix_of n (op_terms r))).
Proof.
  intros Or n o Ho Hs. destruct (convert_hermitian n o Ho) as (r & E & Hon & Hr). destruct Ho as (Hm & _ & Hst).
  destruct (conv_operator_denotes o Pauli false) as (r' & k & E' & _ & _ & _ & _ & M).
  - apply made_ok; auto.
  - intros s Hin. apply (Hst s Hin).
  - intros s Hin. apply (hermitian_dom n). auto.
  - rewrite E in E'. injection E' as <-. exists r, k. split; auto. split; auto. split; auto. intros Hx. apply (diagonalize_levels Or n (COperator o) r); auto.
Qed.
Print Assumptions C112_any_type.
(** In the other mode the pairs of the solver are returned as they are; nothing is asked of the
    Operator but that the conversion is one of [n] spins. *)
Theorem C112_general : forall Or n a r nv, convert a Pauli false = Ok r -> on_spins n r ->
  diagonalize Or a n false nv = Ok (General (dg_eig Or nv (rows_of n (matrix_of n (op_terms r))))).
Proof.
  intros Or n a r nv E Hon. destruct (C54_operator n r Hon) as (M & EM & Lm & Em). unfold diagonalize. rewrite E. cbn [rbind]. rewrite EM. cbn [rbind]. rewrite (to_array_rows n M (matrix_of n (op_terms r))); auto.
Qed.
Print Assumptions C112_general.

(** A solver for the matrix diag(a, b), a <= b, which lists all pairs in descending order. *)
Definition two_e0 : list C := [RtoC 1; RtoC 0].
Definition two_e1 : list C := [RtoC 0; RtoC 1].
Definition two_solver (a b : R) (nv : option nat) (D : list (list C)) : list (R * list C) :=
  match nv with None => [(b, two_e1); (a, two_e0)] | Some k => firstn k [(a, two_e0); (b, two_e1)] end.
Definition two_matrix (H : N -> N -> GC) (a b : R) : Prop :=
  to_C (H 0%N 0%N) = RtoC a /\ to_C (H 0%N 1%N) = RtoC 0 /\ to_C (H 1%N 0%N) = RtoC 0 /\ to_C (H 1%N 1%N) = RtoC b.
Ltac cring := unfold RtoC; apply C_ext; cbn; ring.
Ltac vring := repeat match goal with |- _ :: _ = _ :: _ => apply f_equal2; [cring|] | |- [] = [] => reflexivity end.
Lemma two_rows H a b : two_matrix H a b -> rows_of 1 H = [[RtoC a; RtoC 0]; [RtoC 0; RtoC b]].
Proof. intros (E1 & E2 & E3 & E4). unfold rows_of, all_confs. change (2 ^ 1) with 2. cbn [seq map]. change (N.of_nat 0) with 0%N. change (N.of_nat 1) with 1%N. rewrite E1, E2, E3, E4. reflexivity. Qed.
Lemma two_image a b u t : rows_vec [[RtoC a; RtoC 0]; [RtoC 0; RtoC b]] [u; t] = [(RtoC a * u)%C; (RtoC b * t)%C].
Proof. unfold rows_vec. cbn [map zip_with]. unfold csum. cbn [fold_right]. vring. Qed.
Lemma two_eig0 a b : rows_vec [[RtoC a; RtoC 0]; [RtoC 0; RtoC b]] two_e0 = map (Cmult (RtoC a)) two_e0.
Proof. unfold two_e0. rewrite two_image. cbn [map]. vring. Qed.
Lemma two_eig1 a b : rows_vec [[RtoC a; RtoC 0]; [RtoC 0; RtoC b]] two_e1 = map (Cmult (RtoC b)) two_e1.
Proof. unfold two_e1. rewrite two_image. cbn [map]. vring. Qed.
Lemma two_ne0 : two_e0 <> repeat (RtoC 0) 2.
Proof. intros X. apply (f_equal (fun l => nth 0 l (RtoC 0))) in X. apply RtoC_inj in X. lra. Qed.
Lemma two_ne1 : two_e1 <> repeat (RtoC 0) 2.
Proof. intros X. apply (f_equal (fun l => nth 1 l (RtoC 0))) in X. apply RtoC_inj in X. lra. Qed.
Lemma two_inner : inner two_e0 two_e0 = RtoC 1 /\ inner two_e1 two_e1 = RtoC 1 /\ inner two_e0 two_e1 = RtoC 0 /\ inner two_e1 two_e0 = RtoC 0.
Proof. unfold inner, two_e0, two_e1. cbn [zip_with fold_right]. repeat split; cring. Qed.
Lemma two_pairs a b ps : incl ps [(a, two_e0); (b, two_e1)] -> eigenpairs [[RtoC a; RtoC 0]; [RtoC 0; RtoC b]] ps.
Proof.
  intros Hi l v H. apply Hi in H. destruct H as [H|[H|[]]]; injection H as <- <-; (split; [reflexivity|]); [split; [apply two_ne0 | apply two_eig0] | split; [apply two_ne1 | apply two_eig1]].
Qed.
Lemma two_orthonormal vs : In vs [[]; [two_e0]; [two_e1; two_e0]] -> orthonormal vs.
Proof.
  destruct two_inner as (I0 & I1 & I2 & I3). intros [<-|[<-|[<-|[]]]]; split.
  - intros v [].
  - intros [|i] j v w X; discriminate.
  - intros v [<-|[]]; auto.
  - intros [|[|i]] [|[|j]] v w X Y N; cbn in X, Y; try discriminate; lia.
  - intros v [<-|[<-|[]]]; auto.
  - intros [|[|[|i]]] [|[|[|j]]] v w X Y N; cbn in X, Y; try discriminate; try lia; injection X as <-; injection Y as <-; auto.
Qed.
Lemma two_exact H a b : two_matrix H a b -> (a <= b)%R -> exact_eigh (two_solver a b) 1 H.
Proof.
  intros Hm Hab _. rewrite (two_rows H a b Hm). split.
  - cbn [two_solver]. split; [|apply two_orthonormal; cbn; auto]. split; [apply two_pairs; intros p [<-|[<-|[]]]; cbn; auto|].
    cbn [length map snd]. intros [|u [|t [|]]] L; try discriminate. 
    replace [u; t] with (zip_with Cplus (map (Cmult u) two_e0) (zip_with Cplus (map (Cmult t) two_e1) (repeat (RtoC 0) 2))) by (unfold two_e0, two_e1; cbn [map zip_with repeat]; vring).
    apply span_add; [cbn; auto|]. apply span_add; [cbn; auto|]. apply span_zero.
  - change (2 ^ 1) with 2. intros [|[|k]] Lk; [| |lia]; cbn [two_solver firstn map snd].
    + split; [|apply two_orthonormal; cbn; auto]. split; [intros l v []|]. split; [reflexivity|]. intros mu w _ _. right. intros l v [].
    + split; [|apply two_orthonormal; cbn; auto]. split; [apply two_pairs; intros p [<-|[]]; cbn; auto|]. split; [reflexivity|].
      cbn [length map snd]. intros mu [|u [|t [|]]] L E; try discriminate. rewrite two_image in E. cbn [map] in E. apply (f_equal (fun l => nth 1 l (RtoC 0))) in E. cbn [nth] in E.
      destruct (Ceq_dec t (RtoC 0)) as [->|Nt].
      * left. replace [u; RtoC 0] with (zip_with Cplus (map (Cmult u) two_e0) (repeat (RtoC 0) 2)) by (unfold two_e0; cbn [map zip_with repeat]; vring). apply span_add; [cbn; auto | apply span_zero].
      * right. intros l v [X|[]]. injection X as <- <-. assert (Eb : RtoC b = RtoC mu).
        { replace (RtoC b) with (RtoC b * t / t)%C by (field; auto). rewrite E. field. auto. }
        apply RtoC_inj in Eb. lra.
Qed.
Definition dg_two (a b : R) : dgoracles := mkDg (two_solver a b) (fun _ _ => []) argsort.
Lemma two_levels H a b qs : two_matrix H a b -> (a < b)%R -> ordered_levels 1 H qs -> all_levels 1 H qs -> exists v w, qs = [(a, v); (b, w)].
Proof.
  intros Hm Hab (_ & _ & Hs) (L & Hc & _). change (2 ^ 1) with 2 in L. pose proof (two_rows H a b Hm) as Er.
  assert (E0 : eigenvector 1 H (RtoC a) two_e0) by (apply eigenvector_iff; rewrite Er; split; [reflexivity | split; [apply two_ne0 | apply two_eig0]]).
  assert (E1 : eigenvector 1 H (RtoC b) two_e1) by (apply eigenvector_iff; rewrite Er; split; [reflexivity | split; [apply two_ne1 | apply two_eig1]]).
  destruct (Hc _ _ E0) as (l0 & v0 & I0 & X0). destruct (Hc _ _ E1) as (l1 & v1 & I1 & X1). apply RtoC_inj in X0, X1. subst l0 l1.
  destruct qs as [|[p v] [|[q w] [|]]]; try discriminate. cbn [map fst] in Hs. apply StronglySorted_inv in Hs. destruct Hs as [_ F]. inversion F as [|? ? F1 _]; subst.
  destruct I0 as [I0|[I0|[]]]; destruct I1 as [I1|[I1|[]]]; injection I0 as -> ->; injection I1 as ? ?; subst; try lra. exists v0, v1. auto.
Qed.

(** Examples: -2 Z_0, and the occupation of an orbital. *)
Definition dg_z : OS := mkOS [OZ] [0%Z] Pauli p_one.
Definition dg_num : OS := mkOS [OCDag; OC] [0%Z; 0%Z] Fermion p_one.
Definition gneg2 : GC := gz (-2).
Ltac entries := unfold two_matrix, to_C; repeat match goal with |- _ /\ _ => split end; unfold RtoC; apply C_ext; cbn [fst snd];
  match goal with |- Q2R ?q = _ => let q' := eval vm_compute in q in change q with q'; unfold Q2R; cbn [Qnum Qden]; lra end.
Example C112_example : exists o, op_new [gneg2] [dg_z] None = Ok o /\ on_spins 1 o /\ (forall z, In z (o_coeffs o) -> im z = 0%Qc) /\ o_type o = Pauli /\
  exact_eigh (dg_eigh (dg_two (-2) 2)) 1 (matrix_of 1 (op_terms o)) /\ sorts_reals (dg_sort (dg_two (-2) 2)) /\
  exists v w, diagonalize (dg_two (-2) 2) (COperator o) 1 true None = Ok (Hermitian [((-2)%R, v); (2%R, w)]).
Proof.
  eexists. split; [vm_compute; reflexivity|]. match goal with |- on_spins 1 ?o /\ _ => set (oo := o) end.
  assert (Mo : made oo) by (exists [gneg2], [dg_z], None; split; reflexivity).
  assert (Hon : on_spins 1 oo).
  { split; auto. intros s [<-|[]]. split; [repeat split; cbn; auto; [intros o [<-|[]]; reflexivity | repeat constructor; cbn; tauto]|]. split; [left; reflexivity|]. intros l [<-|[]]. cbn. lia. }
  assert (Hr : forall z, In z (o_coeffs oo) -> im z = 0%Qc) by (intros z [<-|[]]; reflexivity).
  assert (Hm : two_matrix (matrix_of 1 (op_terms oo)) (-2) 2) by entries.
  assert (Hx : exact_eigh (dg_eigh (dg_two (-2) 2)) 1 (matrix_of 1 (op_terms oo))) by (apply two_exact; [auto | lra]).
  split; auto. split; auto. split; [reflexivity|]. split; auto. split; [apply argsort_sorts|].
  destruct (C112_pauli (dg_two (-2) 2) 1 oo Hon Hr eq_refl Hx argsort_sorts) as [(qs & E & O & A) _]. destruct (two_levels _ (-2) 2 qs Hm ltac:(lra) O A) as (v & w & ->). exists v, w. auto.
Qed.
Lemma num_hermitian : exists o r, op_new [g1] [dg_num] None = Ok o /\ hermitian_operator 1 o /\ convert (COperator o) Pauli false = Ok r /\
  two_matrix (matrix_of 1 (op_terms r)) (-1/2) (1/2).
Proof.
  eexists. eexists. split; [vm_compute; reflexivity|]. split; [|split; [vm_compute; reflexivity | entries]].
  split; [exists [g1], [dg_num], None; split; reflexivity|]. split; [intros z [<-|[]]; reflexivity|]. intros s [<-|[]]. split; [left; reflexivity|]. split; [intros l [<-|[<-|[]]]; cbn; lia|].
  cbn [os_type]. exists [0%Z], [0%Z]. split; [repeat split; auto|]. split; [repeat constructor; cbn; tauto|]. split; [repeat constructor; cbn; tauto|]. split; auto. split; auto. split; [discriminate | auto].
Qed.
Example C112_any_example : exists o, op_new [g1] [dg_num] None = Ok o /\ hermitian_operator 1 o /\ exists r, convert (COperator o) Pauli false = Ok r /\
  exact_eigh (dg_eigh (dg_two (-1/2) (1/2))) 1 (matrix_of 1 (op_terms r)).
Proof. destruct num_hermitian as (o & r & E1 & Ho & E2 & Hm). exists o. split; auto. split; auto. exists r. split; auto. apply two_exact; auto. lra. Qed.

(** C113 is false: the values are not those of the Operator given.  c^+ c is a projector, with the
    eigenvalues 0 and 1; diagonalize returns -1/2 and 1/2, because the conversion leaves out the identity. *)
Theorem C113_shifted_refuted : exists s o, op_new [g1] [s] None = Ok o /\ hermitian_operator 1 o /\
  (forall (A : StarAlg) (c : Z -> A), CAR A c -> (means c (op_terms o) * means c (op_terms o) == means c (op_terms o))%alg) /\
  exists r, convert (COperator o) Pauli false = Ok r /\
    (exists Or, exact_eigh (dg_eigh Or) 1 (matrix_of 1 (op_terms r)) /\ sorts_reals (dg_sort Or)) /\
    forall Or, exact_eigh (dg_eigh Or) 1 (matrix_of 1 (op_terms r)) -> sorts_reals (dg_sort Or) ->
      exists v w, diagonalize Or (COperator o) 1 true None = Ok (Hermitian [((-1/2)%R, v); ((1/2)%R, w)]).
Proof.
  destruct num_hermitian as (o & r & E1 & Ho & E2 & Hm). exists dg_num, o. split; auto. split; auto. split.
  - intros A c Hc. assert (Et : op_terms o = [(g1, dg_num)]) by (vm_compute in E1; injection E1 as <-; reflexivity). rewrite Et.
    assert (Em : (means c [(g1, dg_num)] == (c 0%Z)^* * c 0%Z)%alg).
    { unfold means. cbn [map asum fold_right fst snd]. rewrite ascal_1, aadd_0_r. change (meaning c dg_num) with (fden c dg_num). unfold fden. cbn. unfold den. cbn. rewrite ascal_1, amul_1_r. reflexivity. }
    rewrite Em.
    assert (X : (c 0%Z * (c 0%Z)^* * c 0%Z == c 0%Z)%alg).
    { rewrite <- (amul_1_l _ (c 0%Z)) at 4. rewrite <- (c_cdag_same _ _ Hc 0%Z), amul_add_l, <- (amul_assoc _ ((c 0%Z)^*)%alg (c 0%Z) (c 0%Z)), (L_ConvAlg.c_sq c Hc), amul_0_r, aadd_0_r. reflexivity. }
    rewrite <- amul_assoc, (amul_assoc _ (c 0%Z)), X. reflexivity.
  - exists r. split; auto. split.
    + exists (dg_two (-1/2) (1/2)). split; [apply two_exact; auto; lra | apply argsort_sorts].
    + intros Or Hx Hs. destruct (C112_any_type Or 1 o Ho Hs) as (r' & k & E & _ & _ & Hsol). rewrite E2 in E. injection E as <-. destruct (Hsol Hx) as [(qs & Eq & O & A) _].
      destruct (two_levels _ (-1/2) (1/2) qs Hm ltac:(lra) O A) as (v & w & ->). exists v, w. auto.
Qed.
Print Assumptions C113_shifted_refuted.
