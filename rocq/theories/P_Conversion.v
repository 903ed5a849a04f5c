(** Properties C25 and C39 to C45: convert and conversion_matrix. *)
From Coq Require Import List ZArith Bool Arith Sorted Permutation Qcanon Lia.
From Verif Require Import GC Exn S_Alg S_Den S_Basis S_Built S_Fock S_Cluster S_Conv M_OpString M_Basis M_OpAlg M_Cluster M_Conversion
  L_Operator L_Basis L_ConvLin L_Conversion L_Conversion2 L_Conversion3 L_Conversion4 L_ConvMat.
Import ListNotations.
Local Open Scope nat_scope.
Local Open Scope alg_scope.

Ltac gcs := vm_compute; repeat first [reflexivity | apply Qc_is_canon; reflexivity | apply f_equal2].

(** C39: converting a Majorana string to Fermion strings keeps the operator, in every algebra
    with creation and annihilation operators; without the identity it differs by a multiple
    of the identity, which does not depend on the algebra.  All strings produced have the
    documented form, on labels of the string. *)
Theorem C39_majorana_to_fermion : forall s, string_ok Majorana s -> exists o1 o0 k,
  convert (CString s) Fermion true = Ok o1 /\ convert (CString s) Fermion false = Ok o0 /\
  op_ok o1 /\ op_ok o0 /\ o_type o1 = Fermion /\ o_type o0 = Fermion /\
  op_terms o0 = without_identity (op_terms o1) /\
  (forall q, In q (op_terms o1) -> exists I J, fermion_form I J (snd q) /\ increasing I /\ increasing J /\
     length J <= length I /\ (forall l, In l I \/ In l J -> In l (os_labels s)) /\ (I <> J -> im (fst q) = 0%Qc)) /\
  (forall (A : StarAlg) (c : Z -> A), CAR A c ->
     means c (op_terms o1) == den (gmaj c) s /\ means c (op_terms o0) + k · aone == den (gmaj c) s).
Proof. exact majorana_fermion_proof. Qed.
Print Assumptions C39_majorana_to_fermion.
(** d_3 = 1 - 2 c^*_3 c_3, i a_1 b_2 = (c^*_2 c_1 + h.c.) - (c^*_1 c^*_2 + h.c.); and the canonical anticommutation relations have a model. *)
Definition ex_d3 : OS := mkOS [OD] [3%Z] Majorana p_one.
Definition ex_ab : OS := mkOS [OA; OB] [1%Z; 2%Z] Majorana p_j.
Example C39_example : CAR Fock (cmaj fock_gen) /\ string_ok Majorana ex_d3 /\ string_ok Majorana ex_ab /\
  (exists o, convert (CString ex_d3) Fermion true = Ok o /\
     op_terms o = [(gz (-2), mkOS [OCDag; OC] [3%Z; 3%Z] Fermion p_one); (g1, mkOS [] [] Fermion p_one)]) /\
  (exists o, convert (CString ex_ab) Fermion false = Ok o /\
     op_terms o = [(g1, mkOS [OCDag; OC] [2%Z; 1%Z] Fermion p_one); (gm1, mkOS [OCDag; OCDag] [1%Z; 2%Z] Fermion p_one)]).
Proof.
  split; [apply fock_car|]. split; [|split; [|split]].
  - repeat split; cbn; auto; [intros o [<-|[]]; cbn; auto | repeat constructor; cbn; intuition lia].
  - repeat split; cbn; auto; [intros o [<-|[<-|[]]]; cbn; auto | repeat constructor; cbn; intuition lia].
  - eexists. split; [vm_compute; reflexivity | gcs].
  - eexists. split; [vm_compute; reflexivity | gcs].
Qed.

(** C40 (part): converting a Fermion string c^*_I c_J (plus h.c.) to Majorana strings keeps the
    operator, up to a multiple of the identity if the identity is left out, whenever some
    term is left.  Missing from the full claim: the conversion raises ValueError when no term
    is left ([produces] fails: the identity without [include_identity], and the strings
    1j c^*_I c_J with J a reordering of I, which denote zero); and strings on more than 51
    orbitals (with I <> J), for which line 299 of conversion.py drops terms. *)
Theorem C40_fermion_to_majorana_partial : forall s I J incl,
  fermion_form I J s -> NoDup I -> NoDup J -> (I = J \/ orbitals I J <= 51) ->
  (produces I J (pval (os_pref s)) incl -> exists o k,
     convert (CString s) Majorana incl = Ok o /\ op_ok o /\ o_type o = Majorana /\ (incl = true -> k = g0) /\
     (forall x t, In (x, t) (op_terms o) -> string_ok Majorana t /\ canonical t /\
        (forall l, In l (os_labels t) -> In l I \/ In l J) /\ (I <> J -> im x = 0%Qc)) /\
     (forall (A : StarAlg) (c : Z -> A), CAR A c -> means c (op_terms o) + k · aone == fden c s)) /\
  (~ produces I J (pval (os_pref s)) incl ->
     convert (CString s) Majorana incl = Err ValueError /\
     (incl = true -> forall (A : StarAlg) (c : Z -> A), CAR A c -> fden c s == azero)).
Proof. exact fermion_majorana_proof. Qed.
Print Assumptions C40_fermion_to_majorana_partial.
Definition ex_hop : OS := mkOS [OCDag; OC] [2%Z; 1%Z] Fermion p_one.
Definition ex_zero : OS := mkOS [OCDag; OCDag; OC; OC] [1%Z; 2%Z; 1%Z; 2%Z] Fermion p_j.
Example C40_example : fermion_form [2%Z] [1%Z] ex_hop /\ orbitals [2%Z] [1%Z] <= 51 /\ produces [2%Z] [1%Z] g1 false /\
  exists o, convert (CString ex_hop) Majorana true = Ok o /\
    op_terms o = [(gq (Q2Qc (QArith_base.Qmake 1 2)), mkOS [OA; OB] [1%Z; 2%Z] Majorana p_j); (gq (Q2Qc (QArith_base.Qmake (-1) 2)), mkOS [OB; OA] [1%Z; 2%Z] Majorana p_j)].
Proof.
  split; [repeat split; auto|]. split; [vm_compute; lia|]. split; [split; [discriminate|auto]|].
  eexists. split; [vm_compute; reflexivity | gcs].
Qed.
(** The full claim fails: this string denotes zero, and its conversion raises ValueError. *)
Theorem C40_refuted : exists s I J, fermion_form I J s /\ NoDup I /\ NoDup J /\
  convert (CString s) Majorana true = Err ValueError /\
  forall (A : StarAlg) (c : Z -> A), CAR A c -> fden c s == azero.
Proof.
  exists ex_zero, [1; 2]%Z, [2; 1]%Z.
  assert (F : fermion_form [1; 2]%Z [2; 1]%Z ex_zero) by (repeat split; auto).
  assert (N1 : NoDup [1; 2]%Z) by (repeat constructor; cbn; intuition lia).
  assert (N2 : NoDup [2; 1]%Z) by (repeat constructor; cbn; intuition lia).
  split; [exact F|]. split; [exact N1|]. split; [exact N2|]. split; [vm_compute; reflexivity|].
  refine (proj2 (proj2 (fermion_majorana_proof ex_zero [1; 2]%Z [2; 1]%Z true F N1 N2 (or_intror _)) _) eq_refl).
  - vm_compute. lia.
  - intros [_ [E|[E|E]]]; [discriminate E | discriminate (f_equal re E) | apply E, perm_swap].
Qed.
Print Assumptions C40_refuted.

(** C41: the Jordan-Wigner conversions of strings keep the operator, and have one term with a
    coefficient of modulus one. *)
Theorem C41_pauli_to_majorana : forall s incl, string_ok Pauli s -> nonneg s -> exists o k m,
  convert (CString s) Majorana incl = Ok o /\ o_type o = Majorana /\ op_terms o = [(k, m)] /\ gmul k (gconj k) = g1 /\
  string_ok Majorana m /\ canonical m /\
  forall (A : StarAlg) (g : op -> Z -> A), rep Majorana g -> den (gpauli g) s == k · den g m.
Proof. exact pauli_majorana_proof. Qed.
Print Assumptions C41_pauli_to_majorana.
Theorem C41_majorana_to_pauli : forall s incl, string_ok Majorana s -> nonneg s -> exists o k m,
  convert (CString s) Pauli incl = Ok o /\ o_type o = Pauli /\ op_terms o = [(k, m)] /\ gmul k (gconj k) = g1 /\
  string_ok Pauli m /\ canonical m /\
  (forall (A : StarAlg) (g : op -> Z -> A), rep Pauli g -> den (gmajw g) s == k · den g m) /\
  (forall (A : StarAlg) (g : op -> Z -> A), rep Majorana g -> den g s == k · den (gpauli g) m).
Proof. exact majorana_pauli_proof. Qed.
Print Assumptions C41_majorana_to_pauli.
Definition ex_xy : OS := mkOS [OX; OY] [0%Z; 2%Z] Pauli p_one.
Example C41_example : string_ok Pauli ex_xy /\ nonneg ex_xy /\
  (exists o, convert (CString ex_xy) Majorana false = Ok o /\
     op_terms o = [(gm1, mkOS [OB; OD; OB] [0%Z; 1%Z; 2%Z] Majorana p_j)]) /\
  exists o, convert (CString ex_ab) Pauli false = Ok o /\ op_terms o = [(g1, mkOS [OY; OY] [1%Z; 2%Z] Pauli p_one)].
Proof.
  split; [repeat split; cbn; auto; [intros o [<-|[<-|[]]]; cbn; auto | repeat constructor; cbn; intuition lia]|].
  split; [intros l [<-|[<-|[]]]; lia|]. split; eexists; (split; [vm_compute; reflexivity | gcs]).
Qed.

(** C42: conversions to another type and back give the same string with coefficient one. *)
Theorem C42_pauli_round_trip : forall s i1 i2, string_ok Pauli s -> canonical s -> nonneg s -> exists o r,
  convert (CString s) Majorana i1 = Ok o /\ convert (COperator o) Pauli i2 = Ok r /\ op_terms r = [(g1, s)].
Proof. exact round_pauli. Qed.
Print Assumptions C42_pauli_round_trip.
Theorem C42_majorana_round_trip : forall s i1 i2, string_ok Majorana s -> canonical s -> nonneg s -> exists o r,
  convert (CString s) Pauli i1 = Ok o /\ convert (COperator o) Majorana i2 = Ok r /\ op_terms r = [(g1, s)].
Proof. exact round_majorana. Qed.
Print Assumptions C42_majorana_round_trip.
(** Through Fermion strings the result may list further strings, with coefficient zero; the
    identity is kept only if it is included both ways. *)
Theorem C42_fermion_round_trip : forall s incl, string_ok Majorana s -> canonical s -> length (os_labels s) <= 51 ->
  exists o r,
    convert (CString s) Fermion incl = Ok o /\ convert (COperator o) Majorana incl = Ok r /\ op_ok r /\ o_type r = Majorana /\
    (forall t c, string_ok Majorana t -> canonical t -> (incl = true \/ os_ops t <> []) ->
       has_coeff (op_terms r) t c -> (t = s -> c = g1) /\ (t <> s -> c = g0)) /\
    (incl = false -> forall x t, In (x, t) (op_terms r) -> os_ops t <> []).
Proof. exact round_fermion. Qed.
Print Assumptions C42_fermion_round_trip.
Example C42_example : string_ok Majorana ex_ab /\ canonical ex_ab /\ nonneg ex_ab /\
  exists o r, convert (CString ex_ab) Fermion false = Ok o /\ convert (COperator o) Majorana false = Ok r /\
    op_terms r = [(g1, ex_ab); (g0, mkOS [OB; OA] [1%Z; 2%Z] Majorana p_j)].
Proof.
  split; [repeat split; cbn; auto; [intros o [<-|[<-|[]]]; cbn; auto | repeat constructor; cbn; intuition lia]|].
  split; [split; cbn; auto; repeat constructor; lia|]. split; [intros l [<-|[<-|[]]]; lia|].
  eexists. eexists. split; [vm_compute; reflexivity|]. split; [vm_compute; reflexivity | gcs].
Qed.

(** C43: convert is linear: the coefficient of every string in convert(sum_a x_a S_a) is
    sum_a x_a times its coefficient in convert(S_a); it succeeds exactly if all strings
    convert, and otherwise raises the error of the first string that does not. *)
Theorem C43_linear : forall o ty incl, op_ok o ->
  ((exists r, convert (COperator o) ty incl = Ok r) <->
   (forall t, In t (op_terms o) -> exists n, convert (CString (snd t)) ty incl = Ok n)) /\
  (forall r, convert (COperator o) ty incl = Ok r -> op_ok r /\ o_type r = ty /\
     forall u c, has_coeff (op_terms r) u c <-> combined ty incl u (op_terms o) c).
Proof. exact conv_linear. Qed.
Print Assumptions C43_linear.
Theorem C43_error : forall o ty incl ts1 x s ts2 e, op_ok o -> op_terms o = ts1 ++ (x, s) :: ts2 ->
  (forall t, In t ts1 -> exists n, convert (CString (snd t)) ty incl = Ok n) -> convert (CString s) ty incl = Err e ->
  convert (COperator o) ty incl = Err e.
Proof. exact conv_error. Qed.
Print Assumptions C43_error.
(** The operator denoted is the same, up to a multiple of the identity if that is left out. *)
Theorem C43_denotes : forall o ty incl, op_ok o -> op_std o ->
  (forall s, In s (b_strings (o_basis o)) -> conv_dom s ty /\ conv_prod s ty incl) -> exists r k,
  convert (COperator o) ty incl = Ok r /\ op_ok r /\ o_type r = ty /\ op_std r /\ (incl = true -> k = g0) /\
  (forall (A : StarAlg) (c : Z -> A), CAR A c -> means c (op_terms o) == means c (op_terms r) + k · aone).
Proof. exact conv_operator_denotes. Qed.
Print Assumptions C43_denotes.
(** Converting to the same type returns an equal Operator. *)
Theorem C43_same_type : forall o incl, op_ok o -> (forall s, In s (b_strings (o_basis o)) -> os_type s = o_type o) ->
  convert (COperator o) (o_type o) incl = Ok o.
Proof. exact conv_operator_same. Qed.
Print Assumptions C43_same_type.
(** Fermion to Pauli and back are the compositions through Majorana. *)
Theorem C43_fermion_to_pauli : forall s incl o, os_type s = Fermion -> convert (CString s) Pauli incl = Ok o ->
  exists m r, convert (CString s) Majorana incl = Ok m /\ convert (COperator m) Pauli incl = Ok r /\
    forall u c, has_coeff (op_terms o) u c <-> has_coeff (op_terms r) u c.
Proof. exact fermion_pauli_route. Qed.
Print Assumptions C43_fermion_to_pauli.
Theorem C43_pauli_to_fermion : forall s incl o, os_type s = Pauli -> convert (CString s) Fermion incl = Ok o ->
  exists m r, convert (CString s) Majorana incl = Ok m /\ convert (COperator m) Fermion incl = Ok r /\
    forall u c, has_coeff (op_terms o) u c <-> has_coeff (op_terms r) u c.
Proof. exact pauli_fermion_route. Qed.
Print Assumptions C43_pauli_to_fermion.
Example C43_example : exists o r, op_new [g2; gi] [ex_ab; ex_d3] None = Ok o /\ op_ok o /\ op_std o /\
  (forall s, In s (b_strings (o_basis o)) -> conv_dom s Fermion /\ conv_prod s Fermion false) /\
  convert (COperator o) Fermion false = Ok r /\
  op_terms r = [(g2, mkOS [OCDag; OC] [2%Z; 1%Z] Fermion p_one); (gopp g2, mkOS [OCDag; OCDag] [1%Z; 2%Z] Fermion p_one);
                (gmul gi (gz (-2)), mkOS [OCDag; OC] [3%Z; 3%Z] Fermion p_one)].
Proof.
  assert (D : distinct_keys [ex_ab; ex_d3]).
  { intros [|[|i]] [|[|j]] s t; cbn; intros E1 E2 (K & _); try destruct i; try destruct j; try discriminate; auto;
      injection E1 as <-; injection E2 as <-; discriminate K. }
  destruct (op_new_ok [g2; gi] [ex_ab; ex_d3] None) as (o & E & Ho & Ec & Eb & _); [exact D | reflexivity | left; discriminate |].
  assert (E' := E). vm_compute in E'. injection E' as Eo.
  exists o. eexists. split; [exact E|]. split; [exact Ho|].
  split; [intros s Hs; rewrite Eb in Hs; destruct Hs as [<-|[<-|[]]]; cbn; unfold std; cbn; auto|].
  split.
  { intros s Hs. rewrite Eb in Hs. split; [|intros T; destruct Hs as [<-|[<-|[]]]; discriminate].
    destruct Hs as [<-|[<-|[]]]; (split; [|intros _ [X|X]; discriminate]); apply C39_example. }
  rewrite <- Eo. split; [vm_compute; reflexivity | gcs].
Qed.

(** C44: column a of conversion_matrix(B, B') holds the coefficients of convert(S_a) (without
    the identity) in B', those of modulus at most [tol] replaced by zero. *)
Theorem C44_columns : forall tol from to t0 r, basis_ok to -> b_strings from <> [] -> b_strings to = t0 :: r ->
  (forall s, In s (b_strings from) -> column_fits tol (os_type t0) to s) ->
  exists M, conversion_matrix tol from to = Ok M /\ sm_rows M = basis_len to /\ sm_cols M = basis_len from /\
    forall a s o i t c, nth_error (b_strings from) a = Some s -> convert (CString s) (os_type t0) false = Ok o ->
      nth_error (b_strings to) i = Some t -> has_coeff (op_terms o) t c -> sm_entry M i a = kept tol c.
Proof. exact matrix_ok. Qed.
Print Assumptions C44_columns.
Theorem C44_key_error : forall tol from to t0 r l1 s l2 o c u, basis_ok to -> b_strings from = l1 ++ s :: l2 -> b_strings to = t0 :: r ->
  (forall x, In x l1 -> column_fits tol (os_type t0) to x) ->
  convert (CString s) (os_type t0) false = Ok o -> In (c, u) (op_terms o) -> abs_gtb c tol = true ->
  (~ exists t, In t (b_strings to) /\ same_key t u) -> conversion_matrix tol from to = Err KeyError.
Proof. exact matrix_key_error. Qed.
Print Assumptions C44_key_error.
(** It does not work for an empty [basis_from]: TypeError, whatever the other basis. *)
Theorem C44_empty_refuted : exists from, b_strings from = [] /\ built from /\
  forall tol to, conversion_matrix tol from to = Err TypeError.
Proof. exists basis_empty. split; [reflexivity|]. split; [apply (built_new []); reflexivity | reflexivity]. Qed.
Print Assumptions C44_empty_refuted.
Example C44_example : exists from to M, basis_new [ex_ab; ex_d3] = Ok from /\
  basis_new [mkOS [OCDag; OC] [3%Z; 3%Z] Fermion p_one; ex_hop; mkOS [OCDag; OCDag] [1%Z; 2%Z] Fermion p_one] = Ok to /\
  conversion_matrix tol_16 from to = Ok M /\
  map (fun i => map (sm_entry M i) [0; 1]) [0; 1; 2] = [[g0; gz (-2)]; [g1; g0]; [gm1; g0]].
Proof. do 3 eexists. split; [vm_compute; reflexivity|]. split; [vm_compute; reflexivity|]. split; [vm_compute; reflexivity | gcs]. Qed.

(** C45 (part): convert succeeds, and keeps the operator, on every string of every type,
    identity strings included, for which [conv_dom] and [conv_prod] hold.  Missing: the
    Fermion strings for which no term is left. *)
Theorem C45_total_partial : forall s ty incl, conv_dom s ty -> conv_prod s ty incl -> exists o k,
  convert (CString s) ty incl = Ok o /\ op_ok o /\ o_type o = ty /\ (incl = true -> k = g0) /\
  (std s -> op_std o) /\
  (forall (A : StarAlg) (c : Z -> A), CAR A c -> meaning c s == means c (op_terms o) + k · aone).
Proof. exact conv_string_denotes. Qed.
Print Assumptions C45_total_partial.
(** On identity strings it succeeds for all types, except from Fermion without the identity. *)
Example C45_example : forall ty ty' incl, (ty = Fermion -> ty' <> Fermion -> incl = true) ->
  conv_dom (mkOS [] [] ty p_one) ty' /\ conv_prod (mkOS [] [] ty p_one) ty' incl.
Proof.
  intros ty ty' incl Hi. split.
  - split; [|intros _ _ l []]. destruct ty; cbn [os_type].
    1,2: repeat split; cbn; auto; try tauto; constructor.
    exists [], []. split; [repeat split; auto|]. repeat split; auto; constructor.
  - intros E1 E2 I J (_ & Eo & El & _). cbn in El. split; [intros _ _; apply Hi; auto|].
    left. destruct I; [|discriminate]. cbn in El. symmetry in El. apply (f_equal (@rev Z)) in El. rewrite rev_involutive in El. auto.
Qed.
Theorem C45_refuted : forall ty, ty <> Fermion ->
  convert (CString (mkOS [] [] Fermion p_one)) ty false = Err ValueError.
Proof. intros [| |] H; [reflexivity | reflexivity | congruence]. Qed.
Print Assumptions C45_refuted.

(** C25 (part): for at most two operators, or at most two labels, converting strings of the
    Majorana cluster basis only gives strings of the Fermion cluster basis, and
    conversion_matrix between them succeeds.  Missing: more operators, where it fails. *)
Theorem C25_cluster_basis_partial : forall n labels, NoDup labels -> (0 <= n)%Z -> (n <= 2)%Z \/ length labels <= 2 ->
  exists bM bF, cluster_basis (KInt n) labels Majorana false = Ok bM /\ cluster_basis (KInt n) labels Fermion false = Ok bF /\
    (forall s, In s (b_strings bM) -> exists o, convert (CString s) Fermion false = Ok o /\
       forall x t, In (x, t) (op_terms o) -> In t (b_strings bF)) /\
    (forall tol, b_strings bM <> [] -> exists M, conversion_matrix tol bM bF = Ok M).
Proof. exact cluster_convert. Qed.
Print Assumptions C25_cluster_basis_partial.
Example C25_example : exists bM bF M, cluster_basis (KInt 2) [3; 1; 2]%Z Majorana false = Ok bM /\
  cluster_basis (KInt 2) [3; 1; 2]%Z Fermion false = Ok bF /\ conversion_matrix tol_16 bM bF = Ok M /\
  sm_rows M = 48 /\ sm_cols M = 36.
Proof. do 3 eexists. split; [vm_compute; reflexivity|]. split; [vm_compute; reflexivity|]. split; [vm_compute; reflexivity|]. split; [vm_compute; reflexivity | gcs]. Qed.
(** The claim fails for three operators on three labels. *)
Theorem C25_refuted : exists bM bF s o x t, cluster_basis (KInt 3) [1; 2; 3]%Z Majorana false = Ok bM /\
  cluster_basis (KInt 3) [1; 2; 3]%Z Fermion false = Ok bF /\
  In s (b_strings bM) /\ convert (CString s) Fermion false = Ok o /\ In (x, t) (op_terms o) /\ ~ In t (b_strings bF) /\
  conversion_matrix tol_16 bM bF = Err KeyError.
Proof. exact cluster_convert_fails. Qed.
Print Assumptions C25_refuted.
