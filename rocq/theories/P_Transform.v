(** Properties C46 to C52: transformations. *)
From Coq Require Import List ZArith Bool Arith Sorted Permutation QArith Qcanon Lia.
From Verif Require Import GC Exn S_Alg S_Den S_Basis S_Built S_OpAlg S_Transform S_Fock M_OpString M_Tools M_Algebra M_Basis M_OpAlg M_Transform
  L_Alg L_Module L_Fock L_Operator L_Struct L_Basis L_PropStr L_Trans2 L_Trans5 L_Trans6 L_Trans7 L_Trans8 L_Trans9.
Import ListNotations.
Local Open Scope nat_scope.
Local Open Scope alg_scope.

Ltac gcs := vm_compute; repeat first [reflexivity | apply Qc_is_canon; reflexivity | apply f_equal2].
Ltac okm := repeat split; cbn; auto; [intros o H; repeat (destruct H as [<-|H]; [cbn; auto|]); destruct H | repeat constructor; cbn; intuition lia].

(** The Operator of the terms [ts], for the examples. *)
Definition mk (ty : optype) (ts : list (GC * OS)) : Operator :=
  match op_new (map fst ts) (map snd ts) (Some ty) with Ok o => o | Err _ => mkOperator [] basis_empty ty end.

(** C46: applying the permutation p to a string gives one string with coefficient 1 or -1,
    which denotes the operator obtained by renaming every orbital l to p[l]. *)
Theorem C46_string : forall ty perm f s, ty <> Fermion -> permutes perm f -> string_ok ty s -> in_range (length perm) s ->
  exists k t, one_term (apply (label_permutation perm) (TString s)) k t /\ (k = g1 \/ k = gm1) /\ string_ok ty t /\ canonical t /\
    in_range (length perm) t /\ Permutation (os_labels t) (map f (os_labels s)) /\
    forall (A : StarAlg) (g : op -> Z -> A), rep ty g -> image false (renamed f g) s == k · den g t.
Proof. exact permutation_string. Qed.
Print Assumptions C46_string.
(** It commutes with product and commutator. *)
Theorem C46_products : forall ty perm f S1 S2, ty <> Fermion -> permutes perm f -> string_ok ty S1 -> string_ok ty S2 ->
  in_range (length perm) S1 -> in_range (length perm) S2 -> respects_products (fun s => apply (label_permutation perm) (TString s)) false S1 S2.
Proof. exact permutation_products. Qed.
Print Assumptions C46_products.
(** On Operators it renames every term and keeps the norm. *)
Theorem C46_operator : forall ty perm f o, ty <> Fermion -> permutes perm f -> good_operator ty o ->
  (forall s, In s (b_strings (o_basis o)) -> in_range (length perm) s) ->
  exists r, apply (label_permutation perm) (TOperator o) = Ok r /\ good_operator ty r /\ op_norm2 r = op_norm2 o /\
    forall (A : StarAlg) (g : op -> Z -> A), rep ty g -> image_sum false (renamed f g) (op_terms o) == lincomb g (op_terms r).
Proof. exact permutation_operator. Qed.
Print Assumptions C46_operator.
(** First p, then q, is the composed permutation; the identity permutation changes nothing. *)
Theorem C46_compose : forall ty p q pq f h s, ty <> Fermion -> permutes p f -> permutes q h -> length p = length q ->
  permutes pq (fun l => h (f l)) -> length pq = length p -> string_ok ty s -> in_range (length p) s ->
  exists k1 t1 k2 t2, one_term (apply (label_permutation p) (TString s)) k1 t1 /\ one_term (apply (label_permutation q) (TString t1)) k2 t2 /\
    one_term (apply (label_permutation pq) (TString s)) (gmul k1 k2) t2.
Proof. exact permutation_compose. Qed.
Print Assumptions C46_compose.
Theorem C46_identity : forall ty p f s, ty <> Fermion -> permutes p f -> (forall l, (0 <= l < Z.of_nat (length p))%Z -> f l = l) ->
  string_ok ty s -> canonical s -> in_range (length p) s -> one_term (apply (label_permutation p) (TString s)) g1 s.
Proof. exact permutation_identity. Qed.
Print Assumptions C46_identity.
(** Fermion strings and labels outside the permutation are rejected. *)
Theorem C46_rejected : forall perm s,
  (os_type s = Fermion -> apply (label_permutation perm) (TString s) = Err ValueError) /\
  (forall l, os_type s <> Fermion -> In l (os_labels s) -> (Z.of_nat (length perm) <= l)%Z -> apply (label_permutation perm) (TString s) = Err IndexError).
Proof. exact (fun perm s => conj (permutation_fermion perm s) (permutation_range perm s)). Qed.
Print Assumptions C46_rejected.
(** The cyclic shift of three orbitals maps i a_0 b_2 to - i b_0 a_1. *)
Definition ex_perm : list Z := [1; 2; 0]%Z.
Definition ex_shift (l : Z) : Z := if (l =? 2)%Z then 0%Z else (l + 1)%Z.
Definition ex_a0b2 : OS := mkOS [OA; OB] [0%Z; 2%Z] Majorana p_j.
Definition ex_b0a1 : OS := mkOS [OB; OA] [0%Z; 1%Z] Majorana p_j.
Example C46_example : permutes ex_perm ex_shift /\ string_ok Majorana ex_a0b2 /\ in_range 3 ex_a0b2 /\
  one_term (apply (label_permutation ex_perm) (TString ex_a0b2)) gm1 ex_b0a1.
Proof.
  split; [|split; [okm | split]].
  - split; [repeat constructor; cbn; intuition lia|]. split; [cbn; intuition lia|]. cbn. intros l Hl.
    assert (H : (l = 0 \/ l = 1 \/ l = 2)%Z) by lia. destruct H as [->|[->| ->]]; reflexivity.
  - intros l. cbn. intuition lia.
  - eexists. split; [vm_compute; reflexivity|]. split; [reflexivity | gcs].
Qed.

(** C47: time reversal of a string is the string times 1 or -1; every antilinear
    multiplicative map with the stated action on the generators acts in this way. *)
Theorem C47_string : forall ty (A : StarAlg) (g : op -> Z -> A) (th : A -> A) s, ty <> Fermion -> rep ty g -> mult_map true th ->
  (forall p l, is_op_of ty p = true -> th (g p l) == reversed ty g p l) -> string_ok ty s ->
  exists k, one_term (apply time_reversal (TString s)) k s /\ (k = g1 \/ k = gm1) /\ th (den g s) == k · den g s.
Proof. exact (fun ty A => @time_reversal_map_string ty A). Qed.
Print Assumptions C47_string.
Theorem C47_products : forall ty S1 S2, ty <> Fermion -> string_ok ty S1 -> string_ok ty S2 ->
  respects_products (fun s => apply time_reversal (TString s)) true S1 S2.
Proof. exact time_reversal_products. Qed.
Print Assumptions C47_products.
(** On Operators: the norm is kept, applying it twice gives the Operator back, and for real
    coefficients the result is the image under the antilinear map. *)
Theorem C47_operator : forall ty o, ty <> Fermion -> good_operator ty o ->
  exists r, apply time_reversal (TOperator o) = Ok r /\ good_operator ty r /\ op_norm2 r = op_norm2 o /\ apply time_reversal (TOperator r) = Ok o /\
    forall (A : StarAlg) (g : op -> Z -> A), rep ty g -> image_sum true (reversed ty g) (op_terms o) == lincomb g (op_terms r).
Proof. exact time_reversal_operator. Qed.
Print Assumptions C47_operator.
Theorem C47_operator_map : forall ty (A : StarAlg) (g : op -> Z -> A) (th : A -> A) o r, ty <> Fermion -> rep ty g -> mult_map true th ->
  (forall p l, is_op_of ty p = true -> th (g p l) == reversed ty g p l) -> good_operator ty o -> real_coeffs o ->
  apply time_reversal (TOperator o) = Ok r -> th (lincomb g (op_terms o)) == lincomb g (op_terms r).
Proof. exact (fun ty A => @time_reversal_map ty A). Qed.
Print Assumptions C47_operator_map.
(** For complex coefficients it is not: they are left as they are. *)
Theorem C47_complex_refuted : exists o r, good_operator Majorana o /\ apply time_reversal (TOperator o) = Ok r /\
  exists (A : StarAlg) (g : op -> Z -> A) (th : A -> A), rep Majorana g /\ mult_map true th /\
    (forall p l, is_op_of Majorana p = true -> th (g p l) == reversed Majorana g p l) /\
    ~ th (lincomb g (op_terms o)) == lincomb g (op_terms r).
Proof.
  exists (mk Majorana [(gi, mkOS [OA] [1%Z] Majorana p_one)]), (mk Majorana [(gi, mkOS [OA] [1%Z] Majorana p_one)]).
  assert (G : good_operator Majorana (mk Majorana [(gi, mkOS [OA] [1%Z] Majorana p_one)])).
  { split; [|split; [reflexivity | split; [reflexivity|]]].
    - apply built_iff. cbn. split; [|reflexivity]. intros i j s t. destruct i as [|[|]], j as [|[|]]; cbn; try discriminate; auto.
    - cbn. intros s [<-|[]]. split; [okm|]. split; [repeat constructor | cbn; auto]. }
  split; [exact G|]. split; [gcs|].
  exists Fock, fock_gen, conj_fock. split; [apply fock_rep; discriminate|]. split; [apply conj_fock_map|]. split.
  - intros p l Hp. apply conj_fock_gen. destruct p; try discriminate Hp; cbn; auto.
  - intros E. apply fock_nontrivial. pose proof (fock_rep Majorana ltac:(discriminate)) as R.
    set (a := den fock_gen (mkOS [OA] [1%Z] Majorana p_one)) in *.
    assert (Ea : conj_fock a == a).
    { unfold a. rewrite (mult_image true conj_fock fock_gen (reversed Majorana fock_gen) _ conj_fock_map).
      - unfold image, den. cbn [os_pref pval p_one]. replace (gconj g1) with g1 by (apply GC_ext; apply Qc_is_canon; reflexivity). reflexivity.
      - intros o l [H|[]]. injection H as <- <-. apply conj_fock_gen. cbn; auto. }
    assert (El : lincomb fock_gen (op_terms (mk Majorana [(gi, mkOS [OA] [1%Z] Majorana p_one)])) == gi · a).
    { change (gi · a + azero == gi · a). apply aadd_0_r. }
    rewrite (mm_eq _ _ conj_fock_map _ _ El), El, (mm_scal _ _ conj_fock_map), Ea in E.
    assert (Ea2 : a * a == aone).
    { unfold a, den. cbn [os_pref pval p_one combine os_ops os_labels map fst snd aprod fold_right]. rewrite !ascal_1, !amul_1_r. apply (ma_sq _ _ _ _ R). }
    assert (Z : (gmul gi (gconj gi)) · a == (gmul gi gi) · a) by (rewrite <- !ascal_ascal; rewrite E; reflexivity).
    transitivity (half · (gsub (gmul gi (gconj gi)) (gmul gi gi) · (a * a))).
    + rewrite Ea2, ascal_ascal. replace (gmul half _) with g1 by (apply GC_ext; apply Qc_is_canon; reflexivity). symmetry. apply ascal_1.
    + rewrite <- ascal_mul_l. transitivity (half · ((azero : Fock) * a)).
      * apply ascal_proper. apply amul_proper; [|reflexivity]. replace (gsub (gmul gi (gconj gi)) (gmul gi gi)) with (gadd (gmul gi (gconj gi)) (gmul gm1 (gmul gi gi))) by (apply GC_ext; apply Qc_is_canon; reflexivity).
        rewrite ascal_add_l, Z, <- ascal_add_l. replace (gadd _ _) with g0 by (apply GC_ext; apply Qc_is_canon; reflexivity). apply ascal_0.
      * rewrite amul_0_l. apply ascal_zero.
Qed.
Print Assumptions C47_complex_refuted.
(** The spinful version, with the exchange [f] of up and down orbitals and the down orbitals [dn]. *)
Theorem C47_spinful_string : forall flip f dn s, permutes flip f -> string_ok Majorana s -> std s -> in_range (length flip) s ->
  exists k t, one_term (apply (time_reversal_spinful flip dn) (TString s)) k t /\ (k = g1 \/ k = gm1) /\ string_ok Majorana t /\ canonical t /\
    forall (A : StarAlg) (g : op -> Z -> A), rep Majorana g ->
      image true (reversed_spin f (fun l => In l dn) (fun l => in_dec Z.eq_dec l dn) g) s == k · den g t.
Proof. exact spinful_string. Qed.
Print Assumptions C47_spinful_string.
Theorem C47_spinful_products : forall flip f dn S1 S2, permutes flip f -> string_ok Majorana S1 -> string_ok Majorana S2 -> canonical S1 -> canonical S2 ->
  in_range (length flip) S1 -> in_range (length flip) S2 ->
  respects_products (fun s => apply (time_reversal_spinful flip dn) (TString s)) true S1 S2.
Proof. exact spinful_products. Qed.
Print Assumptions C47_spinful_products.
Theorem C47_spinful_operator : forall flip f dn o, permutes flip f -> good_operator Majorana o -> (forall s, In s (b_strings (o_basis o)) -> in_range (length flip) s) ->
  exists r, apply (time_reversal_spinful flip dn) (TOperator o) = Ok r /\ good_operator Majorana r /\ op_norm2 r = op_norm2 o /\
    forall (A : StarAlg) (g : op -> Z -> A), rep Majorana g ->
      image_sum true (reversed_spin f (fun l => In l dn) (fun l => in_dec Z.eq_dec l dn) g) (op_terms o) == lincomb g (op_terms r).
Proof. exact spinful_operator. Qed.
Print Assumptions C47_spinful_operator.
(** i a_0 b_2 is even and X Y Z is odd under time reversal; complex conjugation of the wave
    functions is an antilinear map with the stated action; with orbitals 0 (up) and 1 (down),
    i a_0 a_1 becomes - i a_1 (- a_0) = i a_1 a_0 = - i a_0 a_1. *)
Example C47_example : string_ok Majorana ex_a0b2 /\ string_ok Pauli (mkOS [OX; OY; OZ] [0; 1; 2]%Z Pauli p_one) /\
  mult_map true conj_fock /\ (forall p l, is_op_of Majorana p = true -> conj_fock (fock_gen p l) == reversed Majorana fock_gen p l) /\
  one_term (apply time_reversal (TString ex_a0b2)) g1 ex_a0b2 /\
  one_term (apply time_reversal (TString (mkOS [OX; OY; OZ] [0; 1; 2]%Z Pauli p_one))) gm1 (mkOS [OX; OY; OZ] [0; 1; 2]%Z Pauli p_one) /\
  permutes [1; 0]%Z (fun l => (1 - l)%Z) /\
  one_term (apply (time_reversal_spinful [1; 0]%Z [1%Z]) (TString (mkOS [OA; OA] [0; 1]%Z Majorana p_j))) gm1 (mkOS [OA; OA] [0; 1]%Z Majorana p_j).
Proof.
  split; [okm|]. split; [okm|]. split; [apply conj_fock_map|]. split; [|split; [|split; [|split]]].
  - intros p l Hp. apply conj_fock_gen. destruct p; try discriminate Hp; cbn; auto.
  - eexists. split; [vm_compute; reflexivity|]. split; [reflexivity | gcs].
  - eexists. split; [vm_compute; reflexivity|]. split; [reflexivity | gcs].
  - split; [repeat constructor; cbn; intuition lia|]. split; [cbn; intuition lia|]. cbn. intros l Hl.
    assert (H : (l = 0 \/ l = 1)%Z) by lia. destruct H as [->| ->]; reflexivity.
  - eexists. split; [vm_compute; reflexivity|]. split; [reflexivity | gcs].
Qed.

(** C48: particle_hole sends a_j to a_j, b_j to -b_j and d_j to -d_j, multiplicatively. *)
Theorem C48_string : forall s, string_ok Majorana s ->
  exists k, one_term (apply particle_hole (TString s)) k s /\ (k = g1 \/ k = gm1) /\
    forall (A : StarAlg) (g : op -> Z -> A), rep Majorana g -> image false (conjugated g) s == k · den g s.
Proof. exact particle_hole_string. Qed.
Print Assumptions C48_string.
Theorem C48_products : forall S1 S2, string_ok Majorana S1 -> string_ok Majorana S2 ->
  respects_products (fun s => apply particle_hole (TString s)) false S1 S2.
Proof. exact particle_hole_products. Qed.
Print Assumptions C48_products.
Theorem C48_operator : forall o, good_operator Majorana o ->
  exists r, apply particle_hole (TOperator o) = Ok r /\ good_operator Majorana r /\ op_norm2 r = op_norm2 o /\ apply particle_hole (TOperator r) = Ok o /\
    forall (A : StarAlg) (g : op -> Z -> A), rep Majorana g -> image_sum false (conjugated g) (op_terms o) == lincomb g (op_terms r).
Proof. exact particle_hole_operator. Qed.
Print Assumptions C48_operator.
Example C48_example : string_ok Majorana ex_a0b2 /\ one_term (apply particle_hole (TString ex_a0b2)) gm1 ex_a0b2 /\
  string_ok Majorana (mkOS [OB; OD] [0; 1]%Z Majorana p_one) /\
  one_term (apply particle_hole (TString (mkOS [OB; OD] [0; 1]%Z Majorana p_one))) g1 (mkOS [OB; OD] [0; 1]%Z Majorana p_one).
Proof.
  split; [okm|]. split; [eexists; split; [vm_compute; reflexivity|]; split; [reflexivity | gcs]|]. split; [okm|].
  eexists; split; [vm_compute; reflexivity|]; split; [reflexivity | gcs].
Qed.

(** C49: spin parity multiplies a string by (-1)^(number of A and B on down orbitals), which is
    conjugation by the fermion parity P of the down orbitals. *)
Theorem C49_sign : forall dn s, NoDup dn -> string_ok Majorana s ->
  exists k, one_term (apply (sz_rule dn) (TString s)) k s /\
    k = gsgn (Nat.odd (length (filter (fun p => is_ab (fst p) && (if in_dec Z.eq_dec (snd p) dn then true else false)) (combine (os_ops s) (os_labels s))))) /\
    forall (A : StarAlg) (g : op -> Z -> A), rep Majorana g ->
      let P := aprod (map (g OD) dn) in P * P == aone /\ P * den g s * P == k · den g s.
Proof. exact parity_conjugation. Qed.
Print Assumptions C49_sign.
Theorem C49_products : forall dn S1 S2, string_ok Majorana S1 -> string_ok Majorana S2 ->
  respects_products (fun s => apply (sz_rule dn) (TString s)) false S1 S2.
Proof. exact parity_products. Qed.
Print Assumptions C49_products.
Example C49_example : NoDup [1; 3]%Z /\ string_ok Majorana (mkOS [OA; OD; OB] [0; 1; 3]%Z Majorana p_j) /\
  one_term (apply (sz_rule [1; 3]%Z) (TString (mkOS [OA; OD; OB] [0; 1; 3]%Z Majorana p_j))) gm1 (mkOS [OA; OD; OB] [0; 1; 3]%Z Majorana p_j).
Proof.
  split; [repeat constructor; cbn; intuition lia|]. split; [okm|].
  eexists; split; [vm_compute; reflexivity|]; split; [reflexivity | gcs].
Qed.

(** C50 (part): (D * C)(S) = D(C(S)), for strings, provided that no product of coefficients is
    nonzero but of modulus at most 1e-12 (these are dropped).  The two sides also fail together. *)
Theorem C50_product_partial : forall ty C D s, keeps_type ty C -> keeps_type ty D -> os_type s = ty -> std s -> no_small_products C D s ->
  (forall oC r, apply C (TString s) = Ok oC -> apply D (TOperator oC) = Ok r -> exists n, apply (tmul D C) (TString s) = Ok n /\ same_coeffs n r) /\
  (forall n, apply (tmul D C) (TString s) = Ok n -> exists oC r, apply C (TString s) = Ok oC /\ apply D (TOperator oC) = Ok r /\ same_coeffs n r).
Proof. exact product_string. Qed.
Print Assumptions C50_product_partial.
Theorem C50_product_operator_partial : forall ty C D o n, keeps_type ty C -> keeps_type ty D -> proper o -> o_type o = ty ->
  (forall s, In s (b_strings (o_basis o)) -> no_small_products C D s) -> apply (tmul D C) (TOperator o) = Ok n ->
  forall oC r, apply C (TOperator o) = Ok oC -> apply D (TOperator oC) = Ok r -> same_coeffs n r.
Proof. exact product_operator. Qed.
Print Assumptions C50_product_operator_partial.
(** Without the proviso it fails: scaling by 1e-7 twice gives no term instead of 1e-14 X. *)
Theorem C50_small_refuted : exists T s oC r n, keeps_type Pauli T /\ os_type s = Pauli /\ std s /\
  apply T (TString s) = Ok oC /\ apply T (TOperator oC) = Ok r /\ apply (tmul T T) (TString s) = Ok n /\
  op_terms n = [] /\ exists c, has_coeff (op_terms r) s c /\ c <> g0.
Proof.
  set (x := mkOS [OX] [0%Z] Pauli p_one).
  exists tiny_rule, x, (mk Pauli [(tiny, x)]), (mk Pauli [(gmul tiny tiny, x)]), (mk Pauli []).
  split; [apply tiny_keeps|]. split; [reflexivity|]. split; [cbn; auto|]. split; [vm_compute; reflexivity|]. split; [gcs|]. split; [vm_compute; reflexivity|].
  split; [reflexivity|]. exists (gmul tiny tiny). split; [left; exists x; split; [left; reflexivity | apply same_key_refl]|].
  intros H. apply (f_equal re) in H. discriminate H.
Qed.
Print Assumptions C50_small_refuted.
(** T**1 is T, T**(n+1) is T**n * T, and if applying T n times only ever gives single strings
    with coefficients 1 or -1 then T**n gives the same. *)
Theorem C50_power_step : forall T, tpow T (PInt 1) = Ok T /\
  forall n Tn, (0 < n)%Z -> tpow T (PInt n) = Ok Tn -> tpow T (PInt (n + 1)) = Ok (tmul Tn T).
Proof. exact power_step. Qed.
Print Assumptions C50_power_step.
Theorem C50_power_iterated : forall ty T n s k t, keeps_type ty T -> os_type s = ty -> std s -> iterated T (S n) s k t ->
  exists Tn, tpow T (PInt (Z.of_nat (S n))) = Ok Tn /\ one_term (apply Tn (TString s)) k t /\ (k = g1 \/ k = gm1).
Proof. exact power_iterated. Qed.
Print Assumptions C50_power_iterated.
(** The n-th power of a permutation is the n-th iterate. *)
Theorem C50_permutation_power : forall ty p f pn s n, ty <> Fermion -> permutes p f -> string_ok ty s -> std s -> in_range (length p) s ->
  permutes pn (iterate f (S n)) -> length pn = length p ->
  exists Tn k t, tpow (label_permutation p) (PInt (Z.of_nat (S n))) = Ok Tn /\ one_term (apply Tn (TString s)) k t /\
    one_term (apply (label_permutation pn) (TString s)) k t.
Proof. exact permutation_power. Qed.
Print Assumptions C50_permutation_power.
(** The cyclic shift twice; and its third power is the identity. *)
Example C50_example : (exists T2, tpow (label_permutation ex_perm) (PInt 2) = Ok T2 /\
    one_term (apply T2 (TString ex_a0b2)) gm1 (mkOS [OB; OA] [1; 2]%Z Majorana p_j)) /\
  (exists T3, tpow (label_permutation ex_perm) (PInt 3) = Ok T3 /\ one_term (apply T3 (TString ex_a0b2)) g1 ex_a0b2) /\
  no_small_products particle_hole time_reversal ex_a0b2.
Proof.
  split; [|split].
  - eexists. split; [reflexivity|]. eexists; split; [vm_compute; reflexivity|]; split; [reflexivity | gcs].
  - eexists. split; [reflexivity|]. eexists; split; [vm_compute; reflexivity|]; split; [reflexivity | gcs].
  - intros oC oD t u E1 H1 E2 H2. right. vm_compute in E1. injection E1 as <-. destruct H1 as [<-|[]]. vm_compute in E2. injection E2 as <-. destruct H2 as [<-|[]]. vm_compute. reflexivity.
Qed.

(** C51: T**0 is rejected, although the documentation allows every non-negative exponent. *)
Theorem C51_zero_refuted : forall T, tpow T (PInt 0) = Err ValueError.
Proof. exact (fun T => power_rejected T 0 ltac:(lia)). Qed.
Print Assumptions C51_zero_refuted.
(** Negative exponents are rejected and positive ones are accepted. *)
Theorem C51_other_partial : forall T n, ((n < 0)%Z -> tpow T (PInt n) = Err ValueError) /\ ((0 < n)%Z -> exists Tn, tpow T (PInt n) = Ok Tn).
Proof. exact (fun T n => conj (fun H => power_rejected T n (Z.lt_le_incl _ _ H)) (power_accepted T n)). Qed.
Print Assumptions C51_other_partial.
Example C51_example : tpow (label_permutation ex_perm) (PInt (-1)) = Err ValueError /\ tpow (label_permutation ex_perm) (PInt 1) = Ok (label_permutation ex_perm).
Proof. split; reflexivity. Qed.

(** C52: the columns of symmetry_matrix (coefficients of modulus at most 1e-12 become 0). *)
Theorem C52_columns : forall ty b T, built b -> keeps_type ty T -> (forall s, In s (b_strings b) -> os_type s = ty /\ std s) ->
  ((exists M, symmetry_matrix b T = Ok M) <-> (forall s, In s (b_strings b) -> exists o, T s = Ok o)) /\
  forall M, symmetry_matrix b T = Ok M -> sm_rows M = basis_len b /\ sm_cols M = basis_len b /\
    forall i j u s o c, nth_error (b_strings b) i = Some u -> nth_error (b_strings b) j = Some s -> T s = Ok o -> has_coeff (op_terms o) u c ->
      sm_entry M i j = if abs_gtb c tol12 then c else g0.
Proof. exact symmetry_matrix_columns. Qed.
Print Assumptions C52_columns.
(** For transformations of strings into strings times 1 or -1, injectively: the vectors of the
    eigenspace 1 (-1) of the Hermitian part are exactly the operators with T(O) = O (T(O) = -O),
    whether or not the basis is closed under T. *)
Theorem C52_eigenspace : forall ty T o M H, keeps_type ty T -> proper o -> o_type o = ty -> monomial_on T (b_strings (o_basis o)) ->
  symmetry_matrix (o_basis o) T = Ok M -> hermitian_part M = Ok H -> forall sign, (sign * sign = 1)%Qc ->
  exists r m, apply T (TOperator o) = Ok r /\ op_scale (gq sign) o = Ok m /\ (eigenpair H sign (o_coeffs o) <-> same_coeffs r m).
Proof. exact invariant_iff. Qed.
Print Assumptions C52_eigenspace.
(** An eigenvector with another eigenvalue: |T(O) - sign O|^2 = 2 (1 - sign lambda) |O|^2. *)
Theorem C52_deviation : forall ty T o M H, keeps_type ty T -> proper o -> o_type o = ty -> monomial_on T (b_strings (o_basis o)) ->
  symmetry_matrix (o_basis o) T = Ok M -> hermitian_part M = Ok H -> forall sign lam, (sign * sign = 1)%Qc -> eigenpair H lam (o_coeffs o) ->
  exists r m d, apply T (TOperator o) = Ok r /\ op_scale (gq sign) o = Ok m /\ op_sub r m = Ok d /\
    op_norm2 d = ((1 + 1) * (1 - sign * lam) * op_norm2 o)%Qc /\ (op_norm2 d = 0%Qc -> same_coeffs r m).
Proof. exact deviation. Qed.
Print Assumptions C52_deviation.
(** Every vector returned by invariant_operators is invariant up to the tolerance, if the
    eigensolver returns eigenpairs. *)
Theorem C52_invariant_operators : forall ty T b eigh m tol vs, keeps_type ty T -> built b -> (forall s, In s (b_strings b) -> os_type s = ty /\ std s) -> monomial_on T (b_strings b) ->
  (0 <= tol)%Qc -> invariant_operators eigh b T m tol = Ok vs ->
  (forall H lam v, sm_rows H = basis_len b -> In (lam, v) (eigh H) -> eigenpair H lam v) ->
  forall v o, In v vs -> o_basis o = b -> o_coeffs o = v -> o_type o = ty ->
  exists sign r k d, inv_sign m = Ok sign /\ apply T (TOperator o) = Ok r /\ op_scale (gq sign) o = Ok k /\ op_sub r k = Ok d /\
    (op_norm2 d <= (1 + 1) * tol * op_norm2 o)%Qc.
Proof. exact invariant_sound. Qed.
Print Assumptions C52_invariant_operators.
(** The transformations of the package are of this kind. *)
Theorem C52_monomial : forall l,
  (forall ty, ty <> Fermion -> (forall s, In s l -> string_ok ty s /\ canonical s) -> monomial_on time_reversal l) /\
  ((forall s, In s l -> string_ok Majorana s /\ canonical s) -> monomial_on particle_hole l /\ forall dn, monomial_on (sz_rule dn) l) /\
  (forall ty perm f, ty <> Fermion -> permutes perm f ->
     (forall s, In s l -> string_ok ty s /\ canonical s /\ in_range (length perm) s) -> monomial_on (label_permutation perm) l).
Proof.
  exact (fun l => conj (fun ty => time_reversal_monomial ty l)
    (conj (fun H => conj (particle_hole_monomial l H) (fun dn => parity_monomial dn l H)) (fun ty perm f => permutation_monomial ty perm f l))).
Qed.
Print Assumptions C52_monomial.
(** X_0 + X_1 + X_2 is invariant under the shift; in the basis X_0, X_1 (not closed) nothing is. *)
Definition ex_x (l : Z) : OS := mkOS [OX] [l] Pauli p_one.
Definition ex_b3 : Basis := o_basis (mk Pauli [(g1, ex_x 0); (g1, ex_x 1); (g1, ex_x 2)]).
Definition ex_b2 : Basis := o_basis (mk Pauli [(g1, ex_x 0); (g1, ex_x 1)]).
Example C52_example : built ex_b3 /\ (forall s, In s (b_strings ex_b3) -> string_ok Pauli s /\ canonical s /\ in_range 3 s) /\
  (exists M H, symmetry_matrix ex_b3 (label_permutation ex_perm) = Ok M /\ hermitian_part M = Ok H /\ eigenpair H 1%Qc [g1; g1; g1]) /\
  (exists M H, symmetry_matrix ex_b2 (label_permutation ex_perm) = Ok M /\ hermitian_part M = Ok H /\
     eigenpair H (Q2Qc (1 # 2)) [g1; g1]).
Proof.
  split; [|split; [|split]].
  - apply built_iff. cbn. split; [|reflexivity]. intros i j s t.
    destruct i as [|[|[|i]]], j as [|[|[|j]]]; cbn; try (destruct i); try (destruct j); try discriminate; auto; intros A B [C _]; injection A as <-; injection B as <-; discriminate C.
  - cbn. intros s [<-|[<-|[<-|[]]]]; (split; [okm|]; split; [split; [repeat constructor | cbn; auto] | intros l [<-|[]]; lia]).
  - eexists _, _. split; [vm_compute; reflexivity|]. split; [vm_compute; reflexivity|]. split; [reflexivity | gcs].
  - eexists _, _. split; [vm_compute; reflexivity|]. split; [vm_compute; reflexivity|]. split; [reflexivity | gcs].
Qed.
