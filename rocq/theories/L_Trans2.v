(** Transformations that act as multiplicative maps. *)
From Coq Require Import List Arith Lia ZArith Bool Setoid Morphisms Sorted Permutation Qcanon Ring.
From Verif Require Import GC Exn S_Alg S_Den S_Basis S_Transform S_Fock M_OpString M_Tools M_Algebra M_Basis M_Transform
  L_Alg L_Module L_StrAlg L_StrOp L_Fock L_Basis L_Operator L_PropStr L_Conversion L_ConvOrd L_Perm L_JW2 L_Trans1.
Import ListNotations.
Local Open Scope nat_scope.
Local Open Scope alg_scope.

Definition cj (conj : bool) (z : GC) : GC := if conj then gconj z else z.
Definition rep_map (ty : optype) (conj : bool) (h : forall A : StarAlg, (op -> Z -> A) -> op -> Z -> A) : Prop :=
  if conj then forall (A : StarAlg) g, rep ty g -> @rep ty (conj_alg A) (h A g)
  else forall (A : StarAlg) g, rep ty g -> rep ty (h A g).

Lemma cj_unit conj k : k = g1 \/ k = gm1 -> cj conj k = k.
Proof. destruct conj; auto. intros [->| ->]; apply GC_ext; apply Qc_is_canon; reflexivity. Qed.
Lemma unit_sq k : k = g1 \/ k = gm1 -> gmul k k = g1.
Proof. intros [->| ->]; apply GC_ext; apply Qc_is_canon; reflexivity. Qed.
Lemma unit_nz k : k = g1 \/ k = gm1 -> k <> g0.
Proof. intros [->| ->]; discriminate. Qed.

Lemma sign_zero x : gmul g1 x = gmul gm1 x -> x = g0.
Proof.
  intros E. assert (Z : gmul g2 x = g0).
  { replace (gmul g2 x) with (gadd (gmul g1 x) (gopp (gmul gm1 x))); [rewrite E; ring|].
    replace g2 with (gadd g1 g1) by (apply GC_ext; reflexivity). unfold gm1. ring. }
  apply gmul_integral in Z. destruct Z; auto. exfalso; apply g2_neq_g0; auto.
Qed.

Section Auto.
  Variables (ty : optype) (T : rule) (conj : bool) (h : forall A : StarAlg, (op -> Z -> A) -> op -> Z -> A).
  Hypothesis Hty : ty <> Fermion.
  Hypothesis Hrep : rep_map ty conj h.

  Lemma image_mul S1 S2 k e C {A : StarAlg} (g : op -> Z -> A) : op_result ty S1 S2 k e C -> rep ty g ->
    image conj (h A g) S1 * image conj (h A g) S2 == cj conj k · image conj (h A g) C /\
    image conj (h A g) S2 * image conj (h A g) S1 == cj conj (gmul (gsgn e) k) · image conj (h A g) C.
  Proof.
    intros R Hg. unfold rep_map in Hrep. destruct conj; cbn [cj].
    - split; rewrite !image_true; [apply (or_st _ _ _ _ _ _ R (conj_alg A)) | apply (or_ts _ _ _ _ _ _ R (conj_alg A))]; apply Hrep; auto.
    - split; rewrite !image_false; [apply (or_st _ _ _ _ _ _ R A) | apply (or_ts _ _ _ _ _ _ R A)]; apply Hrep; auto.
  Qed.
  Lemma image_inj S1 S2 a b : string_ok ty S1 -> string_ok ty S2 -> canonical S1 -> canonical S2 -> a <> g0 ->
    a · image conj (h Fock fock_gen) S1 == b · image conj (h Fock fock_gen) S2 -> a = b /\ S1 = S2.
  Proof.
    intros H1 H2 C1 C2 Ha E. unfold rep_map in Hrep. pose proof (fock_rep ty Hty) as Hf. destruct conj.
    - rewrite !image_true in E.
      destruct (@multiple_unique ty (conj_alg Fock) (h Fock fock_gen) (gconj a) (gconj b) S1 S2) as [X Y]; auto.
      + apply fock_nontrivial.
      + intros Z0. apply Ha. rewrite <- (gconj_conj a), Z0. apply GC_ext; apply Qc_is_canon; reflexivity.
      + cbn [conj_alg ascal]. rewrite !gconj_conj. exact E.
      + split; auto. rewrite <- (gconj_conj a), X. apply gconj_conj.
    - rewrite !image_false in E. apply (@multiple_unique ty Fock (h Fock fock_gen)); auto. apply fock_nontrivial.
  Qed.

  Theorem acts_products_can S1 S2 : string_ok ty S1 -> string_ok ty S2 -> acts_as ty T conj h S1 -> acts_as ty T conj h S2 ->
    (forall C, string_ok ty C -> canonical C -> (forall l, In l (os_labels C) -> In l (os_labels S1) \/ In l (os_labels S2)) -> acts_as ty T conj h C) ->
    respects_products T conj S1 S2.
  Proof.
    intros H1 H2 (k1 & t1 & T1 & U1 & O1 & _ & E1) (k2 & t2 & T2 & U2 & O2 & _ & E2) HC.
    destruct (operation_spec ty S1 S2 Hty H1 H2) as (k & e & C & R).
    destruct (HC C (or_ok _ _ _ _ _ _ R) (or_can _ _ _ _ _ _ R) (or_lab _ _ _ _ _ _ R)) as (k3 & t3 & T3 & U3 & O3 & N3 & E3).
    destruct (operation_spec ty t1 t2 Hty O1 O2) as (k' & e' & C' & R').
    pose proof (fock_rep ty Hty) as Hf.
    destruct (image_mul S1 S2 k e C fock_gen R Hf) as [M1 M2].
    rewrite (E1 _ _ Hf), (E2 _ _ Hf), (E3 _ _ Hf), !ascal_mul_l, !ascal_mul_r, !ascal_ascal in M1.
    rewrite (E1 _ _ Hf), (E2 _ _ Hf), (E3 _ _ Hf), !ascal_mul_l, !ascal_mul_r, !ascal_ascal in M2.
    rewrite (or_st _ _ _ _ _ _ R' _ _ Hf), ascal_ascal in M1. rewrite (or_ts _ _ _ _ _ _ R' _ _ Hf), ascal_ascal in M2.
    pose proof (unit_nonzero _ (or_unit _ _ _ _ _ _ R')) as K'.
    assert (NZ : gmul (gmul k1 k2) k' <> g0).
    { intros Z0. apply gmul_integral in Z0. destruct Z0 as [Z0|Z0]; auto. apply gmul_integral in Z0. destruct Z0 as [Z0|Z0].
      - apply (unit_nz k1 U1 Z0). - apply (unit_nz k2 U2 Z0). }
    destruct (@multiple_unique ty Fock fock_gen _ _ C' t3 Hf fock_nontrivial (or_ok _ _ _ _ _ _ R') O3 (or_can _ _ _ _ _ _ R') (N3 (or_can _ _ _ _ _ _ R)) NZ M1) as [X Y].
    subst C'.
    assert (Ee : e = e').
    { assert (NZ2 : gmul (gmul k2 k1) (gmul (gsgn e') k') <> g0).
      { intros Z0. apply NZ. transitivity (gmul (gsgn e') (gmul (gmul k2 k1) (gmul (gsgn e') k'))).
        - transitivity (gmul (gmul (gsgn e') (gsgn e')) (gmul (gmul k1 k2) k')); [rewrite gsgn_sq|]; ring.
        - rewrite Z0. ring. }
      destruct (@multiple_unique ty Fock fock_gen _ _ t3 t3 Hf fock_nontrivial O3 O3 (N3 (or_can _ _ _ _ _ _ R)) (N3 (or_can _ _ _ _ _ _ R)) NZ2 M2) as [X2 _].
      assert (X3 : gmul (gsgn e') (gmul (cj conj k) k3) = gmul (gsgn e) (gmul (cj conj k) k3)).
      { rewrite <- X at 1. replace (gmul (cj conj (gmul (gsgn e) k)) k3) with (gmul (gsgn e) (gmul (cj conj k) k3)) in X2.
        - rewrite <- X2. ring.
        - destruct conj; cbn [cj]; rewrite ?gconj_mul, ?gsgn_conj; ring. }
      destruct e, e'; auto; exfalso; apply NZ; rewrite X; cbn [gsgn] in X3.
      - apply (sign_zero _ X3).
      - apply (sign_zero _ (eq_sym X3)). }
    subst e'.
    exists k, C, k1, t1, k2, t2, k3, t3, k'. split; [apply R|]. split; auto. split; auto. split; auto. split; [apply R'|]. split; [exact X|].
    pose proof (or_comm _ _ _ _ _ _ R) as Y1. pose proof (or_comm _ _ _ _ _ _ R') as Y2.
    replace (gmul g2 k) with (gmul k g2) by ring. replace (gmul g2 k') with (gmul k' g2) by ring.
    destruct e; [right|left]; split; auto.
  Qed.

  Theorem acts_products S1 S2 : string_ok ty S1 -> string_ok ty S2 -> acts_as ty T conj h S1 -> acts_as ty T conj h S2 ->
    (forall C, string_ok ty C -> (forall l, In l (os_labels C) -> In l (os_labels S1) \/ In l (os_labels S2)) -> acts_as ty T conj h C) ->
    respects_products T conj S1 S2.
  Proof. intros H1 H2 A1 A2 H. apply acts_products_can; auto. Qed.

  Lemma acts_inj S1 S2 k1 k2 t : string_ok ty S1 -> string_ok ty S2 -> canonical S1 -> canonical S2 ->
    (forall A g, rep ty g -> image conj (h A g) S1 == k1 · den g t) -> (forall A g, rep ty g -> image conj (h A g) S2 == k2 · den g t) ->
    k1 = g1 \/ k1 = gm1 -> k2 = g1 \/ k2 = gm1 -> S1 = S2.
  Proof.
    intros H1 H2 C1 C2 E1 E2 U1 U2. pose proof (fock_rep ty Hty) as Hf.
    apply (image_inj S1 S2 k2 k1); auto using unit_nz.
    rewrite (E1 _ _ Hf), (E2 _ _ Hf), !ascal_ascal. apply ascal_eq. ring.
  Qed.
End Auto.

Lemma single_new k s : exists o, op_new [k] [s] None = Ok o /\ op_ok o /\ o_type o = os_type s /\ op_terms o = [(k, s)].
Proof. destruct (single_ok k s None) as (o & E & R). exists o. split; auto. Qed.
Lemma single_one k s : one_term (op_new [k] [s] None) k s.
Proof. destruct (single_new k s) as (o & E & _ & Ht & Hs). exists o. auto. Qed.
