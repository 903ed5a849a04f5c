(** Proofs of the properties of operator strings (C01-C13). *)
From Coq Require Import String List ZArith Bool Arith Lia Sorted Setoid Morphisms Ring.
From Verif Require Import GC Exn PyStr M_OpString M_Tools M_Algebra S_Alg S_Den S_Fock
  L_Alg L_Sort L_StrAlg L_StrOp L_Indep L_Fock L_Parse.
Import ListNotations.
Local Open Scope alg_scope.

Lemma hermitian_proof ty ops labels :
  ty <> Fermion -> length ops = length labels ->
  (forall o, In o ops -> is_op_of ty o = true) -> NoDup labels ->
  exists s, os_new ops labels ty = Ok s /\ os_ops s = ops /\ os_labels s = labels /\ os_type s = ty /\
    forall (A : StarAlg) (g : op -> Z -> A), rep ty g ->
      (den g s)^* == den g s /\ den g s * den g s == aone.
Proof.
  intros Hty Hl Hv Hn. destruct (os_new_ok ty ops labels Hty Hl Hv Hn) as (s & H & Hs & Ho & Hla & _).
  exists s. repeat split; auto.
  - apply Hs.
  - apply (den_star ty); auto.
  - apply (den_sq ty); auto.
Qed.

Lemma den_letters_ext {A : StarAlg} (g : op -> Z -> A) s t :
  os_ops s = os_ops t -> os_labels s = os_labels t -> pval (os_pref s) = pval (os_pref t) -> den g s = den g t.
Proof. intros E1 E2 E3. unfold den. rewrite E1, E2, E3. reflexivity. Qed.

Lemma accepted_hermitian_proof ty ops labels p s :
  ty <> Fermion -> length ops = length labels ->
  (forall o, In o ops -> is_op_of ty o = true) -> NoDup labels ->
  (ty = Majorana -> pval p = g1) -> os_make ops labels ty p = Ok s ->
  forall (A : StarAlg) (g : op -> Z -> A), rep ty g -> (den g s)^* == den g s.
Proof.
  intros Hty Hl Hv Hn Hp Hs A g Hr.
  destruct (os_new_ok ty ops labels Hty Hl Hv Hn) as (t & Ht & Hok & Ho & Hla & _).
  rewrite (den_letters_ext g s t).
  - apply (den_star ty); auto.
  - unfold os_make in Hs. rewrite Ho. destruct ty; [| |congruence].
    + destruct (pref_ok _ _); [|discriminate]. injection Hs as <-. auto.
    + destruct (_ <? _)%nat; [discriminate|]. destruct (pref_ok _ _); [|discriminate]. injection Hs as <-. auto.
  - unfold os_make in Hs. rewrite Hla. destruct ty; [| |congruence].
    + destruct (pref_ok _ _); [|discriminate]. injection Hs as <-. auto.
    + destruct (_ <? _)%nat; [discriminate|]. destruct (pref_ok _ _); [|discriminate]. injection Hs as <-. auto.
  - unfold os_new, os_make in Hs, Ht. destruct ty; [| |congruence].
    + destruct (pref_ok Pauli p) eqn:E; [|discriminate]. destruct (pref_ok Pauli p_one) eqn:E2; [|discriminate].
      injection Hs as <-. injection Ht as <-. simpl. apply gc_eqb_eq. exact E.
    + destruct (_ <? _)%nat; [discriminate|]. specialize (Hp eq_refl).
      destruct (pref_ok Majorana (majorana_pref ops labels p)); [|discriminate].
      destruct (pref_ok Majorana (majorana_pref ops labels p_one)); [|discriminate].
      injection Hs as <-. injection Ht as <-. simpl. unfold majorana_pref. destruct (Nat.odd _); auto.
Qed.

Lemma not_hermitian_witness :
  exists s, opstring "1j A 1" None = Ok s /\ os_type s = Majorana /\
    exists (A : StarAlg) (g : op -> Z -> A), rep Majorana g /\ ~ (den g s)^* == den g s.
Proof.
  eexists. split; [vm_compute; reflexivity|]. split; [reflexivity|].
  exists Fock, fock_gen. split; [exact fock_majorana|].
  intros [H _]. specialize (H (fun _ => g1) 0%N). apply gc_eqb_eq in H. vm_compute in H. discriminate.
Qed.

Lemma key_default_proof ty ops labels s t : ty <> Fermion \/ ty = Fermion ->
  os_new ops labels ty = Ok s -> (exists ops' labels' ty', os_new ops' labels' ty' = Ok t) ->
  os_eqb s t = true -> os_hash s = os_hash t.
Proof.
  intros _ Hs (ops' & labels' & ty' & Ht) E. apply os_eqb_spec in E. destruct E as (E1 & E2 & E3).
  assert (K : forall o l y u, os_new o l y = Ok u -> os_ops u = o /\ os_labels u = l /\ os_type u = y).
  { intros o l y u H. unfold os_new, os_make in H. destruct y.
    - destruct (pref_ok _ _); [|discriminate]. injection H as <-. auto.
    - destruct (_ <? _)%nat; [discriminate|]. destruct (pref_ok _ _); [|discriminate]. injection H as <-. auto.
    - destruct (pref_ok _ _); [|discriminate]. injection H as <-. auto. }
  destruct (K _ _ _ _ Hs) as (A1 & A2 & A3). destruct (K _ _ _ _ Ht) as (B1 & B2 & B3).
  assert (ops' = ops) as -> by congruence. assert (labels' = labels) as -> by congruence.
  assert (ty' = ty) as -> by congruence. assert (s = t) as -> by congruence. reflexivity.
Qed.

Lemma last_op_proof name ty s : opstring name ty = Ok s ->
  os_ops s = [] \/ exists o, (exists r, os_ops s = r ++ [o]) /\ is_op_of (os_type s) o = true.
Proof.
  assert (N : forall t s, os_new [] [] t = Ok s -> os_ops s = []).
  { intros t u H. destruct t; vm_compute in H; injection H as <-; reflexivity. }
  assert (T : forall ot lt p, opstring_tail ot lt p ty = Ok s ->
     exists o, (exists r, os_ops s = r ++ [o]) /\ is_op_of (os_type s) o = true).
  { intros ot lt p H. unfold opstring_tail in H. destruct (parse_labels lt) as [labels|]; [|discriminate].
    cbn [rbind] in H. set (ops := map op_of_string ot) in *.
    destruct (deduce_type ops) as [dt|] eqn:Ed; [|discriminate]. cbn [rbind] in H.
    assert (H' : os_make ops labels dt p = Ok s).
    { destruct ty; [|auto]. destruct (optype_eqb dt o); [auto|discriminate]. }
    assert (os_ops s = ops /\ os_type s = dt) as [-> ->].
    { unfold os_make in H'. destruct dt.
      - destruct (pref_ok _ _); [|discriminate]. injection H' as <-. auto.
      - destruct (_ <? _)%nat; [discriminate|]. destruct (pref_ok _ _); [|discriminate]. injection H' as <-. auto.
      - destruct (pref_ok _ _); [|discriminate]. injection H' as <-. auto. }
    unfold deduce_type in Ed. destruct (rev ops) as [|o r] eqn:Er; [discriminate|].
    exists o. split.
    - exists (rev r). rewrite <- (rev_involutive ops), Er. reflexivity.
    - destruct (is_pauli_op o) eqn:E1; [injection Ed as <-; auto|].
      destruct (is_majorana_op o) eqn:E2; [injection Ed as <-; auto|].
      destruct (is_fermion_op o) eqn:E3; [injection Ed as <-; auto|discriminate]. }
  unfold opstring. destruct (tokens name) as [|t0 rest].
  - destruct ty; [|discriminate]. intros H. left. eapply N; eauto.
  - destruct (match rest with [] => is_identity_token t0 | _ => false end).
    + destruct ty; [|discriminate]. intros H. left. eapply N; eauto.
    + destruct (is_valid_op (op_of_string t0)); [intros H; right; eapply T; eauto|].
      destruct (pref_of_token t0); [|discriminate]. destruct rest as [|t1 rest]; [discriminate|].
      destruct (is_valid_op (op_of_string t1)); [|discriminate]. intros H; right; eapply T; eauto.
Qed.

Section Ops.
  Variables (ty : optype) (S T : OS).
  Hypothesis Hty : ty <> Fermion.
  Hypothesis HS : string_ok ty S.
  Hypothesis HT : string_ok ty T.

  Lemma product_proof : exists k C, product S T = Ok (k, Some C) /\
    forall (A : StarAlg) (g : op -> Z -> A), rep ty g -> den g S * den g T == k · den g C.
  Proof.
    destruct (operation_spec ty S T Hty HS HT) as (k & e & C & R). exists k, C. split; apply R.
  Qed.

  Lemma zero_of_twice {A : StarAlg} (g : op -> Z -> A) k C : rep ty g -> ~ (@aone A == azero) ->
    gmul k (gconj k) = g1 -> string_ok ty C -> ~ (gmul k g2 · den g C == azero).
  Proof.
    intros Hr Hnt Hk HC H. apply Hnt. rewrite <- (den_sq ty g Hr C HC).
    assert (E : den g C == azero).
    { apply (ascal_cancel (gmul k g2)).
      - intros E. apply gmul_integral in E. destruct E as [E|E]; [apply (unit_neq0 k Hk); auto | apply g2_neq_g0; auto].
      - rewrite H, ascal_zero. reflexivity. }
    rewrite E. apply amul_0_l.
  Qed.

  Lemma commutator_proof : 
    (exists k C, commutator S T = Ok (k, Some C) /\
       (forall (A : StarAlg) (g : op -> Z -> A), rep ty g ->
          asub (den g S * den g T) (den g T * den g S) == k · den g C /\
          (~ (@aone A == azero) -> ~ (den g S * den g T == den g T * den g S)))) \/
    (commutator S T = Ok (g0, None) /\
       (forall (A : StarAlg) (g : op -> Z -> A), rep ty g -> den g S * den g T == den g T * den g S)).
  Proof.
    destruct (operation_spec ty S T Hty HS HT) as (k & e & C & R).
    pose proof (or_comm _ _ _ _ _ _ R) as Hc. destruct e.
    - left. exists (gmul k g2), C. split; auto. intros A g Hr.
      assert (E : asub (den g S * den g T) (den g T * den g S) == gmul k g2 · den g C).
      { unfold asub. rewrite (or_st _ _ _ _ _ _ R A g Hr), (or_ts _ _ _ _ _ _ R A g Hr), ascal_ascal, <- ascal_add_l.
        apply ascal_eq. replace g2 with (gadd g1 g1) by (apply GC_ext; reflexivity). unfold gsgn, gm1. ring. }
      split; auto. intros Hnt H. apply (zero_of_twice g k C Hr Hnt); [apply R | apply R |].
      rewrite <- E. apply asub_0_eq; auto.
    - right. split; auto. intros A g Hr.
      rewrite (or_st _ _ _ _ _ _ R A g Hr), (or_ts _ _ _ _ _ _ R A g Hr). apply ascal_eq. unfold gsgn. ring.
  Qed.

  Lemma anticommutator_proof :
    (exists k C, anticommutator S T = Ok (k, Some C) /\
       (forall (A : StarAlg) (g : op -> Z -> A), rep ty g ->
          den g S * den g T + den g T * den g S == k · den g C /\
          (~ (@aone A == azero) -> ~ (den g S * den g T == gm1 · (den g T * den g S))))) \/
    (anticommutator S T = Ok (g0, None) /\
       (forall (A : StarAlg) (g : op -> Z -> A), rep ty g -> den g S * den g T == gm1 · (den g T * den g S))).
  Proof.
    destruct (operation_spec ty S T Hty HS HT) as (k & e & C & R).
    pose proof (or_anti _ _ _ _ _ _ R) as Hc. destruct e.
    - right. split; auto. intros A g Hr.
      rewrite (or_st _ _ _ _ _ _ R A g Hr), (or_ts _ _ _ _ _ _ R A g Hr), ascal_ascal. apply ascal_eq. unfold gsgn, gm1. ring.
    - left. exists (gmul k g2), C. split; auto. intros A g Hr.
      assert (E : den g S * den g T + den g T * den g S == gmul k g2 · den g C).
      { rewrite (or_st _ _ _ _ _ _ R A g Hr), (or_ts _ _ _ _ _ _ R A g Hr), <- ascal_add_l.
        apply ascal_eq. replace g2 with (gadd g1 g1) by (apply GC_ext; reflexivity). unfold gsgn. ring. }
      split; auto. intros Hnt H. apply (zero_of_twice g k C Hr Hnt); [apply R | apply R |].
      rewrite <- E, H. rewrite <- (ascal_1 A (den g T * den g S)) at 2. rewrite <- ascal_add_l.
      rewrite <- (ascal_0 A (den g T * den g S)). apply ascal_eq. unfold gm1. ring.
  Qed.

  Lemma dichotomy_proof : exists k C, product S T = Ok (k, Some C) /\
    ((commutator S T = Ok (gmul g2 k, Some C) /\ anticommutator S T = Ok (g0, None)) \/
     (commutator S T = Ok (g0, None) /\ anticommutator S T = Ok (gmul g2 k, Some C))).
  Proof.
    destruct (operation_spec ty S T Hty HS HT) as (k & e & C & R). exists k, C. split; [apply R|].
    replace (gmul g2 k) with (gmul k g2) by ring.
    pose proof (or_comm _ _ _ _ _ _ R) as H1. pose proof (or_anti _ _ _ _ _ _ R) as H2. destruct e.
    - left. split; [exact H1 | exact H2].
    - right. split; [exact H1 | exact H2].
  Qed.

  Lemma wf_proof m :
    operation_opstring m S T = Ok (g0, None) \/
    exists k C, operation_opstring m S T = Ok (k, Some C) /\
      os_new (os_ops C) (os_labels C) ty = Ok C /\
      StronglySorted Z.lt (os_labels C) /\ length (os_ops C) = length (os_labels C) /\
      (forall o, In o (os_ops C) -> is_op_of ty o = true) /\
      (forall l, In l (os_labels C) -> In l (os_labels S) \/ In l (os_labels T)) /\
      (forall (A : StarAlg) (g : op -> Z -> A), rep ty g -> (den g C)^* == den g C).
  Proof.
    destruct (operation_spec ty S T Hty HS HT) as (k & e & C & R).
    pose proof (or_prod _ _ _ _ _ _ R) as H1. pose proof (or_comm _ _ _ _ _ _ R) as H2. pose proof (or_anti _ _ _ _ _ _ R) as H3.
    assert (K : os_new (os_ops C) (os_labels C) ty = Ok C /\
      StronglySorted Z.lt (os_labels C) /\ length (os_ops C) = length (os_labels C) /\
      (forall o, In o (os_ops C) -> is_op_of ty o = true) /\
      (forall l, In l (os_labels C) -> In l (os_labels S) \/ In l (os_labels T)) /\
      (forall (A : StarAlg) (g : op -> Z -> A), rep ty g -> (den g C)^* == den g C)).
    { pose proof (or_ok _ _ _ _ _ _ R) as HC. pose proof (or_can _ _ _ _ _ _ R) as [Hsrt Hp].
      pose proof HC as (Ht & Hl & Hv & Hn & Hpv).
      split; [|split; [|split; [|split; [|split]]]]; auto.
      - destruct (os_new_ok ty (os_ops C) (os_labels C) Hty Hl Hv Hn) as (C' & E & HC' & Eo & El & Ep).
        rewrite E. f_equal. destruct C' as [o' l' t' p'], C as [o l t p]. simpl in *.
        destruct HC' as (Ht' & _ & _ & _ & Hpv'). simpl in *. subst.
        assert (p' = p) as ->; auto.
        destruct Hp as [-> | ->], Ep as [-> | ->]; auto; exfalso; simpl in *; rewrite <- Hpv in Hpv'; discriminate.
      - apply (or_lab _ _ _ _ _ _ R).
      - intros A g Hr. apply (den_star ty); auto. }
    unfold product, commutator, anticommutator in *.
    destruct m.
    - right. exists k, C. split; [exact H1 | exact K].
    - rewrite H2. destruct e; [right; exists (gmul k g2), C; split; [reflexivity | exact K] | left; reflexivity].
    - rewrite H3. destruct e; [left; reflexivity | right; exists (gmul k g2), C; split; [reflexivity | exact K]].
  Qed.
End Ops.

Lemma fock_rep ty : ty <> Fermion -> rep ty fock_gen.
Proof. destruct ty; [intros; exact fock_pauli | intros; exact fock_majorana | congruence]. Qed.

(** A multiple of a canonical string determines the coefficient and the string. *)
Lemma multiple_unique ty {A : StarAlg} (g : op -> Z -> A) a b C D : rep ty g -> ~ (@aone A == azero) ->
  string_ok ty C -> string_ok ty D -> canonical C -> canonical D -> a <> g0 ->
  a · den g C == b · den g D -> a = b /\ C = D.
Proof.
  intros Hr Hnt HC HD [SC PC] [SD PD] Ha H.
  assert (HCD : body C = body D).
  { assert (Dec : {body C = body D} + {body C <> body D}).
    { unfold body. destruct (list_eqb op_eqb (os_ops C) (os_ops D)) eqn:E1.
      - apply (list_eqb_eq op_eqb op_eqb_eq) in E1. destruct (list_eqb Z.eqb (os_labels C) (os_labels D)) eqn:E2.
        + apply (list_eqb_eq Z.eqb Z.eqb_eq) in E2. left. congruence.
        + right. intros E. injection E as _ E. apply (list_eqb_eq Z.eqb Z.eqb_eq) in E. congruence.
      - right. intros E. injection E as E _. apply (list_eqb_eq op_eqb op_eqb_eq) in E. congruence. }
    destruct Dec as [E|E]; auto. exfalso. apply Ha.
    apply (strings_independent ty g Hr [(a, C); (gmul gm1 b, D)] Hnt) with (s := C).
    - intros t [<-|[<-|[]]]; auto.
    - simpl. constructor; [intros [E2|[]]; auto | constructor; [simpl; tauto | constructor]].
    - unfold lin; simpl. rewrite aadd_0_r, H, <- ascal_ascal. apply asub_self.
    - left; auto. }
  assert (E : C = D).
  { unfold body in HCD. destruct HC as (Tc & _ & _ & _ & Pc), HD as (Td & _ & _ & _ & Pd).
    destruct C as [oc lc tc pc], D as [od ld td pd]. simpl in *. injection HCD as -> ->. subst.
    assert (pval pc = pval pd) by congruence.
    destruct PC as [-> | ->], PD as [-> | ->]; auto; exfalso; discriminate. }
  subst D. split; auto.
  assert (Z0 : gsub a b = g0).
  { apply (strings_independent ty g Hr [(gsub a b, C)] Hnt) with (s := C).
    - intros t [<-|[]]; auto.
    - simpl. constructor; [simpl; tauto | constructor].
    - unfold lin; simpl. rewrite aadd_0_r. transitivity (asub (a · den g C) (b · den g C)).
      + unfold asub. rewrite ascal_ascal, <- ascal_add_l. apply ascal_eq. unfold gm1. ring.
      + apply asub_0_eq; auto.
    - left; auto. }
  replace a with (gadd (gsub a b) b) by ring. rewrite Z0. ring.
Qed.

Lemma assoc_proof ty P Q R : ty <> Fermion -> string_ok ty P -> string_ok ty Q -> string_ok ty R ->
  exists k1 k2 k3 k4 PQ QR D, product P Q = Ok (k1, Some PQ) /\ product PQ R = Ok (k2, Some D) /\
    product Q R = Ok (k3, Some QR) /\ product P QR = Ok (k4, Some D) /\ gmul k1 k2 = gmul k3 k4.
Proof.
  intros Hty HP HQ HR.
  destruct (operation_spec ty P Q Hty HP HQ) as (k1 & e1 & PQ & R1).
  destruct (operation_spec ty PQ R Hty (or_ok _ _ _ _ _ _ R1) HR) as (k2 & e2 & D & R2).
  destruct (operation_spec ty Q R Hty HQ HR) as (k3 & e3 & QR & R3).
  destruct (operation_spec ty P QR Hty HP (or_ok _ _ _ _ _ _ R3)) as (k4 & e4 & D' & R4).
  pose proof (fock_rep ty Hty) as Hr.
  assert (E : gmul k1 k2 · den fock_gen D == gmul k3 k4 · den fock_gen D').
  { rewrite <- !ascal_ascal.
    rewrite <- (or_st _ _ _ _ _ _ R2 Fock fock_gen Hr), <- (or_st _ _ _ _ _ _ R4 Fock fock_gen Hr).
    rewrite <- ascal_mul_l, <- ascal_mul_r, <- (or_st _ _ _ _ _ _ R1 Fock fock_gen Hr), <- (or_st _ _ _ _ _ _ R3 Fock fock_gen Hr).
    symmetry. apply amul_assoc. }
  apply (multiple_unique ty) in E; auto.
  - destruct E as [E1 E2]. subst D'. exists k1, k2, k3, k4, PQ, QR, D.
    repeat split; auto; [apply R1 | apply R2 | apply R3 | apply R4].
  - exact fock_nontrivial.
  - apply R2.
  - apply R4.
  - apply R2.
  - apply R4.
  - intros Z0. apply gmul_integral in Z0. destruct Z0 as [Z0|Z0].
    + apply (unit_neq0 k1); auto. apply R1.
    + apply (unit_neq0 k2); auto. apply R2.
Qed.

Lemma mixed_partial_proof m S T : os_type S <> os_type T -> os_type S <> Pauli ->
  exists e, operation_opstring m S T = Err e.
Proof.
  intros Hne HS. unfold operation_opstring. destruct (os_type S) eqn:E; [congruence | | eexists; reflexivity].
  assert (Hq : os_eqb S T = false).
  { destruct (os_eqb S T) eqn:Eq; auto. apply os_eqb_spec in Eq. destruct Eq as (_ & _ & Eq). congruence. }
  destruct (os_type T) eqn:E2; [|congruence|];
    (destruct m; [rewrite Hq; eexists; reflexivity | eexists; reflexivity | eexists; reflexivity]).
Qed.
