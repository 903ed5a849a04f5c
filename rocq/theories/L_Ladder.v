(** Proofs about the ladder operator functions: the matrix of commutators is Hermitian and imaginary. *)
From Coq Require Import String List ZArith Bool Arith Lia Reals QArith Qreals Qcanon Lra Setoid Morphisms Sorted.
From Coquelicot Require Import Complex.
From Verif Require Import GC Exn S_Alg M_OpString M_Tools M_Algebra M_Basis M_OpAlg M_LinAlg M_Core M_Greedy M_Ladder
  S_Den S_Basis S_Built S_OpAlg S_RScal S_CFock S_CScal S_LinAlg S_Core S_Transform S_Modes
  L_Alg L_StrOp L_Indep L_PropStr L_Basis L_Operator L_PropBasis L_OpAlg L_Commutant L_CScal L_CFock L_LinAlg L_Inter L_Herm L_Core L_Commuting L_Invariant L_Cumulative L_Cumul2 L_Explore L_PartIso L_Modes2.
Import ListNotations.
Local Open Scope nat_scope.
Local Open Scope alg_scope.

(** A representation of each type in a nontrivial algebra. *)
Lemma some_rep ty : ty <> Fermion -> rep ty cgen.
Proof. destruct ty; intros H; [apply cfock_pauli | apply cfock_majorana | congruence]. Qed.

(** Two canonical strings that are proportional are equal. *)
Lemma proportional ty z w s t : ty <> Fermion -> string_ok ty s -> canonical s -> string_ok ty t -> canonical t -> z <> g0 ->
  z · den (cgen : op -> Z -> CFock) s == w · den cgen t -> s = t /\ z = w.
Proof.
  intros Hty Hs Cs Ht Ct Hz E. pose proof (some_rep ty Hty) as Hr.
  assert (Hin : lincomb cgen [(z, s); (gopp w, t)] == azero).
  { rewrite !lincomb_cons. unfold lincomb. cbn [map asum fold_right]. rewrite aadd_0_r, E, <- ascal_add_l. replace (gadd w (gopp w)) with g0 by ring. apply ascal_0. }
  assert (St : s = t).
  { destruct (os_key s t) eqn:K; [apply (key_eq ty) in K; auto|]. exfalso. apply Hz.
    apply (strings_independent ty cgen Hr [(z, s); (gopp w, t)] cfock_nontrivial) with (s := s).
    - intros x [<-|[<-|[]]]; cbn [snd]; split; auto; [apply Cs | apply Ct].
    - cbn [map snd]. constructor; [|constructor; [intros []|constructor]]. intros [B|[]]. apply not_true_iff_false in K. apply K. apply (key_eq ty); auto.
      apply (canonical_body ty); auto.
    - exact Hin.
    - left; auto. }
  split; auto. subst t. assert (E2 : lincomb cgen [(gadd z (gopp w), s)] == azero).
  { rewrite <- Hin. rewrite !lincomb_cons. rewrite ascal_add_l, aadd_assoc. reflexivity. }
  assert (Z : gadd z (gopp w) = g0).
  { apply (strings_independent ty cgen Hr [(gadd z (gopp w), s)] cfock_nontrivial) with (s := s).
    - intros x [<-|[]]. cbn [snd]. split; auto. apply Cs.
    - cbn [map]. constructor; [intros [] | constructor].
    - exact E2.
    - left; auto. }
  replace z with (gadd (gadd z (gopp w)) w) by ring. rewrite Z. ring.
Qed.

Lemma unit_nonzero k : gmul k (gconj k) = g1 -> k <> g0.
Proof. intros H ->. replace (gmul g0 (gconj g0)) with g0 in H by ring. discriminate. Qed.

(** Commuting twice with a string. *)
Lemma comm_back ty s c t k : ty <> Fermion -> string_ok ty s -> canonical s -> string_ok ty c -> commutator s c = Ok (k, Some t) ->
  string_ok ty t /\ canonical t /\ commutator t c = Ok (gconj k, Some s) /\ gconj k = gopp k.
Proof.
  intros Hty Hs Cs Hc E. destruct (operation_spec ty s c Hty Hs Hc) as (k0 & e & d & R). rewrite (or_comm _ _ _ _ _ _ R) in E.
  destruct e; [|discriminate]. injection E as <- <-. pose proof (or_ok _ _ _ _ _ _ R) as Od. pose proof (or_can _ _ _ _ _ _ R) as Cd. split; auto. split; auto.
  pose proof (some_rep ty Hty) as Hr. pose proof (or_st _ _ _ _ _ _ R _ cgen Hr) as H1. pose proof (or_ts _ _ _ _ _ _ R _ cgen Hr) as H2. pose proof (or_unit _ _ _ _ _ _ R) as U.
  assert (S2 : (den (cgen : op -> Z -> CFock) s)^* == den cgen s) by (apply (den_star ty); auto).
  assert (D2 : (den (cgen : op -> Z -> CFock) d)^* == den cgen d) by (apply (den_star ty); auto).
  assert (C2 : (den (cgen : op -> Z -> CFock) c)^* == den cgen c) by (apply (den_star ty); auto).
  assert (CC : den (cgen : op -> Z -> CFock) c * den cgen c == aone) by (apply (den_sq ty); auto).
  assert (U' : gmul (gconj k0) k0 = g1) by (rewrite <- U; ring).
  assert (X0 : den (cgen : op -> Z -> CFock) d == gconj k0 · (den cgen s * den cgen c)) by (rewrite H1, ascal_ascal, U', ascal_1; reflexivity).
  assert (X1 : den (cgen : op -> Z -> CFock) d * den cgen c == gconj k0 · den cgen s).
  { rewrite X0, ascal_mul_l, <- amul_assoc, CC, amul_1_r. reflexivity. }
  assert (X2 : den (cgen : op -> Z -> CFock) c * den cgen d == gmul (gsgn true) (gconj k0) · den cgen s).
  { rewrite X0, ascal_mul_r, amul_assoc, H2, ascal_mul_l, ascal_ascal, X1, ascal_ascal. apply ascal_eq. replace (gmul (gconj k0) (gmul (gsgn true) k0)) with (gmul (gsgn true) (gmul (gconj k0) k0)) by ring. rewrite U'. ring. }
  split.
  - destruct (operation_spec ty d c Hty Od Hc) as (k1 & e1 & d1 & R1). pose proof (or_st _ _ _ _ _ _ R1 _ cgen Hr) as Y1. pose proof (or_ts _ _ _ _ _ _ R1 _ cgen Hr) as Y2.
    pose proof (or_unit _ _ _ _ _ _ R1) as U1. rewrite X1 in Y1. rewrite X2 in Y2.
    assert (N : gconj k0 <> g0) by (intros Z0; rewrite Z0 in U'; replace (gmul g0 k0) with g0 in U' by ring; discriminate).
    destruct (proportional ty _ _ _ _ Hty Hs Cs (or_ok _ _ _ _ _ _ R1) (or_can _ _ _ _ _ _ R1) N Y1) as [Es Ek]. subst d1 k1.
    assert (N2 : gmul (gsgn true) (gconj k0) <> g0).
    { intros Z0. apply N. replace (gconj k0) with (gmul (gsgn true) (gmul (gsgn true) (gconj k0))) by (unfold gsgn, gm1; ring). rewrite Z0. ring. }
    destruct (proportional ty _ _ _ _ Hty Hs Cs Hs Cs N2 Y2) as [_ E2]. rewrite (or_comm _ _ _ _ _ _ R1). destruct e1.
    + f_equal. f_equal. rewrite gconj_mul. f_equal.
    + exfalso. apply N. assert (E3 : gmul g2 (gconj k0) = g0).
      { replace (gmul g2 (gconj k0)) with (gadd (gmul (gsgn false) (gconj k0)) (gopp (gmul (gsgn true) (gconj k0)))) by (unfold gsgn, gm1, g2; ring). rewrite E2. ring. }
      replace (gconj k0) with (gmul (gdiv g1 g2) (gmul g2 (gconj k0))) by (field; discriminate). rewrite E3. ring.
  - assert (Y : gconj k0 · den (cgen : op -> Z -> CFock) d == gmul (gsgn true) k0 · den cgen d).
    { rewrite <- H2. rewrite <- D2 at 1. rewrite <- astar_scal, <- H1, astar_mul, C2, S2. reflexivity. }
    assert (N : gconj k0 <> g0) by (intros Z0; rewrite Z0 in U'; replace (gmul g0 k0) with g0 in U' by ring; discriminate).
    destruct (proportional ty _ _ _ _ Hty Od Cd Od Cd N Y) as [_ E]. rewrite gconj_mul, E. replace (gconj g2) with g2 by reflexivity. unfold gsgn, gm1. ring.
Qed.

(* ---------------------------------------------------- coefficients *)

Definition comm_coef (t s : OS) (p : GC * OS) : C :=
  match commutator s (snd p) with Ok (k, Some d) => if os_key d t then to_C (gmul (fst p) k) else RtoC 0 | _ => RtoC 0 end.
(** The coefficient of t in [s, o]. *)
Definition ecoef (o : Operator) (t s : OS) : C := csum (map (comm_coef t s) (op_terms o)).
Definition comm_terms (o : Operator) (s : OS) : list (C * OS) :=
  flat_map (fun p => match commutator s (snd p) with Ok (k, Some d) => [(to_C (gmul (fst p) k), d)] | _ => [] end) (op_terms o).

Lemma tcoef_terms o s t : tcoef (comm_terms o s) t = ecoef o t s.
Proof.
  unfold comm_terms, ecoef. induction (op_terms o) as [|p ts IH]; [reflexivity|]. cbn [flat_map map]. rewrite tcoef_app, IH. change (csum (comm_coef t s p :: map (comm_coef t s) ts)) with (comm_coef t s p + csum (map (comm_coef t s) ts))%C. f_equal.
  unfold comm_coef. destruct (commutator s (snd p)) as [[k [d|]]|]; try reflexivity. rewrite tcoef_cons. cbn [fst snd]. unfold tcoef. cbn [map fold_right]. destruct (os_key d t); ring.
Qed.

Section Hermitian.
  Variables (ty : optype) (o : Operator).
  Hypotheses (Hty : ty <> Fermion) (Ho : forall p, In p (op_terms o) -> string_ok ty (snd p) /\ gconj (fst p) = fst p).
  Lemma comm_coef_herm s t p : In p (op_terms o) -> string_ok ty s -> canonical s -> string_ok ty t -> canonical t ->
    comm_coef t s p = Cconj (comm_coef s t p) /\ Cconj (comm_coef t s p) = Copp (comm_coef t s p).
  Proof.
    intros Hp Hs Cs Ht Ct. destruct (Ho p Hp) as [Oc Rc].
    assert (F : forall s t, string_ok ty s -> canonical s -> string_ok ty t -> canonical t -> forall k d, commutator s (snd p) = Ok (k, Some d) -> os_key d t = true ->
      comm_coef t s p = to_C (gmul (fst p) k) /\ comm_coef s t p = to_C (gmul (fst p) (gconj k)) /\ gconj k = gopp k).
    { clear s t Hs Cs Ht Ct. intros s t Hs Cs Ht Ct k d E K. destruct (comm_back ty s (snd p) d k Hty Hs Cs Oc E) as (Od & Cd & E2 & E3).
      apply (key_eq ty) in K; auto. subst d. unfold comm_coef. rewrite E, E2, !os_key_refl. auto. }
    destruct (commutator s (snd p)) as [[k [d|]]|] eqn:E.
    2,3: assert (Z : comm_coef t s p = RtoC 0) by (unfold comm_coef; rewrite E; reflexivity).
    1: destruct (os_key d t) eqn:K.
    - destruct (F s t Hs Cs Ht Ct k d E K) as (-> & -> & E3). rewrite <- !to_C_conj, !gconj_mul, !Rc, gconj_conj. split; auto. rewrite E3, <- to_C_opp. f_equal. ring.
    - assert (Z : comm_coef t s p = RtoC 0) by (unfold comm_coef; rewrite E, K; reflexivity). rewrite Z. split; [|rewrite Cconj_R; ring].
      destruct (commutator t (snd p)) as [[k' [d'|]]|] eqn:E'; try (unfold comm_coef; rewrite E'; rewrite Cconj_R; reflexivity).
      destruct (os_key d' s) eqn:K'; [|unfold comm_coef; rewrite E', K', Cconj_R; reflexivity].
      destruct (F t s Ht Ct Hs Cs k' d' E' K') as (_ & X & _). destruct (comm_back ty t (snd p) d' k' Hty Ht Ct Oc E') as (Od & Cd & E2 & _).
      apply (key_eq ty) in K'; auto. subst d'. rewrite E in E2. injection E2 as -> ->. rewrite os_key_refl in K. discriminate.
    - rewrite Z. split; [|rewrite Cconj_R; ring].
      destruct (commutator t (snd p)) as [[k' [d'|]]|] eqn:E'; try (unfold comm_coef; rewrite E'; rewrite Cconj_R; reflexivity).
      destruct (os_key d' s) eqn:K'; [|unfold comm_coef; rewrite E', K', Cconj_R; reflexivity].
      destruct (comm_back ty t (snd p) d' k' Hty Ht Ct Oc E') as (Od & Cd & E2 & _). apply (key_eq ty) in K'; auto. subst d'. rewrite E in E2. discriminate.
    - rewrite Z. split; [|rewrite Cconj_R; ring].
      destruct (commutator t (snd p)) as [[k' [d'|]]|] eqn:E'; try (unfold comm_coef; rewrite E'; rewrite Cconj_R; reflexivity).
      destruct (os_key d' s) eqn:K'; [|unfold comm_coef; rewrite E', K', Cconj_R; reflexivity].
      destruct (comm_back ty t (snd p) d' k' Hty Ht Ct Oc E') as (Od & Cd & E2 & _). apply (key_eq ty) in K'; auto. subst d'. rewrite E in E2. discriminate.
  Qed.
  Lemma ecoef_herm s t : string_ok ty s -> canonical s -> string_ok ty t -> canonical t ->
    ecoef o t s = Cconj (ecoef o s t) /\ Cconj (ecoef o t s) = Copp (ecoef o t s).
  Proof.
    intros Hs Cs Ht Ct. unfold ecoef. rewrite !conj_csum. split.
    - apply csum_ext. intros p Hp. apply comm_coef_herm; auto.
    - replace (- csum (map (comm_coef t s) (op_terms o)))%C with (RtoC (-1) * csum (map (comm_coef t s) (op_terms o)))%C by (apply C_eq; cbn; ring). rewrite csum_mul. apply csum_ext. intros p Hp. destruct (comm_coef_herm s t p Hp Hs Cs Ht Ct) as [_ ->]. apply C_eq; cbn; ring.
  Qed.
End Hermitian.

Section Terms.
  Variables (ty : optype) (o : Operator).
  Hypotheses (Hty : ty <> Fermion) (Ho : forall p, In p (op_terms o) -> string_ok ty (snd p)).
  Lemma comm_terms_ok s : string_ok ty s -> forall t, In t (comm_terms o s) -> string_ok ty (snd t) /\ canonical (snd t).
  Proof.
    intros Hs t Hin. unfold comm_terms in Hin. apply in_flat_map in Hin. destruct Hin as (p & Hp & H). pose proof (Ho p Hp) as Oc.
    destruct (operation_spec ty s (snd p) Hty Hs Oc) as (k0 & e & d & R). rewrite (or_comm _ _ _ _ _ _ R) in H. destruct e; [|destruct H]. destruct H as [<-|[]]. split; apply R.
  Qed.
  Lemma comm_terms_meaning {A : StarAlg} (S : RScal A) (g : op -> Z -> A) s : rep ty g -> string_ok ty s ->
    clincomb S g (comm_terms o s) == exact MCommutator (den g s) (lincomb g (op_terms o)).
  Proof.
    intros Hr Hs. unfold comm_terms. revert Ho. induction (op_terms o) as [|[x c] ts IH]; intros H.
    - unfold clincomb, lincomb, exact, asub. cbn. rewrite amul_0_l, amul_0_r, ascal_zero, aadd_0_l. reflexivity.
    - cbn [flat_map]. rewrite (clin_app S g), IH by (intros; apply H; right; auto). rewrite lincomb_cons. pose proof (H (x, c) (or_introl eq_refl)) as Oc. cbn [fst snd] in *.
      destruct (operation_spec ty s c Hty Hs Oc) as (k0 & e & d & R). rewrite (or_comm _ _ _ _ _ _ R). unfold exact, asub.
      assert (E : clincomb S g match (if e then Ok (gmul k0 g2, Some d) else Ok (g0, None)) with Ok (k, Some d) => [(to_C (gmul x k), d)] | _ => [] end == x · (den g s * den g c) + gm1 · (x · (den g c * den g s))).
      { rewrite (or_st _ _ _ _ _ _ R A g Hr), (or_ts _ _ _ _ _ _ R A g Hr), !ascal_ascal, <- ascal_add_l. destruct e.
        - unfold clincomb. cbn [map asum fold_right fst snd]. rewrite aadd_0_r, to_C_emb, cs_emb. apply ascal_eq. unfold gsgn, gm1, g2. ring.
        - unfold clincomb. cbn [map asum fold_right]. symmetry. rewrite <- (ascal_0 A (den g d)). apply ascal_eq. unfold gsgn, gm1. ring. }
      rewrite E, amul_add_l, amul_add_r, ascal_add_r, ascal_mul_l, ascal_mul_r. rewrite <- !aadd_assoc. apply aadd_proper; [reflexivity|]. rewrite !aadd_assoc. apply aadd_proper; [|reflexivity]. apply aadd_comm.
  Qed.
End Terms.
