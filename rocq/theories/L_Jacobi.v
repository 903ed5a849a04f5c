(** Antisymmetry and Jacobi identity for commutators of Operators. *)
From Coq Require Import String List ZArith Bool Arith Lia Sorted QArith Qcanon.
From Verif Require Import GC Exn S_Alg S_Den S_Fock L_Fock S_Basis S_Built S_OpAlg M_OpString M_Algebra M_Basis M_OpAlg
  L_Alg L_StrAlg L_StrOp L_Indep L_PropStr L_Basis L_Operator L_Heap L_PropBasis L_OpAlg L_Sum L_Struct L_Commutant.
Import ListNotations.
Local Open Scope nat_scope.
Local Open Scope alg_scope.

(* -------------------------------------------------------- Jacobi in an algebra *)

Section Lc.
  Context {A : StarAlg}.
  Definition lc (cs : list GC) (ps : list A) : A := asum (map (fun p : GC * A => fst p · snd p) (combine cs ps)).
  Definition vadd2 (cs ds : list GC) : list GC := map (fun p : GC * GC => gadd (fst p) (snd p)) (combine cs ds).
  Lemma lc_add cs : forall ds ps, length cs = length ds -> lc cs ps + lc ds ps == lc (vadd2 cs ds) ps.
  Proof.
    induction cs as [|c cs IH]; intros [|d ds] [|p ps] H; simpl in H; try discriminate; unfold lc; simpl; try apply aadd_0_l.
    fold (lc cs ps). fold (lc ds ps). change (asum _) with (lc (vadd2 cs ds) ps).
    rewrite aadd_swap, <- ascal_add_l, IH by lia. reflexivity.
  Qed.
  Lemma lc_scale z cs : forall ps, z · lc cs ps == lc (map (gmul z) cs) ps.
  Proof.
    induction cs as [|c cs IH]; intros [|p ps]; unfold lc; simpl; try apply ascal_zero.
    rewrite ascal_add_r, ascal_ascal. apply aadd_proper; [reflexivity|]. apply IH.
  Qed.
  Lemma lc_zero ps : forall cs, (forall c, In c cs -> c = g0) -> lc cs ps == azero.
  Proof.
    induction ps as [|p ps IH]; intros [|c cs] H; unfold lc; simpl; try reflexivity.
    rewrite (H c), ascal_0, aadd_0_l by (simpl; auto). apply IH. intros; apply H; simpl; auto.
  Qed.

  Lemma jacobi_alg (x y z : A) :
    exact MCommutator x (exact MCommutator y z) + exact MCommutator y (exact MCommutator z x) +
    exact MCommutator z (exact MCommutator x y) == azero.
  Proof.
    set (ps := [x*(y*z); x*(z*y); y*(z*x); y*(x*z); z*(x*y); z*(y*x)]).
    assert (P : forall a b c d e f (w : A), (lc [a;b;c;d;e;f] ps == w) -> w == lc [a;b;c;d;e;f] ps) by (intros; symmetry; auto).
    assert (X : forall n w, nth_error ps n = Some w -> w == lc (map (fun i => if Nat.eqb i n then g1 else g0) (seq 0 6)) ps).
    { intros n w H. unfold ps in H. do 6 (destruct n as [|n]; [simpl in H; injection H as <-; unfold ps, lc; simpl;
        rewrite ?ascal_0, ?ascal_1, ?aadd_0_l, ?aadd_0_r; reflexivity|]). destruct n; discriminate. }
    pose proof (X 0%nat _ eq_refl) as X0. pose proof (X 1%nat _ eq_refl) as X1. pose proof (X 2%nat _ eq_refl) as X2.
    pose proof (X 3%nat _ eq_refl) as X3. pose proof (X 4%nat _ eq_refl) as X4. pose proof (X 5%nat _ eq_refl) as X5.
    clear X P. unfold exact, asub.
    rewrite !amul_add_l, !amul_add_r, !ascal_mul_l, !ascal_mul_r, <- !amul_assoc.
    rewrite X0, X1, X2, X3, X4, X5. rewrite ?lc_scale. rewrite !lc_add by reflexivity. rewrite ?lc_scale. rewrite !lc_add by reflexivity.
    apply lc_zero. intros c. simpl. unfold gm1.
    intros [<-|[<-|[<-|[<-|[<-|[<-|[]]]]]]]; ring.
  Qed.

  Lemma exact_anti (x y : A) : exact MCommutator x y + exact MCommutator y x == azero.
  Proof.
    unfold exact. rewrite <- (asub_self (x * y + y * x)). unfold asub. rewrite ascal_add_r.
    rewrite aadd_swap. apply aadd_proper; [reflexivity|]. apply aadd_comm.
  Qed.
End Lc.

(* -------------------------------------------------------- antisymmetry *)

Lemma norm2_mul x y : norm2 (gmul x y) = (norm2 x * norm2 y)%Qc.
Proof. unfold norm2; simpl. ring. Qed.

(** The two orders of a product have the same string. *)
Lemma op_result_swap ty S T k e C k' e' C' : ty <> Fermion -> op_result ty S T k e C -> op_result ty T S k' e' C' ->
  k' = gmul (gsgn e) k /\ e' = e /\ C' = C.
Proof.
  intros Hty R R'. pose proof (fock_rep ty Hty) as Hf.
  assert (E : gmul (gsgn e) k = k' /\ C = C').
  { apply (multiple_unique ty fock_gen (gmul (gsgn e) k) k' C C' Hf fock_nontrivial); try apply R; try apply R'.
    - intros H. apply gmul_integral in H. destruct H as [H|H]; [eapply gsgn_neq0; eauto|].
      eapply unit_neq0; [apply R | auto].
    - rewrite <- (or_ts _ _ _ _ _ _ R _ _ Hf), <- (or_st _ _ _ _ _ _ R' _ _ Hf). reflexivity. }
  destruct E as [<- <-]. split; auto. split; auto.
  assert (H : k = gmul (gsgn e') (gmul (gsgn e) k)).
  { pose proof (or_ts _ _ _ _ _ _ R' _ _ Hf) as H. rewrite (or_st _ _ _ _ _ _ R _ _ Hf) in H.
    apply (multiple_unique ty fock_gen k _ C C Hf fock_nontrivial) in H; try apply R; [tauto|].
    eapply unit_neq0, R. }
  assert (Hk : k <> g0) by (eapply unit_neq0, R).
  assert (H2 : gmul gm1 k = k -> False).
  { intros H2. apply Hk. assert (H0 : gmul g2 k = g0).
    { replace (gmul g2 k) with (gsub k (gmul gm1 k)); [rewrite H2; ring|].
      replace g2 with (gadd g1 g1) by (apply GC_ext; reflexivity). unfold gm1. ring. }
    apply gmul_integral in H0. destruct H0 as [H0|]; auto. exfalso; apply g2_neq_g0; auto. }
  destruct e, e'; auto; exfalso; apply H2; symmetry; rewrite H at 1; unfold gsgn; ring.
Qed.

Lemma kept_anti ty {A : StarAlg} (g : op -> Z -> A) a S b T : rep ty g -> ty <> Fermion -> string_ok ty S -> string_ok ty T ->
  kept g MCommutator a S b T + kept g MCommutator b T a S == azero.
Proof.
  intros Hr Hty HS HT.
  destruct (operation_spec ty S T Hty HS HT) as (k & e & C & R).
  destruct (operation_spec ty T S Hty HT HS) as (k' & e' & C' & R').
  destruct (op_result_swap _ _ _ _ _ _ _ _ _ Hty R R') as (-> & -> & ->).
  pose proof (or_comm _ _ _ _ _ _ R) as H1. pose proof (or_comm _ _ _ _ _ _ R') as H2.
  unfold kept. unfold commutator in H1, H2. rewrite H1, H2. destruct e; [|apply aadd_0_l].
  replace (gmul (gmul b a) (gmul (gmul (gsgn true) k) g2)) with (gmul gm1 (gmul (gmul a b) (gmul k g2))) by (unfold gsgn; ring).
  assert (E : abs_ltb (gmul gm1 (gmul (gmul a b) (gmul k g2))) tol16 = abs_ltb (gmul (gmul a b) (gmul k g2)) tol16).
  { unfold abs_ltb. rewrite (norm2_mul gm1). replace (norm2 gm1) with 1%Qc by (apply Qc_is_canon; reflexivity). rewrite Qcmult_1_l. auto. }
  rewrite E. clear E. destruct (abs_ltb _ _); [apply aadd_0_l|]. generalize (gmul (gmul a b) (gmul k g2)). intros z. rewrite <- (ascal_ascal _ gm1). apply asub_self.
Qed.

Lemma canonical_op_std o : canonical_op o -> op_std o.
Proof. intros H s Hs. apply canonical_std; auto. Qed.

(** Sum of two Operators with canonical strings. *)
Lemma add_canonical ty o p : good_op ty o -> good_op ty p -> canonical_op o -> canonical_op p ->
  exists r, op_add o p = Ok r /\ good_op ty r /\ canonical_op r /\
    forall (A : StarAlg) (g : op -> Z -> A), lincomb g (op_terms r) == lincomb g (op_terms o) + lincomb g (op_terms p).
Proof.
  intros Ho Hp Co Cp. pose proof (good_op_ok _ _ Ho) as Oo. pose proof (good_op_ok _ _ Hp) as Op.
  assert (E : o_type o = o_type p) by (destruct Ho as (_ & -> & _), Hp as (_ & -> & _); auto).
  destruct (op_iadd_ok o p Oo Op E) as (r & Er & Hr & Tr & Ar & _).
  exists r. rewrite op_add_iadd by auto. split; auto. split; [|split].
  - split; [apply made_ok; auto|]. split; [rewrite Tr; apply Ho|].
    intros s Hs. destruct (append_new_in _ _ _ Ar s Hs); [apply Ho | apply Hp]; auto.
  - intros s Hs. destruct (append_new_in _ _ _ Ar s Hs); auto.
  - intros A g. apply op_add_lincomb; auto; apply canonical_op_std; auto.
Qed.

(** An Operator with canonical strings denoting zero has zero coefficients. *)
Lemma zero_coeffs ty o : ty <> Fermion -> good_op ty o -> canonical_op o ->
  lincomb fock_gen (op_terms o) == azero -> forall c, In c (o_coeffs o) -> c = g0.
Proof.
  intros Hty Ho Co H. pose proof (good_op_ok _ _ Ho) as (Hb & Hl & _).
  apply (canonical_zero ty fock_gen (o_basis o) (o_coeffs o) (fock_rep ty Hty) fock_nontrivial) in H.
  - intros c Hc. rewrite H in Hc. apply repeat_spec in Hc. auto.
  - split; [apply built_iff; auto|]. intros s Hs. split; [apply Ho; auto | auto].
  - auto.
Qed.

Lemma antisymmetry_proof ty A B : ty <> Fermion -> good_op ty A -> good_op ty B ->
  exists X Y R, commutator_op A B = Ok X /\ commutator_op B A = Ok Y /\ op_add X Y = Ok R /\
    forall c, In c (o_coeffs R) -> c = g0.
Proof.
  intros Hty HA HB.
  destruct (operation_operator_proof ty MCommutator A B Hty HA HB) as (X & dX & EX & GX & CX & _ & _ & DX).
  destruct (operation_operator_proof ty MCommutator B A Hty HB HA) as (Y & dY & EY & GY & CY & _ & _ & DY).
  destruct (add_canonical ty X Y GX GY CX CY) as (R & ER & GR & CR & DR).
  exists X, Y, R. split; auto. split; auto. split; auto. apply (zero_coeffs ty); auto.
  pose proof (fock_rep ty Hty) as Hf.
  rewrite DR, (proj2 (DX Fock fock_gen Hf)), (proj2 (DY Fock fock_gen Hf)).
  rewrite (asum_swap (fun t u => kept fock_gen MCommutator (fst t) (snd t) (fst u) (snd u)) (op_terms B) (op_terms A)).
  rewrite <- asum_map_add. apply asum_zero. intros [a S] Ht.
  rewrite <- asum_map_add. apply asum_zero. intros [b T] Hu. cbn [fst snd].
  apply (kept_anti ty); auto.
  - apply HA. eapply in_combine_r; eauto.
  - apply HB. eapply in_combine_r; eauto.
Qed.

(* -------------------------------------------------------- exactness *)

Lemma unit4_norm2 ty m S T k C : mode_result ty m S T k (Some C) -> (1 <= norm2 k)%Qc.
Proof.
  intros R. destruct (mr_some _ _ _ _ _ _ R C eq_refl) as ((u & Hu & _ & [->| ->]) & _).
  - rewrite (unit_norm2 _ Hu). apply Qcle_refl.
  - rewrite norm2_mul, (unit_norm2 _ Hu). vm_compute. discriminate.
Qed.

Lemma lincomb_zero_coeffs {A : StarAlg} (g : op -> Z -> A) ts : (forall t, In t ts -> fst t = g0) -> lincomb g ts == azero.
Proof. intros H. unfold lincomb. apply asum_zero. intros t Ht. rewrite (H t Ht). apply ascal_0. Qed.

Lemma operation_exact ty m A B : ty <> Fermion -> good_op ty A -> good_op ty B -> no_small A B ->
  exists C, operation_operator m A B = Ok C /\ good_op ty C /\ canonical_op C /\
    forall (Al : StarAlg) (g : op -> Z -> Al), rep ty g ->
      lincomb g (op_terms C) == exact m (lincomb g (op_terms A)) (lincomb g (op_terms B)).
Proof.
  intros Hty HA HB HN.
  destruct (operation_operator_proof ty m A B Hty HA HB) as (C & dr & EC & GC & CC & _ & Hdr & DC).
  exists C. split; auto. split; auto. split; auto. intros Al g Hr. rewrite <- (proj1 (DC Al g Hr)).
  rewrite (lincomb_zero_coeffs g dr), aadd_0_r; [reflexivity|].
  intros [x s] Hx. destruct (Hdr _ Hx) as (a & S & b & T & k & H1 & H2 & Ex & Lx & Hrun). cbn [fst snd] in *.
  destruct (HN a b) as [H0|H0]; [eapply in_combine_l; eauto | eapply in_combine_l; eauto | |].
  - rewrite Ex, H0. ring.
  - exfalso. destruct (mode_spec ty m S T Hty) as (k' & oc & R); [apply HA; eapply in_combine_r; eauto | apply HB; eapply in_combine_r; eauto|].
    pose proof (mr_run _ _ _ _ _ _ R) as Hrun'. rewrite Hrun in Hrun'. injection Hrun' as <- <-.
    pose proof (unit4_norm2 _ _ _ _ _ _ R) as Hk. unfold abs_ltb in *. apply qc_ltb_lt in Lx.
    rewrite Ex, norm2_mul in Lx.
    assert (tol16 * tol16 <= norm2 (gmul a b))%Qc.
    { destruct (Qclt_le_dec (norm2 (gmul a b)) (tol16 * tol16)) as [H|H]; auto. apply qc_ltb_lt in H. congruence. }
    apply (Qclt_not_le _ _ Lx). apply Qcle_trans with (norm2 (gmul a b)); auto.
    rewrite <- (Qcmult_1_r (norm2 (gmul a b))) at 1. rewrite (Qcmult_comm _ 1), (Qcmult_comm _ (norm2 k)).
    apply Qcmult_le_compat_r; auto. apply norm2_nonneg.
Qed.

(* -------------------------------------------------------- Gaussian integers *)

Lemma q2_add x y : Q2Qc (x + y) = (Q2Qc x + Q2Qc y)%Qc.
Proof. apply Qc_is_canon. unfold Qcplus, Qcmult, Qcopp, Q2Qc; cbn [this]. rewrite !Qred_correct. reflexivity. Qed.
Lemma q2_mul x y : Q2Qc (x * y) = (Q2Qc x * Q2Qc y)%Qc.
Proof. apply Qc_is_canon. unfold Qcplus, Qcmult, Qcopp, Q2Qc; cbn [this]. rewrite !Qred_correct. reflexivity. Qed.
Lemma q2_opp x : Q2Qc (- x) = (- Q2Qc x)%Qc.
Proof. apply Qc_is_canon. unfold Qcplus, Qcmult, Qcopp, Q2Qc; cbn [this]. rewrite !Qred_correct. reflexivity. Qed.
Lemma gz_add a b : gz (a + b) = gadd (gz a) (gz b).
Proof. unfold gz, gq. apply GC_ext; simpl; [rewrite inject_Z_plus, q2_add; auto | ring]. Qed.
Lemma gz_mul a b : gz (a * b) = gmul (gz a) (gz b).
Proof. unfold gz, gq. apply GC_ext; simpl; [rewrite inject_Z_mult, q2_mul; ring | ring]. Qed.
Lemma gz_opp a : gz (- a) = gopp (gz a).
Proof. unfold gz, gq. apply GC_ext; simpl; [rewrite inject_Z_opp, q2_opp; auto | ring]. Qed.

Lemma gint_add x y : gauss_int x -> gauss_int y -> gauss_int (gadd x y).
Proof. intros (a & b & ->) (c & d & ->). exists (a + c)%Z, (b + d)%Z. rewrite !gz_add. ring. Qed.
Lemma gint_mul x y : gauss_int x -> gauss_int y -> gauss_int (gmul x y).
Proof.
  intros (a & b & ->) (c & d & ->). exists (a * c - b * d)%Z, (a * d + b * c)%Z.
  unfold Z.sub. rewrite !gz_add, gz_opp, !gz_mul.
  transitivity (gadd (gadd (gmul (gz a) (gz c)) (gmul (gmul gi gi) (gmul (gz b) (gz d)))) (gmul gi (gadd (gmul (gz a) (gz d)) (gmul (gz b) (gz c))))); [ring|].
  rewrite gi_sq. unfold gm1. ring.
Qed.
Lemma gint_of a b x : x = gadd (gz a) (gmul gi (gz b)) -> gauss_int x.
Proof. intros ->. exists a, b; auto. Qed.
Lemma gint_0 : gauss_int g0. Proof. apply (gint_of 0 0). apply GC_ext; reflexivity. Qed.
Lemma gint_unit u : In u [g1; gm1; gi; gopp gi] -> gauss_int u.
Proof.
  intros [<-|[<-|[<-|[<-|[]]]]].
  - apply (gint_of 1 0). apply GC_ext; reflexivity.
  - apply (gint_of (-1) 0). apply GC_ext; reflexivity.
  - apply (gint_of 0 1). apply GC_ext; reflexivity.
  - apply (gint_of 0 (-1)). apply GC_ext; reflexivity.
Qed.
Lemma gint_2 : gauss_int g2. Proof. apply (gint_of 2 0). apply GC_ext; reflexivity. Qed.

Lemma gint_big x : gauss_int x -> x = g0 \/ (1 <= norm2 x)%Qc.
Proof.
  intros (a & b & ->).
  assert (E : norm2 (gadd (gz a) (gmul gi (gz b))) = Q2Qc (inject_Z (a * a + b * b))).
  { rewrite inject_Z_plus, !inject_Z_mult, q2_add, !q2_mul. unfold norm2, gz, gq, gi; simpl. ring. }
  assert (Hpos : (0 < a * a + b * b)%Z -> (1 <= Q2Qc (inject_Z (a * a + b * b)))%Qc).
  { intros H. change (1 <= Qred (inject_Z (a * a + b * b)))%Q. rewrite Qred_correct. unfold Qle, inject_Z. simpl. lia. }
  destruct (Z.eq_dec a 0) as [->|Ha]; [destruct (Z.eq_dec b 0) as [->|Hb]|].
  - left. apply GC_ext; reflexivity.
  - right. rewrite E. apply Hpos. nia.
  - right. rewrite E. apply Hpos. nia.
Qed.
Lemma gint_not_small x : gauss_int x -> x = g0 \/ abs_ltb x tol16 = false.
Proof.
  intros H. destruct (gint_big x H) as [|Hx]; auto. right. unfold abs_ltb. apply qc_ltb_false.
  apply Qcle_trans with 1%Qc; auto. apply tol_sq, tol16_ok.
Qed.

Lemma oo_vals (P : GC -> Prop) m a S : (forall x y, P x -> P y -> P (gadd x y)) -> forall us d d',
  (forall t k oc, In t us -> operation_opstring m S (snd t) = Ok (k, oc) -> P (gmul (gmul a (fst t)) k)) ->
  rfold (oo_step m a S) us d = Ok d' -> (forall v, In v (map snd d) -> P v) -> forall v, In v (map snd d') -> P v.
Proof.
  intros Hadd. induction us as [|[b T] us IH]; intros d d' Hus; cbn [rfold].
  - intros H; injection H as <-; auto.
  - intros H Hd. apply rbind_ok in H. destruct H as (d1 & H1 & H2).
    apply (IH d1 d'); auto; [intros; eapply Hus; eauto; simpl; auto|].
    unfold oo_step in H1. cbn [snd fst] in H1. apply rbind_ok in H1. destruct H1 as ([k oc] & Hrun & H1).
    pose proof (Hus (b, T) k oc (or_introl eq_refl) Hrun) as HP. cbn [fst] in HP.
    destruct (abs_ltb _ _); [injection H1 as <-; auto|]. destruct oc as [C|]; [|discriminate].
    assert (Hset : forall w, P w -> forall v, In v (map snd (dset os_key d C w)) -> P v).
    { intros w Hw. clear - Hw Hd. induction d as [|[s c] d IHd]; simpl in *.
      - intros v [<-|[]]; auto.
      - destruct (os_key s C); simpl; intros v [<-|Hv]; auto. }
    destruct (dget os_key d C) as [v0|] eqn:Eg; injection H1 as <-; apply Hset; auto.
    apply Hadd; auto. apply Hd. apply dget_in in Eg. destruct Eg as (k' & Hin & _).
    apply in_map_iff. exists (k', v0); auto.
Qed.

Lemma operation_int ty m A B : ty <> Fermion -> good_op ty A -> good_op ty B -> int_coeffs A -> int_coeffs B ->
  exists C, operation_operator m A B = Ok C /\ good_op ty C /\ canonical_op C /\ int_coeffs C /\
    forall (Al : StarAlg) (g : op -> Z -> Al), rep ty g ->
      lincomb g (op_terms C) == exact m (lincomb g (op_terms A)) (lincomb g (op_terms B)).
Proof.
  intros Hty HA HB IA IB.
  destruct (operation_exact ty m A B Hty HA HB) as (C & EC & GC & CC & DC).
  { intros a b Ha Hb. apply gint_not_small, gint_mul; auto. }
  exists C. split; auto. split; auto. split; auto. split; auto.
  unfold operation_operator in EC. destruct (optype_eqb _ _); [|discriminate].
  apply rbind_ok in EC. destruct EC as (d & Hd & EC).
  assert (Ec : o_coeffs C = map snd d).
  { unfold op_new in EC. apply rbind_ok in EC. destruct EC as (b & _ & EC). unfold op_of_basis in EC.
    destruct (b_strings b); injection EC as <-; auto. }
  intros c Hc. rewrite Ec in Hc.
  assert (Hall : forall ts d0 d1, (forall t, In t ts -> In t (op_terms A)) ->
     rfold (fun d ta => rfold (oo_step m (fst ta) (snd ta)) (op_terms B) d) ts d0 = Ok d1 ->
     (forall v, In v (map snd d0) -> gauss_int v) -> forall v, In v (map snd d1) -> gauss_int v).
  { clear - IA IB HA HB Hty. induction ts as [|[a S] ts IH]; intros d0 d1 Hin H H0; cbn [rfold] in H.
    - injection H as <-; auto.
    - apply rbind_ok in H. destruct H as (d2 & H1 & H2). apply (IH d2 d1); auto; [intros; apply Hin; simpl; auto|].
      apply (oo_vals gauss_int m a S gint_add (op_terms B) d0 d2); auto.
      intros [b T] k oc Ht Hrun. cbn [fst snd] in *. apply gint_mul.
      + apply gint_mul; [apply IA | apply IB]; eapply in_combine_l; eauto. apply Hin; simpl; auto.
      + destruct (mode_spec ty m S T Hty) as (k' & oc' & R).
        * apply HA. eapply in_combine_r. apply Hin; simpl; auto.
        * apply HB. eapply in_combine_r; eauto.
        * pose proof (mr_run _ _ _ _ _ _ R) as Hrun'. rewrite Hrun in Hrun'. injection Hrun' as -> ->.
          destruct oc' as [c|]; [|rewrite (mr_none _ _ _ _ _ _ R eq_refl); apply gint_0].
          destruct (mr_some _ _ _ _ _ _ R c eq_refl) as ((u & _ & Hu & [->| ->]) & _); [apply gint_unit; auto|].
          apply gint_mul; [apply gint_unit; auto | apply gint_2]. }
  apply (Hall (op_terms A) [] d); auto. intros v [].
Qed.

Lemma jacobi_proof ty A B C : ty <> Fermion -> good_op ty A -> good_op ty B -> good_op ty C ->
  int_coeffs A -> int_coeffs B -> int_coeffs C ->
  exists BC CA AB X Y Z XY R,
    commutator_op B C = Ok BC /\ commutator_op C A = Ok CA /\ commutator_op A B = Ok AB /\
    commutator_op A BC = Ok X /\ commutator_op B CA = Ok Y /\ commutator_op C AB = Ok Z /\
    op_add X Y = Ok XY /\ op_add XY Z = Ok R /\ forall c, In c (o_coeffs R) -> c = g0.
Proof.
  intros Hty HA HB HC IA IB IC.
  destruct (operation_int ty MCommutator B C Hty HB HC IB IC) as (BC & E1 & G1 & _ & I1 & D1).
  destruct (operation_int ty MCommutator C A Hty HC HA IC IA) as (CA & E2 & G2 & _ & I2 & D2).
  destruct (operation_int ty MCommutator A B Hty HA HB IA IB) as (AB & E3 & G3 & _ & I3 & D3).
  destruct (operation_int ty MCommutator A BC Hty HA G1 IA I1) as (X & E4 & G4 & C4 & _ & D4).
  destruct (operation_int ty MCommutator B CA Hty HB G2 IB I2) as (Y & E5 & G5 & C5 & _ & D5).
  destruct (operation_int ty MCommutator C AB Hty HC G3 IC I3) as (Z & E6 & G6 & C6 & _ & D6).
  destruct (add_canonical ty X Y G4 G5 C4 C5) as (XY & E7 & G7 & C7 & D7).
  destruct (add_canonical ty XY Z G7 G6 C7 C6) as (R & E8 & G8 & C8 & D8).
  exists BC, CA, AB, X, Y, Z, XY, R. do 8 (split; auto). apply (zero_coeffs ty); auto.
  pose proof (fock_rep ty Hty) as Hf.
  rewrite D8, D7, (D4 _ _ Hf), (D5 _ _ Hf), (D6 _ _ Hf), (D1 _ _ Hf), (D2 _ _ Hf), (D3 _ _ Hf). apply jacobi_alg.
Qed.
