(** C76: energies and modes of [diagonalize_quadratic]. *)
From Coq Require Import List ZArith Bool Arith Reals QArith Qreals Qcanon Setoid Morphisms Lia Lra.
From Coquelicot Require Import Complex.
From Verif Require Import GC Exn S_Alg S_Den S_Basis S_Conv S_Quad S_Schur M_OpString M_Basis M_Conversion M_Quad M_Schur
  L_Alg L_Operator L_ConvAlg L_Conversion L_Quad L_Quad2 L_Schur L_Schur2 L_Schur3 S_CFock L_CFock.
Import ListNotations.
Local Open Scope alg_scope.

(** A Majorana Operator with real coefficients equals Σ_k e_k f_k^* f_k + s, where the f_k, read off from
    the columns of the returned matrix, are fermions, provided that scipy returns a Schur form whose 2x2
    blocks start at even positions.  The energies are non-negative up to the threshold. *)
Theorem C76_majorana : forall schur o n thr, (0 <= thr)%R -> op_ok o -> o_type o = Majorana ->
  (forall t, In t (op_terms o) -> string_ok Majorana (snd t) /\ quadratic_majorana n (snd t) /\ real (fst t)) ->
  (forall M, quadratic_matrix o n = Ok M ->
     blocks_aligned n (fst (schur M)) /\ orthonormal (2 * n) (snd (schur M)) /\ decomposes (2 * n) (zentry M) (fst (schur M)) (snd (schur M))) ->
  exists s e E W, diagonalize_quadratic schur o n None thr = Ok (s, e, E, W) /\ length e = n /\ s = (- (1 / 2) * fold_right Rplus 0 e)%R /\
    (forall k, (k < n)%nat -> (- thr <= nth k e 0)%R) /\ orthonormal (2 * n) W /\
    forall (A : StarAlg) (S : RScal A) (g : op -> Z -> A), rep Majorana g -> diagonalizes S n g W e s (lincomb g (op_terms o)).
Proof.
  intros schur o n thr Ht Ho Ty H Hs.
  destruct (majorana_quadratic o n Ho Ty) as (M & EM & Hd & Ha & Hr & Hf).
  { intros t Hin. destruct (H t Hin) as (H1 & H2 & _). auto. }
  destruct (Hs M EM) as (HB & HO & HD).
  destruct (diagonalize_from_matrix schur o n thr M Ht EM Hr HB HO HD) as (s & e & E & W & X1 & X2 & X3 & X4 & X5 & X6).
  exists s, e, E, W. split; auto. split; auto. split; auto. split; [intros k Hk; apply X4; auto|]. split; auto.
  intros A S g R. destruct (X6 A S g R) as [F1 F2]. split; auto. rewrite Hf; auto. intros t Hin. apply H; auto.
Qed.
Print Assumptions C76_majorana.

(** For a Fermion Operator the same holds up to a constant, which is lost. *)
Theorem C76_fermion : forall schur o n thr, (0 <= thr)%R -> op_ok o -> op_std o -> o_type o = Fermion ->
  (forall t, In t (op_terms o) -> real (fst t) /\ quadratic_fermion n (snd t)) ->
  (forall M, quadratic_matrix o n = Ok M ->
     blocks_aligned n (fst (schur M)) /\ orthonormal (2 * n) (snd (schur M)) /\ decomposes (2 * n) (zentry M) (fst (schur M)) (snd (schur M))) ->
  exists s e E W const, diagonalize_quadratic schur o n None thr = Ok (s, e, E, W) /\ length e = n /\ s = (- (1 / 2) * fold_right Rplus 0 e)%R /\
    (forall k, (k < n)%nat -> (- thr <= nth k e 0)%R) /\ orthonormal (2 * n) W /\
    forall (A : StarAlg) (S : RScal A) (c : Z -> A), CAR A c ->
      exists H, diagonalizes S n (gmaj c) W e s H /\ means c (op_terms o) == H + const · aone.
Proof.
  intros schur o n thr Ht Ho Hstd Ty H Hs.
  destruct (fermion_quadratic o n Ho Hstd Ty H) as (M & k & EM & Hd & Ha & Hr & Hf).
  destruct (Hs M EM) as (HB & HO & HD).
  destruct (diagonalize_from_matrix schur o n thr M Ht EM Hr HB HO HD) as (s & e & E & W & X1 & X2 & X3 & X4 & X5 & X6).
  exists s, e, E, W, k. split; auto. split; auto. split; auto. split; [intros j Hj; apply X4; auto|]. split; auto.
  intros A S c Hc. eexists. split; [apply X6|apply Hf; auto]. apply gmaj_rep; auto.
Qed.
Print Assumptions C76_fermion.

(** Concrete real arrays. *)
Definition tab (l : list (list R)) : rarr := fun i j => nth (Z.to_nat j) (nth (Z.to_nat i) l []) 0%R.
Local Ltac each H := apply below_in in H; cbn [Z.of_nat Pos.of_succ_nat Pos.succ Nat.mul Nat.add] in H;
  match type of H with (0 <= ?p < _)%Z => let E := fresh in
    assert (E : p = 0%Z \/ p = 1%Z \/ p = 2%Z \/ p = 3%Z) by lia;
    destruct E as [E|[E|[E|E] ] ]; subst p; try (exfalso; lia) end.
Local Ltac entries :=
  repeat match goal with |- context [Q2R (this (re ?x))] => let q := eval vm_compute in (this (re x)) in change (this (re x)) with q end;
  unfold Q2R; cbv -[Rplus Rmult Ropp Rinv IZR]; lra.
Local Ltac decide_signs := repeat match goal with
  | |- context [Rlt_dec ?x ?y] => destruct (Rlt_dec x y) as [?F|?F]; try (exfalso; lazymatch goal with F : _ |- _ => cbv -[Rplus Rmult Ropp Rinv IZR Rlt not] in F; lra end) end.

(** The constant: for c^*_0 c_0 the returned shift is -1/2 although the ground state energy is 0. *)
Theorem C76_fermion_shift_refuted : exists o schur M e E W,
  op_new [g1] [mkOS [OCDag; OC] [0%Z; 0%Z] Fermion p_one] None = Ok o /\
  quadratic_matrix o 1 = Ok M /\ blocks_aligned 1 (fst (schur M)) /\ orthonormal 2 (snd (schur M)) /\ decomposes 2 (zentry M) (fst (schur M)) (snd (schur M)) /\
  diagonalize_quadratic schur o 1 None 0 = Ok ((- (1 / 2))%R, e, E, W) /\
  forall (A : StarAlg) (c : Z -> A), means c (op_terms o) == (c 0%Z)^* * c 0%Z.
Proof.
  destruct (op_new [g1] [mkOS [OCDag; OC] [0%Z; 0%Z] Fermion p_one] None) as [o|] eqn:Eo; [|discriminate]. vm_compute in Eo.
  assert (T : op_terms o = [(g1, mkOS [OCDag; OC] [0%Z; 0%Z] Fermion p_one)]) by (injection Eo as <-; reflexivity).
  destruct (quadratic_matrix o 1) as [M|] eqn:EM; [|injection Eo as <-; vm_compute in EM; discriminate].
  set (schur := fun _ : zmat => (tab [[0; 1]; [-1; 0]]%R, tab [[1; 0]; [0; 1]]%R)).
  destruct (diagonalize_energies schur o 1 0 M (Rle_refl 0) EM) as (E & W & ED). eexists o, schur, M, _, E, W.
  split; [reflexivity|]. split; [auto|]. injection Eo as Eo. rewrite <- Eo in EM. vm_compute in EM. injection EM as <-. clear Eo. unfold schur in ED |- *. cbn [fst snd].
  split; [|split; [|split; [|split] ] ].
  - split.
    + intros p q Hp Hq N. each Hp; each Hq; try (exfalso; apply N; reflexivity); exists 0%Z; lia.
    + intros k Hk. each Hk. entries.
  - intros p q Hp Hq. each Hp; each Hq; entries.
  - intros p q Hp Hq. each Hp; each Hq; entries.
  - rewrite ED. repeat f_equal. cbn [below seq map fold_right]. unfold energy. decide_signs. entries.
  - intros A c. rewrite T. unfold means, meaning, fden. cbn [op_terms o_coeffs o_basis b_strings combine map fst snd os_type os_ops os_labels asum fold_right].
    destruct (list_eq_dec _ _ _) as [_|F]; [|exfalso; apply F; reflexivity].
    unfold den, aprod; cbn [fst snd os_ops os_labels os_pref combine map fold_right gferm pval p_one]. rewrite !ascal_1, aadd_0_r. rewrite amul_1_r. reflexivity.
Qed.
Print Assumptions C76_fermion_shift_refuted.

(** The hypothesis on the blocks cannot be dropped: a real Schur form may have its 2x2 blocks at odd
    positions.  For i b_0 a_1 the decomposition A = 1 A 1 gives two energies 0 and shift 0, though the
    Operator is not zero. *)
Definition b0a1 : OS := mkOS [OB; OA] [0%Z; 1%Z] Majorana p_j.
Definition identity4 : list (list R) := [[1; 0; 0; 0]; [0; 1; 0; 0]; [0; 0; 1; 0]; [0; 0; 0; 1]]%R.
Theorem C76_misaligned_refuted : exists o schur M E W, op_new [g1] [b0a1] None = Ok o /\ quadratic_matrix o 2 = Ok M /\
  orthonormal 4 (snd (schur M)) /\ decomposes 4 (zentry M) (fst (schur M)) (snd (schur M)) /\
  (forall p q, In p (below 4) -> In q (below 4) -> (q + 1 < p)%Z -> fst (schur M) p q = 0%R) /\
  diagonalize_quadratic schur o 2 None 0 = Ok (0%R, [0; 0]%R, E, W) /\
  (forall (A : StarAlg) (g : op -> Z -> A), rep Majorana g -> lincomb g (op_terms o) == azero -> aone == (azero : A)).
Proof.
  destruct (op_new [g1] [b0a1] None) as [o|] eqn:Eo; [|discriminate]. vm_compute in Eo.
  assert (T : op_terms o = [(g1, b0a1)]) by (injection Eo as <-; reflexivity).
  destruct (quadratic_matrix o 2) as [M|] eqn:EM; [|injection Eo as <-; vm_compute in EM; discriminate].
  set (schur := fun _ : zmat => (tab [[0; 0; 0; 0]; [0; 0; 2; 0]; [0; -2; 0; 0]; [0; 0; 0; 0]]%R, tab identity4)).
  destruct (diagonalize_energies schur o 2 0 M (Rle_refl 0) EM) as (E & W & ED). eexists o, schur, M, E, W.
  split; [reflexivity|]. split; [auto|]. injection Eo as Eo. rewrite <- Eo in EM. vm_compute in EM. injection EM as <-. clear Eo. unfold schur in ED |- *. cbn [fst snd].
  split; [|split; [|split; [|split] ] ].
  - intros p q Hp Hq. each Hp; each Hq; entries.
  - intros p q Hp Hq. each Hp; each Hq; entries.
  - intros p q Hp Hq H. each Hp; each Hq; try lia; reflexivity.
  - rewrite ED. cbn [below seq map fold_right]. unfold energy. decide_signs. repeat f_equal; entries.
  - intros A g R H. rewrite T in H. unfold lincomb, den in H. cbn in H. destruct R as [? ? H1 H2 ? ? ? H4].
    rewrite aadd_0_r, amul_1_r, ascal_ascal in H.
    assert (H' : g OB 0%Z * g OA 1%Z == azero).
    { apply (ascal_cancel (gmul g1 gi)); [discriminate|]. rewrite ascal_zero. exact H. }
    rewrite <- (H2 0%Z). rewrite <- (amul_1_r A (g OB 0%Z)) at 1. rewrite <- (H1 1%Z).
    rewrite !amul_assoc, H', !amul_0_l. reflexivity.
Qed.
Print Assumptions C76_misaligned_refuted.

(** The matrix of Fermion eigenvectors is never unitary for two or more orbitals: one of its rows is zero. *)
Theorem C76_fermion_vectors_refuted : forall N W, (2 <= N)%nat -> exists r, (0 <= r < 2 * Z.of_nat N)%Z /\
  forall j, eigvecs_fermion N W r j = RtoC 0.
Proof. exact fermion_row_zero. Qed.
Print Assumptions C76_fermion_vectors_refuted.

(** With a lattice the function always raises. *)
Theorem C76_lattice : forall schur o n thr per M, quadratic_matrix o n = Ok M ->
  diagonalize_quadratic schur o n (Some per) thr = Err (if existsb (fun b => b) per then NameError else NotImplementedError).
Proof. intros schur o n thr per M H. unfold diagonalize_quadratic. rewrite H. cbn [rbind]. destruct (existsb _ per); reflexivity. Qed.
Print Assumptions C76_lattice.

(** Example: 5 i b_0 b_1 - i a_0 a_1 has energies 2 and 10; a Schur form is given by a permutation of the
    Majorana operators.  The complex Fock representation is an algebra as required, in which 1 is not 0. *)
Definition a0a1 : OS := mkOS [OA; OA] [0%Z; 1%Z] Majorana p_j.
Definition b0b1 : OS := mkOS [OB; OB] [0%Z; 1%Z] Majorana p_j.
Definition schur_example (_ : zmat) : rarr * rarr :=
  (tab [[0; -2; 0; 0]; [2; 0; 0; 0]; [0; 0; 0; 10]; [0; 0; -10; 0]]%R, tab [[1; 0; 0; 0]; [0; 0; 1; 0]; [0; 1; 0; 0]; [0; 0; 0; 1]]%R).
Example C76_example : exists o M, op_new [gm1; gz 5] [a0a1; b0b1] None = Ok o /\ o_type o = Majorana /\
  (forall t, In t (op_terms o) -> string_ok Majorana (snd t) /\ quadratic_majorana 2 (snd t) /\ real (fst t)) /\
  quadratic_matrix o 2 = Ok M /\ blocks_aligned 2 (fst (schur_example M)) /\ orthonormal 4 (snd (schur_example M)) /\
  decomposes 4 (zentry M) (fst (schur_example M)) (snd (schur_example M)) /\
  (exists E W, diagonalize_quadratic schur_example o 2 None 0 = Ok ((-6)%R, [2; 10]%R, E, W)) /\
  (exists g : op -> Z -> CFock, rep Majorana g) /\ ~ (@aone CFock == azero) /\ exists S : RScal CFock, True.
Proof.
  destruct (op_new [gm1; gz 5] [a0a1; b0b1] None) as [o|] eqn:Eo; [|discriminate]. vm_compute in Eo.
  assert (T : op_terms o = [(gm1, a0a1); (gz 5, b0b1)]) by (injection Eo as <-; vm_compute; reflexivity).
  destruct (quadratic_matrix o 2) as [M|] eqn:EM; [|injection Eo as <-; vm_compute in EM; discriminate].
  destruct (diagonalize_energies schur_example o 2 0 M (Rle_refl 0) EM) as (E & W & ED).
  exists o, M. split; [auto|]. split; [injection Eo as <-; reflexivity|]. split; [|split; [auto|] ].
  { rewrite T. intros t H. destruct H as [<-|[<-|[] ] ]; cbn [fst snd]; (split; [|split; [|reflexivity] ]).
    1, 3: repeat split; cbn; auto; [intros x H; destruct H as [<-|[<-|[] ] ]; reflexivity | repeat constructor; cbn; intuition lia].
    1, 2: split; [cbn; intros l H; destruct H as [<-|[<-|[] ] ]; lia|]; right; do 2 eexists; split; [reflexivity | split; discriminate]. }
  injection Eo as Eo. rewrite <- Eo in EM. vm_compute in EM. injection EM as <-. clear Eo. unfold schur_example in *. cbn [fst snd] in *.
  split; [|split; [|split; [|split] ] ].
  - split.
    + intros p q Hp Hq N. each Hp; each Hq; try (exfalso; apply N; reflexivity); [exists 0%Z | exists 0%Z | exists 1%Z | exists 1%Z]; lia.
    + intros k Hk. each Hk; entries.
  - intros p q Hp Hq. each Hp; each Hq; entries.
  - intros p q Hp Hq. each Hp; each Hq; entries.
  - exists E, W. rewrite ED. cbn [below seq map fold_right]. unfold energy. decide_signs. repeat f_equal; entries.
  - split; [exists cgen; exact cfock_majorana|]. split; [exact cfock_nontrivial|]. exists cfock_real. auto.
Qed.
