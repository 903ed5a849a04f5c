(** Entropies of subsystems: C92 - C94. *)
From Coq Require Import List Arith Lia ZArith NArith Bool Permutation Ring QArith Qcanon Reals Qreals Lra.
From Verif Require Import GC Exn M_OpAlg M_Diag S_Diag L_Diag1 L_Diag5 M_Entropy S_CFock S_Entropy L_Entropy3.
Import ListNotations.
Local Open Scope nat_scope.

(** C92: complementary subsystems of a pure state have equal entropies of every order, whatever the order in
    which their labels are given ... *)
Theorem C92_complement : forall n A B v m, Permutation (A ++ B) (seq 0 n) -> length v = 2 ^ n -> (1 <= m)%Z ->
  exists ra rb, reduced_density_matrix (RVector v) (map Z.of_nat A) n = Ok ra /\ reduced_density_matrix (RVector v) (map Z.of_nat B) n = Ok rb /\
    renyi_entropy (length A) ra m = renyi_entropy (length B) rb m.
Proof. exact renyi_complement. Qed.
Print Assumptions C92_complement.
(** ... and the entropy of a subsystem does not depend on the order of its labels. *)
Theorem C92_order : forall n A A' v m, NoDup A -> (forall l, In l A -> l < n) -> Permutation A A' -> length v = 2 ^ n -> (1 <= m)%Z ->
  exists ra rb, reduced_density_matrix (RVector v) (map Z.of_nat A) n = Ok ra /\ reduced_density_matrix (RVector v) (map Z.of_nat A') n = Ok rb /\
    renyi_entropy (length A) ra m = renyi_entropy (length A') rb m.
Proof. exact renyi_order. Qed.
Print Assumptions C92_order.

(** C93: for a normalised state the entropy of order at least 2 is a number between 0 and ln 2 times the number
    of spins of the smaller part, zero exactly for product states, and it does not increase with the order. *)
Theorem C93_bounds : forall n A v m, NoDup A -> (forall l, In l A -> l < n) -> length v = 2 ^ n -> normalised n v -> (2 <= m)%Z ->
  exists rho S, reduced_density_matrix (RVector v) (map Z.of_nat A) n = Ok rho /\ renyi_entropy (length A) rho m = Ok (Some S) /\
    (0 <= S)%R /\ (S <= INR (length A) * ln 2)%R /\ (S <= INR (n - length A) * ln 2)%R /\ (S = 0%R <-> product_state n A v).
Proof. exact renyi_bounds. Qed.
Print Assumptions C93_bounds.
Theorem C93_decreasing : forall n A v m m', NoDup A -> (forall l, In l A -> l < n) -> length v = 2 ^ n -> normalised n v -> (2 <= m <= m')%Z ->
  exists rho S S', reduced_density_matrix (RVector v) (map Z.of_nat A) n = Ok rho /\ renyi_entropy (length A) rho m = Ok (Some S) /\
    renyi_entropy (length A) rho m' = Ok (Some S') /\ (S' <= S)%R.
Proof. exact renyi_decreasing. Qed.
Print Assumptions C93_decreasing.

(** C94: a matrix with the non-negative eigenvalues p_1, ..., p_r has the entropy 1/(1-n) ln(p_1^n + ... + p_r^n)
    for every order n >= 2 ... *)
Theorem C94_spectrum : forall k r M p u m, spectral k r M p u -> (forall i, i < r -> (0 <= p i)%Qc) -> (exists i, i < r /\ p i <> 0%Qc) -> (2 <= m)%Z ->
  renyi_entropy k M m = Ok (Some (/ (1 - IZR m) * ln (rtotal (map (fun i => (qr (p i) ^ Z.to_nat m)%R) (seq 0 r))))%R).
Proof. exact renyi_spectrum. Qed.
Print Assumptions C94_spectrum.
(** ... order 1 (the von Neumann entropy) raises, and the orders 0, -1, ... ignore the matrix. *)
Theorem C94_small : forall k M, renyi_entropy k M 1 = Err ZeroDivisionError /\
  forall m, (m <= 0)%Z -> renyi_entropy k M m = Ok (Some (/ (1 - IZR m) * (INR k * ln 2))%R).
Proof. exact (fun k M => conj (renyi_one k M) (renyi_small k M)). Qed.
Print Assumptions C94_small.

(* ---------------------------------------------------------------- examples *)

(** 3/5 |000> + 4/5 |101>. *)
Definition q35 : GC := gq (Q2Qc (3 # 5)).
Definition q45 : GC := gq (Q2Qc (4 # 5)).
Definition vent : list GC := [q35; g0; g0; g0; g0; q45; g0; g0].
(** (3/5 |0> + 4/5 |1>) |00>. *)
Definition vprod : list GC := [q35; g0; g0; g0; q45; g0; g0; g0].
Lemma vent_normalised : normalised 3 vent.
Proof. unfold normalised, sum_confs. cbn -[gmul gadd gconj]. apply GC_ext; apply Qc_is_canon; reflexivity. Qed.
Lemma vprod_normalised : normalised 3 vprod.
Proof. unfold normalised, sum_confs. cbn -[gmul gadd gconj]. apply GC_ext; apply Qc_is_canon; reflexivity. Qed.
Lemma q35_neq : q35 <> g0.
Proof. intros H. apply (f_equal (fun z => this (re z))) in H. discriminate. Qed.
Lemma q45_neq : q45 <> g0.
Proof. intros H. apply (f_equal (fun z => this (re z))) in H. discriminate. Qed.
Lemma vent_entangled : ~ product_state 3 [2; 1] vent.
Proof.
  intros (x & y & H).
  assert (H0 : q35 = gmul (x 0%N) (y 0%N)) by exact (H 0%N ltac:(reflexivity)).
  assert (H5 : q45 = gmul (x 2%N) (y 1%N)) by exact (H 5%N ltac:(reflexivity)).
  assert (H1 : g0 = gmul (x 2%N) (y 0%N)) by exact (H 1%N ltac:(reflexivity)).
  symmetry in H1. apply gmul_integral in H1. destruct H1 as [E|E].
  - apply q45_neq. rewrite H5, E. ring.
  - apply q35_neq. rewrite H0, E. ring.
Qed.
Lemma vprod_product : product_state 3 [0] vprod.
Proof.
  exists (fun a => if (a =? 0)%N then q35 else q45), (fun b => if (b =? 0)%N then g1 else g0). intros c Hc. apply in_confs in Hc.
  cbn in Hc. repeat (destruct Hc as [<-|Hc]; [apply GC_ext; apply Qc_is_canon; vm_compute; reflexivity|]). destruct Hc.
Qed.
(** Two subsystems of an entangled and of a product state. *)
Example C92_example : Permutation ([2; 1] ++ [0]) (seq 0 3) /\ length vent = 2 ^ 3 /\ Permutation [2; 1] [1; 2] /\ NoDup [2; 1].
Proof.
  split; [|split; [reflexivity|split]].
  - apply Permutation_sym. exact (Permutation_rev [0; 1; 2]).
  - apply perm_swap.
  - repeat constructor; cbn; lia.
Qed.
Example C93_example : normalised 3 vent /\ normalised 3 vprod /\ length vent = 2 ^ 3 /\ length vprod = 2 ^ 3 /\ product_state 3 [0] vprod /\ ~ product_state 3 [2; 1] vent.
Proof. exact (conj vent_normalised (conj vprod_normalised (conj eq_refl (conj eq_refl (conj vprod_product vent_entangled))))). Qed.
(** The reduced density matrix of the first spin of the entangled state has the eigenvalues 9/25 and 16/25. *)
Definition v_u (i : nat) (a : N) : GC := if (a =? N.of_nat i)%N then g1 else g0.
Definition v_p (i : nat) : Qc := Q2Qc (if Nat.eqb i 0 then 9 # 25 else 16 # 25).
Example C94_example : exists rho, reduced_density_matrix (RVector vent) [0%Z] 3 = Ok rho /\ spectral 1 2 rho v_p v_u /\ renyi_entropy 1 rho 2 = Ok (Some (- ln (337 / 625))%R) /\ renyi_entropy 1 rho 0 = Ok (Some (ln 2)) /\ renyi_entropy 1 rho 1 = Err ZeroDivisionError.
Proof.
  assert (Sp : exists rho, reduced_density_matrix (RVector vent) [0%Z] 3 = Ok rho /\ spectral 1 2 rho v_p v_u).
  { destruct (reshaped 3 [0] ltac:(repeat constructor; cbn; lia) ltac:(cbn; lia) vent eq_refl) as (g & E & Hg).
    exists (outer g g 2). split; [unfold reduced_density_matrix; change [0%Z] with (map Z.of_nat [0]); rewrite E; reflexivity|].
    assert (G : forall c, configuration 3 c -> g (pick 3 [0] c) (pick 3 [1; 2] c) = amplitude vent c) by exact Hg.
    pose proof (G 0%N eq_refl) as G0. pose proof (G 1%N eq_refl) as G1. pose proof (G 2%N eq_refl) as G2. pose proof (G 3%N eq_refl) as G3.
    pose proof (G 4%N eq_refl) as G4. pose proof (G 5%N eq_refl) as G5. pose proof (G 6%N eq_refl) as G6. pose proof (G 7%N eq_refl) as G7.
    cbn -[q35 q45 g0] in G0, G1, G2, G3, G4, G5, G6, G7. clear G Hg E. split.
    - intros i j Hi Hj. destruct i as [|[|i]]; [| |lia]; (destruct j as [|[|j]]; [| |lia]); unfold sum_confs; cbn; apply GC_ext; apply Qc_is_canon; reflexivity.
    - intros a b Ha Hb. apply in_confs in Ha, Hb. cbn in Ha, Hb.
      destruct Ha as [<-|[<-|[]]], Hb as [<-|[<-|[]]]; unfold outer; cbn [map confs seq Nat.pow Nat.mul Nat.add N.of_nat Pos.of_succ_nat Pos.succ gsum fold_right];
        rewrite ?G0, ?G1, ?G2, ?G3, ?G4, ?G5, ?G6, ?G7; apply GC_ext; apply Qc_is_canon; vm_compute; reflexivity. }
  destruct Sp as (rho & E & Sp). exists rho. split; auto. split; auto. split; [|split].
  - rewrite (C94_spectrum 1 2 rho v_p v_u 2%Z Sp); [|intros [|[|i]] Hi; [discriminate | discriminate | lia] | exists 0; split; [lia | discriminate] | lia].
    do 2 f_equal. assert (V : rtotal (map (fun i => (qr (v_p i) ^ Z.to_nat 2)%R) (seq 0 2)) = (337 / 625)%R).
    { assert (V0 : qr (v_p 0) = (9 / 25)%R) by (unfold qr, v_p, Q2R; cbn; lra). assert (V1 : qr (v_p 1) = (16 / 25)%R) by (unfold qr, v_p, Q2R; cbn; lra).
      change (Z.to_nat 2) with 2. cbn [seq map rtotal fold_right]. rewrite V0, V1. field. }
    rewrite V. lra.
  - rewrite (proj2 (C94_small 1 rho) 0%Z) by lia. do 2 f_equal. cbn [INR]. lra.
  - apply C94_small.
Qed.
(** Order 0 does not see that a state is a product: the logarithm of the rank would be 0. *)
Theorem C94_order_zero_refuted : exists n A v rho S, NoDup A /\ (forall l, In l A -> l < n) /\ length v = 2 ^ n /\ normalised n v /\ product_state n A v /\ reduced_density_matrix (RVector v) (map Z.of_nat A) n = Ok rho /\ renyi_entropy (length A) rho 0 = Ok (Some S) /\ (0 < S)%R.
Proof.
  destruct (C93_bounds 3 [0] vprod 2) as (rho & _ & E & _); [repeat constructor; cbn; lia | cbn; lia | reflexivity | apply vprod_normalised | lia |].
  exists 3, [0], vprod, rho, (ln 2). repeat split; auto; [repeat constructor; cbn; lia | cbn; lia | apply vprod_normalised | apply vprod_product | |].
  - change (length [0]) with 1. rewrite (proj2 (C94_small 1 rho) 0%Z) by lia. do 2 f_equal. cbn [INR]. lra.
  - rewrite <- ln_1. apply ln_increasing; lra.
Qed.
Print Assumptions C94_order_zero_refuted.
