(** Property C85: the Kagome lattice. *)
From Coq Require Import String List ZArith Bool Arith QArith Qcanon Lia Lqa.
From Verif Require Import GC Exn M_Basis M_Lattice S_Lattice L_Lattice1 L_Lattice2 L_Lattice3 L_Lattice4 L_Cubic L_Show L_LatticeEx.
Import ListNotations.
Local Open Scope Qc_scope.

(** The three sites of the cell (i, j): its corner and the midpoints of two edges; [h] is the
    height of the triangle. *)
Definition kagome_site (h : Qc) (i j : Z) (t : nat) : list Qc :=
  let x := Q2Qc (inject_Z i) + Q2Qc (inject_Z j) * Q2Qc (1 # 2) in
  let y := Q2Qc (inject_Z j) * h in
  match t with
  | O => [x; y]
  | S O => [x + Q2Qc (1 # 2); y]
  | _ => [x + Q2Qc (1 # 4); y + h * Q2Qc (1 # 2)]
  end.
Definition kagome_label (n2 : Z) (names : nat) (i j : Z) (t k : nat) : nat := (((Z.to_nat i * Z.to_nat n2 + Z.to_nat j) * 3 + t) * names + k)%nat.

Ltac qclra := unfold tol8 in *; unfold Qclt, Qcle, Qcdiv, Qcinv, Qcplus, Qcmult, Qcminus, Qcopp, Q2Qc in *; cbn [this] in *; repeat rewrite Qred_correct in *; cbn [Qinv Qnum Qden] in *; lra.
Lemma tol8_nonneg : 0 <= tol8.
Proof. unfold Qcle, tol8. cbn. discriminate. Qed.
Lemma round_one tol x : 0 <= tol -> x = 0 \/ tol < x -> (if Qclt_le_dec tol x then x else if Qclt_le_dec x (- tol) then x else 0) = x.
Proof.
  intros H0 [-> | H].
  - destruct (Qclt_le_dec tol 0); auto. destruct (Qclt_le_dec 0 (- tol)); auto.
  - destruct (Qclt_le_dec tol x); auto. exfalso. exact (Qcle_not_lt _ _ q H).
Qed.
Lemma coord_x i j c : (0 <= i)%Z -> (0 <= j)%Z -> c = 0 \/ c = Q2Qc (1 # 2) \/ c = Q2Qc (1 # 4) ->
  qz i + qz j * Q2Qc (1 # 2) + c = 0 \/ tol8 < qz i + qz j * Q2Qc (1 # 2) + c.
Proof.
  intros Hi Hj Hc.
  assert (Ai : qz i = 0 \/ 1 <= qz i) by (destruct (Z.eq_dec i 0) as [->|]; [left; reflexivity | right; apply (qz_le 1); lia]).
  assert (Aj : qz j = 0 \/ 1 <= qz j) by (destruct (Z.eq_dec j 0) as [->|]; [left; reflexivity | right; apply (qz_le 1); lia]).
  assert (Ac : c = 0 \/ tol8 < c) by (destruct Hc as [-> | [-> | ->]]; [left; reflexivity | right; reflexivity | right; reflexivity]).
  assert (Pi : 0 <= qz i) by (apply (qz_le 0); auto). assert (Pj : 0 <= qz j) by (apply (qz_le 0); auto).
  revert Ai Aj Ac Pi Pj. generalize (qz i) (qz j). clear. intros a b Ai Aj Ac Pi Pj.
  assert (Pc : 0 <= c) by (destruct Ac as [->|A]; [apply Qcle_refl | apply Qclt_le_weak, Qcle_lt_trans with tol8; auto using tol8_nonneg]).
  destruct Ai as [->|Ai]; [destruct Aj as [->|Aj]|].
  - destruct Ac as [->|Ac]; [left; reflexivity|right]. replace (0 + 0 * Q2Qc (1 # 2) + c) with c by ring. auto.
  - right. qclra.
  - right. qclra.
Qed.
Lemma coord_y h j : tol8 < h * Q2Qc (1 # 2) -> (0 <= j)%Z -> (qz j * h = 0 \/ tol8 < qz j * h) /\ tol8 < qz j * h + h * Q2Qc (1 # 2).
Proof.
  intros Hh Hj. assert (Ph : 0 <= h) by (pose proof tol8_nonneg; qclra). destruct (Z.eq_dec j 0) as [->|N].
  - change (qz 0) with 0. replace (0 * h) with 0 by ring. split; auto. rewrite Qcplus_0_l. auto.
  - assert (1 * h <= qz j * h) by (apply Qcmult_le_compat_r; auto; apply (qz_le 1); lia).
    revert H. generalize (qz j * h). intros c H. split; [right|]; qclra.
Qed.
Lemma site_rounded h i j t : tol8 < h * Q2Qc (1 # 2) -> (0 <= i)%Z -> (0 <= j)%Z -> rounded tol8 (kagome_site h i j t) = kagome_site h i j t.
Proof.
  intros Hh Hi Hj. destruct (coord_y h j Hh Hj) as [Y1 Y2].
  pose proof (coord_x i j 0 Hi Hj ltac:(auto)) as X0. rewrite Qcplus_0_r in X0.
  pose proof (coord_x i j (Q2Qc (1 # 2)) Hi Hj ltac:(auto)) as X1. pose proof (coord_x i j (Q2Qc (1 # 4)) Hi Hj ltac:(auto)) as X2.
  pose proof tol8_nonneg.
  destruct t as [|[|t]]; unfold kagome_site, rounded; fold (qz i) (qz j); cbn [map]; rewrite !round_one; auto.
Qed.

(** C85: the orbitals of kagome(N1, N2) are at the sites, cell by cell, with [h] the value of
    sqrt(3)/2. *)
Theorem C85_sites : forall show h n1 n2 per names, length per = 2%nat -> tol8 < h * Q2Qc (1 # 2) ->
  exists L, kagome show h n1 n2 (Some per) (Some names) = Ok L /\ l_len L = (Z.to_nat n1 * Z.to_nat n2 * 3 * length names)%nat /\ l_periodic L = per /\
    forall i j t k name, (0 <= i < n1)%Z -> (0 <= j < n2)%Z -> (t < 3)%nat -> nth_error names k = Some name ->
      nth_error (l_orbitals L) (kagome_label n2 (length names) i j t k) = Some (kagome_site h i j t, name, [i; j]).
Proof.
  intros show h n1 n2 per names Hp Hh. unfold kagome.
  match goal with |- context [lattice_new show ?u _ _ _] => destruct (orbitals_proof show 2 u [n1; n2] per tol8) as (L & E & H & Ho & _); auto end.
  { cbn. split; auto. split; intros v Hv; cbn in Hv; intuition subst; auto. }
  exists L. split; [exact E|]. split; [rewrite H; cbn -[Z.to_nat]; unfold per_cell; cbn -[Z.to_nat]; nia|]. split.
  { unfold lattice_new in E. destruct (rfold _ _ _) as [st|]; [|discriminate]. cbn [rbind] in E. destruct (boundary_loop _ _ _ _); [|discriminate]. injection E as <-. reflexivity. }
  intros i j t k name Hi Hj Ht Hk.
  assert (Hc : in_cells [n1; n2] [i; j]) by (repeat constructor; lia).
  rewrite <- (site_rounded h i j t Hh (proj1 Hi) (proj1 Hj)).
  assert (F : forall t' a, (t' < 3)%nat -> nth_error [pzero 2; pscale (Q2Qc (1 # 2)) [1; 0]; pscale (Q2Qc (1 # 2)) [Q2Qc (1 # 2); h]] t' = Some a ->
     nth_error (l_orbitals L) (kagome_label n2 (length names) i j t' k) = Some (rounded tol8 (crystal 2 [[1; 0]; [Q2Qc (1 # 2); h]] [i; j] a), name, [i; j])).
  { intros t' a Ht' Ha. refine (eq_trans _ (Ho [i; j] t' k a names name Hc _ Hk)).
    - f_equal. unfold kagome_label, label_of, rank, num_cells, per_cell. cbn [fold_right map atoms].
      destruct t' as [|[|[|t']]]; [| | |lia]; cbn -[Z.to_nat Nat.mul]; nia.
    - destruct t' as [|[|[|t']]]; [| | |lia]; cbn in *; congruence. }
  rewrite (F t (nth t [pzero 2; pscale (Q2Qc (1 # 2)) [1; 0]; pscale (Q2Qc (1 # 2)) [Q2Qc (1 # 2); h]] [])) by (auto; apply nth_error_nth'; auto).
  f_equal. f_equal. f_equal. f_equal.
  destruct t as [|[|[|t]]]; [| | |lia]; cbn [nth pzero pscale repeat map kagome_site crystal seq combo coord]; fold (qz i) (qz j); repeat (match goal with |- _ :: _ = _ :: _ => f_equal end); try ring.
  all: replace (Q2Qc (1 # 4)) with (Q2Qc (1 # 2) * Q2Qc (1 # 2)) by (apply Qc_is_canon; reflexivity); try ring.
Qed.
Print Assumptions C85_sites.

(** With open boundaries the distance of two sites is that of the points of the plane. *)
Theorem C85_distance : forall show h n1 n2 names L, tol8 < h * Q2Qc (1 # 2) -> kagome show h n1 n2 None (Some names) = Ok L ->
  forall i j t k i' j' t' k', (0 <= i < n1)%Z -> (0 <= j < n2)%Z -> (t < 3)%nat -> (k < length names)%nat ->
    (0 <= i' < n1)%Z -> (0 <= j' < n2)%Z -> (t' < 3)%nat -> (k' < length names)%nat ->
    l_dist2 L (PosInt (Z.of_nat (kagome_label n2 (length names) i j t k))) (PosInt (Z.of_nat (kagome_label n2 (length names) i' j' t' k'))) =
    Ok (sq_dist (kagome_site h i j t) (kagome_site h i' j' t')).
Proof.
  intros show h n1 n2 names L Hh E i j t k i' j' t' k' Hi Hj Ht Hk Hi' Hj' Ht' Hk'.
  destruct (C85_sites show h n1 n2 [false; false] names eq_refl Hh) as (L' & E' & _ & _ & Ho).
  assert (L' = L) by (assert (X : Ok L' = Ok L) by (rewrite <- E, <- E'; reflexivity); injection X; auto). subst L'.
  destruct (nth_error names k) as [nm|] eqn:En; [|apply nth_error_None in En; lia].
  destruct (nth_error names k') as [nm'|] eqn:En'; [|apply nth_error_None in En'; lia].
  pose proof (Ho i j t k nm Hi Hj Ht En) as O1. pose proof (Ho i' j' t' k' nm' Hi' Hj' Ht' En') as O2.
  rewrite (proj1 (labels_proof L _ _ _ _ _ O1)), (proj1 (proj2 (labels_proof L _ (PosVec (kagome_site h i j t)) _ _ _ O2))).
  assert (Eb : l_bvecs L = [pzero 2]).
  { unfold kagome, lattice_new in E. destruct (rfold _ _ _) as [st|]; [|discriminate]. cbn [rbind] in E. cbn in E. injection E as <-. reflexivity. }
  unfold l_dist2, resolve. cbn [rbind]. rewrite Eb. cbn [map qmin]. f_equal.
  rewrite pnorm2_sq. rewrite padd_zero; auto. destruct t as [|[|t]]; reflexivity.
Qed.
Print Assumptions C85_distance.
(** Corner-sharing triangles with edges of length 1/2, for h^2 = 3/4 + e: the sites of a cell,
    and the sites 1 of (i, j), 0 of (i + 1, j) and 2 of (i + 1, j - 1). *)
Theorem C85_triangles : forall h e i j, h * h = Q2Qc (3 # 4) + e ->
  sq_dist (kagome_site h i j 0) (kagome_site h i j 1) = Q2Qc (1 # 4) /\
  sq_dist (kagome_site h i j 0) (kagome_site h i j 2) = Q2Qc (1 # 4) + e * Q2Qc (1 # 4) /\
  sq_dist (kagome_site h i j 1) (kagome_site h i j 2) = Q2Qc (1 # 4) + e * Q2Qc (1 # 4) /\
  sq_dist (kagome_site h i j 1) (kagome_site h (i + 1) j 0) = Q2Qc (1 # 4) /\
  sq_dist (kagome_site h i j 1) (kagome_site h (i + 1) (j - 1) 2) = Q2Qc (1 # 4) + e * Q2Qc (1 # 4) /\
  sq_dist (kagome_site h (i + 1) j 0) (kagome_site h (i + 1) (j - 1) 2) = Q2Qc (1 # 4) + e * Q2Qc (1 # 4).
Proof.
  intros h e i j He.
  assert (E : e = h * h - Q2Qc (3 # 4)) by (rewrite He; ring). rewrite E. clear E He.
  unfold kagome_site, sq_dist. fold (qz i) (qz j) (qz (i + 1)) (qz (j - 1)). replace (j - 1)%Z with (j + - (1))%Z by lia. rewrite !qz_add, qz_opp. change (qz 1) with 1.
  replace (Q2Qc (1 # 2)) with (1 / (1 + 1)) by (apply Qc_is_canon; reflexivity).
  replace (Q2Qc (3 # 4)) with ((1 + 1 + 1) / (1 + 1 + 1 + 1)) by (apply Qc_is_canon; reflexivity).
  replace (Q2Qc (1 # 4)) with (1 / (1 + 1 + 1 + 1)) by (apply Qc_is_canon; reflexivity).
  generalize (qz i) (qz j). intros a b. repeat split; field; repeat split; discriminate.
Qed.
Print Assumptions C85_triangles.
Example C85_example : exists L, kagome show_exact (Q2Qc (13 # 15)) 2 2 None (Some ["s"]%string) = Ok L /\ l_len L = 12%nat /\ tol8 < Q2Qc (13 # 15) * Q2Qc (1 # 2) /\
  nth_error (l_orbitals L) 11 = Some ([Q2Qc (7 # 4); Q2Qc (13 # 10)], "s"%string, [1; 1]%Z).
Proof. eexists. split; [vm_compute; reflexivity|]. split; [reflexivity|]. split; [reflexivity|].
  cbn [nth_error l_orbitals]. f_equal. f_equal. f_equal. repeat (match goal with |- _ :: _ = _ :: _ => f_equal end); apply Qc_is_canon; reflexivity. Qed.
