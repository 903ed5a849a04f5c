(** Cubic lattices. *)
From Coq Require Import String List ZArith Bool Arith QArith Qcanon Lia.
From Verif Require Import GC Exn M_OpString M_Tools M_Basis M_Lattice M_Transform M_SpaceGroup S_Lattice S_Transform
  L_Lattice1 L_Lattice2 L_Lattice3 L_Lattice4 L_SpaceGroup.
Import ListNotations.
Local Open Scope Qc_scope.

Section Cubic.
Variables (show : pvec -> string) (d : nat) (ns : list Z) (per : list bool) (names : list string) (L : Lattice).
Hypothesis Hns : length ns = d.
Hypothesis Hper : length per = d.
Hypothesis HL : cubic show d ns (Some per) (Some names) = Ok L.
Let uc := cubic_cell d names.
Let HS := cubic_shape d names.

Local Notation cubic_label := (cubic_label ns (length names)).
Lemma cubic_label_of c k : label_of ns (atoms uc) c 0 k = cubic_label c k.
Proof. unfold label_of, S_Lattice.cubic_label. simpl. unfold per_cell. simpl. lia. Qed.

Lemma cubic_orbital c k name : in_cells ns c -> nth_error names k = Some name ->
  nth_error (l_orbitals L) (cubic_label c k) = Some (map qz c, name, c).
Proof.
  intros Hc Hk. rewrite <- cubic_label_of.
  rewrite (orbital_ok show d uc ns per tol8 L HS Hns Hper HL c 0 k (pzero d) names name Hc eq_refl Hk).
  rewrite cubic_rounded; auto. rewrite (in_cells_length ns); auto.
Qed.
Lemma cubic_orbital_inv i o : nth_error (l_orbitals L) i = Some o ->
  exists c k name, in_cells ns c /\ nth_error names k = Some name /\ i = cubic_label c k /\ o = (map qz c, name, c).
Proof.
  intros H. destruct (orbital_inv show d uc ns per tol8 L HS Hns Hper HL _ _ H) as (c & j & k & a & os & name & Hc & Ha & Hk & Hi & Ho).
  destruct j as [|[|j]]; simpl in Ha; try discriminate. injection Ha as <- <-.
  exists c, k, name. rewrite <- cubic_label_of. rewrite <- (cubic_rounded d); auto. rewrite (in_cells_length ns); auto.
Qed.
Lemma cubic_count : l_len L = (num_cells ns * length names)%nat.
Proof. rewrite (count_ok show d uc ns per tol8 L HS Hns Hper HL). unfold per_cell. simpl. lia. Qed.

Lemma cubic_resolve c k : in_cells ns c -> (k < length names)%nat -> resolve L (PosInt (Z.of_nat (cubic_label c k))) = Ok (map qz c).
Proof.
  intros Hc Hk. destruct (nth_error names k) as [name|] eqn:E; [|apply nth_error_None in E; lia].
  pose proof (cubic_orbital c k name Hc E) as H. unfold resolve, l_position, py_nth.
  assert (Hl : (cubic_label c k < length (l_orbitals L))%nat) by (apply nth_error_Some; congruence).
  replace (Z.of_nat (cubic_label c k) <? 0)%Z with false by (symmetry; apply Z.ltb_ge; lia). cbv zeta.
  replace (Z.of_nat (cubic_label c k) <? 0)%Z with false by (symmetry; apply Z.ltb_ge; lia).
  rewrite Nat2Z.id, H. reflexivity.
Qed.
Lemma cubic_dist c c' k k' : in_cells ns c -> in_cells ns c' -> (k < length names)%nat -> (k' < length names)%nat ->
  l_dist2 L (PosInt (Z.of_nat (cubic_label c k))) (PosInt (Z.of_nat (cubic_label c' k'))) = Ok (qz (torus_dist2 ns per c c')).
Proof.
  intros Hc Hc' Hk Hk'. rewrite (dist_resolve _ _ _ _ _ (cubic_resolve c k Hc Hk) (cubic_resolve c' k' Hc' Hk')).
  destruct (dist_ok show d uc ns per tol8 L HS Hns Hper HL (map qz c) (map qz c')) as (r & -> & [H1 (m & M1 & M2 & M3)]).
  f_equal. assert (Hp : length per = length ns) by congruence.
  assert (Hlc : length c = length ns) by (apply in_cells_length; auto).
  assert (S : forall m, length m = d -> sq_dist (plus (map qz c) (shift d (uc_vectors uc) ns m)) (map qz c') = qz (zdist2 (zadd c (periods ns m)) c')).
  { intros m0 Hm0. rewrite plus_padd. change (uc_vectors uc) with (units d). rewrite shift_units, padd_qz, sq_dist_qz by auto. reflexivity. }
  apply Qcle_antisym.
  - destruct (torus_attained ns per c c' Hc Hc' Hp) as (m' & E1 & E2 & E3). rewrite <- E3. rewrite <- S by congruence. apply H1; [congruence|auto].
  - rewrite M3, S by auto. apply qz_le. apply torus_le; auto. apply M2.
Qed.

Hypothesis Hnames : NoDup names.
Lemma cubic_names : names_differ (atoms uc).
Proof. intros a os [H|[]]. injection H as <- <-. auto. Qed.

Lemma cubic_own B i r name c : shows_integers show d B -> Forall (fun n => (n <= B)%Z) ns ->
  nth_error (l_orbitals L) i = Some (r, name, c) -> l_index show L r name = Z.of_nat i.
Proof.
  intros HB HN. apply (index_own show d uc ns per tol8 L HS Hns Hper HL cubic_names B); auto; [apply tol8_pos|].
  apply cubic_told; auto.
Qed.
Lemma cubic_index B z k name : shows_integers show d B -> Forall2 (fun n x => (Z.abs x + n <= B)%Z) ns z -> nth_error names k = Some name ->
  (wrapped ns per z -> l_index show L (map qz z) name = Z.of_nat (cubic_label (home ns z) k)) /\
  (~ wrapped ns per z -> l_index show L (map qz z) name = (-1)%Z).
Proof.
  intros HB HN Hk. assert (Lz : length z = length ns) by (clear - HN; induction HN; simpl; auto).
  pose proof (index_crystal show d uc ns per tol8 L HS Hns Hper HL cubic_names B name z 0 k (pzero d) names (cubic_told show d names B HB) HN eq_refl Hk) as H.
  change (uc_vectors uc) with (units d) in H. rewrite crystal_units in H by congruence.
  change (atoms uc) with (atoms (cubic_cell d names)) in H. rewrite <- cubic_label_of. exact H.
Qed.

(** The map of labels for a map [g] of cells given by R and t. *)
Lemma cubic_space_group B R t (g : list Z -> list Z) : shows_integers show d B ->
  (forall c, in_cells ns c -> padd (mat_vec R (map qz c)) t = map qz (g c) /\ Forall2 (fun n x => (Z.abs x + n <= B)%Z) ns (g c)) ->
  ((forall c, in_cells ns c -> wrapped ns per (g c)) ->
     exists p, space_group_labels show L R t = Ok p /\ length p = l_len L /\
       (forall c k, in_cells ns c -> (k < length names)%nat -> nth_error p (cubic_label c k) = Some (Z.of_nat (cubic_label (home ns (g c)) k))) /\
       ((forall c c', in_cells ns c -> in_cells ns c' -> home ns (g c) = home ns (g c') -> c = c') -> permutes p (perm_fun p))) /\
  (forall c, in_cells ns c -> ~ wrapped ns per (g c) -> names <> [] -> space_group_labels show L R t = Err ValueError).
Proof.
  intros HB HG.
  assert (HI : forall c k name, in_cells ns c -> nth_error names k = Some name ->
    (wrapped ns per (g c) -> l_index show L (padd (mat_vec R (map qz c)) t) name = Z.of_nat (cubic_label (home ns (g c)) k)) /\
    (~ wrapped ns per (g c) -> l_index show L (padd (mat_vec R (map qz c)) t) name = (-1)%Z)).
  { intros c k name Hc Hk. destruct (HG c Hc) as [-> HF]. apply (cubic_index B); auto. }
  set (l := map (fun o : orbital => l_index show L (padd (mat_vec R (fst (fst o))) t) (snd (fst o))) (l_orbitals L)).
  assert (Len : length l = l_len L) by (unfold l; rewrite map_length; reflexivity).
  split.
  - intros HW.
    assert (HN : forall c k, in_cells ns c -> (k < length names)%nat -> nth_error l (cubic_label c k) = Some (Z.of_nat (cubic_label (home ns (g c)) k))).
    { intros c k Hc Hk. destruct (nth_error names k) as [name|] eqn:E; [|apply nth_error_None in E; lia].
      unfold l. rewrite nth_error_map, (cubic_orbital c k name Hc E). simpl. f_equal. apply (HI c k name); auto. }
    assert (Hinv : forall i, (i < l_len L)%nat -> exists c k, in_cells ns c /\ (k < length names)%nat /\ i = cubic_label c k).
    { intros i Hi. destruct (nth_error (l_orbitals L) i) as [o|] eqn:E; [|apply nth_error_None in E; unfold l_len in Hi; lia].
      destruct (cubic_orbital_inv _ _ E) as (c & k & name & Hc & Hk & -> & _). exists c, k. split; auto. split; auto. apply nth_error_Some; congruence. }
    assert (Hhome : forall ns per z, length per = length ns -> wrapped ns per z -> in_cells ns (home ns z)).
    { clear. intros ns0. induction ns0 as [|n ns0 IH]; intros [|p per0] [|x z] Hl H; try discriminate; try contradiction; cbn [wrapped home] in *; [constructor|].
      destruct H as [H1 H2]. constructor; [|eapply IH; eauto]. apply Z.mod_pos_bound. destruct p; lia. }
    assert (Hp : length per = length ns) by congruence.
    assert (Hlt : forall c k, in_cells ns c -> (k < length names)%nat -> (cubic_label c k < l_len L)%nat).
    { intros c k Hc Hk. destruct (nth_error names k) as [name|] eqn:E; [|apply nth_error_None in E; lia].
      apply nth_error_Some. pose proof (cubic_orbital c k name Hc E). congruence. }
    exists l. split; [|split; [auto|split; [auto|]]].
    + unfold space_group_labels. fold l. apply check_ok. split; auto. intros H. apply In_nth_error in H. destruct H as [i H].
      destruct (Hinv i) as (c & k & Hc & Hk & ->); [rewrite <- Len; apply nth_error_Some; congruence|].
      rewrite HN in H by auto. injection H. lia.
    + intros Hinj. apply permutes_of.
      * apply NoDup_nth_error. intros i i' Hi E. rewrite Len in Hi.
        assert (Hi' : (i' < l_len L)%nat). { rewrite <- Len. apply nth_error_Some. rewrite <- E. apply nth_error_Some. rewrite Len; auto. }
        destruct (Hinv i Hi) as (c & k & Hc & Hk & ->). destruct (Hinv i' Hi') as (c' & k' & Hc' & Hk' & ->).
        rewrite !HN in E by auto. injection E as E. apply Nat2Z.inj in E.
        assert (Ek : k = k' /\ rank ns (home ns (g c)) = rank ns (home ns (g c'))).
        { unfold S_Lattice.cubic_label in E. rewrite !(Nat.mul_comm _ (length names)) in E. apply Nat.div_mod_unique in E; auto. destruct E; auto. }
        destruct Ek as [<- Er]. f_equal. apply Hinj; auto.
        pose proof (nth_cell_coords ns _ (Hhome ns per _ Hp (HW c Hc))) as G1. pose proof (nth_cell_coords ns _ (Hhome ns per _ Hp (HW c' Hc'))) as G2.
        rewrite Er in G1. congruence.
      * intros x Hx. apply In_nth_error in Hx. destruct Hx as [i H].
        destruct (Hinv i) as (c & k & Hc & Hk & ->); [rewrite <- Len; apply nth_error_Some; congruence|].
        rewrite HN in H by auto. injection H as <-. rewrite Len. pose proof (Hlt (home ns (g c)) k (Hhome ns per _ Hp (HW c Hc)) Hk). lia.
  - intros c Hc HW Hne. destruct (nth_error names 0) as [name|] eqn:En; [|apply nth_error_None in En; destruct names; [congruence|simpl in En; lia]].
    unfold space_group_labels. apply check_err. apply in_map_iff. exists (map qz c, name, c). split.
    + simpl. apply (HI c 0%nat name); auto.
    + apply nth_error_In with (cubic_label c 0). apply cubic_orbital; auto.
Qed.
End Cubic.
