(** Lemmas about lattices: distances and cubic lattices. *)
From Coq Require Import String List ZArith Bool Arith QArith Qcanon Lia.
From Verif Require Import GC Exn M_Basis M_Lattice S_Lattice L_Lattice1 L_Lattice2 L_Lattice3.
Import ListNotations.
Local Open Scope Qc_scope.

Lemma qc_nlt_le x y : qc_ltb x y = false -> y <= x.
Proof. intros H. apply Qcnot_lt_le. intros G. apply qc_ltb_lt in G. congruence. Qed.

Lemma qmin_spec l : l <> [] -> exists r, qmin l = Ok r /\ In r l /\ forall x, In x l -> r <= x.
Proof.
  induction l as [|x [|y l] IH]; intros H; [congruence| |].
  - exists x. split; auto. split; [left; auto|]. intros z [<-|[]]. apply Qcle_refl.
  - destruct IH as (r & E & Hr & Hm); [discriminate|].
    change (qmin (x :: y :: l)) with (let! m := qmin (y :: l) in Ok (if qc_ltb m x then m else x)). rewrite E. cbn [rbind].
    destruct (qc_ltb r x) eqn:Q.
    + exists r. split; auto. split; [right; auto|]. intros z [<-|Hz]; auto. apply Qclt_le_weak, qc_ltb_lt; auto.
    + exists x. split; auto. split; [left; auto|]. apply qc_nlt_le in Q. intros z [<-|Hz]; [apply Qcle_refl|]. eapply Qcle_trans; eauto.
Qed.

Lemma pnorm2_sq u : forall v, pnorm2 (padd u (popp v)) = sq_dist u v.
Proof. induction u as [|x u IH]; intros [|y v]; simpl; auto. unfold pnorm2 in *. simpl. rewrite IH. ring. Qed.
Lemma sq_dist_sym u : forall v, sq_dist u v = sq_dist v u.
Proof. induction u as [|x u IH]; intros [|y v]; simpl; auto. rewrite IH. ring. Qed.
Lemma qc_sq_nonneg (x : Qc) : 0 <= x * x.
Proof.
  destruct (Qclt_le_dec x 0) as [H|H].
  - replace (x * x) with ((- x) * (- x)) by ring. assert (K : 0 <= - x).
    { apply Qclt_le_weak. apply Qclt_minus_iff in H. rewrite Qcplus_0_l in H. exact H. }
    rewrite <- (Qcmult_0_l (- x)). apply Qcmult_le_compat_r; auto.
  - rewrite <- (Qcmult_0_l x). apply Qcmult_le_compat_r; auto.
Qed.
Lemma qc_plus_nonneg (x y : Qc) : 0 <= x -> 0 <= y -> 0 <= x + y.
Proof. intros. rewrite <- (Qcplus_0_l 0). apply Qcplus_le_compat; auto. Qed.
Lemma sq_dist_nonneg u : forall v, 0 <= sq_dist u v.
Proof. induction u as [|x u IH]; intros [|y v]; simpl; try apply Qcle_refl. apply qc_plus_nonneg; auto. apply qc_sq_nonneg. Qed.
Lemma sq_dist_refl u : sq_dist u u = 0.
Proof. induction u as [|x u IH]; simpl; auto. rewrite IH. ring. Qed.
Lemma qc_sq_zero (x : Qc) : x * x = 0 -> x = 0.
Proof. intros H. apply Qcmult_integral in H. destruct H; auto. Qed.
Lemma qc_sum_zero (x y : Qc) : 0 <= x -> 0 <= y -> x + y = 0 -> x = 0 /\ y = 0.
Proof.
  intros Hx Hy H. assert (x = 0); [|split; auto; subst; rewrite Qcplus_0_l in H; auto].
  apply Qcle_antisym; auto. rewrite <- H. rewrite <- (Qcplus_0_r x) at 1. apply Qcplus_le_compat; auto. apply Qcle_refl.
Qed.
Lemma sq_dist_zero u : forall v, length u = length v -> sq_dist u v = 0 -> u = v.
Proof.
  induction u as [|x u IH]; intros [|y v] HL H; try discriminate; auto. simpl in H.
  apply qc_sum_zero in H; [|apply qc_sq_nonneg|apply sq_dist_nonneg]. destruct H as [H1 H2]. f_equal; [|apply IH; auto].
  apply qc_sq_zero in H1. replace x with (x - y + y) by ring. rewrite H1. ring.
Qed.

Definition zneg (m : list Z) := map Z.opp m.
Lemma near_neg per : forall m, near_image per m -> near_image per (zneg m).
Proof.
  intros m [H1 H2]. split.
  - clear H2. revert m H1. induction per as [|p per IH]; intros [|x m] H; simpl in *; auto. destruct H as [Hx H]. split; auto. intros E. rewrite Hx; auto.
  - clear H1. induction H2; simpl; constructor; auto. lia.
Qed.
Lemma combo_neg i ns : forall m vs, combo i (periods ns (zneg m)) vs = - combo i (periods ns m) vs.
Proof.
  induction ns as [|n ns IH]; intros [|x m] [|v vs]; simpl; try ring. rewrite IH.
  replace (- x * n)%Z with (- (x * n))%Z by ring. change (Q2Qc (inject_Z (- (x * n)))) with (qz (- (x * n))). rewrite qz_opp. unfold qz. ring.
Qed.
Lemma sq_dist_shift d vs ns m p q : length p = d -> length q = d ->
  sq_dist (padd p (shift d vs ns m)) q = sq_dist (padd q (shift d vs ns (zneg m))) p.
Proof.
  intros Hp Hq. rewrite <- !pnorm2_sq.
  assert (E : padd (padd q (shift d vs ns (zneg m))) (popp p) = popp (padd (padd p (shift d vs ns m)) (popp q))).
  { apply pvec_ext with d; [rewrite !padd_length, shift_length; unfold popp; rewrite map_length; lia | unfold popp at 1; rewrite map_length, !padd_length, shift_length; unfold popp; rewrite map_length; lia |].
    intros i Hi.
    rewrite coord_padd by (rewrite padd_length, shift_length; unfold popp; rewrite map_length; lia).
    rewrite coord_padd by (rewrite shift_length; lia).
    rewrite !coord_popp.
    rewrite coord_padd by (rewrite padd_length, shift_length; unfold popp; rewrite map_length; lia).
    rewrite coord_padd by (rewrite shift_length; lia).
    rewrite coord_popp, !coord_shift, combo_neg by auto. ring. }
  rewrite E. generalize (padd (padd p (shift d vs ns m)) (popp q)). intros u. unfold pnorm2. induction u as [|x u IH]; simpl; auto. rewrite IH. ring.
Qed.

Lemma near_zero per : near_image per (repeat 0%Z (length per)).
Proof.
  split.
  - induction per as [|p per IH]; simpl; auto.
  - apply Forall_forall. intros x Hx. apply repeat_spec in Hx. subst; lia.
Qed.
Lemma shift_zero d vs ns : length vs = d -> shift d vs ns (repeat 0%Z d) = pzero d.
Proof.
  intros Hv. apply pvec_ext with d; [apply shift_length|apply repeat_length|]. intros i Hi. rewrite coord_shift, coord_pzero by auto.
  clear Hi. revert ns vs Hv. induction d as [|d IH]; intros ns vs Hv; destruct ns as [|n ns], vs as [|v vs]; simpl in *; try discriminate; auto.
  rewrite IH by lia. change (Q2Qc (inject_Z 0)) with (Q2Qc 0). ring.
Qed.

Section Dist.
Variables (show : pvec -> string) (d : nat) (uc : UnitCell) (ns : list Z) (per : list bool) (tol : Qc) (L : Lattice).
Hypothesis HS : cell_shape d uc.
Hypothesis Hns : length ns = d.
Hypothesis Hper : length per = d.
Hypothesis HL : lattice_new show uc ns (Some per) tol = Ok L.
Let vs := uc_vectors uc.

Local Notation near2 := (nearest2 d vs ns per).

Lemma dist_ok p q : exists r, l_dist2 L (PosVec p) (PosVec q) = Ok r /\ near2 p q r.
Proof.
  unfold l_dist2, resolve. cbn [rbind].
  destruct (qmin_spec (map (fun b => pnorm2 (padd (padd p b) (popp q))) (l_bvecs L))) as (r & E & Hr & Hm).
  { destruct (lat show d uc ns per tol L HS Hns Hper HL) as (_ & _ & _ & _ & _ & _ & (t & ->) & _). discriminate. }
  exists r. split; auto. split.
  - intros m Hl Hn. rewrite plus_padd, <- pnorm2_sq. apply Hm. apply in_map_iff. exists (shift d vs ns m). split; auto.
    apply (bvec_iff show d uc ns per tol L HS Hns Hper HL). eauto.
  - apply in_map_iff in Hr. destruct Hr as (b & <- & Hb). apply (bvec_iff show d uc ns per tol L HS Hns Hper HL) in Hb.
    destruct Hb as (m & H1 & H2 & ->). exists m. split; auto. split; auto. rewrite plus_padd, pnorm2_sq. reflexivity.
Qed.
Lemma nearest_unique p q r r' : near2 p q r -> near2 p q r' -> r = r'.
Proof.
  intros [H1 (m & M1 & M2 & M3)] [H2 (m' & M1' & M2' & M3')]. apply Qcle_antisym.
  - rewrite M3'. apply H1; auto.
  - rewrite M3. apply H2; auto.
Qed.
Lemma nearest_sym p q r : length p = d -> length q = d -> near2 p q r -> near2 q p r.
Proof.
  intros Hp Hq [H1 (m & M1 & M2 & ->)]. split.
  - intros m' Hm' Hn'. rewrite (plus_padd q), sq_dist_shift by auto. rewrite <- plus_padd. apply H1; [unfold zneg; rewrite map_length; auto|apply near_neg; auto].
  - exists (zneg m). split; [unfold zneg; rewrite map_length; auto|]. split; [apply near_neg; auto|]. rewrite !plus_padd. apply sq_dist_shift; auto.
Qed.
Lemma dist_sym p q : length p = d -> length q = d -> l_dist2 L (PosVec p) (PosVec q) = l_dist2 L (PosVec q) (PosVec p).
Proof.
  intros Hp Hq. destruct (dist_ok p q) as (r & -> & Hr). destruct (dist_ok q p) as (r' & -> & Hr').
  f_equal. apply (nearest_unique q p); auto. apply nearest_sym; auto.
Qed.
Lemma dist_refl p : length p = d -> l_dist2 L (PosVec p) (PosVec p) = Ok 0.
Proof.
  intros Hp. destruct (dist_ok p p) as (r & -> & [H1 (m & M1 & M2 & M3)]). f_equal. apply Qcle_antisym.
  - assert (N : near_image per (repeat 0%Z d)) by (rewrite <- Hper; apply near_zero).
    specialize (H1 (repeat 0%Z d) (repeat_length _ _) N). rewrite shift_zero in H1 by (apply HS). rewrite plus_padd, padd_zero in H1 by auto.
    rewrite sq_dist_refl in H1. exact H1.
  - rewrite M3. apply sq_dist_nonneg.
Qed.
Lemma dist_resolve a a' p p' : resolve L a = Ok p -> resolve L a' = Ok p' -> l_dist2 L a a' = l_dist2 L (PosVec p) (PosVec p').
Proof. intros H1 H2. unfold l_dist2. rewrite H1, H2. reflexivity. Qed.
End Dist.

(* ------------------------------------------------------ cubic lattices *)

Lemma unit_vec_length d i : length (unit_vec d i) = d.
Proof. unfold unit_vec. rewrite map_length, seq_length. reflexivity. Qed.
Lemma coord_unit d i j : (i < d)%nat -> coord (unit_vec d j) i = if Nat.eqb i j then 1 else 0.
Proof.
  intros H. unfold coord, unit_vec. rewrite nth_indep with (d' := (fun k => if Nat.eqb k j then 1 else 0) 0%nat) by (rewrite map_length, seq_length; auto).
  rewrite (map_nth (fun k => if Nat.eqb k j then 1 else 0)), seq_nth by auto. reflexivity.
Qed.
Lemma combo_units d i : (i < d)%nat -> forall z s, combo i z (map (unit_vec d) (seq s (length z))) = if (s <=? i)%nat then qz (nth (i - s) z 0%Z) else 0.
Proof.
  intros Hi. induction z as [|x z IH]; intros s; simpl.
  - destruct (s <=? i)%nat; destruct (i - s)%nat; reflexivity.
  - rewrite IH, coord_unit by auto. destruct (Nat.eqb_spec i s) as [->|N].
    + rewrite Nat.leb_refl, Nat.sub_diag. destruct (Nat.leb_spec (S s) s); [lia|]. unfold qz. ring.
    + destruct (Nat.leb_spec s i), (Nat.leb_spec (S s) i); try lia.
      * replace (i - s)%nat with (S (i - S s)) by lia. ring.
      * ring.
Qed.
Lemma coord_qz i : forall z, coord (map qz z) i = qz (nth i z 0%Z).
Proof. unfold coord. induction i as [|i IH]; intros [|x z]; simpl; auto. Qed.
Definition units (d : nat) : list pvec := map (unit_vec d) (seq 0 d).
Lemma units_length d : length (units d) = d.
Proof. unfold units. rewrite map_length, seq_length. reflexivity. Qed.
Lemma crystal_units d z : length z = d -> crystal d (units d) z (pzero d) = map qz z.
Proof.
  intros H. apply pvec_ext with d; [apply crystal_length|rewrite map_length; auto|].
  intros i Hi. rewrite coord_crystal, coord_pzero by auto. unfold units. replace (seq 0 d) with (seq 0 (length z)) by (rewrite H; auto).
  rewrite combo_units by auto. simpl. rewrite Nat.sub_0_r, coord_qz. ring.
Qed.
Lemma shift_units d ns m : length ns = d -> length m = d -> shift d (units d) ns m = map qz (periods ns m).
Proof. intros Hn Hm. unfold shift. rewrite <- (crystal_units d (periods ns m)); auto. rewrite periods_length; congruence. Qed.

Lemma qz_lt x y : (x < y)%Z -> qz x < qz y.
Proof.
  intros H. change (Qred (inject_Z x) < Qred (inject_Z y))%Q. rewrite !Qred_correct. rewrite <- Zlt_Qlt. exact H.
Qed.
Lemma qz_le x y : (x <= y)%Z -> qz x <= qz y.
Proof.
  intros H. change (Qred (inject_Z x) <= Qred (inject_Z y))%Q. rewrite !Qred_correct. rewrite <- Zle_Qle. exact H.
Qed.
Lemma qz_inj x y : qz x = qz y -> x = y.
Proof.
  intros H. destruct (Z.lt_trichotomy x y) as [G|[G|G]]; auto; apply qz_lt in G; rewrite H in G; exfalso; revert G; apply Qcle_not_lt, Qcle_refl.
Qed.
Lemma tol8_pos : 0 <= tol8. Proof. discriminate. Qed.
Lemma qz_no_tiny z : no_tiny tol8 (map qz z).
Proof.
  intros x Hx. apply in_map_iff in Hx. destruct Hx as (n & <- & _). destruct (Z.eq_dec n 0) as [->|N]; [left; reflexivity|right].
  destruct (Z_lt_le_dec 0 n).
  - left. apply Qclt_le_trans with (qz 1); [reflexivity|]. apply qz_le. lia.
  - right. apply Qcle_lt_trans with (qz (-1)); [|reflexivity]. apply qz_le. lia.
Qed.
Lemma cubic_rounded d z : length z = d -> rounded tol8 (crystal d (units d) z (pzero d)) = map qz z.
Proof. intros H. rewrite crystal_units by auto. apply rounded_id, qz_no_tiny. Qed.

(** The unit cell of a cubic lattice. *)
Definition cubic_cell (d : nat) (names : list string) : UnitCell := mkUC (units d) [pzero d] [names].
Lemma cubic_shape d names : cell_shape d (cubic_cell d names).
Proof.
  split; [apply units_length|]. split.
  - simpl. intros v H. apply in_map_iff in H. destruct H as (i & <- & _). apply unit_vec_length.
  - simpl. intros p [<-|[]]. apply repeat_length.
Qed.
Lemma cubic_eq show d ns per names : cubic show d ns (Some per) (Some names) = lattice_new show (cubic_cell d names) ns (Some per) tol8.
Proof. reflexivity. Qed.
Lemma map_qz_inj z : forall w, map qz z = map qz w -> z = w.
Proof. induction z as [|x z IH]; intros [|y w] H; try discriminate; auto. assert (H1 : qz x = qz y) by exact (f_equal (hd 0) H). assert (H2 : map qz z = map qz w) by exact (f_equal (@tl Qc) H). apply qz_inj in H1. f_equal; auto. Qed.
Lemma cubic_told show d names B : shows_integers show d B ->
  told_apart show tol8 d (uc_vectors (cubic_cell d names)) (atoms (cubic_cell d names)) B.
Proof.
  intros HI z z' j j' a a' os os' name Hz Hz' Bz Bz' Ha Ha' _ _ E. simpl in E, Ha, Ha'.
  destruct j as [|[|j]], j' as [|[|j']]; simpl in Ha, Ha'; try discriminate. injection Ha as <- <-. injection Ha' as <- <-.
  rewrite !cubic_rounded in E by auto. split; auto.
Qed.

Fixpoint zdist2 (c c' : list Z) : Z := match c, c' with x :: c, y :: c' => ((x - y) * (x - y) + zdist2 c c')%Z | _, _ => 0%Z end.
Lemma sq_dist_qz c : forall c', sq_dist (map qz c) (map qz c') = qz (zdist2 c c').
Proof.
  induction c as [|x c IH]; intros [|y c']; simpl; auto. rewrite IH, qz_add, qz_mul.
  unfold Z.sub. rewrite !qz_add, !qz_opp. ring.
Qed.
Lemma padd_qz c : forall c', padd (map qz c) (map qz c') = map qz (zadd c c').
Proof. induction c as [|x c IH]; intros [|y c']; simpl; auto. rewrite IH, qz_add. reflexivity. Qed.

Lemma torus_le : forall ns per c c' m, in_cells ns c -> in_cells ns c' -> length per = length ns -> image per m ->
  (torus_dist2 ns per c c' <= zdist2 (zadd c (periods ns m)) c')%Z.
Proof.
  induction ns as [|n ns IH]; intros per c c' m Hc Hc' Hp Hi; inversion Hc as [|? x ? c1 Hx Hc1]; inversion Hc' as [|? y ? c2 Hy Hc2]; subst;
    destruct per as [|p per]; try discriminate; destruct m as [|k m]; simpl in Hi; try contradiction;
    cbn [torus_dist2 zdist2 zadd periods].
  destruct Hi as [Hk Hi]. specialize (IH per c1 c2 m Hc1 Hc2 ltac:(simpl in Hp; lia) Hi).
  apply Z.add_le_mono; auto. destruct p.
  - assert (G : (Z.min (Z.abs (x - y)) (n - Z.abs (x - y)) <= Z.abs (x + k * n - y))%Z).
    { destruct (Z.eq_dec k 0) as [->|K]; [rewrite Z.mul_0_l, Z.add_0_r; lia|]. 
      assert (n <= Z.abs (k * n))%Z by (rewrite Z.abs_mul; nia). lia. }
    rewrite <- (Z.abs_square (x + k * n - y)). apply Z.mul_le_mono_nonneg; lia.
  - rewrite Hk by auto. rewrite Z.mul_0_l, Z.add_0_r. rewrite Z.abs_square. lia.
Qed.
Lemma torus_attained : forall ns per c c', in_cells ns c -> in_cells ns c' -> length per = length ns ->
  exists m, length m = length ns /\ near_image per m /\ zdist2 (zadd c (periods ns m)) c' = torus_dist2 ns per c c'.
Proof.
  induction ns as [|n ns IH]; intros per c c' Hc Hc' Hp; inversion Hc as [|? x ? c1 Hx Hc1]; inversion Hc' as [|? y ? c2 Hy Hc2]; subst;
    destruct per as [|p per]; try discriminate.
  - exists []. split; auto. split; [split; [exact I|constructor]|reflexivity].
  - destruct (IH per c1 c2 Hc1 Hc2) as (m & M1 & [M2 M3] & M4); [simpl in Hp; lia|].
    assert (K : exists k, (-1 <= k <= 1)%Z /\ (p = false -> k = 0%Z) /\ ((x + k * n - y) * (x + k * n - y) =
       let e := Z.abs (x - y) in let e := if p then Z.min e (n - e) else e in e * e)%Z).
    { cbv zeta. destruct p.
      - destruct (Z.le_ge_cases (Z.abs (x - y)) (n - Z.abs (x - y))).
        + exists 0%Z. split; [lia|]. split; auto. rewrite Z.min_l by auto. rewrite Z.abs_square. f_equal; lia.
        + rewrite Z.min_r by lia. destruct (Z_lt_le_dec x y).
          * exists 1%Z. split; [lia|]. split; [discriminate|]. f_equal; lia.
          * exists (-1)%Z. split; [lia|]. split; [discriminate|]. rewrite <- Z.abs_square. f_equal; lia.
      - exists 0%Z. split; [lia|]. split; auto. rewrite Z.abs_square. f_equal; lia. }
    destruct K as (k & K1 & K2 & K3). exists (k :: m). split; [simpl; lia|]. split.
    + split; [split; auto|constructor; auto].
    + cbn [torus_dist2 zdist2 zadd periods]. rewrite M4, K3. reflexivity.
Qed.
