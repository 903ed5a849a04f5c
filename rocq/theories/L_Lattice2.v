(** Lemmas about lattices: boundary vectors, labels and index. *)
From Coq Require Import String List ZArith Bool Arith QArith Qcanon Lia.
From Verif Require Import GC Exn M_Basis M_Lattice S_Lattice L_Lattice1.
Import ListNotations.
Local Open Scope Qc_scope.

(* ------------------------------------------------------ boundary vectors *)

Lemma qz_mul x y : qz (x * y) = qz x * qz y.
Proof. unfold qz, Qcmult. apply Q2Qc_eq_iff. rewrite inject_Z_mult. apply Qmult_comp; symmetry; apply Qred_correct. Qed.
Lemma qz_add x y : qz (x + y) = qz x + qz y.
Proof. unfold qz, Qcplus. apply Q2Qc_eq_iff. rewrite inject_Z_plus. apply Qplus_comp; symmetry; apply Qred_correct. Qed.
Lemma qz_opp x : qz (- x) = - qz x.
Proof. unfold qz, Qcopp. apply Q2Qc_eq_iff. rewrite inject_Z_opp. apply Qopp_comp; symmetry; apply Qred_correct. Qed.

Lemma shift_length d vs ns m : length (shift d vs ns m) = d.
Proof. apply crystal_length. Qed.
Lemma coord_shift d vs ns m i : (i < d)%nat -> coord (shift d vs ns m) i = combo i (periods ns m) vs.
Proof. intros H. unfold shift. rewrite coord_crystal by auto. change (repeat 0 d) with (pzero d). rewrite coord_pzero. ring. Qed.
Lemma shift_cons d v vs n ns x m : length v = d ->
  shift d (v :: vs) (n :: ns) (x :: m) = padd (pscale (qz (x * n)) v) (shift d vs ns m).
Proof.
  intros H. apply pvec_ext with d.
  - apply shift_length.
  - rewrite padd_length, shift_length. unfold pscale; rewrite map_length. lia.
  - intros i Hi. rewrite coord_padd, coord_pscale, !coord_shift by (auto; rewrite shift_length; unfold pscale; rewrite map_length; auto).
    reflexivity.
Qed.
Lemma shift_nil d vs : shift d vs [] [] = pzero d.
Proof. apply pvec_ext with d; [apply shift_length | apply repeat_length|]. intros i H. rewrite coord_shift, coord_pzero by auto. destruct vs; reflexivity. Qed.

Lemma scale_zero n v d : length v = d -> pscale (qz (0 * n)) v = pzero d.
Proof.
  intros H. apply pvec_ext with d; [unfold pscale; rewrite map_length; auto | apply repeat_length|].
  intros i _. rewrite coord_pscale, coord_pzero, Z.mul_0_l. change (qz 0) with (Q2Qc 0). ring.
Qed.
Lemma scale_one n v : pscale (qz (1 * n)) v = pscale (qz n) v.
Proof. rewrite Z.mul_1_l. reflexivity. Qed.
Lemma scale_minus n v : pscale (qz (-1 * n)) v = popp (pscale (qz n) v).
Proof.
  unfold pscale, popp. rewrite map_map. apply map_ext. intros x. replace (-1 * n)%Z with (- n)%Z by lia. rewrite qz_opp. ring.
Qed.

Lemma boundary_ok d : forall ns per vs bvs, length per = length ns -> length vs = length ns ->
  (forall v, In v vs -> length v = d) -> (forall b, In b bvs -> length b = d) ->
  exists r t, boundary_loop ns per vs bvs = Ok r /\ r = bvs ++ t /\
    forall b, In b r <-> exists b0 m, In b0 bvs /\ length m = length ns /\ near_image per m /\ b = padd b0 (shift d vs ns m).
Proof.
  induction ns as [|n ns IH]; intros per vs bvs Hp Hl Hv Hb; simpl.
  - exists bvs, []. split; auto. split; [rewrite app_nil_r; auto|]. intros b. split.
    + intros H. exists b, []. destruct per; try discriminate. destruct vs; try discriminate.
      split; auto. split; auto. split; [split; [exact I|constructor]|]. rewrite shift_nil, padd_zero; auto.
    + intros (b0 & m & H1 & H2 & H3 & ->). destruct m; try discriminate. destruct vs; try discriminate. rewrite shift_nil, padd_zero; auto.
  - destruct per as [|p per]; try discriminate. destruct vs as [|v vs]; try discriminate.
    injection Hp as Hp. injection Hl as Hl.
    assert (Lv : length v = d) by (apply Hv; left; auto).
    assert (Hv' : forall w, In w vs -> length w = d) by (intros; apply Hv; right; auto).
    destruct p.
    + set (b1 := pscale (qz n) v). set (bvs' := bvs ++ map (padd b1) bvs ++ map (padd (popp b1)) bvs).
      assert (L1 : length b1 = d) by (unfold b1, pscale; rewrite map_length; auto).
      assert (L2 : length (popp b1) = d) by (unfold popp; rewrite map_length; auto).
      destruct (IH per vs bvs') as (r & t & E1 & E2 & E3); auto.
      { intros b H. unfold bvs' in H. rewrite !in_app_iff, !in_map_iff in H.
        destruct H as [H|[(b0 & <- & H)|(b0 & <- & H)]]; auto; rewrite padd_length; rewrite (Hb _ H); lia. }
      exists r, (map (padd b1) bvs ++ map (padd (popp b1)) bvs ++ t). split; auto.
      split; [rewrite E2; unfold bvs'; rewrite <- !app_assoc; reflexivity|].
      intros b. rewrite E3. split.
      * intros (b0 & m & H1 & H2 & [H3 H4] & ->). unfold bvs' in H1. rewrite !in_app_iff, !in_map_iff in H1.
        assert (G : forall x b2, (-1 <= x <= 1)%Z -> In b2 bvs -> b0 = padd (pscale (qz (x * n)) v) b2 ->
          exists b3 m0, In b3 bvs /\ length m0 = S (length ns) /\ near_image (true :: per) m0 /\ padd b0 (shift d vs ns m) = padd b3 (shift d (v :: vs) (n :: ns) m0)).
        { intros x b2 Hx Hi ->. exists b2, (x :: m). split; auto. split; [simpl; congruence|]. split.
          - split; [split; [discriminate|auto] | constructor; auto].
          - rewrite shift_cons by auto. rewrite padd_assoc, (padd_comm b2). reflexivity. }
        destruct H1 as [H1|[(b2 & <- & H1)|(b2 & <- & H1)]].
        -- apply (G 0%Z b0); auto; [lia|]. rewrite (scale_zero _ _ d), padd_comm, padd_zero; auto.
        -- apply (G 1%Z b2); auto; [lia|]. rewrite scale_one. reflexivity.
        -- apply (G (-1)%Z b2); auto; [lia|]. rewrite scale_minus. reflexivity.
      * intros (b0 & m' & H1 & H2 & [H34 H5] & ->); destruct m' as [|x m]; try discriminate; destruct H34 as [H3 H4]. assert (Hx := Forall_inv H5); assert (H6 := Forall_inv_tail H5); clear H5; cbv beta in Hx.
        rewrite shift_cons by auto. rewrite padd_assoc. exists (padd b0 (pscale (qz (x * n)) v)), m.
        split; [|split; [simpl in H2; lia|split; [split; auto|reflexivity]]].
        unfold bvs'. rewrite !in_app_iff, !in_map_iff.
        assert (X : x = 0%Z \/ x = 1%Z \/ x = (-1)%Z) by lia. destruct X as [X|[X|X]]; rewrite X.
        -- left. rewrite (scale_zero _ _ d), padd_zero; auto.
        -- right; left. exists b0. split; auto. rewrite scale_one. apply padd_comm.
        -- right; right. exists b0. split; auto. rewrite scale_minus. apply padd_comm.
    + destruct (IH per vs bvs) as (r & t & E1 & E2 & E3); auto.
      exists r, t. split; auto. split; auto. intros b. rewrite E3. split.
      * intros (b0 & m & H1 & H2 & [H3 H4] & ->). exists b0, (0%Z :: m). split; auto. split; [simpl; congruence|]. split.
        -- split; [split; auto | constructor; auto; lia].
        -- rewrite shift_cons, (scale_zero _ _ d) by auto. f_equal. rewrite padd_comm, padd_zero; auto. apply shift_length.
      * intros (b0 & m' & H1 & H2 & [H34 H5] & ->); destruct m' as [|x m]; try discriminate; destruct H34 as [H3 H4]. assert (Hx := Forall_inv H5); assert (H6 := Forall_inv_tail H5); clear H5; cbv beta in Hx.
        rewrite (H3 eq_refl), shift_cons by auto. rewrite (scale_zero _ _ d) by auto.
        exists b0, m. split; auto. split; [simpl in H2; lia|]. split; [split; auto|].
        f_equal. rewrite padd_comm, padd_zero; auto. apply shift_length.
Qed.

(* --------------------------------------------------------- constructor *)

Lemma atoms_shape d uc : cell_shape d uc -> forall a, In a (atoms uc) -> length (fst a) = d.
Proof. intros (_ & _ & H) [p os] Hi. apply in_combine_l in Hi. simpl. auto. Qed.

Lemma lattice_new_ok show d uc ns per tol : cell_shape d uc -> length ns = d -> length per = d ->
  exists L t, lattice_new show uc ns (Some per) tol = Ok L /\ l_cell L = uc /\ l_ncells L = ns /\ l_periodic L = per /\ l_tol L = tol /\
    l_orbitals L = all_orbitals d tol (uc_vectors uc) (atoms uc) (cell_coords ns) /\
    dict_of show (l_orbitals L, l_indices L) /\ l_bvecs L = pzero d :: t /\
    forall b, In b (l_bvecs L) <-> exists m, length m = d /\ near_image per m /\ b = shift d (uc_vectors uc) ns m.
Proof.
  intros S Hn Hp. destruct (S) as (Lv & Hv & Ha).
  unfold lattice_new. rewrite (fold_cells show d); auto.
  2: exact (atoms_shape d uc S).
  2: { intros c H. apply cell_coords_in, in_cells_length in H. congruence. }
  cbn [rbind]. rewrite Hn.
  destruct (boundary_ok d ns per (uc_vectors uc) [pzero d]) as (r & t & E1 & E2 & E3); auto; try congruence.
  { intros b [<-|[]]. apply repeat_length. }
  rewrite E1. cbn [rbind]. eexists; exists t. split; [reflexivity|]. cbn [l_cell l_ncells l_periodic l_tol l_orbitals l_indices l_bvecs].
  rewrite puts_fst. repeat (split; [reflexivity|]). split; [|split; auto].
  - assert (D : dict_of show ([], [])) by (split; simpl; intros; [discriminate | destruct i; discriminate]).
    pose proof (puts_dict show (all_orbitals d tol (uc_vectors uc) (combine (uc_positions uc) (uc_orbitals uc)) (cell_coords ns)) _ D) as G.
    destruct G as [G1 G2]. rewrite puts_fst in G1, G2. split; auto.
  - intros b. rewrite E3. split.
    + intros (b0 & m & [<-|[]] & H1 & H2 & ->). exists m. rewrite padd_comm, padd_zero by apply shift_length. rewrite H1; auto.
    + intros (m & H1 & H2 & ->). exists (pzero d), m. split; [left; auto|]. split; [congruence|]. split; auto.
      rewrite padd_comm, padd_zero; auto. apply shift_length.
Qed.

(* ------------------------------------------------------------- labels *)

Lemma nth_flat_map_var {A B} (f : A -> list B) : forall l j r a, nth_error l j = Some a -> (r < length (f a))%nat ->
  nth_error (flat_map f l) (list_sum (map (fun x => length (f x)) (firstn j l)) + r) = nth_error (f a) r.
Proof.
  induction l as [|b l IH]; intros [|j] r a E Hr; simpl in *; try discriminate.
  - injection E as ->. rewrite nth_error_app1; auto.
  - rewrite nth_error_app2 by lia. rewrite <- (IH j r a E Hr). f_equal. lia.
Qed.
Lemma nth_flat_map_inv {A B} (f : A -> list B) : forall l i b, nth_error (flat_map f l) i = Some b ->
  exists j r a, nth_error l j = Some a /\ nth_error (f a) r = Some b /\ i = (list_sum (map (fun x => length (f x)) (firstn j l)) + r)%nat.
Proof.
  induction l as [|a l IH]; intros i b H; simpl in *.
  - destruct i; discriminate.
  - destruct (Nat.lt_ge_cases i (length (f a))) as [L|L].
    + rewrite nth_error_app1 in H by auto. exists 0%nat, i, a. simpl. auto.
    + rewrite nth_error_app2 in H by auto. destruct (IH _ _ H) as (j & r & a' & H1 & H2 & H3).
      exists (S j), r, a'. simpl. split; auto. split; auto. lia.
Qed.
Lemma list_sum_const {A} (f : A -> nat) k l : (forall a, In a l -> f a = k) -> list_sum (map f l) = (length l * k)%nat.
Proof. induction l as [|a l IH]; simpl; intros H; [reflexivity|]. f_equal; [apply H; left; auto|]. apply IH. intros; apply H; right; auto. Qed.
Lemma rank_nth ns : forall q c, nth_error (cell_coords ns) q = Some c -> rank ns c = q.
Proof.
  induction ns as [|n ns IH]; intros q c H; simpl in *.
  - destruct q as [|[|q]]; simpl in H; try discriminate. injection H as <-. reflexivity.
  - destruct (nth_flat_map_inv _ _ _ _ H) as (j & r & x & H1 & H2 & H3).
    rewrite nth_error_map in H2. destruct (nth_error (cell_coords ns) r) as [c'|] eqn:E; try discriminate. injection H2 as <-.
    rewrite (list_sum_const _ (num_cells ns)) in H3 by (intros; rewrite map_length; apply cell_coords_length).
    assert (Hj : (j < length (zrange n))%nat) by (apply nth_error_Some; congruence).
    rewrite firstn_length_le in H3 by lia. rewrite (IH _ _ E). unfold zrange in H1. rewrite nth_error_map in H1.
    destruct (nth_error (seq 0 (Z.to_nat n)) j) as [y|] eqn:Ey; try discriminate. injection H1 as <-.
    assert (y = j). { rewrite nth_error_nth' with (d := 0%nat) in Ey by (rewrite seq_length; rewrite zrange_length in Hj; lia).
      rewrite seq_nth in Ey by (rewrite zrange_length in Hj; lia). injection Ey; auto. }
    subst. rewrite Nat2Z.id. reflexivity.
Qed.

Section Labels.
Variables (d : nat) (tol : Qc) (vs : list pvec) (ats : list (pvec * list string)) (ns : list Z).
Let cellf (c : list Z) := flat_map (fun a : pvec * list string => map (fun n => (rounded tol (crystal d vs c (fst a)), n, c)) (snd a)) ats.
Lemma cellf_length c : length (cellf c) = per_cell ats.
Proof.
  unfold cellf, per_cell. induction ats as [|a l IH]; simpl; auto. rewrite app_length, map_length, IH. reflexivity.
Qed.
Lemma label_sum j c : list_sum (map (fun x : pvec * list string => length (map (fun n => (rounded tol (crystal d vs c (fst x)), n, c)) (snd x))) (firstn j ats)) = per_cell (firstn j ats).
Proof. unfold per_cell. f_equal. apply map_ext. intros a. apply map_length. Qed.
Lemma offset_lt j a os k : nth_error ats j = Some (a, os) -> (k < length os)%nat -> (per_cell (firstn j ats) + k < per_cell ats)%nat.
Proof.
  unfold per_cell. revert j. induction ats as [|b l IH]; intros [|j] H Hk; simpl in *; try discriminate.
  - injection H as ->. simpl. lia.
  - specialize (IH _ H Hk). lia.
Qed.
Lemma nth_label c j k a os name : in_cells ns c -> nth_error ats j = Some (a, os) -> nth_error os k = Some name ->
  nth_error (all_orbitals d tol vs ats (cell_coords ns)) (label_of ns ats c j k) = Some (rounded tol (crystal d vs c a), name, c).
Proof.
  intros Hc Ha Hk. assert (Lk : (k < length os)%nat) by (apply nth_error_Some; congruence).
  unfold all_orbitals, label_of. rewrite <- Nat.add_assoc.
  rewrite (nth_flat_map _ (per_cell ats) _ (rank ns c) (per_cell (firstn j ats) + k) c).
  - rewrite <- (label_sum j c). rewrite (nth_flat_map_var _ ats j k (a, os)); auto.
    + simpl. rewrite nth_error_map, Hk. reflexivity.
    + simpl. rewrite map_length; auto.
  - intros x _. apply (cellf_length x).
  - apply nth_cell_coords; auto.
  - eapply offset_lt; eauto.
Qed.
Lemma nth_label_inv i o : nth_error (all_orbitals d tol vs ats (cell_coords ns)) i = Some o ->
  exists c j k a os name, in_cells ns c /\ nth_error ats j = Some (a, os) /\ nth_error os k = Some name /\
    i = label_of ns ats c j k /\ o = (rounded tol (crystal d vs c a), name, c).
Proof.
  intros H. unfold all_orbitals in H. destruct (nth_flat_map_inv _ _ _ _ H) as (q & r & c & H1 & H2 & H3).
  destruct (nth_flat_map_inv _ _ _ _ H2) as (j & k & [a os] & H4 & H5 & H6). simpl in H5.
  rewrite nth_error_map in H5. destruct (nth_error os k) as [name|] eqn:E; try discriminate. injection H5 as <-.
  exists c, j, k, a, os, name. split; [apply cell_coords_in; eapply nth_error_In; eauto|]. split; auto. split; auto. split; auto.
  rewrite H3, H6, label_sum. unfold label_of. rewrite (rank_nth _ _ _ H1).
  rewrite (list_sum_const _ (per_cell ats)).
  - rewrite firstn_length_le by (apply Nat.lt_le_incl, nth_error_Some; congruence). lia.
  - intros x _. apply (cellf_length x).
Qed.
Lemma all_length : length (all_orbitals d tol vs ats (cell_coords ns)) = (num_cells ns * per_cell ats)%nat.
Proof. unfold all_orbitals. rewrite (flat_map_const_length _ (per_cell ats)), cell_coords_length; auto. intros x _. apply (cellf_length x). Qed.
End Labels.

(* --------------------------------------------------------------- index *)

Lemma index_found show L p name r : forall bvs,
  (forall b i, In b bvs -> dget key_eqb (l_indices L) (show (clean (l_tol L) (padd p b)), name) = Some i -> i = r) ->
  (exists b, In b bvs /\ dget key_eqb (l_indices L) (show (clean (l_tol L) (padd p b)), name) <> None) ->
  index_loop show L p name bvs = Z.of_nat r.
Proof.
  induction bvs as [|b bvs IH]; intros H1 (b0 & H2 & H3); [destruct H2|]. simpl.
  destruct (dget key_eqb (l_indices L) (show (clean (l_tol L) (padd p b)), name)) as [i|] eqn:E.
  - f_equal. eapply H1; [left; reflexivity | exact E].
  - apply IH; [intros b1 i Hb Hd; exact (H1 b1 i (or_intror Hb) Hd)|]. destruct H2 as [<-|H2]; [congruence|]. eauto.
Qed.
Lemma index_none show L p name : forall bvs,
  (forall b, In b bvs -> dget key_eqb (l_indices L) (show (clean (l_tol L) (padd p b)), name) = None) ->
  index_loop show L p name bvs = (-1)%Z.
Proof. induction bvs as [|b bvs IH]; intros H; simpl; auto. rewrite H by (left; auto). apply IH. intros; apply H; right; auto. Qed.
Lemma index_sound show L p name : forall bvs, (0 <= index_loop show L p name bvs)%Z ->
  exists b i, In b bvs /\ index_loop show L p name bvs = Z.of_nat i /\ dget key_eqb (l_indices L) (show (clean (l_tol L) (padd p b)), name) = Some i.
Proof.
  induction bvs as [|b bvs IH]; simpl; intros H; [lia|].
  destruct (dget _ _ _) as [i|] eqn:E.
  - exists b, i. auto.
  - destruct (IH H) as (b0 & i & H1 & H2 & H3). exists b0, i. auto.
Qed.
Lemma index_range show L p name : forall bvs, index_loop show L p name bvs = (-1)%Z \/ (0 <= index_loop show L p name bvs)%Z.
Proof. induction bvs as [|b bvs IH]; simpl; auto. destruct (dget _ _ _); auto. right; lia. Qed.
Lemma index_none_inv show L p name : forall bvs, index_loop show L p name bvs = (-1)%Z ->
  forall b, In b bvs -> dget key_eqb (l_indices L) (show (clean (l_tol L) (padd p b)), name) = None.
Proof.
  induction bvs as [|b bvs IH]; simpl; intros H b0 Hb; [destruct Hb|].
  destruct (dget _ _ _) as [i|] eqn:E; [lia|]. destruct Hb as [<-|Hb]; auto.
Qed.
