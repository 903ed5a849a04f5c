(** Lemmas about lattices: vectors, the list of orbitals and the dictionary of labels. *)
From Coq Require Import String List ZArith Bool Arith QArith Qcanon Lia.
From Verif Require Import GC Exn M_Basis M_Lattice S_Lattice.
Import ListNotations.
Local Open Scope Qc_scope.

(* --------------------------------------------------------------- vectors *)

Lemma padd_length u : forall v, length (padd u v) = Nat.min (length u) (length v).
Proof. induction u as [|x u IH]; intros [|y v]; simpl; auto. Qed.
Lemma padd_comm u : forall v, padd u v = padd v u.
Proof. induction u as [|x u IH]; intros [|y v]; simpl; auto. rewrite IH, Qcplus_comm. reflexivity. Qed.
Lemma padd_assoc u : forall v w, padd u (padd v w) = padd (padd u v) w.
Proof. induction u as [|x u IH]; intros [|y v] [|z w]; simpl; auto. rewrite IH, Qcplus_assoc. reflexivity. Qed.
Lemma coord_padd u : forall v i, length u = length v -> coord (padd u v) i = coord u i + coord v i.
Proof.
  induction u as [|x u IH]; intros [|y v] i H; try discriminate; unfold coord in *; simpl.
  - destruct i; ring.
  - destruct i; auto.
Qed.
Lemma coord_pscale q v i : coord (pscale q v) i = q * coord v i.
Proof. unfold coord, pscale. revert i; induction v as [|x v IH]; intros [|i]; simpl; auto; ring. Qed.
Lemma coord_popp v i : coord (popp v) i = - coord v i.
Proof. unfold coord, popp. revert i; induction v as [|x v IH]; intros [|i]; simpl; auto; ring. Qed.
Lemma coord_pzero d i : coord (pzero d) i = 0.
Proof. unfold coord, pzero. revert i; induction d as [|d IH]; intros [|i]; simpl; auto. Qed.
Lemma pvec_ext d u v : length u = d -> length v = d -> (forall i, (i < d)%nat -> coord u i = coord v i) -> u = v.
Proof. intros Hu Hv H. apply nth_ext with 0 0; [congruence|]. rewrite Hu. exact H. Qed.
Lemma crystal_length d vs z a : length (crystal d vs z a) = d.
Proof. unfold crystal. rewrite map_length, seq_length. reflexivity. Qed.
Lemma coord_crystal d vs z a i : (i < d)%nat -> coord (crystal d vs z a) i = combo i z vs + coord a i.
Proof.
  intros H. unfold coord at 1, crystal.
  rewrite nth_indep with (d' := (fun i => combo i z vs + coord a i) 0%nat) by (rewrite map_length, seq_length; auto).
  rewrite (map_nth (fun i => combo i z vs + coord a i)), seq_nth; auto.
Qed.
Lemma padd_zero d p : length p = d -> padd p (pzero d) = p.
Proof.
  intros H. apply pvec_ext with d; auto.
  - rewrite padd_length. unfold pzero; rewrite repeat_length. lia.
  - intros i _. rewrite coord_padd, coord_pzero by (unfold pzero; rewrite repeat_length; auto). ring.
Qed.

Lemma fold_translate d : forall vs c acc, length acc = d -> (forall v, In v vs -> length v = d) ->
  forall i, coord (fold_left (fun p t => padd p (pscale (qz (fst t)) (snd t))) (combine c vs) acc) i = coord acc i + combo i c vs /\
            length (fold_left (fun p t => padd p (pscale (qz (fst t)) (snd t))) (combine c vs) acc) = d.
Proof.
  induction vs as [|v vs IH]; intros [|x c] acc Ha Hv i; simpl; try (split; [ring|auto]; fail).
  assert (Lv : length (pscale (qz x) v) = d) by (unfold pscale; rewrite map_length; apply Hv; left; auto).
  assert (La : length (padd acc (pscale (qz x) v)) = d) by (rewrite padd_length; lia).
  destruct (IH c _ La (fun w Hw => Hv w (or_intror Hw)) i) as [E1 E2].
  split; auto. rewrite E1, coord_padd, coord_pscale by lia. unfold qz. ring.
Qed.
Lemma cell_position_ok d vs c a : length vs = d -> length c = d -> (forall v, In v vs -> length v = d) -> length a = d ->
  cell_position vs c a = Ok (crystal d vs c a).
Proof.
  intros Hn Hc Hv Ha. unfold cell_position. rewrite Hn, Hc, Nat.ltb_irrefl. f_equal.
  assert (Lz : length (pzero d) = d) by apply repeat_length.
  destruct (fold_translate d vs c (pzero d) Lz Hv 0%nat) as [_ L].
  apply pvec_ext with d.
  - rewrite padd_length. lia.
  - apply crystal_length.
  - intros i Hi. rewrite coord_padd by lia. rewrite (proj1 (fold_translate d vs c (pzero d) Lz Hv i)), coord_pzero, coord_crystal by auto. ring.
Qed.

Lemma qc_neg_lt tol x : qc_ltb tol (- x) = true <-> x < - tol.
Proof.
  rewrite qc_ltb_lt, Qclt_minus_iff, (Qclt_minus_iff x). rewrite (Qcplus_comm (- x)). reflexivity.
Qed.
Lemma clean_rounded tol p : clean tol p = rounded tol p.
Proof.
  unfold clean, rounded. apply map_ext. intros x.
  destruct (Qclt_le_dec tol x) as [H|H].
  - rewrite (proj2 (qc_ltb_lt _ _) H). reflexivity.
  - destruct (qc_ltb tol x) eqn:E; [apply qc_ltb_lt in E; exfalso; exact (Qcle_not_lt _ _ H E)|].
    simpl. destruct (Qclt_le_dec x (- tol)) as [G|G].
    + rewrite (proj2 (qc_neg_lt _ _) G). reflexivity.
    + destruct (qc_ltb tol (- x)) eqn:E'; auto. apply qc_neg_lt in E'. exfalso; exact (Qcle_not_lt _ _ G E').
Qed.
Lemma rounded_length tol p : length (rounded tol p) = length p.
Proof. unfold rounded. apply map_length. Qed.
Lemma rounded_idem tol p : 0 <= tol -> rounded tol (rounded tol p) = rounded tol p.
Proof.
  intros Ht. unfold rounded. rewrite map_map. apply map_ext. intros x.
  destruct (Qclt_le_dec tol x) as [H|H].
  - destruct (Qclt_le_dec tol x); auto; exfalso; eapply Qcle_not_lt; eauto.
  - destruct (Qclt_le_dec x (- tol)) as [G|G].
    + destruct (Qclt_le_dec tol x); auto. destruct (Qclt_le_dec x (- tol)); auto. exfalso; eapply Qcle_not_lt; eauto.
    + destruct (Qclt_le_dec tol 0) as [K|K]; auto. destruct (Qclt_le_dec 0 (- tol)); auto.
Qed.
Lemma rounded_id tol p : no_tiny tol p -> rounded tol p = p.
Proof.
  unfold no_tiny, rounded. induction p as [|x p IH]; intros H; simpl; auto. rewrite IH by (intros; apply H; right; auto). f_equal.
  destruct (Qclt_le_dec tol x) as [G|G]; auto. destruct (Qclt_le_dec x (- tol)) as [K|K]; auto.
  destruct (H x (or_introl eq_refl)) as [->|[E|E]]; auto.
  - exfalso; exact (Qcle_not_lt _ _ G E).
  - exfalso; exact (Qcle_not_lt _ _ K E).
Qed.

(* ---------------------------------------------------------- cell coordinates *)

Lemma zrange_in n x : In x (zrange n) <-> (0 <= x < n)%Z.
Proof.
  unfold zrange. rewrite in_map_iff. split.
  - intros (k & <- & H). apply in_seq in H. lia.
  - intros H. exists (Z.to_nat x). split; [lia|]. apply in_seq. lia.
Qed.
Lemma zrange_length n : length (zrange n) = Z.to_nat n.
Proof. unfold zrange. rewrite map_length, seq_length. reflexivity. Qed.
Lemma cell_coords_in ns : forall c, In c (cell_coords ns) <-> in_cells ns c.
Proof.
  unfold in_cells. induction ns as [|n ns IH]; intros c; simpl.
  - split.
    + intros [<-|[]]. constructor.
    + intros H; inversion H; auto.
  - rewrite in_flat_map. split.
    + intros (x & Hx & H). apply in_map_iff in H. destruct H as (c' & <- & H). constructor; [apply zrange_in; auto | apply IH; auto].
    + intros H; inversion H as [|? x ? c' H1 H2]; subst. exists x. split; [apply zrange_in; auto|]. apply in_map. apply IH; auto.
Qed.
Lemma flat_map_const_length {A B} (f : A -> list B) k l : (forall a, In a l -> length (f a) = k) -> length (flat_map f l) = (length l * k)%nat.
Proof.
  induction l as [|a l IH]; simpl; intros H; auto. rewrite app_length, H, IH by auto. reflexivity.
Qed.
Lemma cell_coords_length ns : length (cell_coords ns) = num_cells ns.
Proof.
  induction ns as [|n ns IH]; simpl; auto.
  rewrite (flat_map_const_length _ (num_cells ns)), zrange_length; auto. intros c _. rewrite map_length; auto.
Qed.
(** Element [i*k + r] of a list of blocks of [k]. *)
Lemma nth_flat_map {A B} (f : A -> list B) k : forall l i r a, (forall a, In a l -> length (f a) = k) ->
  nth_error l i = Some a -> (r < k)%nat -> nth_error (flat_map f l) (i * k + r) = nth_error (f a) r.
Proof.
  induction l as [|b l IH]; intros [|i] r a H E Hr; simpl in *; try discriminate.
  - injection E as ->. rewrite nth_error_app1; auto. rewrite H; auto.
  - rewrite nth_error_app2 by (rewrite H by auto; lia). rewrite H by auto.
    replace (k + i * k + r - k)%nat with (i * k + r)%nat by lia. apply IH; auto.
Qed.
Lemma nth_zrange n x : (0 <= x < n)%Z -> nth_error (zrange n) (Z.to_nat x) = Some x.
Proof.
  intros H. unfold zrange. rewrite nth_error_map.
  replace (nth_error (seq 0 (Z.to_nat n)) (Z.to_nat x)) with (Some (Z.to_nat x)); [simpl; f_equal; lia|].
  symmetry. rewrite nth_error_nth' with (d := 0%nat) by (rewrite seq_length; lia). rewrite seq_nth by lia. reflexivity.
Qed.
Lemma rank_lt ns : forall c, in_cells ns c -> (rank ns c < num_cells ns)%nat.
Proof.
  unfold in_cells. induction ns as [|n ns IH]; intros c H; inversion H as [|? x ? c' H1 H2]; subst; simpl; [lia|].
  specialize (IH _ H2). assert (Z.to_nat x < Z.to_nat n)%nat by lia. nia.
Qed.
Lemma nth_cell_coords ns : forall c, in_cells ns c -> nth_error (cell_coords ns) (rank ns c) = Some c.
Proof.
  induction ns as [|n ns IH]; intros c H; inversion H as [|? x ? c' H1 H2]; subst; simpl; auto.
  rewrite (nth_flat_map _ (num_cells ns) _ (Z.to_nat x) (rank ns c') x).
  - apply map_nth_error. auto.
  - intros y _. rewrite map_length. apply cell_coords_length.
  - apply nth_zrange; auto.
  - apply rank_lt; auto.
Qed.
Lemma in_cells_length ns c : in_cells ns c -> length c = length ns.
Proof. intros H. induction H; simpl; auto. Qed.

(* ------------------------------------------------------- list of orbitals *)

Definition all_orbitals (d : nat) (tol : Qc) (vs : list pvec) (ats : list (pvec * list string)) (cells : list (list Z)) : list orbital :=
  flat_map (fun c => flat_map (fun a => map (fun n => (rounded tol (crystal d vs c (fst a)), n, c)) (snd a)) ats) cells.
Definition put (show : pvec -> string) (st : list orbital * list (string * string * nat)) (o : orbital) :=
  (fst st ++ [o], dset key_eqb (snd st) (show (fst (fst o)), snd (fst o)) (length (fst st))).

Lemma fold_names show pos c names : forall st,
  fold_left (add_orbital pos (show pos) c) names st = fold_left (put show) (map (fun n => (pos, n, c)) names) st.
Proof. induction names as [|n names IH]; intros st; simpl; auto. Qed.
Lemma fold_atoms show d tol vs c : length vs = d -> length c = d -> (forall v, In v vs -> length v = d) ->
  forall ats, (forall a, In a ats -> length (fst a) = d) -> forall st,
  rfold (add_atom_orbitals show tol vs c) ats st =
  Ok (fold_left (put show) (flat_map (fun a => map (fun n => (rounded tol (crystal d vs c (fst a)), n, c)) (snd a)) ats) st).
Proof.
  intros Hn Hc Hv. induction ats as [|a ats IH]; intros Ha st; simpl; auto.
  unfold add_atom_orbitals at 1. rewrite (cell_position_ok d) by (auto; apply Ha; left; auto). cbn [rbind].
  rewrite IH by (intros; apply Ha; right; auto). rewrite clean_rounded, fold_names, fold_left_app. reflexivity.
Qed.
Lemma fold_cells show d tol vs ats : length vs = d -> (forall v, In v vs -> length v = d) -> (forall a, In a ats -> length (fst a) = d) ->
  forall cells, (forall c, In c cells -> length c = d) -> forall st,
  rfold (fun st c => rfold (add_atom_orbitals show tol vs c) ats st) cells st =
  Ok (fold_left (put show) (all_orbitals d tol vs ats cells) st).
Proof.
  intros Hn Hv Ha. induction cells as [|c cells IH]; intros Hc st; simpl; auto.
  rewrite (fold_atoms show d); auto; [|apply Hc; left; auto]. cbn [rbind]. rewrite IH by (intros; apply Hc; right; auto). rewrite fold_left_app. reflexivity.
Qed.

(* ---------------------------------------------------------- dictionary *)

Lemma key_eqb_eq a b : key_eqb a b = true <-> a = b.
Proof.
  unfold key_eqb. rewrite andb_true_iff, !String.eqb_eq. destruct a, b; simpl. split; [intros [-> ->]; auto | intros H; injection H; auto].
Qed.
Lemma dget_dset {V} (d : list (string * string * V)) k k' v :
  dget key_eqb (dset key_eqb d k v) k' = if key_eqb k k' then Some v else dget key_eqb d k'.
Proof.
  induction d as [|[k0 v0] d IH]; simpl.
  - reflexivity.
  - destruct (key_eqb k0 k) eqn:E; simpl.
    + apply key_eqb_eq in E; subst. destruct (key_eqb k k'); auto.
    + rewrite IH. destruct (key_eqb k0 k') eqn:E1; auto. apply key_eqb_eq in E1; subst.
      destruct (key_eqb k k') eqn:E2; auto. apply key_eqb_eq in E2; subst.
      rewrite (proj2 (key_eqb_eq _ _) eq_refl) in E; discriminate.
Qed.

Section Dict.
Variable show : pvec -> string.
Definition okey (o : orbital) : string * string := (show (fst (fst o)), snd (fst o)).
Definition dict_of (st : list orbital * list (string * string * nat)) : Prop :=
  (forall k i, dget key_eqb (snd st) k = Some i -> exists o, nth_error (fst st) i = Some o /\ okey o = k) /\
  (forall i o, nth_error (fst st) i = Some o -> exists j, dget key_eqb (snd st) (okey o) = Some j).
Lemma put_dict st o : dict_of st -> dict_of (put show st o).
Proof.
  intros [H1 H2]. unfold put. split; simpl.
  - intros k i. rewrite dget_dset. destruct (key_eqb _ k) eqn:E.
    + apply key_eqb_eq in E. intros [= <-]. exists o. split; auto.
      rewrite nth_error_app2, Nat.sub_diag by auto. reflexivity.
    + intros H. destruct (H1 _ _ H) as (o' & E1 & E2). exists o'. split; auto.
      rewrite nth_error_app1; auto. apply nth_error_Some. congruence.
  - intros i o' H. rewrite dget_dset. destruct (key_eqb _ (okey o')) eqn:E; eauto.
    destruct (Nat.lt_ge_cases i (length (fst st))) as [L|L].
    + rewrite nth_error_app1 in H by auto. eauto.
    + rewrite nth_error_app2 in H by auto. destruct (i - length (fst st))%nat as [|[|k]]; simpl in H; try discriminate.
      injection H as <-. unfold okey in E. rewrite (proj2 (key_eqb_eq _ _) eq_refl) in E. discriminate.
Qed.
Lemma puts_dict os : forall st, dict_of st -> dict_of (fold_left (put show) os st).
Proof. induction os; simpl; auto using put_dict. Qed.
Lemma puts_fst os : forall st, fst (fold_left (put show) os st) = fst st ++ os.
Proof. induction os as [|o os IH]; intros st; simpl; [rewrite app_nil_r; auto|]. rewrite IH. simpl. rewrite <- app_assoc. reflexivity. Qed.
End Dict.
