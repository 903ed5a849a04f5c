(** Proofs about symmetrize_lattice. *)
From Coq Require Import String List ZArith Bool Arith Lia Permutation QArith Qcanon.
From Verif Require Import GC Exn M_OpString M_Tools M_Basis M_Lattice M_SpaceGroup M_SymLattice S_Lattice S_SymLattice
  L_Tools L_Lattice1 L_Lattice2 L_Lattice4 L_LatticeEx.
Import ListNotations.
Local Open Scope Qc_scope.

(* -------------------------------------------------------- matrices *)

Lemma dot_map {T} (f h : T -> Qc) l : dot (map f l) (map h l) = qsum (map (fun x => f x * h x) l).
Proof. induction l as [|x l IH]; cbn; auto. rewrite IH. reflexivity. Qed.
Lemma list_as_map (l : list Qc) d : length l = d -> l = map (fun j => nth j l 0) (seq 0 d).
Proof.
  intros <-. induction l as [|x l IH]; auto. cbn [length seq map nth]. f_equal. rewrite <- seq_shift, map_map. exact IH.
Qed.
Lemma dot_sum d u v : length u = d -> length v = d -> dot u v = qsum (map (fun j => nth j u 0 * nth j v 0) (seq 0 d)).
Proof. intros Hu Hv. rewrite (list_as_map u d Hu) at 1. rewrite (list_as_map v d Hv) at 1. apply dot_map. Qed.
Lemma mat_vec_maps d M p : square_matrix d M -> length p = d -> maps_to d M p (mat_vec M p).
Proof.
  intros [H1 H2] Hp. split; [unfold mat_vec; rewrite map_length; auto|]. intros i Hi. unfold coord, mat_vec, entry.
  rewrite (nth_indep _ 0 (dot [] p)) by (rewrite map_length; lia). rewrite (map_nth (fun row => dot row p)). apply dot_sum; auto. apply H2. apply nth_In. lia.
Qed.
Lemma mat_mul_product d A B : (0 < d)%nat -> square_matrix d A -> square_matrix d B -> is_product d A B (mat_mul A B).
Proof.
  intros Hd [A1 A2] [B1 B2]. assert (HB : length (hd [] B) = d). { destruct B as [|r B]; cbn in *; [lia|]. apply B2. left; auto. }
  split; [split|].
  - unfold mat_mul. rewrite map_length. auto.
  - intros r Hr. unfold mat_mul in Hr. apply in_map_iff in Hr. destruct Hr as (row & <- & _). rewrite map_length, seq_length. auto.
  - intros i k Hi Hk. unfold entry at 1. unfold mat_mul. rewrite HB.
    rewrite (nth_indep _ [] ((fun row => map (fun j => dot row (mat_col B j)) (seq 0 d)) [])) by (rewrite map_length; lia).
    rewrite (map_nth (fun row => map (fun j => dot row (mat_col B j)) (seq 0 d))).
    rewrite (nth_indep _ 0 ((fun j => dot (nth i A []) (mat_col B j)) 0%nat)) by (rewrite map_length, seq_length; lia).
    rewrite (map_nth (fun j => dot (nth i A []) (mat_col B j))), seq_nth by auto. cbn [Nat.add].
    rewrite (dot_sum d); [|apply A2; apply nth_In; lia | unfold mat_col; rewrite map_length; auto].
    f_equal. apply map_ext_in. intros j Hj. apply in_seq in Hj. unfold entry. f_equal. unfold mat_col.
    rewrite (nth_indep _ 0 ((fun r => nth k r 0) [])) by (rewrite map_length; lia). rewrite (map_nth (fun r => nth k r 0)). reflexivity.
Qed.
Lemma qsum_add {T} (f h : T -> Qc) l : qsum (map (fun x => f x + h x) l) = qsum (map f l) + qsum (map h l).
Proof. induction l as [|x l IH]; cbn; [ring|]. unfold qsum in *. rewrite IH. ring. Qed.
Lemma qsum_scale {T} c (f : T -> Qc) l : qsum (map (fun x => c * f x) l) = c * qsum (map f l).
Proof. induction l as [|x l IH]; cbn; [ring|]. unfold qsum in *. rewrite IH. ring. Qed.
Lemma qsum_swap {T U} (f : T -> U -> Qc) l m : qsum (map (fun x => qsum (map (f x) m)) l) = qsum (map (fun y => qsum (map (fun x => f x y) l)) m).
Proof.
  induction l as [|x l IH]; cbn [map].
  - induction m as [|y m IH]; cbn in *; auto. unfold qsum in *. rewrite <- IH. ring.
  - transitivity (qsum (map (f x) m) + qsum (map (fun x => qsum (map (f x) m)) l)); [reflexivity|].
    rewrite IH, <- (qsum_add (f x) (fun y => qsum (map (fun x => f x y) l)) m). reflexivity.
Qed.
Lemma vec_ext d (u v : list Qc) : length u = d -> length v = d -> (forall i, (i < d)%nat -> coord u i = coord v i) -> u = v.
Proof. intros Hu Hv H. apply (nth_ext u v 0 0); [congruence|]. intros i Hi. apply H. lia. Qed.
(** The product acts as one map after the other. *)
Lemma product_maps d A B C p q r : is_product d A B C -> maps_to d B p q -> maps_to d A q r -> maps_to d C p r.
Proof.
  intros [_ HC] [Hq1 Hq2] [Hr1 Hr2]. split; auto. intros i Hi. rewrite (Hr2 i Hi).
  transitivity (qsum (map (fun j => qsum (map (fun k => entry A i j * (entry B j k * coord p k)) (seq 0 d))) (seq 0 d))).
  - f_equal. apply map_ext_in. intros j Hj. apply in_seq in Hj. rewrite (Hq2 j) by lia. rewrite qsum_scale. reflexivity.
  - rewrite qsum_swap. f_equal. apply map_ext_in. intros k Hk. apply in_seq in Hk. rewrite HC by lia. rewrite Qcmult_comm, <- qsum_scale.
    f_equal. apply map_ext. intros j. ring.
Qed.
Lemma maps_fun d M p q r : maps_to d M p q -> maps_to d M p r -> q = r.
Proof. intros [H1 H2] [H3 H4]. apply (vec_ext d); auto. intros i Hi. rewrite H2, H4; auto. Qed.
Lemma mat_vec_mul d A B p : (0 < d)%nat -> square_matrix d A -> square_matrix d B -> length p = d -> mat_vec (mat_mul A B) p = mat_vec A (mat_vec B p).
Proof.
  intros Hd HA HB Hp. apply (maps_fun d (mat_mul A B) p).
  - apply mat_vec_maps; auto. apply (mat_mul_product d A B); auto.
  - apply (product_maps d A B (mat_mul A B) p (mat_vec B p)); [apply mat_mul_product; auto | apply mat_vec_maps; auto|].
    apply mat_vec_maps; auto. unfold mat_vec. rewrite map_length. apply HB.
Qed.
Lemma eye_square d : square_matrix d (mat_eye d).
Proof.
  split; [unfold mat_eye; rewrite map_length, seq_length; auto|]. intros r Hr. unfold mat_eye in Hr. apply in_map_iff in Hr. destruct Hr as (i & <- & _).
  unfold unit_vec. rewrite map_length, seq_length. auto.
Qed.
Lemma group_square d gens : (0 < d)%nat -> (forall g, In g gens -> square_matrix d g) -> forall fuel G newG R,
  (forall g, In g G -> square_matrix d g) -> (forall g, In g newG -> square_matrix d g) -> group_loop fuel gens G newG = Some R -> forall g, In g R -> square_matrix d g.
Proof.
  intros Hd Hg. induction fuel as [|fuel IH]; intros G newG R HG HN E g Hin; cbn [group_loop] in E; destruct (Nat.eqb _ _); try discriminate; try (injection E as <-; auto; fail).
  apply (IH newG _ R) with (g := g) in E; auto. intros h Hh. apply rd_incl in Hh. destruct Hh as [[]|Hh]. apply in_flat_map in Hh. destruct Hh as (x & Hx & Hh).
  apply in_map_iff in Hh. destruct Hh as (s & <- & Hs). apply (mat_mul_product d x s); auto.
Qed.
Lemma point_group_square d fuel gens G : (0 < d)%nat -> (forall g, In g gens -> square_matrix d g) -> point_group fuel d gens = Some G -> forall g, In g G -> square_matrix d g.
Proof.
  intros Hd Hg E. apply (group_square d gens Hd Hg fuel [mat_eye d] (mat_eye d :: gens)); auto.
  - intros g [<-|[]]. apply eye_square.
  - intros g [<-|H]; auto. apply eye_square.
Qed.

(* -------------------------------------------------------- unit cells *)

Lemma cell_of_spec vs ats : uc_vectors (cell_of vs ats) = vs /\ uc_positions (cell_of vs ats) = map fst ats /\ uc_orbitals (cell_of vs ats) = map snd ats.
Proof.
  unfold cell_of. assert (G : forall l uc, let r := fold_left (fun uc a => add_atom uc (fst a) (Some (snd a))) l uc in
    uc_vectors r = uc_vectors uc /\ uc_positions r = uc_positions uc ++ map fst l /\ uc_orbitals r = uc_orbitals uc ++ map snd l).
  { induction l as [|a l IH]; intros uc; cbn [fold_left map]; [rewrite !app_nil_r; auto|].
    destruct (IH (add_atom uc (fst a) (Some (snd a)))) as (H1 & H2 & H3). cbn zeta. rewrite H1, H2, H3. cbn. rewrite <- !app_assoc. auto. }
  apply (G ats).
Qed.
Lemma combine_fst_snd {T U} (l : list (T * U)) : combine (map fst l) (map snd l) = l.
Proof. induction l as [|[x y] l IH]; cbn; congruence. Qed.

Section Show.
  Variable show : list Qc -> string.
  Variable order : list (list Qc * list string) -> list nat.
  Hypothesis Hord : ordering order.

  Lemma one_cell_ok d L uc : cell_shape d uc -> length (uc_orbitals uc) = length (uc_positions uc) -> length (l_ncells L) = d -> length (l_periodic L) = d ->
    exists N, one_cell show L uc = Ok N /\ lattice_shape d N /\ l_cell N = uc /\ l_periodic N = l_periodic L /\ l_ncells N = repeat 1%Z d /\ exists t, l_bvecs N = pzero d :: t.
  Proof.
    intros Hs Ho Hn Hp. unfold one_cell, l_dim. rewrite Hn.
    destruct (lattice_new_ok show d uc (repeat 1%Z d) (l_periodic L) tol8 Hs (repeat_length _ _) Hp) as (N & t & E & E1 & E2 & E3 & _ & _ & _ & E4 & _).
    exists N. split; auto. split; [|eauto 6]. unfold lattice_shape. rewrite E1, E2, E3, repeat_length. auto.
  Qed.
  (** The boundary vectors depend on the vectors, sizes and boundary conditions only. *)
  Lemma one_cell_bvecs L L' uc uc' N N' : one_cell show L uc = Ok N -> one_cell show L' uc' = Ok N' -> l_dim L = l_dim L' -> l_periodic L = l_periodic L' ->
    uc_vectors uc = uc_vectors uc' -> l_bvecs N = l_bvecs N'.
  Proof.
    unfold one_cell, lattice_new. intros E E' Hd Hp Hv. rewrite <- Hd, <- Hp, <- Hv in E'.
    destruct (rfold _ _ _) as [st|]; [|discriminate]. cbn [rbind] in E. destruct (boundary_loop _ _ _ _) as [bv|]; [|discriminate]. cbn [rbind] in E. injection E as <-.
    destruct (rfold _ _ _) as [st'|]; [|discriminate]. cbn [rbind] in E'. injection E' as <-. reflexivity.
  Qed.
  Lemma near_bvecs N N' tol p q : l_bvecs N = l_bvecs N' -> near N tol p q -> near N' tol p q.
  Proof. intros H (e & E & He). exists e. split; auto. rewrite <- E. unfold l_dist2. cbn [resolve rbind]. rewrite H. reflexivity. Qed.

  Lemma same_atom_spec N tol a b : l_bvecs N <> [] -> (same_atom N tol a b = true <-> near N tol (fst a) (fst b) /\ snd a = snd b).
  Proof.
    intros _. unfold same_atom, near. destruct (l_dist2 N _ _) as [e|] eqn:E.
    - rewrite andb_true_iff, qc_ltb_lt. split.
      + intros [H1 H2]. split; [eauto|]. revert H2. generalize (snd a) (snd b). induction l as [|x l IH]; intros [|y m]; cbn; intros H; try discriminate; auto.
        apply andb_true_iff in H. destruct H as [X Y]. apply String.eqb_eq in X. subst. f_equal. auto.
      + intros [(e' & E' & H) Eo]. injection E' as <-. split; auto. rewrite Eo. generalize (snd b). induction l as [|x l IH]; auto.
        cbn [list_eqb]. rewrite String.eqb_refl. auto.
    - split; [discriminate|]. intros [(e1 & H & _) _]. discriminate.
  Qed.
  Lemma self_near N tol p d t : l_bvecs N = pzero d :: t -> 0 < tol -> near N tol p p.
  Proof.
    intros Hb Ht. unfold near, l_dist2. cbn [resolve rbind]. rewrite Hb.
    destruct (qmin_spec (map (fun b => pnorm2 (padd (padd p b) (popp p))) (pzero d :: t))) as (r & E & _ & Hm); [discriminate|].
    exists r. split; auto. apply Qcle_lt_trans with 0.
    - assert (Z : pnorm2 (padd (padd p (pzero d)) (popp p)) = 0).
      { clear. revert p. induction d as [|d IH]; intros [|x p]; cbn; auto. cbn in IH. unfold pnorm2 in *. cbn. fold (pnorm2 (padd (padd p (pzero d)) (popp p))). unfold pzero, popp, pnorm2 in *. rewrite IH. ring. }
      rewrite <- Z. apply Hm. left. reflexivity.
    - rewrite <- (Qcmult_0_l tol). apply Qcmult_lt_compat_r; auto.
  Qed.

  Lemma atoms_length d L : lattice_shape d L -> forall a, In a (cell_atoms L) -> length (fst a) = d.
  Proof. intros ((_ & _ & H) & _) [p os] Hi. apply in_combine_l in Hi. cbn. auto. Qed.

  (** Symmetrizing and removing duplicates. *)
  Lemma finish d N G tol : lattice_shape d N -> (forall g, In g G -> length g = d) -> 0 < tol ->
    exists N2 R, symmetrize_atoms show order N G = Ok N2 /\ remove_duplicate_atoms show N2 tol = Ok R /\ lattice_shape d R /\
      uc_vectors (l_cell R) = uc_vectors (l_cell N) /\ l_periodic R = l_periodic N /\ l_ncells R = repeat 1%Z d /\
      (forall p o, In (p, o) (cell_atoms R) -> exists g x, In g G /\ In (x, o) (cell_atoms N) /\ p = mat_vec g x) /\
      (forall g x o, In g G -> In (x, o) (cell_atoms N) -> exists q, In (q, o) (cell_atoms R) /\ near R tol (mat_vec g x) q).
  Proof.
    intros HN HG Ht. pose proof (atoms_length d N HN) as HA. destruct HN as ((V1 & V2 & V3) & D1 & D2 & D3). unfold symmetrize_atoms.
    set (info := sym_atoms G (cell_atoms N)).
    assert (II : forall p o, In (p, o) info <-> exists g x, In g G /\ In (x, o) (cell_atoms N) /\ p = mat_vec g x).
    { intros p o. unfold info, sym_atoms. rewrite in_flat_map. split.
      - intros ([x o'] & Hx & H). apply in_map_iff in H. destruct H as (g & E & Hg). cbn [fst snd] in E. injection E as <- <-. eauto.
      - intros (g & x & Hg & Hx & ->). exists (x, o). split; auto. apply in_map_iff. exists g. auto. }
    assert (exists sorted, rmap (fun i => of_option IndexError (nth_error info i)) (order info) = Ok sorted /\ forall a, In a sorted <-> In a info) as (sorted & Es & Is).
    { pose proof (Hord info) as HP. assert (Hb : forall i, In i (order info) -> (i < length info)%nat) by (intros i Hi; apply (Permutation_in _ HP) in Hi; apply in_seq in Hi; lia).
      assert (exists s, rmap (fun i => of_option IndexError (nth_error info i)) (order info) = Ok s /\ forall a, In a s <-> exists i, In i (order info) /\ nth_error info i = Some a) as (s & E & Hs).
      { clear - Hb. induction (order info) as [|i l IH]; [exists []; split; [reflexivity|]; intros a; split; [intros [] | intros (i & [] & _)]|].
        destruct IH as (s & E & Hs); [intros j Hj; apply Hb; right; auto|]. destruct (nth_error info i) as [b|] eqn:Ei.
        - exists (b :: s). cbn [rmap]. rewrite Ei. cbn [of_option rbind]. rewrite E. split; [reflexivity|]. intros a. cbn [In]. rewrite Hs. split.
          + intros [<-|(j & Hj & Ej)]; [exists i; auto | exists j; auto].
          + intros (j & [<-|Hj] & Ej); [left; congruence | right; eauto].
        - exfalso. apply nth_error_None in Ei. specialize (Hb i (or_introl eq_refl)). lia. }
      exists s. split; auto. intros a. rewrite Hs. split.
      - intros (i & _ & E'). eapply nth_error_In; eauto.
      - intros H. apply In_nth_error in H. destruct H as (i & Hi). exists i. split; auto. apply (Permutation_in _ (Permutation_sym HP)). apply in_seq. split; [lia|]. apply nth_error_Some. congruence. }
    rewrite Es. cbn [rbind]. destruct (cell_of_spec (uc_vectors (l_cell N)) sorted) as (C1 & C2 & C3).
    assert (Hlen : forall a, In a sorted -> length (fst a) = d).
    { intros [p o] Ha. apply Is, II in Ha. destruct Ha as (g & x & Hg & Hx & ->). cbn [fst]. unfold mat_vec. rewrite map_length. auto. }
    destruct (one_cell_ok d N (cell_of (uc_vectors (l_cell N)) sorted)) as (N2 & E2 & S2 & U2 & P2 & M2 & t2 & B2); auto.
    { split; [rewrite C1; auto|]. split; [rewrite C1; auto|]. rewrite C2. intros p Hp. apply in_map_iff in Hp. destruct Hp as (a & <- & Ha). auto. }
    { rewrite C2, C3, !map_length. auto. }
    assert (A2 : cell_atoms N2 = sorted) by (unfold cell_atoms; rewrite U2, C2, C3; apply combine_fst_snd).
    set (kept := remove_duplicates (same_atom N2 tol) sorted). destruct (cell_of_spec (uc_vectors (l_cell N)) kept) as (K1 & K2 & K3).
    assert (Hk : forall a, In a kept -> In a sorted) by (intros a Ha; apply rd_incl in Ha; destruct Ha as [[]|]; auto).
    destruct (one_cell_ok d N2 (cell_of (uc_vectors (l_cell N)) kept)) as (R & E3 & S3 & U3 & P3 & M3 & t3 & B3).
    { split; [rewrite K1; auto|]. split; [rewrite K1; auto|]. rewrite K2. intros p Hp. apply in_map_iff in Hp. destruct Hp as (a & <- & Ha). auto. }
    { rewrite K2, K3, !map_length. auto. }
    { rewrite M2. apply repeat_length. } { rewrite P2. auto. }
    assert (A3 : cell_atoms R = kept) by (unfold cell_atoms; rewrite U3, K2, K3; apply combine_fst_snd).
    assert (BV : l_bvecs N2 = l_bvecs R).
    { apply (one_cell_bvecs N N2 _ _ N2 R E2 E3); auto; [unfold l_dim; rewrite M2, repeat_length; auto | rewrite C1, K1; auto]. }
    exists N2, R. split; auto. split; [unfold remove_duplicate_atoms; rewrite U2, A2, C1; exact E3|]. split; auto. split; [rewrite U3, K1; auto|]. split; [congruence|]. split; auto. rewrite A3. split.
    - intros p o Hp. apply II, Is, Hk. auto.
    - intros g x o Hg Hx. assert (Hs : In (mat_vec g x, o) sorted) by (apply Is, II; eauto).
      destruct (rd_cover (same_atom N2 tol)) with (l := sorted) (u := @nil (list Qc * list string)) (x := (mat_vec g x, o)) as ([q o'] & Hq & Hsame); auto.
      { intros a. apply same_atom_spec; [rewrite B2; discriminate|]. split; auto. apply (self_near N2 tol (fst a) d t2); auto. }
      apply same_atom_spec in Hsame; [|rewrite B2; discriminate]. cbn [fst snd] in Hsame. destruct Hsame as [Hn <-]. exists q. split; auto.
      apply (near_bvecs N2 R); auto.
  Qed.

  (** Expanding. *)
  Lemma add_at_length vs k d : length (add_at vs k d) = length vs.
  Proof. revert k. induction vs as [|w vs IH]; intros [|k]; cbn; auto. Qed.
  Lemma add_at_in vs k d n : length d = n -> (forall v, In v vs -> length v = n) -> forall v, In v (add_at vs k d) -> length v = n.
  Proof.
    intros Hd. revert k. induction vs as [|w vs IH]; intros [|k] H v Hv; cbn in *; try tauto.
    - destruct Hv as [<-|Hv]; auto. rewrite padd_length, Hd, H; auto. lia.
    - destruct Hv as [<-|Hv]; auto. apply (IH k); auto.
  Qed.
  Lemma expand_loop d : forall ps L new, lattice_shape d L -> (forall p, In p ps -> length (snd p) = d) ->
    exists L' new', rfold (expand_step show) ps (L, new) = Ok (L', new') /\ lattice_shape d L' /\
      uc_vectors (l_cell L') = fold_left (fun vs p => add_at vs (fst p) (snd p)) ps (uc_vectors (l_cell L)) /\
      cell_atoms L' = cell_atoms L /\ l_periodic L' = l_periodic L /\
      match rev ps with
      | [] => new' = new
      | p :: _ => exists N, new' = Some N /\ lattice_shape d N /\ uc_vectors (l_cell N) = uc_vectors (l_cell L') /\ l_periodic N = l_periodic L /\
          forall x o, In (x, o) (cell_atoms N) <-> In (x, o) (cell_atoms L) \/ exists y, In (y, o) (cell_atoms L) /\ x = padd (snd p) y
      end.
  Proof.
    induction ps as [|p ps IH] using rev_ind; intros L new HL Hps.
    - exists L, new. cbn. auto 8.
    - assert (Hps' : forall q, In q ps -> length (snd q) = d) by (intros q Hq; apply Hps; apply in_or_app; auto).
      destruct (IH L new HL Hps') as (L' & new' & E & HL' & EV & EA & EP & _).
      assert (ER : forall f (l m : list (nat * pvec)) (st : Lattice * option Lattice), rfold f (l ++ m) st = rbind (rfold f l st) (rfold f m)).
      { clear. intros f. induction l as [|x l IH]; intros m st; cbn [app rfold]; [reflexivity|]. destruct (f st x); cbn [rbind]; auto. }
      rewrite ER, E. cbn [rbind rfold]. unfold expand_step at 1, expand_lattice at 1. cbn [fst snd].
      assert (Hp : length (snd p) = d) by (apply Hps, in_or_app; right; left; auto).
      destruct HL' as ((V1 & V2 & V3) & D1 & D2 & D3).
      set (vs := add_at (uc_vectors (l_cell L')) (fst p) (snd p)).
      match goal with |- context [one_cell show L' ?u] => destruct (one_cell_ok d L' u) as (N & EN & SN & UN & PN & MN & t & BN) end; auto.
      { split; [unfold vs; cbn [uc_vectors]; rewrite add_at_length; auto|]. split; [apply add_at_in; auto|]. cbn [uc_positions]. intros q Hq. apply in_app_or in Hq.
        destruct Hq as [Hq|Hq]; auto. apply in_map_iff in Hq. destruct Hq as (y & <- & Hy). rewrite padd_length, Hp, (V3 y Hy). lia. }
      { cbn [uc_positions uc_orbitals]. rewrite !app_length, map_length. lia. }
      rewrite EN. cbn [rbind]. eexists. exists (Some N). split; [reflexivity|]. split.
      { split; [split|split; [|split] ]; cbn [l_cell uc_vectors uc_positions uc_orbitals l_ncells l_periodic]; auto.
        - unfold vs. rewrite add_at_length; auto.
        - split; auto. apply add_at_in; auto. }
      cbn [l_cell uc_vectors]. split; [rewrite fold_left_app; cbn [fold_left]; rewrite <- EV; reflexivity|]. split; [rewrite <- EA; reflexivity|].
      split; [auto|]. rewrite rev_app_distr. cbn [rev app]. exists N. split; auto. split; auto. split; [rewrite UN; reflexivity|]. split; [congruence|].
      intros x o. unfold cell_atoms at 1. rewrite UN. cbn [uc_positions uc_orbitals]. rewrite <- EA. unfold cell_atoms.
      assert (EC : forall (a b : list (list Qc)) (c e : list (list string)), length a = length c -> combine (a ++ b) (c ++ e) = combine a c ++ combine b e).
      { clear. induction a as [|x a IH]; intros b [|y c] e H; try discriminate; cbn; auto. f_equal. apply IH. cbn in H. lia. }
      rewrite EC by auto. rewrite in_app_iff.
      assert (EM : forall (a : list (list Qc)) (c : list (list string)), In (x, o) (combine (map (padd (snd p)) a) c) <-> exists y, In (y, o) (combine a c) /\ x = padd (snd p) y).
      { clear. induction a as [|y a IH]; intros [|z c]; cbn [map combine In]; try solve [split; [intros [] | intros (w & [] & _)] ]. rewrite IH. split.
        - intros [E|(w & H & ->)]; [injection E as <- <-; eauto | eauto].
        - intros (w & [E|H] & ->); [left; congruence | right; eauto]. }
      rewrite EM. tauto.
  Qed.

  Lemma expand_vectors deltas : forall vs, length vs = length deltas ->
    fold_left (fun vs p => add_at vs (fst p) (snd p)) (combine (seq 0 (length deltas)) deltas) vs = map (fun p => padd (fst p) (snd p)) (combine vs deltas).
  Proof.
    assert (G : forall deltas pre vs, length vs = length deltas ->
      fold_left (fun vs p => add_at vs (fst p) (snd p)) (combine (seq (length pre) (length deltas)) deltas) (pre ++ vs) = pre ++ map (fun p => padd (fst p) (snd p)) (combine vs deltas)).
    { induction deltas0 as [|e ds IH]; intros pre [|v vs] H; try discriminate; [reflexivity|]. cbn [length seq combine fold_left map fst snd].
      assert (EA : add_at (pre ++ v :: vs) (length pre) e = (pre ++ [padd v e]) ++ vs).
      { clear. rewrite <- app_assoc. cbn [app]. induction pre as [|x pre IH]; cbn; auto. f_equal. auto. }
      rewrite EA. replace (S (length pre)) with (length (pre ++ [padd v e])) by (rewrite app_length; cbn; lia). rewrite IH by (cbn in H; lia). rewrite <- app_assoc. reflexivity. }
    intros vs H. apply (G deltas [] vs H).
  Qed.

  Lemma expansions_ok d G tol deltas : 0 < tol -> (0 < d)%nat -> (forall g, In g G -> square_matrix d g) -> length deltas = d -> (forall v, In v deltas -> length v = d) ->
    forall n L new, lattice_shape d L -> exists R, expansions show order (S n) G tol deltas L new = Ok R /\ lattice_shape d R /\
      (forall h, square_matrix d h -> (forall g, In g G -> In (mat_mul h g) G) -> forall p o, In (p, o) (cell_atoms R) -> exists q, In (q, o) (cell_atoms R) /\ near R tol (mat_vec h p) q) /\
      (n = 0%nat -> uc_vectors (l_cell R) = map (fun p => padd (fst p) (snd p)) (combine (uc_vectors (l_cell L)) deltas) /\ l_periodic R = l_periodic L /\ l_ncells R = repeat 1%Z d /\
        (forall p o, In (p, o) (cell_atoms R) -> exists g x y, In g G /\ In (x, o) (cell_atoms L) /\ (y = x \/ y = padd (last deltas []) x) /\ p = mat_vec g y) /\
        (forall g x y o, In g G -> In (x, o) (cell_atoms L) -> (y = x \/ y = padd (last deltas []) x) -> exists q, In (q, o) (cell_atoms R) /\ near R tol (mat_vec g y) q)).
  Proof.
    intros Ht Hd HG Hl Hdel. induction n as [|n IH]; intros L new HL.
    all: change (expansions show order (S ?k) G tol deltas L new) with (let! (_, new1) := rfold (expand_step show) (combine (seq 0 (length deltas)) deltas) (L, new) in
        let! N := of_option NameError new1 in let! N2 := symmetrize_atoms show order N G in let! N3 := remove_duplicate_atoms show N2 tol in expansions show order k G tol deltas N3 (Some N3)).
    all: destruct (expand_loop d (combine (seq 0 (length deltas)) deltas) L new HL) as (L' & new' & E & HL' & EV & EA & EP & EN); [intros [k p] Hp; apply in_combine_r in Hp; cbn; auto|].
    all: rewrite E; cbn [rbind].
    all: assert (LR : exists k, rev (combine (seq 0 (length deltas)) deltas) = (k, last deltas []) :: rev (combine (seq 0 (length deltas - 1)) (removelast deltas))).
    1,3: (destruct deltas as [|d0 ds0] using rev_ind; [cbn in Hl; lia|]; clear IHds0 || idtac; exists (length ds0); rewrite last_last, removelast_last, app_length; cbn [length];
       replace (length ds0 + 1 - 1)%nat with (length ds0) by lia; rewrite Nat.add_1_r, seq_S; cbn [Nat.add];
       assert (EC : forall (a : list nat) (b : list (list Qc)) x y, length a = length b -> combine (a ++ [x]) (b ++ [y]) = combine a b ++ [(x, y)]) by (clear; induction a as [|z a IH]; intros [|w b] x y H; cbn in *; try lia; auto; f_equal; auto);
       rewrite EC by apply seq_length; rewrite rev_app_distr; reflexivity).
    all: destruct LR as (k & LR); rewrite LR in EN; cbn [snd] in EN; destruct EN as (N & -> & SN & VN & PN & AN); cbn [of_option rbind].
    all: destruct (finish d N G tol SN (fun g Hg => proj1 (HG g Hg)) Ht) as (N2 & R & E2 & E3 & SR & VR & PR & MR & R1 & R2).
    all: rewrite E2; cbn [rbind]; rewrite E3; cbn [rbind].
    - exists R. split; [reflexivity|]. split; auto. split.
      + intros h Hh Hc p o Hp. destruct (R1 p o Hp) as (g & x & Hg & Hx & ->). destruct (R2 (mat_mul h g) x o (Hc g Hg) Hx) as (q & Hq & Hn).
        exists q. split; auto. rewrite <- (mat_vec_mul d h g x); auto. apply (atoms_length d N SN (x, o) Hx).
      + intros _. split; [rewrite VR, VN, EV; apply expand_vectors; rewrite Hl; apply HL|]. split; [congruence|]. split; auto. split.
        * intros p o Hp. destruct (R1 p o Hp) as (g & x & Hg & Hx & ->). apply AN in Hx. destruct Hx as [Hx|(y & Hy & ->)]; [exists g, x, x | exists g, y, (padd (last deltas []) y)]; auto.
        * intros g x y o Hg Hx Hy. apply (R2 g y o Hg). apply AN. destruct Hy as [->| ->]; [left | right; exists x]; auto.
    - destruct (IH R (Some R) SR) as (R' & E' & SR' & H' & _). exists R'. split; auto. split; auto. split; auto. discriminate.
  Qed.
End Show.
