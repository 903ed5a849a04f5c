(** The group generated by one matrix, and the statements of P_SymLattice.v. *)
From Coq Require Import String List ZArith Bool Arith Lia Permutation QArith Qcanon.
From Verif Require Import GC Exn M_OpString M_Tools M_Basis M_Lattice M_SpaceGroup M_SymLattice S_Lattice S_SymLattice
  L_Tools L_Lattice1 L_Lattice2 L_Lattice3 L_Lattice4 L_LatticeEx L_Show L_SymLattice.
Import ListNotations.
Local Open Scope Qc_scope.

Lemma qabs_magnitude x : qabs x = magnitude x.
Proof.
  unfold qabs, magnitude. destruct (qc_ltb x 0) eqn:E; destruct (Qclt_le_dec x 0) as [H|H]; auto.
  - apply qc_ltb_lt in E. exfalso. apply (Qclt_not_le _ _ E H).
  - apply qc_ltb_lt in H. congruence.
Qed.
Lemma matrix_ext d A B : square_matrix d A -> square_matrix d B -> (forall i j, (i < d)%nat -> (j < d)%nat -> entry A i j = entry B i j) -> A = B.
Proof.
  intros [A1 A2] [B1 B2] H. apply (nth_ext A B [] []); [congruence|]. intros i Hi. apply (vec_ext d).
  - apply A2, nth_In. auto.
  - apply B2, nth_In. lia.
  - intros j Hj. apply H; lia.
Qed.
Lemma qsum_delta (f : nat -> Qc) i : forall l, NoDup l -> In i l -> qsum (map (fun j => (if Nat.eqb j i then 1 else 0) * f j) l) = f i.
Proof.
  induction l as [|x l IH]; intros D H; [destruct H|]. inversion D; subst. cbn [map qsum fold_right]. fold (qsum (map (fun j => (if Nat.eqb j i then 1 else 0) * f j) l)).
  destruct H as [->|H].
  - rewrite Nat.eqb_refl. assert (Z : qsum (map (fun j => (if Nat.eqb j i then 1 else 0) * f j) l) = 0).
    { clear IH D H3. induction l as [|y l IH]; auto. cbn [map qsum fold_right]. fold (qsum (map (fun j => (if Nat.eqb j i then 1 else 0) * f j) l)).
      rewrite IH by (intros Hi; apply H2; right; auto). destruct (Nat.eqb_spec y i); [subst; exfalso; apply H2; left; auto|]. ring. }
    rewrite Z. ring.
  - rewrite IH; auto. destruct (Nat.eqb_spec x i); [subst; contradiction|]. ring.
Qed.
Lemma eye_mul d M : (0 < d)%nat -> square_matrix d M -> mat_mul (mat_eye d) M = M.
Proof.
  intros Hd HM. destruct (mat_mul_product d (mat_eye d) M Hd (eye_square d) HM) as [H1 H2]. apply (matrix_ext d); auto. intros i k Hi Hk. rewrite H2; auto.
  rewrite <- (qsum_delta (fun j => entry M j k) i (seq 0 d)) by (try apply seq_NoDup; apply in_seq; lia). f_equal. apply map_ext_in. intros j Hj. apply in_seq in Hj. f_equal.
  unfold entry, mat_eye. rewrite (nth_indep _ [] (unit_vec d 0)) by (rewrite map_length, seq_length; lia). rewrite (map_nth (unit_vec d)), seq_nth by auto. cbn [Nat.add].
  unfold unit_vec. rewrite (nth_indep _ 0 ((fun j => if Nat.eqb j i then 1 else 0) 0%nat)) by (rewrite map_length, seq_length; lia).
  rewrite (map_nth (fun j => if Nat.eqb j i then 1 else 0)), seq_nth by lia. reflexivity.
Qed.
Lemma differ_not_close d A B : square_matrix d A -> square_matrix d B -> differ d A B -> allclose tol12q A B = false.
Proof.
  intros [A1 A2] [B1 B2] (i & j & Hi & Hj & H). apply not_true_is_false. intros E. unfold allclose in E. rewrite forallb_forall in E.
  assert (Hp : In (nth i A [], nth i B []) (combine A B)).
  { replace (nth i A [], nth i B []) with (nth i (combine A B) ([], [])) by (apply combine_nth; congruence). apply nth_In. rewrite combine_length. lia. }
  apply E in Hp. cbn [fst snd] in Hp. rewrite forallb_forall in Hp.
  assert (La : length (nth i A []) = d) by (apply A2, nth_In; lia). assert (Lb : length (nth i B []) = d) by (apply B2, nth_In; lia).
  assert (Hq : In (entry A i j, entry B i j) (combine (nth i A []) (nth i B []))).
  { unfold entry. replace (nth j (nth i A []) 0, nth j (nth i B []) 0) with (nth j (combine (nth i A []) (nth i B [])) (0, 0)) by (apply combine_nth; congruence).
    apply nth_In. rewrite combine_length. lia. }
  apply Hp in Hq. cbn [fst snd] in Hq. unfold close, tol12q in Hq. rewrite !qabs_magnitude in Hq. apply negb_true_iff in Hq. apply qc_ltb_lt in H. congruence.
Qed.
Lemma single_generator : forall fuel d r rr, (0 < d)%nat -> square_matrix d r -> is_product d r r rr -> differ d rr r ->
  point_group (S fuel) d [r] = Some [mat_eye d; r].
Proof.
  intros fuel d r rr Hd Hr [Hs Hp] Hdiff. assert (Er : mat_mul r r = rr).
  { destruct (mat_mul_product d r r Hd Hr Hr) as [H1 H2]. apply (matrix_ext d); auto. intros i j Hi Hj. rewrite H2, Hp; auto. }
  unfold point_group. cbn [group_loop length Nat.eqb flat_map map app]. rewrite eye_mul, Er by auto. unfold remove_duplicates. cbn [remove_dup_loop existsb app].
  rewrite (differ_not_close d rr r) by auto. cbn [orb]. destruct fuel; reflexivity.
Qed.

Lemma atoms_lists L : cell_atoms L = atoms (l_cell L).
Proof. reflexivity. Qed.

Lemma symmetrize_ok : forall show order d fuel L gens n tol G, ordering order -> lattice_shape d L -> (0 < d)%nat -> (forall g, In g gens -> square_matrix d g) -> 0 < tol ->
  point_group fuel d gens = Some G ->
  exists R, symmetrize_lattice show order fuel L gens (S n) tol = Some (Ok R) /\ lattice_shape d R /\
    (forall h, square_matrix d h -> (forall g, In g G -> exists hg, is_product d h g hg /\ In hg G) ->
       forall p o p', In (p, o) (atoms (l_cell R)) -> maps_to d h p p' -> exists q, In (q, o) (atoms (l_cell R)) /\ near R tol p' q).
Proof.
  intros show order d fuel L gens n tol G Ho HL Hd Hg Ht EG. unfold symmetrize_lattice, l_dim. pose proof HL as (HC & HN & _). rewrite HN, EG.
  pose proof (point_group_square d fuel gens G Hd Hg EG) as HG. destruct HC as (V1 & V2 & V3).
  destruct (expansions_ok show order Ho d G tol (uc_vectors (l_cell L)) Ht Hd HG V1 V2 n L None HL) as (R & E & SR & H & _).
  exists R. rewrite E. split; auto. split; auto. intros h Hh Hc p o p' Hp Hm.
  assert (Lp : length p = d) by (apply (atoms_length d R SR (p, o) Hp)).
  rewrite (maps_fun d h p p' (mat_vec h p) Hm) by (apply mat_vec_maps; auto). apply H; auto.
  intros g Hg'. destruct (Hc g Hg') as (hg & [P1 P2] & Hin). replace (mat_mul h g) with hg; auto.
  destruct (mat_mul_product d h g Hd Hh (HG g Hg')) as [H1 H2]. apply (matrix_ext d); auto. intros i j Hi Hj. rewrite P2, H2; auto.
Qed.
Lemma one_expansion : forall show order d fuel L gens tol G, ordering order -> lattice_shape d L -> (0 < d)%nat -> (forall g, In g gens -> square_matrix d g) -> 0 < tol ->
  point_group fuel d gens = Some G ->
  exists R, symmetrize_lattice show order fuel L gens 1 tol = Some (Ok R) /\
    uc_vectors (l_cell R) = map (fun v => plus v v) (uc_vectors (l_cell L)) /\ l_periodic R = l_periodic L /\ l_ncells R = repeat 1%Z d /\
    (forall p o, In (p, o) (atoms (l_cell R)) -> exists g x y, In g G /\ In (x, o) (atoms (l_cell L)) /\ (y = x \/ y = plus (last (uc_vectors (l_cell L)) []) x) /\ maps_to d g y p) /\
    (forall g x y p o, In g G -> In (x, o) (atoms (l_cell L)) -> y = x \/ y = plus (last (uc_vectors (l_cell L)) []) x -> maps_to d g y p ->
       exists q, In (q, o) (atoms (l_cell R)) /\ near R tol p q).
Proof.
  intros show order d fuel L gens tol G Ho HL Hd Hg Ht EG. unfold symmetrize_lattice, l_dim. pose proof HL as (HC & HN & _). rewrite HN, EG.
  pose proof (point_group_square d fuel gens G Hd Hg EG) as HG. destruct HC as (V1 & V2 & V3).
  destruct (expansions_ok show order Ho d G tol (uc_vectors (l_cell L)) Ht Hd HG V1 V2 0 L None HL) as (R & E & SR & _ & H). destruct (H eq_refl) as (R1 & R2 & R3 & R4 & R5).
  assert (Hlast : length (last (uc_vectors (l_cell L)) []) = d).
  { apply V2. assert (uc_vectors (l_cell L) <> []) by (intros Z; rewrite Z in V1; cbn in V1; lia). rewrite (app_removelast_last [] H0) at 2. apply in_or_app. right. left. auto. }
  assert (Ly : forall x o y, In (x, o) (atoms (l_cell L)) -> y = x \/ y = padd (last (uc_vectors (l_cell L)) []) x -> length y = d).
  { intros x o y Hx [->| ->]; [apply (atoms_length d L HL (x, o) Hx)|]. rewrite padd_length, Hlast, (atoms_length d L HL (x, o) Hx : length x = d). lia. }
  exists R. rewrite E. split; auto. split.
  { rewrite R1. clear. induction (uc_vectors (l_cell L)) as [|v l IH]; auto. cbn [combine map fst snd]. rewrite IH, plus_padd. reflexivity. }
  split; auto. split; auto. split.
  - intros p o Hp. destruct (R4 p o Hp) as (g & x & y & H1 & H2 & H3 & ->). exists g, x, y. split; auto. split; auto. split; [rewrite plus_padd; auto|]. apply mat_vec_maps; eauto.
  - intros g x y p o H1 H2 H3 Hm. rewrite plus_padd in H3. rewrite (maps_fun d g y p (mat_vec g y) Hm) by (apply mat_vec_maps; eauto). apply (R5 g x y o); auto.
Qed.

(* -------------------------------------------------------- examples *)

Definition q14 : Qc := Q2Qc (1 # 4).
Definition q18 : Qc := Q2Qc (1 # 8).
Definition rot4 : list (list Qc) := [[0; -(1)]; [1; 0]].
Definition in_order (l : list (list Qc * list string)) : list nat := seq 0 (length l).
Lemma in_order_ordering : ordering in_order.
Proof. intros l. apply Permutation_refl. Qed.
Definition off_cell : UnitCell := mkUC [[1; 0]; [0; 1]] [[q14; q18]] [["A"%string]].
Definition off_lattice : Lattice := match lattice_new show_exact off_cell [1; 1]%Z (Some [true; true]) tol8 with Ok L => L | Err _ => mkLattice off_cell [] [] 0 [] [] [] end.
Definition off_expanded : res Lattice := expansions show_exact in_order 1 [mat_eye 2; rot4] tol12q [[1; 0]; [0; 1]] off_lattice None.
Definition off_sym : Lattice := match off_expanded with Ok L => L | _ => off_lattice end.
Lemma off_shape : lattice_shape 2 off_lattice.
Proof. vm_compute. intuition (subst; auto). Qed.
Lemma rot4_square : square_matrix 2 rot4.
Proof. split; auto. cbn. intros r [<-|[<-|[] ] ]; auto. Qed.
Lemma rot4_differ : is_product 2 rot4 rot4 [[-(1); 0]; [0; -(1)]] /\ differ 2 [[-(1); 0]; [0; -(1)]] rot4.
Proof.
  split.
  - split; [split; auto; cbn; intros r [<-|[<-|[] ] ]; auto|]. intros [|[|i] ] [|[|k] ] Hi Hk; try lia; apply Qc_is_canon; vm_compute; reflexivity.
  - exists 0%nat, 0%nat. split; [lia|]. split; [lia|]. apply qc_ltb_lt. vm_compute. reflexivity.
Qed.
Lemma rot4_group fuel : point_group (S fuel) 2 [rot4] = Some [mat_eye 2; rot4].
Proof. destruct rot4_differ as [H1 H2]. apply (single_generator fuel 2 rot4 [[-(1); 0]; [0; -(1)]]); auto using rot4_square. Qed.
Lemma off_dim : l_dim off_lattice = 2%nat.
Proof. vm_compute. reflexivity. Qed.
Lemma off_vectors : uc_vectors (l_cell off_lattice) = [[1; 0]; [0; 1]].
Proof. vm_compute. reflexivity. Qed.
Lemma off_done : exists R, off_expanded = Ok R.
Proof.
  assert (H : match off_expanded with Ok _ => true | Err _ => false end = true) by (vm_compute; reflexivity).
  destruct off_expanded as [R|]; [exists R; reflexivity | discriminate].
Qed.
Lemma off_run fuel : symmetrize_lattice show_exact in_order (S fuel) off_lattice [rot4] 1 tol12q = Some (Ok off_sym).
Proof.
  unfold symmetrize_lattice. rewrite off_dim, rot4_group, off_vectors. fold off_expanded. unfold off_sym. destruct off_done as [R E]. rewrite E. reflexivity.
Qed.
Definition far_from (R : Lattice) (tol : Qc) (p : list Qc) : bool :=
  forallb (fun a => match l_dist2 R (PosVec p) (PosVec (fst a)) with Ok e => negb (qc_ltb e (tol * tol)) | Err _ => false end) (atoms (l_cell R)).
Lemma far_from_ok R tol p : far_from R tol p = true -> forall q o, In (q, o) (atoms (l_cell R)) -> ~ near R tol p q.
Proof.
  intros H q o Hq (e & E & He). unfold far_from in H. rewrite forallb_forall in H. apply H in Hq. cbn [fst] in Hq. rewrite E in Hq.
  apply negb_true_iff in Hq. apply qc_ltb_lt in He. congruence.
Qed.
Lemma not_symmetric : exists L h R p o p', lattice_shape 2 L /\ square_matrix 2 h /\ (forall fuel, symmetrize_lattice show_exact in_order (S fuel) L [h] 1 tol12q = Some (Ok R)) /\
  In (p, o) (atoms (l_cell R)) /\ maps_to 2 h p p' /\ forall q o', In (q, o') (atoms (l_cell R)) -> ~ near R tol12q p' q.
Proof.
  exists off_lattice, rot4, off_sym, (nth 1 (uc_positions (l_cell off_sym)) []), ["A"%string], (mat_vec rot4 (nth 1 (uc_positions (l_cell off_sym)) [])).
  split; [apply off_shape|]. split; [apply rot4_square|]. split; [apply off_run|]. split; [vm_compute; auto|]. split; [apply mat_vec_maps; [apply rot4_square | vm_compute; reflexivity]|].
  apply far_from_ok. vm_compute. reflexivity.
Qed.
Lemma missing_atoms : exists L h R p o v, lattice_shape 2 L /\ square_matrix 2 h /\ (forall fuel, symmetrize_lattice show_exact in_order (S fuel) L [h] 1 tol12q = Some (Ok R)) /\
  In (p, o) (atoms (l_cell L)) /\ In v (uc_vectors (l_cell L)) /\ forall q o', In (q, o') (atoms (l_cell R)) -> ~ near R tol12q (plus v p) q.
Proof.
  exists off_lattice, rot4, off_sym, [q14; q18], ["A"%string], [1; 0].
  split; [apply off_shape|]. split; [apply rot4_square|]. split; [apply off_run|]. split; [vm_compute; auto|]. split; [vm_compute; auto|].
  apply far_from_ok. vm_compute. reflexivity.
Qed.
Definition rot2 : list (list Qc) := [[-(1); 0]; [0; -(1)]].
Lemma rot2_square : square_matrix 2 rot2.
Proof. split; auto. cbn. intros r [<-|[<-|[] ] ]; auto. Qed.
Lemma rot2_closed : is_product 2 rot2 rot2 (mat_eye 2) /\ is_product 2 rot2 (mat_eye 2) rot2.
Proof.
  split; (split; [split; auto; cbn; intros r [<-|[<-|[] ] ]; auto|]; intros [|[|i] ] [|[|k] ] Hi Hk; try lia; apply Qc_is_canon; vm_compute; reflexivity).
Qed.
Lemma rot2_group fuel : point_group (S fuel) 2 [rot2] = Some [mat_eye 2; rot2].
Proof.
  apply (single_generator fuel 2 rot2 (mat_eye 2)); auto using rot2_square; [apply rot2_closed|].
  exists 0%nat, 0%nat. split; [lia|]. split; [lia|]. apply qc_ltb_lt. vm_compute. reflexivity.
Qed.
