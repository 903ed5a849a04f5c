(** Proofs of the properties of transformations built from a Lattice, and examples. *)
From Coq Require Import String List ZArith Bool Arith QArith Qcanon Lia Permutation.
From Verif Require Import GC Exn S_Alg S_Den S_Basis S_Built S_Cluster S_OpAlg M_OpString M_Tools M_Algebra M_Basis M_Cluster M_Lattice M_Transform M_SpaceGroup S_Lattice S_Transform
  L_Cluster L_Distance L_Lattice1 L_Lattice2 L_Lattice3 L_Lattice4 L_SpaceGroup L_Cubic L_Show L_LatticeEx.
Import ListNotations.
Local Open Scope Qc_scope.

Lemma dot_inner u : forall v, dot u v = inner u v.
Proof. reflexivity. Qed.
Lemma affine_eq R t r : padd (mat_vec R r) t = affine R t r.
Proof.
  unfold affine. rewrite plus_padd. reflexivity.
Qed.
Lemma labels_affine show L R t : space_group_labels show L R t =
  check_labels (map (fun o : orbital => l_index show L (affine R t (fst (fst o))) ((fun n => n) (snd (fst o)))) (l_orbitals L)).
Proof. unfold space_group_labels. f_equal. apply map_ext. intros o. rewrite affine_eq. reflexivity. Qed.

Lemma space_group_sound : forall show d uc ns per tol L R t p,
  cell_shape d uc -> length ns = d -> length per = d -> lattice_new show uc ns (Some per) tol = Ok L ->
  space_group_labels show L R t = Ok p ->
  moved show tol d (uc_vectors uc) ns per (l_orbitals L) (affine R t) (fun n => n) p /\
  (stay_apart show tol d (uc_vectors uc) ns per (l_orbitals L) (affine R t) (fun n => n) -> permutes p (perm_fun p)).
Proof.
  intros show d uc ns per tol L R t p S N P E H. rewrite labels_affine in H.
  pose proof (moved_ok show d uc ns per tol L S N P E (affine R t) (fun n => n) p H) as M. split; [exact M|].
  intros A. apply (moved_permutes show d uc ns per tol L N P (affine R t) (fun n => n)); auto.
Qed.
Lemma space_group_cubic : forall show d ns per names L, length ns = d -> length per = d ->
  cubic show d ns (Some per) (Some names) = Ok L -> NoDup names ->
  forall B R t (g : list Z -> list Z), shows_integers show d B ->
  (forall c, in_cells ns c -> affine R t (map qz c) = map qz (g c) /\ Forall2 (fun n x => (Z.abs x + n <= B)%Z) ns (g c)) ->
  ((forall c, in_cells ns c -> wrapped ns per (g c)) ->
     exists p, space_group_labels show L R t = Ok p /\ length p = l_len L /\
       (forall c k, in_cells ns c -> (k < length names)%nat ->
          nth_error p (cubic_label ns (length names) c k) = Some (Z.of_nat (cubic_label ns (length names) (home ns (g c)) k))) /\
       ((forall c c', in_cells ns c -> in_cells ns c' -> home ns (g c) = home ns (g c') -> c = c') -> permutes p (perm_fun p))) /\
  (forall c, in_cells ns c -> ~ wrapped ns per (g c) -> names <> [] -> space_group_labels show L R t = Err ValueError).
Proof.
  intros show d ns per names L N P E D B R t g HB HG. apply (cubic_space_group show d ns per names L N P E D B R t g HB).
  intros c Hc. rewrite affine_eq. auto.
Qed.

(** Translations of a periodic cubic lattice. *)
Lemma identity_rows d r : length r = d -> map (fun row => inner row r) (units d) = r.
Proof.
  intros H. unfold units. rewrite map_map. apply pvec_ext with d; [rewrite map_length, seq_length; auto|auto|].
  intros i Hi. unfold coord at 1. rewrite nth_indep with (d' := (fun j => inner (unit_vec d j) r) 0%nat) by (rewrite map_length, seq_length; auto).
  rewrite (map_nth (fun j => inner (unit_vec d j) r)), seq_nth by auto. cbn [Nat.add].
  unfold unit_vec. assert (G : forall r s, inner (map (fun j => if Nat.eqb j i then 1 else 0) (seq s (length r))) r = if (s <=? i)%nat then coord r (i - s) else 0).
  { clear. induction r as [|x r IH]; intros s; simpl.
    - destruct (s <=? i)%nat; auto. unfold coord. destruct (i - s)%nat; auto.
    - rewrite IH. destruct (Nat.eqb_spec s i) as [->|Ne].
      + rewrite Nat.leb_refl, Nat.sub_diag. destruct (Nat.leb_spec (S i) i); [lia|]. unfold coord. simpl. ring.
      + destruct (Nat.leb_spec s i), (Nat.leb_spec (S s) i); try lia; try ring.
        replace (i - s)%nat with (S (i - S s)) by lia. unfold coord. simpl. ring. }
  rewrite <- H. rewrite G. cbn [Nat.leb]. rewrite Nat.sub_0_r. reflexivity.
Qed.
Lemma home_translate : forall ns t c c', in_cells ns c -> in_cells ns c' -> length t = length ns -> home ns (zadd c t) = home ns (zadd c' t) -> c = c'.
Proof.
  induction ns as [|n ns IH]; intros [|y t] c c' Hc Hc' Hl H; inversion Hc as [|? x ? c1 Hx Hc1]; inversion Hc' as [|? x' ? c2 Hx' Hc2]; subst; try discriminate; auto.
  cbn [zadd home] in H. injection H as H1 H2. f_equal; [|apply (IH t c1 c2); auto].
  assert (K : ((x + y) mod n = (x' + y) mod n)%Z) by exact H1.
  assert (K2 : ((x - x') mod n = 0)%Z).
  { replace (x - x')%Z with ((x + y) - (x' + y))%Z by ring. rewrite Zminus_mod, K, Z.sub_diag. apply Z.mod_0_l. lia. }
  apply Z.mod_divide in K2; [|lia]. destruct K2 as [q Hq]. destruct (Z.lt_trichotomy q 0) as [Q|[Q|Q]]; [nia|subst q; lia|nia].
Qed.
Lemma translation_proof : forall show d ns names L t, length ns = d ->
  cubic show d ns (Some (repeat true d)) (Some names) = Ok L -> NoDup names ->
  forall B, shows_integers show d B -> Forall (fun n => (3 * n <= B)%Z) ns -> Forall2 (fun n x => (Z.abs x <= n)%Z) ns t ->
  exists p, space_group_labels show L (map (unit_vec d) (seq 0 d)) (map qz t) = Ok p /\ permutes p (perm_fun p) /\ length p = l_len L /\
    forall c k, in_cells ns c -> (k < length names)%nat ->
      nth_error p (cubic_label ns (length names) c k) = Some (Z.of_nat (cubic_label ns (length names) (home ns (zadd c t)) k)).
Proof.
  intros show d ns names L t N E D B HI HB Ht.
  assert (Lt : length t = length ns) by (clear - Ht; induction Ht; simpl; auto).
  destruct (space_group_cubic show d ns (repeat true d) names L N (repeat_length _ _) E D B (map (unit_vec d) (seq 0 d)) (map qz t) (fun c => zadd c t) HI) as [G _].
  - intros c Hc. assert (Lc := in_cells_length ns c Hc). split.
    + unfold affine. change (map (unit_vec d) (seq 0 d)) with (units d). rewrite identity_rows by (rewrite map_length; congruence).
      rewrite plus_padd. apply padd_qz.
    + clear - Hc HB Ht. revert t Ht. induction Hc as [|n x ns c Hx Hc IH]; intros [|y t] Ht; inversion Ht; subst; constructor.
      * apply Forall_inv in HB. lia.
      * apply IH; auto. exact (Forall_inv_tail HB).
  - destruct G as (p & G1 & G2 & G3 & G4).
    + intros c Hc. rewrite <- N. clear - Hc Ht. revert t Ht. induction Hc as [|n x ns c Hx Hc IH]; intros [|y t] Ht; inversion Ht; subst; cbn [wrapped zadd repeat length]; auto.
      split; [lia|]. apply IH; auto.
    + exists p. split; [exact G1|]. split; [|split; auto].
      apply G4. intros c c' Hc Hc' Hh. eapply home_translate; eauto.
Qed.

(** R = 0 is accepted on a lattice with one cell per direction: everything goes to the origin. *)
Lemma singular_proof : forall show, shows_integers show 1 6 -> exists L p,
  chain show 2 true None = Ok L /\ space_group_labels show L [[0]] [0] = Ok p /\ p = [0; 0]%Z /\ forall f, ~ permutes p f.
Proof.
  intros show HI.
  destruct (orbitals_proof show 1 (cubic_cell 1 [""%string]) [2%Z] [true] tol8 (cubic_shape _ _) eq_refl eq_refl) as (L & E & _).
  assert (D : NoDup [""%string]) by (repeat constructor; simpl; auto).
  destruct (space_group_cubic show 1 [2%Z] [true] [""%string] L eq_refl eq_refl E D 6 [[0]] [0] (fun _ => [0%Z]) HI) as [G _].
  - intros c Hc. inversion Hc as [|? x ? c' Hx Hc' E1]; subst. inversion Hc'; subst. split; [|repeat constructor; cbn; lia].
    unfold affine, plus. cbn -[Qcplus Qcmult]. try reflexivity.
  - destruct G as (p & G1 & G2 & G3 & _); [intros; cbn; lia|].
    exists L, p. split; [exact E|]. split; [exact G1|].
    assert (Lp : length p = 2%nat). { rewrite G2. rewrite (cubic_count show 1 [2%Z] [true] [""%string] L eq_refl eq_refl E). reflexivity. }
    assert (P0 : nth_error p 0 = Some 0%Z) by (apply (G3 [0%Z] 0%nat); [repeat constructor; lia|cbn; lia]).
    assert (P1 : nth_error p 1 = Some 0%Z) by (apply (G3 [1%Z] 0%nat); [repeat constructor; lia|cbn; lia]).
    destruct p as [|a [|b [|]]]; try discriminate. injection P0 as ->. injection P1 as ->. split; auto.
    intros f [H _]. inversion H as [|? ? H1]; subst. apply H1. left; auto.
Qed.

(* ------------------------------------------------------------- spin *)

Lemma spin_flip_proof : forall show d uc ns per tol L B up dn,
  cell_shape d uc -> length ns = d -> length per = d -> lattice_new show uc ns (Some per) tol = Ok L ->
  names_differ (atoms uc) -> 0 <= tol -> told_apart show tol d (uc_vectors uc) (atoms uc) B -> Forall (fun n => (n <= B)%Z) ns ->
  flip_closed (atoms uc) (fun n => swap n up dn) ->
  exists p, spin_flip_labels show L up dn = Ok p /\ permutes p (perm_fun p) /\ length p = l_len L /\
    (forall i r name c, nth_error (l_orbitals L) i = Some (r, name, c) ->
       exists i', perm_fun p (Z.of_nat i) = Z.of_nat i' /\ nth_error (l_orbitals L) i' = Some (r, swap name up dn, c)) /\
    (forall l, (0 <= l < Z.of_nat (l_len L))%Z -> perm_fun p (perm_fun p l) = l).
Proof.
  intros show d uc ns per tol L B up dn S N P E D T HT HB HF.
  exact (flip_ok show d uc ns per tol L S N P E D T B HT HB (fun n => swap n up dn) HF).
Qed.
Lemma labels_named_proof : forall show d uc ns per tol L B sub,
  cell_shape d uc -> length ns = d -> length per = d -> lattice_new show uc ns (Some per) tol = Ok L ->
  names_differ (atoms uc) -> 0 <= tol -> told_apart show tol d (uc_vectors uc) (atoms uc) B -> Forall (fun n => (n <= B)%Z) ns ->
  forall x, In x (labels_named show L sub) <->
    exists i r u v c, x = Z.of_nat i /\ nth_error (l_orbitals L) i = Some (r, (u ++ sub ++ v)%string, c).
Proof.
  intros show d uc ns per tol L B sub S N P E D T HT HB x. unfold labels_named.
  rewrite (labels_of_ok show d uc ns per tol L S N P E D T B HT HB (contains sub) x). split.
  - intros (i & r & name & c & -> & H & Hc). apply contains_ok in Hc. destruct Hc as (u & v & ->). exists i, r, u, v, c. auto.
  - intros (i & r & u & v & c & -> & H). exists i, r, (u ++ sub ++ v)%string, c. split; auto. split; auto. apply contains_ok. eauto.
Qed.

(* ------------------------------------------------- distances in bases *)

Lemma within_proof show d uc ns per tol L r i j p q np nq cp cq :
  cell_shape d uc -> length ns = d -> length per = d -> lattice_new show uc ns (Some per) tol = Ok L ->
  nth_error (l_orbitals L) i = Some (p, np, cp) -> nth_error (l_orbitals L) j = Some (q, nq, cq) ->
  0 <= r -> within_distance L r i j = true <-> exists m, length m = d /\ near_image per m /\ sq_dist (plus p (shift d (uc_vectors uc) ns m)) q <= r * r.
Proof.
  intros S N P E Hi Hj Hr. unfold within_distance.
  destruct (labels_proof L i (PosInt (Z.of_nat j)) p np cp Hi) as [-> _].
  destruct (labels_proof L j (PosVec p) q nq cq Hj) as [_ [-> _]].
  destruct (dist_ok show d uc ns per tol L S N P E p q) as (x & -> & [H1 (m & M1 & M2 & M3)]).
  assert (Hr' : qc_ltb r 0 = false) by (apply not_true_iff_false; intros H; apply qc_ltb_lt in H; apply (Qcle_not_lt _ _ Hr H)).
  rewrite Hr'. cbn [negb andb]. rewrite negb_true_iff. split.
  - intros H. exists m. split; auto. split; auto. rewrite <- M3. apply qc_nlt_le; auto.
  - intros (m' & Q1 & Q2 & Q3). apply not_true_iff_false. intros H. apply qc_ltb_lt in H. specialize (H1 m' Q1 Q2).
    apply (Qcle_not_lt _ _ (Qcle_trans _ _ _ H1 Q3) H).
Qed.
Lemma distance_lattice_proof : forall pick order ordering show d uc ns per tol L r k ty allowed id,
  (forall R P X, P ++ X <> [] -> In (pick R P X) (P ++ X)) -> (forall R P X, Permutation (order R P X) P) ->
  cell_shape d uc -> length ns = d -> length per = d -> lattice_new show uc ns (Some per) tol = Ok L ->
  Permutation ordering (seq 0 (l_len L)) -> (forall v, In v allowed -> (v < l_len L)%nat) -> k_valid k -> 0 <= r ->
  exists b, distance_basis pick order ordering (within_distance L r) (l_len L) k ty allowed id = Ok b /\ built b /\ NoDup (b_strings b) /\
    forall s, In s (b_strings b) <-> local_string ty k s /\
      (forall x, In x (os_labels s) -> exists i, In i allowed /\ x = Z.of_nat i) /\
      (forall i j p q np nq cp cq, In (Z.of_nat i) (os_labels s) -> In (Z.of_nat j) (os_labels s) -> (i < j)%nat ->
         nth_error (l_orbitals L) i = Some (p, np, cp) -> nth_error (l_orbitals L) j = Some (q, nq, cq) ->
         exists m, length m = d /\ near_image per m /\ sq_dist (plus p (shift d (uc_vectors uc) ns m)) q <= r * r).
Proof.
  intros pick order ordering show d uc ns per tol L r k ty allowed id HP HO S N P E Hord Hall Hk Hr.
  destruct (distance_proof pick order ordering (within_distance L r) (l_len L) k ty allowed id HP HO Hord Hall Hk) as (b & E1 & E2 & E3 & E4).
  exists b. split; [exact E1|]. split; [exact E2|]. split; [exact E3|]. intros s. rewrite E4. unfold labelled_within.
  split; intros (H1 & H2 & H3); (split; [exact H1|split; [exact H2|]]).
  - intros i j p q np nq cp cq Hi Hj Hij Np Nq. apply (within_proof show d uc ns per tol L r i j p q np nq cp cq S N P E Np Nq Hr). auto.
  - intros i j Hi Hj Hij.
    assert (Li : forall i, In (Z.of_nat i) (os_labels s) -> exists p np cp, nth_error (l_orbitals L) i = Some (p, np, cp)).
    { intros i0 Hi0. destruct (H2 _ Hi0) as (i1 & Ha & Ei). apply Nat2Z.inj in Ei. subst i1. apply Hall in Ha.
      destruct (nth_error (l_orbitals L) i0) as [[[p np] cp]|] eqn:Eo; [eauto|]. apply nth_error_None in Eo. unfold l_len in Ha. lia. }
    destruct (Li i Hi) as (p & np & cp & Np). destruct (Li j Hj) as (q & nq & cq & Nq).
    apply (within_proof show d uc ns per tol L r i j p q np nq cp cq S N P E Np Nq Hr). apply (H3 i j p q np nq cp cq); auto.
Qed.

(* -------------------------------------------------------- as transformations *)
From Verif Require Import L_Trans2 L_Trans5 L_Trans6 L_Trans7 L_Trans8 L_Trans9.
Local Open Scope alg_scope.

Lemma space_group_rule : forall show d uc ns per tol L R t T,
  cell_shape d uc -> length ns = d -> length per = d -> lattice_new show uc ns (Some per) tol = Ok L ->
  stay_apart show tol d (uc_vectors uc) ns per (l_orbitals L) (affine R t) (fun n => n) ->
  space_group_symmetry show L R t = Ok T ->
  exists p, moved show tol d (uc_vectors uc) ns per (l_orbitals L) (affine R t) (fun n => n) p /\ permutes p (perm_fun p) /\
    forall ty s, ty <> Fermion -> string_ok ty s -> in_range (l_len L) s ->
      exists k u, one_term (apply T (TString s)) k u /\ (k = g1 \/ k = gm1) /\ string_ok ty u /\ canonical u /\
        forall (A : StarAlg) (g : op -> Z -> A), rep ty g -> S_Transform.image false (renamed (perm_fun p) g) s == k · den g u.
Proof.
  intros show d uc ns per tol L R t T S N P E HA HT. unfold space_group_symmetry in HT.
  destruct (space_group_labels show L R t) as [p|] eqn:Ep; [|discriminate]. cbn [rbind] in HT. injection HT as <-.
  destruct (space_group_sound show d uc ns per tol L R t p S N P E Ep) as [M HP]. specialize (HP HA).
  exists p. split; [exact M|]. split; [exact HP|]. intros ty s Hty Hs Hr.
  destruct (permutation_string ty p (perm_fun p) s Hty HP Hs) as (k & u & H1 & H2 & H3 & H4 & _ & _ & H7).
  - destruct M as [M _]. rewrite M. exact Hr.
  - exists k, u. auto.
Qed.

Lemma spinful_lattice : forall show d uc ns per tol L B up dn,
  cell_shape d uc -> length ns = d -> length per = d -> lattice_new show uc ns (Some per) tol = Ok L ->
  names_differ (atoms uc) -> 0%Qc <= tol -> told_apart show tol d (uc_vectors uc) (atoms uc) B -> Forall (fun n => (n <= B)%Z) ns ->
  flip_closed (atoms uc) (fun n => swap n up dn) ->
  exists T f D, time_reversal_of show (SpinNames L up dn) = Ok T /\
    (forall i r name c, nth_error (l_orbitals L) i = Some (r, name, c) ->
       exists i', f (Z.of_nat i) = Z.of_nat i' /\ nth_error (l_orbitals L) i' = Some (r, swap name up dn, c)) /\
    (forall x, In x D <-> exists i r u v c, x = Z.of_nat i /\ nth_error (l_orbitals L) i = Some (r, (u ++ dn ++ v)%string, c)) /\
    forall s, string_ok Majorana s -> std s -> in_range (l_len L) s ->
      exists k u, one_term (apply T (TString s)) k u /\ (k = g1 \/ k = gm1) /\ string_ok Majorana u /\ canonical u /\
        forall (A : StarAlg) (g : op -> Z -> A), rep Majorana g ->
          S_Transform.image true (reversed_spin f (fun l => In l D) (fun l => in_dec Z.eq_dec l D) g) s == k · den g u.
Proof.
  intros show d uc ns per tol L B up dn S N P E D T HT HB HF.
  destruct (spin_flip_proof show d uc ns per tol L B up dn S N P E D T HT HB HF) as (p & E1 & E2 & E3 & E4 & _).
  exists (time_reversal_spinful p (labels_named show L dn)), (perm_fun p), (labels_named show L dn).
  split; [unfold time_reversal_of, spinful, spin_flip_symmetry; rewrite E1; reflexivity|].
  split; [exact E4|]. split; [exact (labels_named_proof show d uc ns per tol L B dn S N P E D T HT HB)|].
  intros s Hs Hstd Hr. apply spinful_string; auto. rewrite E3. exact Hr.
Qed.

Lemma zadd_sum c : forall t, zadd c t = zsum c t.
Proof. induction c as [|x c IH]; intros [|y t]; auto. cbn [zadd]. rewrite IH. reflexivity. Qed.
Lemma translation_sum : forall show d ns names L t, length ns = d ->
  cubic show d ns (Some (repeat true d)) (Some names) = Ok L -> NoDup names ->
  forall B, shows_integers show d B -> Forall (fun n => (3 * n <= B)%Z) ns -> Forall2 (fun n x => (Z.abs x <= n)%Z) ns t ->
  exists p, space_group_labels show L (map (unit_vec d) (seq 0 d)) (map qz t) = Ok p /\ permutes p (perm_fun p) /\ length p = l_len L /\
    forall c k, in_cells ns c -> (k < length names)%nat ->
      nth_error p (cubic_label ns (length names) c k) = Some (Z.of_nat (cubic_label ns (length names) (home ns (zsum c t)) k)).
Proof.
  intros show d ns names L t N E D B HI HB Ht. destruct (translation_proof show d ns names L t N E D B HI HB Ht) as (p & P1 & P2 & P3 & P4).
  exists p. split; [exact P1|]. split; [exact P2|]. split; [exact P3|]. intros c k. rewrite <- zadd_sum. apply P4.
Qed.

Lemma no_partner_proof : forall show d uc ns per tol L up dn i r name c,
  cell_shape d uc -> length ns = d -> length per = d -> lattice_new show uc ns (Some per) tol = Ok L ->
  nth_error (l_orbitals L) i = Some (r, name, c) ->
  (forall a os, In (a, os) (atoms uc) -> ~ In (swap name up dn) os) ->
  spin_flip_labels show L up dn = Err ValueError /\ spin_flip_symmetry show L up dn = Err ValueError.
Proof.
  intros show d uc ns per tol L up dn i r name c S N P E Ho HN.
  assert (G : spin_flip_labels show L up dn = Err ValueError).
  { unfold spin_flip_labels, check_labels.
    rewrite (proj2 (existsb_exists _ _)); [reflexivity|]. exists (-1)%Z. split; [|reflexivity].
    apply in_map_iff. exists (r, name, c). split; [|eapply nth_error_In; eauto]. cbn [fst snd].
    destruct (index_meaning show d uc ns per tol L S N P E r (swap name up dn)) as [[H _]|(i' & o & m & _ & H & _ & _ & [_ H2])]; [exact H|].
    exfalso. destruct (orbital_inv show d uc ns per tol L S N P E i' o H) as (c' & j & k & a & os & nm & _ & H3 & H4 & _ & H5).
    rewrite H5 in H2. cbn in H2. subst nm. apply nth_error_In in H3. apply nth_error_In in H4. exact (HN _ _ H3 H4). }
  split; [exact G|]. unfold spin_flip_symmetry. rewrite G. reflexivity.
Qed.

Lemma NoDup_map_filter {X Y} (f : X -> Y) (q : X -> bool) l : NoDup (map f l) -> NoDup (map f (filter q l)).
Proof.
  induction l as [|x l IH]; simpl; intros H; [constructor|]. inversion H as [|? ? H1 H2]; subst. destruct (q x); auto.
  simpl. constructor; auto. intros HI. apply H1. apply in_map_iff in HI. destruct HI as (y & Hy & HI). apply filter_In in HI. apply in_map_iff. exists y. tauto.
Qed.
Lemma labels_named_nodup : forall show d uc ns per tol L B sub,
  cell_shape d uc -> length ns = d -> length per = d -> lattice_new show uc ns (Some per) tol = Ok L ->
  names_differ (atoms uc) -> (0 <= tol)%Qc -> told_apart show tol d (uc_vectors uc) (atoms uc) B -> Forall (fun n => (n <= B)%Z) ns ->
  NoDup (labels_named show L sub).
Proof.
  intros show d uc ns per tol L B sub S N P E D T HT HB. unfold labels_named. apply NoDup_map_filter.
  apply NoDup_nth_error. intros i j Hi H. rewrite map_length in Hi.
  rewrite !nth_error_map in H. destruct (nth_error (l_orbitals L) i) as [[[r n] c]|] eqn:E1; [|apply nth_error_None in E1; lia].
  destruct (nth_error (l_orbitals L) j) as [[[r' n'] c']|] eqn:E2; [|discriminate]. cbn [option_map fst snd] in H. injection H as H.
  rewrite (index_own show d uc ns per tol L S N P E D B i r n c T HT HB E1) in H.
  rewrite (index_own show d uc ns per tol L S N P E D B j r' n' c' T HT HB E2) in H. lia.
Qed.
Lemma spin_parity_proof : forall show d uc ns per tol L B up dn,
  cell_shape d uc -> length ns = d -> length per = d -> lattice_new show uc ns (Some per) tol = Ok L ->
  names_differ (atoms uc) -> (0 <= tol)%Qc -> told_apart show tol d (uc_vectors uc) (atoms uc) B -> Forall (fun n => (n <= B)%Z) ns ->
  exists D, NoDup D /\ (forall x, In x D <-> exists i r u v c, x = Z.of_nat i /\ nth_error (l_orbitals L) i = Some (r, (u ++ dn ++ v)%string, c)) /\
    forall s, string_ok Majorana s ->
      exists k, one_term (apply (spin_parity_symmetry show L up dn) (TString s)) k s /\
        k = gsgn (Nat.odd (length (filter (fun p => is_ab (fst p) && (if in_dec Z.eq_dec (snd p) D then true else false)) (combine (os_ops s) (os_labels s))))) /\
        forall (A : StarAlg) (g : op -> Z -> A), rep Majorana g ->
          let P := aprod (map (g OD) D) in P * P == aone /\ P * den g s * P == k · den g s.
Proof.
  intros show d uc ns per tol L B up dn S N P E D T HT HB. exists (labels_named show L dn).
  pose proof (labels_named_nodup show d uc ns per tol L B dn S N P E D T HT HB) as ND. split; [exact ND|].
  split; [exact (labels_named_proof show d uc ns per tol L B dn S N P E D T HT HB)|].
  intros s Hs. exact (parity_conjugation _ s ND Hs).
Qed.
Lemma time_reversal_argument : forall show L up dn,
  time_reversal_of show SpinNone = Ok time_reversal_rule /\
  time_reversal_of show (SpinLattice L) = time_reversal_of show (SpinNames L "Up" "Dn") /\
  time_reversal_of show SpinOther = Err ValueError /\
  (spin_flip_labels show L up dn = Err ValueError -> time_reversal_of show (SpinNames L up dn) = Err ValueError).
Proof.
  intros show L up dn. repeat (split; [reflexivity|]). intros H. cbn. unfold spinful, spin_flip_symmetry. rewrite H. reflexivity.
Qed.
