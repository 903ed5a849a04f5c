(** Proofs of the lattice properties from the lemmas, and examples. *)
From Coq Require Import String List ZArith Bool Arith QArith Qcanon Lia.
From Verif Require Import GC Exn M_Basis M_Lattice S_Lattice L_Lattice1 L_Lattice2 L_Lattice3 L_Lattice4 L_Cubic L_Show.
Import ListNotations.
Local Open Scope Qc_scope.

Lemma orbitals_proof : forall show d uc ns per tol, cell_shape d uc -> length ns = d -> length per = d ->
  exists L, lattice_new show uc ns (Some per) tol = Ok L /\ l_len L = (num_cells ns * per_cell (atoms uc))%nat /\
    (forall c j k a os name, in_cells ns c -> nth_error (atoms uc) j = Some (a, os) -> nth_error os k = Some name ->
       nth_error (l_orbitals L) (label_of ns (atoms uc) c j k) = Some (rounded tol (crystal d (uc_vectors uc) c a), name, c)) /\
    (forall i, (i < l_len L)%nat -> exists c j k a os name, in_cells ns c /\ nth_error (atoms uc) j = Some (a, os) /\
       nth_error os k = Some name /\ i = label_of ns (atoms uc) c j k).
Proof.
  intros show d uc ns per tol S N P. destruct (lattice_new_ok show d uc ns per tol S N P) as (L & _ & E & _).
  exists L. split; [exact E|]. split; [apply (count_ok show d uc ns per tol L S N P E)|].
  split; [apply (orbital_ok show d uc ns per tol L S N P E)|].
  intros i Hi. unfold l_len in Hi. destruct (nth_error (l_orbitals L) i) as [o|] eqn:Eo; [|apply nth_error_None in Eo; lia].
  destruct (orbital_inv show d uc ns per tol L S N P E i o Eo) as (c & j & k & a & os & name & H1 & H2 & H3 & H4 & _).
  exists c, j, k, a, os, name. auto.
Qed.

Lemma cubic_lattice_proof : forall show d ns per names L B, length ns = d -> length per = d -> NoDup names ->
  cubic show d ns (Some per) (Some names) = Ok L -> shows_integers show d B -> Forall (fun n => (n <= B)%Z) ns ->
  l_len L = (num_cells ns * length names)%nat /\
  forall c k name, in_cells ns c -> nth_error names k = Some name ->
    nth_error (l_orbitals L) (cubic_label ns (length names) c k) = Some (map qz c, name, c) /\
    l_index show L (map qz c) name = Z.of_nat (cubic_label ns (length names) c k).
Proof.
  intros show d ns per names L B N P D E HB HN. split; [apply (cubic_count show d ns per names L N P E)|].
  intros c k name Hc Hk. pose proof (cubic_orbital show d ns per names L N P E c k name Hc Hk) as G. split; [exact G|].
  exact (cubic_own show d ns per names L N P E D B _ _ _ c HB HN G).
Qed.

Lemma duplicate_atoms : forall show, exists uc L p name c,
  lattice_new show uc [2%Z] (Some [false]) tol8 = Ok L /\
  nth_error (l_orbitals L) 0 = Some (p, name, c) /\ nth_error (l_orbitals L) 1 = Some (p, name, c) /\ l_index show L p name <> 0%Z.
Proof.
  intros show. set (uc := mkUC [[1]] [[0]; [0]] [["s"%string]; ["s"%string]]).
  assert (HS : cell_shape 1 uc) by (split; auto; split; simpl; intros v Hv; intuition subst; auto).
  destruct (lattice_new_ok show 1 uc [2%Z] [false] tol8 HS eq_refl eq_refl) as (L & t & E & _ & _ & _ & ET & EO & _ & EB & _).
  exists uc, L, [0], "s"%string, [0%Z]. split; [exact E|].
  split; [rewrite EO; reflexivity|]. split; [rewrite EO; reflexivity|].
  assert (EI : l_indices L = snd (fold_left (put show) (all_orbitals 1 tol8 [[1]] [([0], ["s"%string]); ([0], ["s"%string])] (cell_coords [2%Z])) ([], []))).
  { unfold lattice_new in E. rewrite (fold_cells show 1) in E; auto; try apply HS.
    - cbn [rbind] in E. change (boundary_loop [2%Z] [false] (uc_vectors uc) [pzero 1]) with (@Ok (list pvec) [pzero 1]) in E. cbn [rbind] in E.
      injection E as <-. reflexivity.
    - simpl. intros a [<-|[<-|[]]]; reflexivity.
    - simpl. intros c [<-|[<-|[]]]; reflexivity. }
  unfold l_index. rewrite EB. cbn [index_loop].
  assert (C : clean tol8 (padd [0] (pzero 1)) = [0]) by reflexivity. rewrite ET, C.
  assert (EA : exists p1, all_orbitals 1 tol8 [[1]] [([0], ["s"%string]); ([0], ["s"%string])] (cell_coords [2%Z]) =
     [([0], "s"%string, [0%Z]); ([0], "s"%string, [0%Z]); (p1, "s"%string, [1%Z]); (p1, "s"%string, [1%Z])]) by (eexists; reflexivity).
  destruct EA as [p1 EA]. rewrite EI, EA. unfold put. cbn [fold_left fst snd length app]. rewrite !dget_dset.
  rewrite (proj2 (key_eqb_eq _ _) eq_refl).
  destruct (key_eqb _ _); cbn; discriminate.
Qed.

Lemma show_exact_integers d B : shows_integers show_exact d B.
Proof. intros z w _ _ _ _ H. apply show_exact_inj in H. apply map_qz_inj; auto. Qed.

Lemma example63 :
  cell_shape 2 (cubic_cell 2 ["Up"; "Dn"]%string) /\ names_differ (atoms (cubic_cell 2 ["Up"; "Dn"]%string)) /\
  (forall B, told_apart show_exact tol8 2 (uc_vectors (cubic_cell 2 ["Up"; "Dn"]%string)) (atoms (cubic_cell 2 ["Up"; "Dn"]%string)) B) /\
  (forall d B, shows_integers show_exact d B) /\
  exists L, cubic show_exact 2 [2; 3]%Z (Some [true; false]) (Some ["Up"; "Dn"]%string) = Ok L /\ l_len L = 12%nat /\
    nth_error (l_orbitals L) 9 = Some (map qz [1; 1]%Z, "Dn"%string, [1; 1]%Z) /\
    l_index show_exact L (map qz [1; 1]%Z) "Dn" = 9%Z /\ l_index show_exact L (map qz [1; 1]%Z) "x" = (-1)%Z.
Proof.
  assert (D : NoDup ["Up"; "Dn"]%string) by (repeat constructor; simpl; intuition discriminate).
  split; [apply cubic_shape|]. split; [intros a os [H|[]]; injection H as <- <-; exact D|].
  split; [intros B; apply cubic_told, show_exact_integers|]. split; [apply show_exact_integers|].
  destruct (orbitals_proof show_exact 2 (cubic_cell 2 ["Up"; "Dn"]%string) [2; 3]%Z [true; false] tol8 (cubic_shape _ _) eq_refl eq_refl) as (L & E & _).
  exists L. split; [exact E|].
  destruct (cubic_lattice_proof show_exact 2 [2; 3]%Z [true; false] ["Up"; "Dn"]%string L 3 eq_refl eq_refl D E (show_exact_integers _ _)) as [H1 H2].
  { repeat constructor; lia. }
  split; [exact H1|]. destruct (H2 [1; 1]%Z 1%nat "Dn"%string) as [H3 H4]; auto.
  { repeat constructor; lia. }
  split; [exact H3|]. split; [exact H4|].
  revert E. unfold lattice_new. 
  match goal with |- ?x = _ -> _ => let y := eval vm_compute in x in intros E; assert (E' : x = y) by (vm_cast_no_check (eq_refl y)); rewrite E in E'; injection E' as -> end.
  vm_compute. reflexivity.
Qed.

Lemma kagome_count : forall show h n1 n2, exists L, kagome show h n1 n2 None None = Ok L /\ l_len L = (Z.to_nat n1 * Z.to_nat n2 * 3)%nat.
Proof.
  intros show h n1 n2. unfold kagome.
  match goal with |- context [lattice_new show ?u _ _ _] => destruct (orbitals_proof show 2 u [n1; n2] [false; false] tol8) as (L & E & H & _); auto end.
  { cbn. split; auto. split; intros v Hv; cbn in Hv; intuition subst; auto. }
  exists L. split; [exact E|]. rewrite H. cbn -[Z.to_nat]. unfold per_cell. cbn -[Z.to_nat]. rewrite Nat.mul_1_r. reflexivity.
Qed.

(* -------------------------------------------------------------- periods *)

Lemma shift_proof : forall show d uc ns per tol L B i p name c m,
  cell_shape d uc -> length ns = d -> length per = d -> lattice_new show uc ns (Some per) tol = Ok L -> names_differ (atoms uc) ->
  told_apart show tol d (uc_vectors uc) (atoms uc) B -> Forall (fun n => (3 * n <= B)%Z) ns ->
  (forall c a os, in_cells ns c -> In (a, os) (atoms uc) -> no_tiny tol (crystal d (uc_vectors uc) c a)) ->
  nth_error (l_orbitals L) i = Some (p, name, c) -> near_image per m ->
  l_index show L (plus p (shift d (uc_vectors uc) ns m)) name = Z.of_nat i.
Proof.
  intros show d uc ns per tol L B i p name c m S N P E D HT HB HR Ho Hm.
  destruct (orbital_inv show d uc ns per tol L S N P E i _ Ho) as (c' & j & k & a & os & nm & Hc & Ha & Hk & Hi & Heq).
  injection Heq as -> -> ->. rewrite rounded_id by (eapply HR; eauto; eapply nth_error_In; eauto).
  assert (Lm : length m = length ns).
  { destruct Hm as [Hm _]. assert (G : length per = length ns) by congruence. clear - Hm G. rewrite <- G. clear G. revert m Hm.
    induction per as [|q per IH]; intros [|x m] H; simpl in *; try contradiction; auto. f_equal. apply IH. apply H. }
  assert (Lc : length c' = length ns) by (apply in_cells_length; auto).
  rewrite plus_padd, crystal_shift by auto.
  assert (W : wrapped ns per (zadd c' (periods ns m)) /\ home ns (zadd c' (periods ns m)) = c' /\ Forall2 (fun n x => (Z.abs x + n <= B)%Z) ns (zadd c' (periods ns m))).
  { assert (G : length per = length ns) by congruence. clear - Hm Lm Hc HB G. revert per m Hm Lm HB G.
    induction Hc as [|n x ns c Hx Hc IH]; intros per [|y m] [Hm1 Hm2] Lm HB G; try discriminate.
    - destruct per; [split; [exact I|split; [auto|constructor]]|discriminate].
    - destruct per as [|q per]; [contradiction|]. destruct Hm1 as [Hy Hm1].
      assert (Hy1 := Forall_inv Hm2). assert (HB1 := Forall_inv HB). cbv beta in Hy1, HB1.
      destruct (IH per m) as (W1 & W2 & W3).
      { split; [exact Hm1|exact (Forall_inv_tail Hm2)]. } { simpl in Lm; lia. } { exact (Forall_inv_tail HB). } { simpl in G; lia. }
      cbn [wrapped home zadd periods]. assert (Yc : y = 0%Z \/ y = 1%Z \/ y = (-1)%Z) by lia.
      split; [split; auto|split].
      + destruct q; [destruct Yc as [Yc|[Yc|Yc]]; rewrite Yc; lia|]. rewrite Hy by auto. lia.
      + f_equal; auto. rewrite Z.mod_add by lia. apply Z.mod_small; lia.
      + constructor; auto. destruct Yc as [Yc|[Yc|Yc]]; rewrite Yc; lia. }
  destruct W as (W1 & W2 & W3).
  destruct (index_crystal show d uc ns per tol L S N P E D B nm _ j k a os HT W3 Ha Hk) as [G _].
  rewrite (G W1), W2, Hi. reflexivity.
Qed.

Lemma two_periods : forall show n L, (1 <= n)%Z -> shows_integers show 1 (3 * n) ->
  chain show n true None = Ok L ->
  l_index show L (map qz [0%Z]) "" = 0%Z /\ l_index show L (map qz [n]) "" = 0%Z /\ l_index show L (map qz [(2 * n)%Z]) "" = (-1)%Z.
Proof.
  intros show n L Hn HI E. unfold chain in E. change (cubic show 1 [n] (Some [true]) (Some [""%string]) = Ok L) in E.
  assert (D : NoDup [""%string]) by (repeat constructor; simpl; auto).
  assert (G : forall z, (Z.abs z <= 2 * n)%Z -> 
    (wrapped [n] [true] [z] -> l_index show L (map qz [z]) "" = Z.of_nat (cubic_label [n] 1 (home [n] [z]) 0)) /\
    (~ wrapped [n] [true] [z] -> l_index show L (map qz [z]) "" = (-1)%Z)).
  { intros z Hz. apply (cubic_index show 1 [n] [true] [""%string] L eq_refl eq_refl E D (3 * n)); auto. constructor; [lia|constructor]. }
  split; [|split].
  - rewrite (proj1 (G 0%Z ltac:(lia))); [|split; [lia|exact I]]. unfold cubic_label. cbn [home rank]. rewrite Z.mod_0_l by lia. reflexivity.
  - rewrite (proj1 (G n ltac:(lia))); [|split; [lia|exact I]]. unfold cubic_label. cbn [home rank]. rewrite Z.mod_same by lia. reflexivity.
  - apply (proj2 (G (2 * n)%Z ltac:(lia))). intros [H _]. lia.
Qed.

Lemma example64 : exists L, square show_exact 2 3 (Some [true; false]) (Some ["Up"; "Dn"]%string) = Ok L /\
  wrapped [2; 3]%Z [true; false] [-1; 2]%Z /\ home [2; 3]%Z [-1; 2]%Z = [1; 2]%Z /\
  l_index show_exact L (map qz [-1; 2]%Z) "Dn" = 11%Z /\ l_index show_exact L (map qz [-1; 3]%Z) "Dn" = (-1)%Z /\
  near_image [true; false] [1; 0]%Z /\ (forall c a os, in_cells [2; 3]%Z c -> In (a, os) (atoms (cubic_cell 2 ["Up"; "Dn"]%string)) -> no_tiny tol8 (crystal 2 (units 2) c a)).
Proof.
  assert (D : NoDup ["Up"; "Dn"]%string) by (repeat constructor; simpl; intuition discriminate).
  destruct (orbitals_proof show_exact 2 (cubic_cell 2 ["Up"; "Dn"]%string) [2; 3]%Z [true; false] tol8 (cubic_shape _ _) eq_refl eq_refl) as (L & E & _).
  exists L. split; [exact E|]. split; [cbn; lia|]. split; [reflexivity|].
  assert (W : wrapped [2; 3]%Z [true; false] [-1; 2]%Z) by (cbn; lia).
  assert (W' : ~ wrapped [2; 3]%Z [true; false] [-1; 3]%Z) by (cbn; lia).
  split.
  { apply (proj1 (cubic_index show_exact 2 [2; 3]%Z [true; false] ["Up"; "Dn"]%string L eq_refl eq_refl E D 9 [-1; 2]%Z 1 "Dn"%string (show_exact_integers _ _) ltac:(repeat constructor; cbn; lia) eq_refl) W). }
  split.
  { apply (proj2 (cubic_index show_exact 2 [2; 3]%Z [true; false] ["Up"; "Dn"]%string L eq_refl eq_refl E D 9 [-1; 3]%Z 1 "Dn"%string (show_exact_integers _ _) ltac:(repeat constructor; cbn; lia) eq_refl) W'). }
  split; [split; [cbn; intuition (auto; discriminate)|repeat constructor; lia]|].
  intros c a os Hc [H|[]]. injection H as <- <-. apply in_cells_length in Hc.
  change [0; 0] with (pzero 2). rewrite crystal_units by auto. apply qz_no_tiny.
Qed.

(* ------------------------------------------------------------ distances *)

Lemma metric_proof : forall show d uc ns per tol L p q,
  cell_shape d uc -> length ns = d -> length per = d -> lattice_new show uc ns (Some per) tol = Ok L -> length p = d -> length q = d ->
  exists r, l_dist2 L (PosVec p) (PosVec q) = Ok r /\ nearest2 d (uc_vectors uc) ns per p q r /\ 0 <= r /\
    l_dist2 L (PosVec q) (PosVec p) = Ok r /\ l_dist2 L (PosVec p) (PosVec p) = Ok 0 /\
    (r = 0 <-> exists m, length m = d /\ near_image per m /\ q = plus p (shift d (uc_vectors uc) ns m)).
Proof.
  intros show d uc ns per tol L p q S N P E Hp Hq.
  destruct (dist_ok show d uc ns per tol L S N P E p q) as (r & Er & Hr). exists r. split; [exact Er|]. split; [exact Hr|].
  assert (R0 : 0 <= r). { destruct Hr as [_ (m & _ & _ & ->)]. apply sq_dist_nonneg. }
  split; [exact R0|]. split; [rewrite <- (dist_sym show d uc ns per tol L S N P E p q); auto|].
  split; [apply (dist_refl show d uc ns per tol L S N P E); auto|]. destruct Hr as [H1 (m & M1 & M2 & M3)]. split.
  - intros ->. exists m. split; auto. split; auto. symmetry. apply sq_dist_zero; auto. rewrite plus_padd, padd_length, shift_length. lia.
  - intros (m' & Q1 & Q2 & ->). apply Qcle_antisym; auto. specialize (H1 m' Q1 Q2). rewrite sq_dist_refl in H1. exact H1.
Qed.

Lemma labels_proof : forall L i a' p name c, nth_error (l_orbitals L) i = Some (p, name, c) ->
  l_dist2 L (PosInt (Z.of_nat i)) a' = l_dist2 L (PosVec p) a' /\ l_dist2 L a' (PosInt (Z.of_nat i)) = l_dist2 L a' (PosVec p) /\
  l_dist2 L (PosInt (Z.of_nat i - Z.of_nat (l_len L))) a' = l_dist2 L (PosVec p) a'.
Proof.
  intros L i a' p name c H. assert (Hi : (i < length (l_orbitals L))%nat) by (apply nth_error_Some; congruence).
  assert (R : forall z, z = Z.of_nat i \/ z = (Z.of_nat i - Z.of_nat (l_len L))%Z -> resolve L (PosInt z) = resolve L (PosVec p)).
  { intros z Hz. unfold resolve, l_position, py_nth. cbv zeta. unfold l_len in Hz. destruct Hz as [->| ->].
    - replace (Z.of_nat i <? 0)%Z with false by (symmetry; apply Z.ltb_ge; lia). cbv iota.
      replace (Z.of_nat i <? 0)%Z with false by (symmetry; apply Z.ltb_ge; lia). rewrite Nat2Z.id, H. reflexivity.
    - replace (Z.of_nat i - Z.of_nat (length (l_orbitals L)) <? 0)%Z with true by (symmetry; apply Z.ltb_lt; lia). cbv iota.
      replace (Z.of_nat i - Z.of_nat (length (l_orbitals L)) + Z.of_nat (length (l_orbitals L)))%Z with (Z.of_nat i) by lia.
      replace (Z.of_nat i <? 0)%Z with false by (symmetry; apply Z.ltb_ge; lia). rewrite Nat2Z.id, H. reflexivity. }
  unfold l_dist2. rewrite !R by auto. auto.
Qed.

Lemma cubic_distance_proof : forall show d ns per names L, length ns = d -> length per = d -> cubic show d ns (Some per) (Some names) = Ok L ->
  forall c c' k k', in_cells ns c -> in_cells ns c' -> (k < length names)%nat -> (k' < length names)%nat ->
  l_dist2 L (PosInt (Z.of_nat (cubic_label ns (length names) c k))) (PosInt (Z.of_nat (cubic_label ns (length names) c' k'))) = Ok (qz (torus_dist2 ns per c c')) /\
  forall m, image per m -> qz (torus_dist2 ns per c c') <= sq_dist (plus (map qz c) (map qz (periods ns m))) (map qz c').
Proof.
  intros show d ns per names L N P E c c' k k' Hc Hc' Hk Hk'. split; [apply (cubic_dist show d ns per names L N P E); auto|].
  intros m Hm. rewrite plus_padd, padd_qz, sq_dist_qz. apply qz_le. apply torus_le; auto. congruence.
Qed.

Lemma chain_distance_proof : forall show n periodic L i j, chain show n periodic None = Ok L -> (0 <= i < n)%Z -> (0 <= j < n)%Z ->
  let e := if periodic then Z.min (Z.abs (i - j)) (n - Z.abs (i - j)) else Z.abs (i - j) in
  l_dist2 L (PosInt i) (PosInt j) = Ok (qz e * qz e).
Proof.
  intros show n periodic L i j E Hi Hj e. change (cubic show 1 [n] (Some [periodic]) (Some [""%string]) = Ok L) in E.
  destruct (cubic_distance_proof show 1 [n] [periodic] [""%string] L eq_refl eq_refl E [i] [j] 0 0) as [H _]; try (repeat constructor; lia).
  assert (G : forall x, (0 <= x < n)%Z -> Z.of_nat (cubic_label [n] (length [""%string]) [x] 0) = x).
  { intros x Hx. unfold cubic_label. cbn -[Z.to_nat]. lia. }
  rewrite !G in H by auto. rewrite H. f_equal. rewrite <- qz_mul. f_equal. cbn [torus_dist2]. rewrite Z.add_0_r. reflexivity.
Qed.

Lemma skew_proof : forall show, exists uc L p q m r,
  cell_shape 2 uc /\ lattice_new show uc [1; 1]%Z (Some [true; true]) tol8 = Ok L /\
  l_dist2 L (PosVec p) (PosVec q) = Ok r /\ image [true; true] m /\ sq_dist (plus p (shift 2 (uc_vectors uc) [1; 1]%Z m)) q < r.
Proof.
  intros show. set (uc := mkUC [[1; 0]; [qz 5; 1]] [] []).
  assert (HS : cell_shape 2 uc) by (split; auto; split; simpl; intros v Hv; intuition subst; auto).
  destruct (orbitals_proof show 2 uc [1; 1]%Z [true; true] tol8 HS eq_refl eq_refl) as (L & E & _).
  exists uc, L, [Q2Qc (5 # 2); Q2Qc (1 # 2)], [0; 0], [-2; 0]%Z.
  assert (EL : exists r, l_dist2 L (PosVec [Q2Qc (5 # 2); Q2Qc (1 # 2)]) (PosVec [0; 0]) = Ok r /\ this r = (5 # 2)%Q).
  { unfold lattice_new in E. cbn in E. injection E as <-. eexists. split; [vm_compute; reflexivity|vm_compute; reflexivity]. }
  destruct EL as (r & E1 & E2). exists r. split; [exact HS|]. split; [exact E|]. split; [exact E1|]. split; [cbn; intuition (auto; discriminate)|].
  unfold Qclt. rewrite E2. vm_compute. reflexivity.
Qed.

Lemma example65 : exists L, chain show_exact 7 true None = Ok L /\ l_dist2 L (PosInt 1) (PosInt 6) = Ok (qz 4) /\
  l_dist2 L (PosInt 6) (PosInt 1) = Ok (qz 4) /\ l_dist2 L (PosInt 3) (PosInt 6) = Ok (qz 9).
Proof.
  destruct (orbitals_proof show_exact 1 (cubic_cell 1 [""%string]) [7%Z] [true] tol8 (cubic_shape _ _) eq_refl eq_refl) as (L & E & _).
  exists L. split; [exact E|].
  split; [|split]; (rewrite (chain_distance_proof show_exact 7 true L) by (auto; lia)); rewrite <- qz_mul; reflexivity.
Qed.
