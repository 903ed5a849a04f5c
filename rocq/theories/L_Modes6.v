(** Proofs about the result of diagonalize_bdg. *)
From Coq Require Import List ZArith Bool Arith Lia Permutation Sorted Setoid Morphisms Reals QArith Qreals Qcanon Lra.
From Coquelicot Require Import Complex.
From Verif Require Import GC Exn S_Alg S_Den S_Basis S_Conv S_RScal S_CFock S_CScal M_OpString M_Basis M_Conversion M_LinAlg M_Quad M_Core M_Greedy M_Modes S_LinAlg S_Core S_Greedy S_Quad S_Modes
  L_Alg L_Module L_CScal L_LinAlg L_Inter L_Herm L_Sparsify L_Quad L_Quad2 L_Quad3 L_Diagonalize L_Modes L_Modes2 L_Modes3 L_Modes4 L_Modes5.
Import M_LinAlg ListNotations.
Local Open Scope nat_scope.
Local Open Scope alg_scope.

Lemma halves {T} (l : list T) n : length l = (2 * n)%nat -> firstn n l ++ firstn n (skipn n l) = l.
Proof. intros H. rewrite (firstn_all2 (n := n) (skipn n l)) by (rewrite skipn_length; lia). apply firstn_skipn. Qed.
Lemma half1_length {T} (l : list T) n : length l = (2 * n)%nat -> length (firstn n l) = n.
Proof. intros H. apply firstn_length_le. lia. Qed.
Lemma half2_length {T} (l : list T) n : length l = (2 * n)%nat -> length (firstn n (skipn n l)) = n.
Proof. intros H. apply firstn_length_le. rewrite skipn_length. lia. Qed.
Section Result.
  Variables (Or : mdoracles) (o r : Operator) (n : nat) (sigma : option R).
  Hypothesis Hr : (o_type o = Fermion /\ r = o) \/ (o_type o = Majorana /\ convert (COperator o) Fermion false = Ok r).
  Hypothesis Ht : forall t, In t (op_terms r) -> real (fst t) /\ quadratic_fermion n (snd t).
  Hypothesis Hsort : sorts_reals (md_sort Or).
  Hypothesis Hx : forall M, bdg_matrix o n = Ok M -> exact_solution (2 * n) (zentry M) (md_eigh Or None (rows_z (2 * n) (zentry M))).
  Notation N := (2 * n)%nat.
  Definition ucol (p : R * vec) : vec := firstn n (snd p).
  Definition vcol (p : R * vec) : vec := firstn n (skipn n (snd p)).
  Lemma bdg_setup : exists M qs, bdg_matrix o n = Ok M /\ S_Quad.hermitian (zentry M) /\ ph_symmetric n (zentry M) /\
    full_solution (rows_z N (zentry M)) qs /\ orthonormal (map snd qs) /\ StronglySorted Rle (map fst qs) /\
    diagonalize_bdg Or o n sigma None = Ok (map (fun p => Rabs (fst p)) (firstn n qs), map ucol (firstn n qs), map vcol (firstn n qs)) /\
    forall (A : StarAlg) (c : Z -> A), CAR A c ->
      means c (op_terms r) == half · form N (zentry M) (fun j => (nambu n c j)^*) (nambu n c) + gmul half (trace n (zentry M)) · aone.
  Proof.
    destruct (bdg_ok o r n Hr Ht) as (M & EM & Ed & Hh & Hp & Hf). destruct (Hx M EM Hh) as [[He Hs] Ho].
    set (ps := md_eigh Or None (rows_z N (zentry M))) in *. destruct (Hsort (map fst ps)) as [P _]. rewrite map_length in P.
    destruct (take_total ps (md_sort Or (map fst ps))) as (qs & Eq & _). { intros i Hi. apply (Permutation_in _ P) in Hi. apply in_seq in Hi. lia. }
    pose proof (take_perm ps _ qs P Eq) as Pq. exists M, qs. split; auto. split; auto. split; auto. split; [|split; [|split; [|split] ] ]; auto.
    - split; [intros l v H; apply He; exact (Permutation_in _ Pq H)|]. intros x Lx. apply (span_perm _ (map snd ps)); auto. apply Permutation_map, Permutation_sym, Pq.
    - apply (ortho_perm (map snd ps)); auto. apply Permutation_map, Permutation_sym, Pq.
    - exact (sorted_pairs _ ps qs Hsort Eq).
    - unfold diagonalize_bdg. rewrite EM. cbn [rbind]. rewrite z_array_rows, Ed. fold ps. rewrite Eq. reflexivity.
  Qed.
  Lemma cols_mode {A : StarAlg} (S : RScal A) (c : Z -> A) p : length (snd p) = N -> bogoliubov S n (ucol p) (vcol p) c == mode_of S N (snd p) (nambu n c).
  Proof.
    intros L. rewrite <- mode_split.
    - replace (ucol p ++ vcol p) with (snd p); [reflexivity|]. symmetry. exact (halves (snd p) n L).
    - exact (half1_length (snd p) n L).
    - exact (half2_length (snd p) n L).
  Qed.
  Lemma sorted_firstn {T} (R : T -> T -> Prop) l k : StronglySorted R l -> StronglySorted R (firstn k l).
  Proof.
    revert k. induction l as [|x l IH]; intros [|k] H; cbn [firstn]; try constructor; apply StronglySorted_inv in H; destruct H as [H1 H2]; auto.
    rewrite Forall_forall in *. intros y Hy. apply H2. rewrite <- (firstn_skipn k l). apply in_or_app; auto.
  Qed.
  Lemma bdg_result : exists es us vs, diagonalize_bdg Or o n sigma None = Ok (es, us, vs) /\ length es = n /\ length us = n /\ length vs = n /\
    (forall v, In v us \/ In v vs -> length v = n) /\ StronglySorted Rge es /\ (forall e, In e es -> (0 <= e)%R) /\
    forall (A : StarAlg) (S : RScal A) (c : Z -> A), CAR A c ->
      (forall k e u v, nth_error es k = Some e -> nth_error us k = Some u -> nth_error vs k = Some v -> ladder S (means c (op_terms r)) e (bogoliubov S n u v c)) /\
      (forall j k u v u' v', nth_error us j = Some u -> nth_error vs j = Some v -> nth_error us k = Some u' -> nth_error vs k = Some v' ->
         bogoliubov S n u v c * (bogoliubov S n u' v' c)^* + (bogoliubov S n u' v' c)^* * bogoliubov S n u v c == (if Nat.eqb j k then g1 else g0) · aone).
  Proof.
    destruct bdg_setup as (M & qs & EM & Hh & Hp & Hs & Ho & Hst & ED & Hf). do 3 eexists. split; [exact ED|].
    assert (LN : length qs = N) by (apply (half_length n (zentry M)); auto). assert (Lf : length (firstn n qs) = n) by (apply firstn_length_le; lia).
    rewrite !map_length. split; auto. split; auto. split; auto.
    assert (HP : forall p, In p (firstn n qs) -> length (snd p) = N /\ rows_vec (rows_z N (zentry M)) (snd p) = map (Cmult (RtoC (fst p))) (snd p) /\ (fst p <= 0)%R).
    { intros [l v] Hin. assert (Hq : In (l, v) qs) by (rewrite <- (firstn_skipn n qs); apply in_or_app; auto). destruct (half_pair n (zentry M) qs Hs l v Hq) as [L E]. cbn [fst snd].
      split; auto. split; auto. apply (half_nonpos n (zentry M) qs Hh Hp Hs Ho Hst l v Hin). }
    split; [|split; [|split] ].
    - intros v [Hv|Hv]; apply in_map_iff in Hv; destruct Hv as (p & <- & Hin); destruct (HP p Hin) as (L & _); [exact (half1_length (snd p) n L) | exact (half2_length (snd p) n L)].
    - assert (Sf := sorted_firstn Rle (map fst qs) n Hst). rewrite firstn_map in Sf. clear - Sf HP. revert Sf HP. generalize (firstn n qs) as low. induction low as [|p low IH]; intros Sf HP; cbn [map] in *; constructor; apply StronglySorted_inv in Sf; destruct Sf as [S1 S2]; auto.
      + apply IH; auto. intros q Hq. apply HP. right; auto.
      + rewrite Forall_forall in *. intros e He. apply in_map_iff in He. destruct He as (q & <- & Hq). specialize (S2 (fst q) (in_map fst _ _ Hq)).
        destruct (HP p (or_introl eq_refl)) as (_ & _ & P1). destruct (HP q (or_intror Hq)) as (_ & _ & P2). rewrite !Rabs_left1 by auto. lra.
    - intros e He. apply in_map_iff in He. destruct He as (q & <- & _). apply Rabs_pos.
    - intros A S c HC. split.
      + intros k e u v H1 H2 H3. apply nth_map_inv in H1, H2, H3. destruct H1 as (p & E1 & ->), H2 as (p2 & E2 & ->), H3 as (p3 & E3 & ->).
        assert (p2 = p) by (pose proof (eq_trans (eq_sym E2) E1) as X; injection X; auto). assert (p3 = p) by (pose proof (eq_trans (eq_sym E3) E1) as X; injection X; auto). subst p2 p3.
        destruct (HP p (nth_error_In _ _ E1)) as (L & E & P1). unfold ladder. rewrite (cols_mode S c p L), (Hf A c HC), Rabs_left1 by auto. apply bdg_ladder; auto.
      + intros j k u v u' v' H1 H2 H3 H4. apply nth_map_inv in H1, H2, H3, H4. destruct H1 as (p & E1 & ->), H2 as (p2 & E2 & ->), H3 as (q & E3 & ->), H4 as (q2 & E4 & ->).
        assert (p2 = p) by (pose proof (eq_trans (eq_sym E2) E1) as X; injection X; auto). assert (q2 = q) by (pose proof (eq_trans (eq_sym E4) E3) as X; injection X; auto). subst p2 q2.
        destruct (HP p (nth_error_In _ _ E1)) as (L & _ & _). destruct (HP q (nth_error_In _ _ E3)) as (L' & _ & _).
        rewrite (cols_mode S c p L), (cols_mode S c q L'), (dual_anti S N (nambu n c)) by (try (apply nambu_dual; auto); auto).
        destruct (low_orthonormal n qs Ho) as [O1 O2]. destruct (Nat.eqb_spec j k) as [->|Njk].
        * assert (q = p) by (pose proof (eq_trans (eq_sym E3) E1) as X; injection X; auto). subst q. rewrite (cs_eq S _ _ aone (O1 _ (in_map snd _ _ (nth_error_In _ _ E1)))), cs_1, ascal_1. reflexivity.
        * rewrite (cs_eq S _ (RtoC 0)), cs_0, ascal_0; [reflexivity|]. apply (O2 j k); auto; [exact (map_nth_error snd _ _ E1) | exact (map_nth_error snd _ _ E3)].
  Qed.
  Lemma fermion_list_ext {A : StarAlg} {T} (f g : T -> A) l : (forall t, In t l -> f t == g t) -> fermion_list (map g l) -> fermion_list (map f l).
  Proof.
    intros E H i j x y Hi Hj. apply nth_map_inv in Hi, Hj. destruct Hi as (p & Ei & ->), Hj as (q & Ej & ->).
    destruct (H i j (g p) (g q) (map_nth_error g _ _ Ei) (map_nth_error g _ _ Ej)) as [H1 H2]. rewrite (E p), (E q) by (eapply nth_error_In; eauto). auto.
  Qed.
  Lemma combine_maps {T U V} (f : T -> U) (g : T -> V) l : combine (map f l) (map g l) = map (fun t => (f t, g t)) l.
  Proof. induction l as [|t l IH]; cbn; auto. rewrite IH. auto. Qed.
  Lemma bdg_result_positive es us vs : diagonalize_bdg Or o n sigma None = Ok (es, us, vs) -> (forall e, In e es -> (0 < e)%R) -> exists M, bdg_matrix o n = Ok M /\
    forall (A : StarAlg) (S : RScal A) (c : Z -> A), CAR A c ->
      let gs := map (fun q => bogoliubov S n (fst q) (snd q) c) (combine us vs) in
      fermion_list gs /\ means c (op_terms r) + rs S (rtotal es / 2) aone == emptiness S (combine es gs) + gmul half (trace n (zentry M)) · aone.
  Proof.
    intros E Hpos. destruct bdg_setup as (M & qs & EM & Hh & Hp & Hs & Ho & Hst & ED & Hf). rewrite ED in E.
    assert (E1 : es = map (fun p => Rabs (fst p)) (firstn n qs)) by (injection E; auto). assert (E2 : us = map ucol (firstn n qs)) by (injection E; auto). assert (E3 : vs = map vcol (firstn n qs)) by (injection E; auto). clear E.
    exists M. split; auto. intros A S c HC gs. unfold gs. rewrite E2, E3, combine_maps, map_map. cbn [fst snd].
    assert (Hneg : forall l v, In (l, v) (firstn n qs) -> (l < 0)%R).
    { intros l v Hin. pose proof (half_nonpos n (zentry M) qs Hh Hp Hs Ho Hst l v Hin) as X. assert (Y : (0 < Rabs l)%R) by (apply Hpos; rewrite E1; apply in_map_iff; exists (l, v); auto).
      destruct (Req_dec l 0) as [->|]; [rewrite Rabs_R0 in Y|]; lra. }
    assert (HL : forall p, In p (firstn n qs) -> bogoliubov S n (ucol p) (vcol p) c == mode_of S N (snd p) (nambu n c)).
    { intros [l v] Hin. apply cols_mode. apply (half_pair n (zentry M) qs Hs l v). rewrite <- (firstn_skipn n qs). apply in_or_app; auto. }
    split.
    - apply (fermion_list_ext _ (fun p => mode_of S N (snd p) (nambu n c))); auto. apply (low_fermions n (zentry M) qs); auto.
    - rewrite (Hf A c HC), E1, combine_maps. rewrite (low_energy n (zentry M) qs Hh Hp Hs Ho Hneg S c HC (gmul half (trace n (zentry M)))). unfold emptiness. rewrite !map_map.
      apply aadd_proper; [|reflexivity]. apply asum_ext. intros p Hin. cbn [fst snd]. rewrite (HL p Hin). reflexivity.
  Qed.
End Result.

Lemma bdg_result_some Or o r n k sigma : (o_type o = Fermion /\ r = o) \/ (o_type o = Majorana /\ convert (COperator o) Fermion false = Ok r) ->
  (forall t, In t (op_terms r) -> real (fst t) /\ quadratic_fermion n (snd t)) -> sorts_reals (md_sort Or) ->
  (forall M, bdg_matrix o n = Ok M -> S_Quad.hermitian (zentry M) ->
     eigenpairs (rows_z (2 * n) (zentry M)) (md_eigh Or (Some (k, sigma)) (rows_z (2 * n) (zentry M))) /\
     length (md_eigh Or (Some (k, sigma)) (rows_z (2 * n) (zentry M))) = k) ->
  exists M qs es us vs, bdg_matrix o n = Ok M /\ Permutation qs (md_eigh Or (Some (k, sigma)) (rows_z (2 * n) (zentry M))) /\ StronglySorted Rle (map fst qs) /\
  diagonalize_bdg Or o n sigma (Some k) = Ok (es, us, vs) /\ length es = min n k /\ length us = min n k /\ length vs = min n k /\
  forall i l w e u v, nth_error qs i = Some (l, w) -> nth_error es i = Some e -> nth_error us i = Some u -> nth_error vs i = Some v ->
    e = Rabs l /\ w = u ++ v /\ length u = n /\ length v = n /\
    forall (A : StarAlg) (S : RScal A) (c : Z -> A), CAR A c -> ladder S (means c (op_terms r)) (- l) (bogoliubov S n u v c).
Proof.
  intros Hr Ht Hsort Hx. destruct (bdg_ok o r n Hr Ht) as (M & EM & Ed & Hh & Hp & Hf). destruct (Hx M EM Hh) as [He Lk].
  set (ps := md_eigh Or (Some (k, sigma)) (rows_z (2 * n) (zentry M))) in *. destruct (Hsort (map fst ps)) as [P _]. rewrite map_length in P.
  destruct (take_total ps (md_sort Or (map fst ps))) as (qs & Eq & _). { intros i Hi. apply (Permutation_in _ P) in Hi. apply in_seq in Hi. lia. }
  pose proof (take_perm ps _ qs P Eq) as Pq. exists M, qs, (map (fun p => Rabs (fst p)) (firstn n qs)), (map (ucol n) (firstn n qs)), (map (vcol n) (firstn n qs)).
  split; auto. split; auto. split; [exact (sorted_pairs _ ps qs Hsort Eq)|]. split.
  { unfold diagonalize_bdg. rewrite EM. cbn [rbind]. rewrite z_array_rows, Ed. fold ps. rewrite Eq. reflexivity. }
  assert (LL : length (firstn n qs) = min n k) by (rewrite firstn_length; f_equal; transitivity (length ps); [apply Permutation_length; exact Pq | exact Lk]).
  rewrite !map_length. split; auto. split; auto. split; auto.
  intros i l w e u v H0 H1 H2 H3. apply nth_map_inv in H1, H2, H3. destruct H1 as (p & E1 & ->), H2 as (p2 & E2 & ->), H3 as (p3 & E3 & ->).
  assert (p2 = p) by (pose proof (eq_trans (eq_sym E2) E1) as X; injection X; auto). assert (p3 = p) by (pose proof (eq_trans (eq_sym E3) E1) as X; injection X; auto). subst p2 p3.
  assert (Ep : p = (l, w)).
  { assert (X := nth_app_l _ (skipn n qs) i p E1). rewrite firstn_skipn in X. pose proof (eq_trans (eq_sym X) H0) as Y. injection Y. auto. }
  subst p. assert (Hin : In (l, w) ps) by (apply (Permutation_in _ Pq); apply nth_error_In in H0; exact H0).
  destruct (He l w Hin) as (L & _ & E). rewrite rows_z_length in L.
  split; auto. split; [symmetry; exact (halves w n L)|]. split; [exact (half1_length w n L)|]. split; [exact (half2_length w n L)|].
  intros A S c HC. unfold ladder. rewrite (cols_mode n S c (l, w) L), (Hf A c HC). apply bdg_ladder; auto.
Qed.
