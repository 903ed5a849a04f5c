(** Proofs about normal modes with pairing: the lower half of the eigenvalues. *)
From Coq Require Import List ZArith Bool Arith Lia Permutation Sorted Setoid Morphisms Reals QArith Qreals Qcanon Lra.
From Coquelicot Require Import Complex.
From Verif Require Import GC Exn S_Alg S_RScal S_CFock S_CScal M_LinAlg M_Quad M_Core M_Modes S_LinAlg S_Core S_Greedy S_Sparsify S_Quad S_Modes
  L_Alg L_Module L_CScal L_LinAlg L_Inter L_Herm L_PartIso L_Dim L_Generate2 L_Fidelity L_Sparsify L_Commutant L_Quad L_Diagonalize L_Modes L_Modes2 L_Modes3 L_Modes4.
Import M_LinAlg ListNotations.
Local Open Scope nat_scope.
Local Open Scope alg_scope.

Lemma nth_map_inv {T U} (f : T -> U) l i y : nth_error (map f l) i = Some y -> exists x, nth_error l i = Some x /\ y = f x.
Proof. rewrite nth_error_map. destruct (nth_error l i) as [x|]; [|discriminate]. intros H. injection H as <-. eauto. Qed.
Lemma nth_app_l {T} (a b : list T) i x : nth_error a i = Some x -> nth_error (a ++ b) i = Some x.
Proof. intros H. rewrite nth_error_app1; auto. apply nth_error_Some. congruence. Qed.
Lemma nth_app_r {T} (a b : list T) i x : nth_error b i = Some x -> nth_error (a ++ b) (length a + i)%nat = Some x.
Proof. intros H. rewrite nth_error_app2 by lia. replace (length a + i - length a)%nat with i by lia. auto. Qed.
Lemma sublist_orthonormal (a b : list vec) : orthonormal (a ++ b) -> orthonormal a /\ orthonormal b.
Proof.
  intros [H1 H2]. split; split.
  - intros v Hv. apply H1, in_or_app; auto.
  - intros i j v w Hi Hj N. apply (H2 i j); auto; apply nth_app_l; auto.
  - intros v Hv. apply H1, in_or_app; auto.
  - intros i j v w Hi Hj N. apply (H2 (length a + i)%nat (length a + j)%nat); [| |lia].
    + apply nth_app_r; auto.
    + apply nth_app_r; auto.
Qed.
Lemma orthonormal_join (a b : list vec) : orthonormal a -> orthonormal b -> (forall v w, In v a -> In w b -> inner v w = RtoC 0) -> orthonormal (a ++ b).
Proof.
  intros Ha Hb H. induction a as [|x a IH]; auto. destruct (ortho_tail _ _ Ha) as (H1 & H2 & H3). cbn [app]. apply ortho_cons; auto.
  - intros w Hw. apply in_app_or in Hw. destruct Hw as [Hw|Hw]; [apply (H2 w Hw) | apply H; auto; left; auto].
  - apply IH; auto. intros v w Hv. apply H. right; auto.
Qed.

Section Half.
  Variables (n : nat) (F : Z -> Z -> GC) (qs : list (R * vec)).
  Notation N := (2 * n)%nat.
  Notation D := (rows_z N F).
  Hypotheses (Hh : S_Quad.hermitian F) (Hp : ph_symmetric n F) (Hs : full_solution D qs) (Ho : orthonormal (map snd qs)) (Hsort : StronglySorted Rle (map fst qs)).
  Lemma half_vectors : vectors N (map snd qs).
  Proof. apply (full_vectors N D); [apply rows_z_length | apply Hs]. Qed.
  Lemma half_pair l v : In (l, v) qs -> length v = N /\ rows_vec D v = map (Cmult (RtoC l)) v.
  Proof. intros H. destruct Hs as [He _]. destruct (He l v H) as (L & _ & E). split; [exact (eq_trans L (rows_z_length N F)) | exact E]. Qed.
  Lemma half_length : length qs = N.
  Proof. apply (full_length N D); auto; [apply rows_z_length | apply Hs|]. destruct Hs as [_ Hf]. rewrite rows_z_length in Hf. exact Hf. Qed.
  Lemma half_support lo hi mu w : qs = lo ++ hi -> length w = N -> rows_vec D w = map (Cmult (RtoC mu)) w -> (forall l v, In (l, v) hi -> l <> mu) -> span N (map snd lo) w.
  Proof.
    intros Eq Lw Ew Hn. destruct Hs as [He Hf]. rewrite rows_z_length in Hf. destruct (span_mat_vec N (map snd qs) half_vectors w (Hf w Lw)) as (x & Lx & Ex).
    assert (V := half_vectors). assert (Ea : x = adj (map snd qs) w) by (rewrite Ex; symmetry; apply adj_isometry; auto).
    rewrite Eq, map_app in V, Ex, Ea. unfold adj in Ea. rewrite map_app in Ea.
    assert (V1 : vectors N (map snd lo)) by (intros u Hu; apply V, in_or_app; auto). assert (V2 : vectors N (map snd hi)) by (intros u Hu; apply V, in_or_app; auto).
    assert (Z : map (fun c => inner c w) (map snd hi) = vzero (length (map snd hi))).
    { unfold vzero. rewrite map_length. rewrite map_map. clear - Hn Hh He Eq Lw Ew. assert (G : forall p, In p hi -> inner (snd p) w = RtoC 0).
      { intros [l v] Hi. destruct (He l v) as (L & _ & E); [rewrite Eq; apply in_or_app; auto|]. cbn [snd]. apply (eig_orth N D l v mu w); auto; [apply rows_z_hermitian; auto | rewrite <- (rows_z_length N F); exact L | apply (Hn l v); auto]. }
      clear - G. induction hi as [|p hi IH]; auto. cbn [map length repeat]. rewrite (G p) by (left; auto). f_equal. apply IH. intros q Hq. apply G. right; auto. }
    assert (Eb : x = adj (map snd lo) w ++ vzero (length (map snd hi))) by exact (eq_trans Ea (f_equal (app _) Z)). rewrite Eb in Ex.
    rewrite mat_vec_app in Ex; [|exact V1 | exact V2 | apply adj_length]. rewrite mat_vec_zero in Ex by exact V2. rewrite (vadd_0r N) in Ex by (apply mat_vec_length; exact V1). rewrite Ex. apply mat_vec_span; auto.
  Qed.
  Lemma partners_orthonormal vs : vectors N vs -> orthonormal vs -> orthonormal (map (partner n) vs).
  Proof.
    intros V [O1 O2]. split.
    - intros u Hu. apply in_map_iff in Hu. destruct Hu as (v & <- & Hv). rewrite partner_inner, O1 by auto. apply Cconj_R.
    - intros i j u w Hi Hj Nij. rewrite nth_error_map in Hi, Hj. destruct (nth_error vs i) as [a|] eqn:Ei; [|discriminate]. destruct (nth_error vs j) as [b|] eqn:Ej; [|discriminate]. injection Hi as <-. injection Hj as <-.
      rewrite partner_inner by (apply V; eapply nth_error_In; eauto). refine (eq_trans (f_equal Cconj (O2 i j a b Ei Ej Nij)) _). apply Cconj_R.
  Qed.
  Lemma half_nonpos l v : In (l, v) (firstn n qs) -> (l <= 0)%R.
  Proof.
    intros Hin. destruct (Rle_lt_dec l 0) as [|Hl]; auto. exfalso. apply In_nth_error in Hin. destruct Hin as (i & Hi).
    assert (Hin : i < length (firstn n qs)) by (apply nth_error_Some; congruence). rewrite firstn_length, half_length in Hin.
    rewrite <- (firstn_skipn n qs) in Hsort. assert (Ei : nth_error qs i = Some (l, v)) by (rewrite <- (firstn_skipn n qs), nth_error_app1; auto; apply nth_error_Some; congruence).
    rewrite (firstn_skipn n qs) in Hsort.
    set (lo := firstn i qs). set (hi := skipn i qs). assert (Eq : qs = lo ++ hi) by (symmetry; apply firstn_skipn).
    assert (Ehi : exists r, hi = (l, v) :: r).
    { unfold hi. clear - Ei. revert i Ei. induction qs as [|q l' IH]; intros [|i] E; try discriminate; cbn in *; [injection E as ->; eauto | apply IH; auto]. }
    destruct Ehi as (r & Ehi).
    assert (Hpos : forall l' v', In (l', v') hi -> (0 < l')%R).
    { intros l' v' H. assert (Sh : StronglySorted Rle (map fst hi)) by (rewrite Eq, map_app in Hsort; revert Hsort; generalize (map fst lo); induction l0 as [|z z' IH]; auto; intros X; apply IH; apply StronglySorted_inv in X; apply X).
      rewrite Ehi in Sh, H. cbn [map fst] in Sh. apply StronglySorted_inv in Sh. destruct Sh as [_ Fa]. rewrite Forall_forall in Fa. destruct H as [H|H]; [injection H as <- <-; auto|]. specialize (Fa l' ltac:(apply in_map_iff; exists (l', v'); auto)). lra. }
    assert (V := half_vectors). rewrite Eq, map_app in V. assert (O := Ho). rewrite Eq, map_app in O. destruct (sublist_orthonormal _ _ O) as [_ Oh].
    assert (V1 : vectors N (map snd lo)) by (intros u Hu; apply V, in_or_app; auto). assert (V2 : vectors N (map snd hi)) by (intros u Hu; apply V, in_or_app; auto).
    assert (K : length (map (partner n) (map snd hi)) <= length (map snd lo)).
    { apply (span_dimension N); auto.
      - intros u Hu. apply in_map_iff in Hu. destruct Hu as (w & <- & _). apply partner_length.
      - apply orthonormal_independent; [intros u Hu; apply in_map_iff in Hu; destruct Hu as (w & <- & _); apply partner_length | apply partners_orthonormal; auto].
      - intros u Hu. apply in_map_iff in Hu. destruct Hu as (w & <- & Hw). apply in_map_iff in Hw. destruct Hw as ([l' w'] & <- & Hq). cbn [snd].
        destruct (half_pair l' w') as [Lw Ew]; [rewrite Eq; apply in_or_app; auto|].
        apply (half_support lo hi (- l')); auto; [apply partner_length | apply partner_eigen; auto|].
        intros l2 v2 H2 E2. apply Hpos in H2. apply Hpos in Hq. lra. }
    rewrite !map_length in K. unfold lo, hi in K. rewrite skipn_length, firstn_length, half_length in K. lia.
  Qed.

  (** The lower half and its partners. *)
  Definition doubled (low : list (R * vec)) : list (R * vec) := low ++ map (fun p => ((- fst p)%R, partner n (snd p))) low.
  Hypothesis Hneg : forall l v, In (l, v) (firstn n qs) -> (l < 0)%R.
  Lemma low_in p : In p (firstn n qs) -> In p qs.
  Proof. intros H. rewrite <- (firstn_skipn n qs). apply in_or_app; auto. Qed.
  Lemma low_orthonormal : orthonormal (map snd (firstn n qs)).
  Proof. assert (O := Ho). rewrite <- (firstn_skipn n qs), map_app in O. apply (sublist_orthonormal _ _ O). Qed.
  Lemma low_vectors : vectors N (map snd (firstn n qs)).
  Proof. intros v Hv. apply half_vectors. apply in_map_iff in Hv. destruct Hv as (p & <- & Hv). apply in_map, low_in; auto. Qed.
  Lemma low_cross v w : In v (map snd (firstn n qs)) -> In w (map snd (firstn n qs)) -> inner v (partner n w) = RtoC 0.
  Proof.
    intros Hv Hw. apply in_map_iff in Hv, Hw. destruct Hv as ([l1 v1] & <- & H1), Hw as ([l2 v2] & <- & H2). cbn [snd].
    destruct (half_pair l1 v1 (low_in _ H1)) as [L1 E1], (half_pair l2 v2 (low_in _ H2)) as [L2 E2].
    apply (eig_orth N D l1 v1 (- l2) (partner n v2)); auto; [apply rows_z_hermitian; auto | apply partner_length | apply partner_eigen; auto|].
    apply Hneg in H1. apply Hneg in H2. lra.
  Qed.
  Lemma doubled_solution : full_solution D (doubled (firstn n qs)) /\ orthonormal (map snd (doubled (firstn n qs))).
  Proof.
    assert (O : orthonormal (map snd (doubled (firstn n qs)))).
    { unfold doubled. rewrite map_app, map_map. cbn [snd]. rewrite <- (map_map snd (partner n)). apply orthonormal_join; [apply low_orthonormal | apply partners_orthonormal; [apply low_vectors | apply low_orthonormal]|].
      intros v w Hv Hw. apply in_map_iff in Hw. destruct Hw as (u & <- & Hu). apply low_cross; auto. }
    assert (E : forall l v, In (l, v) (doubled (firstn n qs)) -> length v = N /\ rows_vec D v = map (Cmult (RtoC l)) v).
    { intros l v H. apply in_app_or in H. destruct H as [H|H]; [apply half_pair, low_in; auto|]. apply in_map_iff in H. destruct H as ([l' v'] & Epair & H). cbn [fst snd] in Epair. injection Epair as <- <-.
      split; [apply partner_length|]. destruct (half_pair l' v' (low_in _ H)). apply partner_eigen; auto. }
    assert (V : vectors N (map snd (doubled (firstn n qs)))) by (intros v Hv; apply in_map_iff in Hv; destruct Hv as ([l v'] & <- & H); apply (E l v' H)).
    split; auto. split.
    - intros l v H. destruct (E l v H) as [L1 E1]. rewrite rows_z_length. split; auto. split; auto. intros ->.
      assert (X : inner (repeat (RtoC 0) N) (repeat (RtoC 0) N) = RtoC 1) by (apply O; apply in_map_iff; exists (l, repeat (RtoC 0) N); auto).
      pose proof (inner_zero_l N (vzero N)) as Z0. unfold vzero in Z0. rewrite X in Z0. apply RtoC_inj in Z0. lra.
    - rewrite rows_z_length. apply orthonormal_full; auto. unfold doubled. rewrite map_length, app_length, map_length. pose proof half_length as HL. assert (Lf : length (firstn n qs) = n) by (apply firstn_length_le; lia). clear - Lf. unfold vec in *. lia.
  Qed.
  Section Alg.
    Context {A : StarAlg} (S : RScal A) (c : Z -> A).
    Hypothesis HC : CAR A c.
    Notation psi := (nambu n c).
    Notation g := (fun v => mode_of S N v psi).
    Lemma low_form : form N F (fun j => (psi j)^*) psi ==
      asum (map (fun p => rs S (fst p) ((g (snd p))^* * g (snd p)) + rs S (- fst p) (g (snd p) * (g (snd p))^*)) (firstn n qs)).
    Proof.
      destruct doubled_solution as [Hf Hf2]. rewrite form_cform, (cform_spectral S N (doubled (firstn n qs))) by (apply spectral; auto).
      unfold doubled. rewrite map_app, asum_app, map_map, <- asum_map_add. apply asum_ext. intros p Hpp. cbn [fst snd]. rewrite <- !mode_star, partner_mode, astar_star. reflexivity.
    Qed.
    Lemma low_fermions : fermion_list (map (fun p => g (snd p)) (firstn n qs)).
    Proof.
      intros i j f h Hi Hj. apply nth_map_inv in Hi, Hj. destruct Hi as (p & Ei & ->), Hj as (q & Ej & ->).
      assert (Ip := nth_error_In _ _ Ei). assert (Iq := nth_error_In _ _ Ej). assert (Jp := in_map snd _ _ Ip). assert (Jq := in_map snd _ _ Iq).
      split.
      - rewrite bdg_anti by (auto; apply low_vectors; auto). rewrite <- (cs_0 S aone). apply cs_eq. apply low_cross; auto.
      - rewrite (dual_anti S N psi) by (try (apply nambu_dual; auto); apply low_vectors; auto). destruct low_orthonormal as [O1 O2]. destruct (Nat.eqb_spec i j) as [->|Nij].
        + rewrite Ei in Ej. injection Ej as <-. rewrite (cs_eq S _ _ aone (O1 _ Jp)), cs_1, ascal_1. reflexivity.
        + rewrite (cs_eq S _ (RtoC 0)), cs_0, ascal_0; [reflexivity|]. apply (O2 i j); auto; [exact (map_nth_error snd _ _ Ei) | exact (map_nth_error snd _ _ Ej)].
    Qed.
    Lemma low_energy t : half · form N F (fun j => (psi j)^*) psi + t · aone + rs S (rtotal (map (fun p => Rabs (fst p)) (firstn n qs)) / 2) aone ==
      emptiness S (map (fun p => (Rabs (fst p), g (snd p))) (firstn n qs)) + t · aone.
    Proof.
      rewrite low_form. unfold emptiness. rewrite map_map. cbn [fst snd].
      pose (f1 := fun p : R * vec => rs S (fst p) ((g (snd p))^* * g (snd p)) + rs S (- fst p) (g (snd p) * (g (snd p))^*)).
      pose (f2 := fun p : R * vec => Rabs (fst p)). pose (f3 := fun p : R * vec => rs S (Rabs (fst p)) (g (snd p) * (g (snd p))^*)).
      assert (K : forall low, (forall l v, In (l, v) low -> (l < 0)%R) -> (forall p, In p low -> g (snd p) * (g (snd p))^* + (g (snd p))^* * g (snd p) == aone) ->
        half · asum (map f1 low) + rs S (rtotal (map f2 low) / 2) aone == asum (map f3 low)).
      { induction low as [|[l v] low IH]; intros N0 U.
        - cbn [map rtotal fold_right asum]. replace (0 / 2)%R with 0%R by field. rewrite rs_0, ascal_zero, aadd_0_r. reflexivity.
        - specialize (IH (fun l v H => N0 l v (or_intror H)) (fun p H => U p (or_intror H))).
          assert (Nl : (l < 0)%R) by (apply (N0 l v); left; auto). specialize (U (l, v) (or_introl eq_refl)). cbn [fst snd] in U.
          set (x := g v * (g v)^*) in *. set (y := (g v)^* * g v) in *.
          change (half · ((rs S l y + rs S (- l) x) + asum (map f1 low)) + rs S ((Rabs l + rtotal (map f2 low)) / 2) aone == rs S (Rabs l) x + asum (map f3 low)).
          rewrite <- IH, (Rabs_left l Nl), Rdiv_plus_distr, rs_add_l. set (w := asum (map f1 low)). set (z := rs S (rtotal (map f2 low) / 2) aone).
          rewrite !ascal_add_r, !rs_half, <- U, rs_add_r.
          assert (E1 : rs S (l / 2) y + rs S (- l / 2) y == azero) by (rewrite <- rs_add_l; replace (l / 2 + - l / 2)%R with 0%R by field; apply rs_0).
          assert (E2 : rs S (- l) x == rs S (- l / 2) x + rs S (- l / 2) x) by (rewrite <- rs_add_l; replace (- l / 2 + - l / 2)%R with (- l)%R by field; reflexivity).
          rewrite E2. set (a := rs S (l / 2) y) in *. set (b := rs S (- l / 2) y) in *. set (d := rs S (- l / 2) x) in *.
          transitivity ((a + b) + (d + d) + half · w + z); [msolve [a; b; d; w; z]; gring|]. rewrite E1. msolve [w; d; z]; gring. }
      change (half · asum (map f1 (firstn n qs)) + t · aone + rs S (rtotal (map f2 (firstn n qs)) / 2) aone == asum (map f3 (firstn n qs)) + t · aone).
      rewrite <- (K (firstn n qs)); auto.
      - set (a := half · _). set (b := t · _). set (e := rs S _ _). msolve [a; b; e]; gring.
      - intros p Hpp. apply In_nth_error in Hpp. destruct Hpp as (i & Hi). destruct (low_fermions i i (g (snd p)) (g (snd p))) as [_ X]; [exact (map_nth_error (fun p => g (snd p)) _ _ Hi) | exact (map_nth_error (fun p => g (snd p)) _ _ Hi)|]. rewrite X, Nat.eqb_refl, ascal_1. reflexivity.
    Qed.
  End Alg.
End Half.
