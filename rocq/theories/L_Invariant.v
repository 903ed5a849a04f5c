(** invariant_operators: the symmetry matrix is a partial isometry. *)
From Coq Require Import List ZArith Bool Arith Lia Setoid Morphisms Reals QArith Qreals Qcanon Lra.
From Coquelicot Require Import Complex.
From Verif Require Import GC Exn M_OpString M_Tools M_Algebra M_Basis M_OpAlg M_Transform M_LinAlg M_Core S_Alg S_Den S_Basis S_Built S_OpAlg S_Transform S_RScal S_CFock S_CScal S_LinAlg S_Core S_Invariant
  L_Alg L_Sort L_StrAlg L_StrOp L_Indep L_Operator L_VSum L_Basis L_PropBasis L_OpAlg L_Sum L_Struct L_Commutant L_Trans4 L_Trans5 L_Trans6 L_Trans8 L_CScal L_LinAlg L_Inter L_Herm L_Core L_PartIso.
Import ListNotations.
Local Open Scope nat_scope.
Local Open Scope alg_scope.

(** Orthogonal columns of norm 0 or 1. *)
Lemma iso_of n cols mask : vectors n cols -> Forall2 (fun c (m : bool) => inner c c = RtoC (if m then 1 else 0)) cols mask ->
  ForallOrdPairs (fun c d => inner c d = RtoC 0 /\ inner d c = RtoC 0) cols ->
  forall x, length x = length cols -> adj cols (mat_vec n cols x) = masked mask x.
Proof.
  intros Hv HF. induction HF as [|c m cols mask Hc HF IH]; intros HP [|z x] Lx; try discriminate; auto.
  inversion HP as [|? ? Hh Ht]; subst. rewrite Forall_forall in Hh.
  assert (Lc : length c = n) by (apply Hv; left; auto). assert (Hv' : vectors n cols) by (intros u Hu; apply Hv; right; auto).
  assert (Lx' : length x = length cols) by (simpl in Lx; lia).
  change (masked (m :: mask) (z :: x)) with ((if m then z else RtoC 0) :: masked mask x). unfold adj in *. simpl. assert (Lm : length (mat_vec n cols x) = n) by (apply mat_vec_length; auto).
  assert (Ls : length (vscale z c) = n) by (rewrite vscale_length; auto). f_equal.
  - rewrite (inner_add_r n), inner_scale_r, Hc by auto.
    assert (Z : inner c (mat_vec n cols x) = RtoC 0).
    { apply (span_orth n cols); auto; [intros; apply Hh; auto | apply mat_vec_span; auto]. }
    rewrite Z. destruct m; ring.
  - transitivity (map (fun c' => inner c' (mat_vec n cols x)) cols); [|apply IH; auto].
    apply map_ext_in. intros d Hd. rewrite (inner_add_r n), inner_scale_r by auto. rewrite (proj2 (Hh d Hd)). ring.
Qed.

(** Linear maps applied to the columns. *)
Lemma mat_vec_map n m (f : vec -> vec) : (forall u, length u = n -> length (f u) = m) ->
  f (vzero n) = vzero m -> (forall c u w, length u = n -> length w = n -> f (vadd (vscale c u) w) = vadd (vscale c (f u)) (f w)) ->
  forall K v, vectors n K -> mat_vec m (map f K) v = f (mat_vec n K v).
Proof.
  intros Hl Hz Hf. induction K as [|k K IH]; intros [|z v] HK; simpl; auto.
  rewrite IH by (intros u Hu; apply HK; right; auto). symmetry. apply Hf; [apply HK; left; auto | apply mat_vec_length; intros u Hu; apply HK; right; auto].
Qed.

Section Strings.
  Variables (ty : optype) (strs : list OS).
  Hypotheses (Hnd : NoDup strs) (Hok : forall s, In s strs -> string_ok ty s /\ canonical s).

  Lemma key_eq s t : string_ok ty s -> string_ok ty t -> (os_key s t = true <-> s = t).
  Proof.
    intros Hs Ht. rewrite os_key_spec. split; [apply (key_string_ok ty); auto | intros ->; apply same_key_refl].
  Qed.
  Definition ind (c : C) (t : OS) (l : list OS) : vec := map (fun s => if os_key t s then c else RtoC 0) l.
  Lemma ind_nil c t l : string_ok ty t -> (forall s, In s l -> string_ok ty s) -> ~ In t l -> ind c t l = vzero (length l).
  Proof.
    intros Ht Hl Hn. induction l as [|s l IH]; auto. unfold ind, vzero in *. simpl. rewrite IH by (try (intros; apply Hl); simpl in *; auto).
    destruct (os_key t s) eqn:E; auto. apply key_eq in E; auto; [subst; exfalso; apply Hn; left; auto | apply Hl; left; auto].
  Qed.
  Lemma ind_inner t c : string_ok ty t -> forall w, length w = length strs ->
    inner (ind c t strs) w = csum (map (fun p => if os_key t (fst p) then (Cconj c * snd p)%C else RtoC 0) (combine strs w)).
  Proof.
    intros Ht. unfold ind. induction strs as [|s l IH]; intros [|z w] L; try discriminate; auto.
    cbn [map combine inner]. unfold csum in *. cbn [map fold_right fst snd]. inversion Hnd; subst.
    rewrite IH; auto; [|intros; apply Hok; right; auto]. f_equal. destruct (os_key t s); auto. rewrite Cconj_R. apply Cmult_0_l.
  Qed.
  Lemma ind_ind t u c d : string_ok ty t -> string_ok ty u -> inner (ind c t strs) (ind d u strs) = if os_key t u && existsb (os_key t) strs then (Cconj c * d)%C else RtoC 0.
  Proof.
    intros Ht Hu. unfold ind. induction strs as [|s l IH]; [rewrite andb_false_r; auto|]. inversion Hnd; subst.
    assert (Hs : string_ok ty s) by (apply Hok; left; auto).
    cbn [map inner existsb]. rewrite IH; auto; [|intros; apply Hok; right; auto].
    destruct (os_key t s) eqn:E1, (os_key u s) eqn:E2; simpl.
    - apply key_eq in E1; auto. apply key_eq in E2; auto. subst t u. rewrite (proj2 (key_eq s s Hs Hs)) by auto. simpl.
      assert (X : existsb (os_key s) l = false).
      { apply not_true_is_false. intros X. apply existsb_exists in X. destruct X as (y & Hy & K). apply key_eq in K; auto; [subst; contradiction | apply Hok; right; auto]. }
      rewrite X. apply Cplus_0_r.
    - assert (X : os_key t u = false).
      { apply not_true_is_false. intros X. apply key_eq in X; auto. subst. congruence. }
      rewrite X. simpl. rewrite Cmult_0_r, Cplus_0_l. auto.
    - rewrite Cconj_R, Cmult_0_l, Cplus_0_l. auto.
    - rewrite Cconj_R, Cmult_0_l, Cplus_0_l. auto.
  Qed.
  Lemma ind_meaning {A : StarAlg} (S : RScal A) (g : op -> Z -> A) c t : string_ok ty t ->
    clincomb S g (combine (ind c t strs) strs) == if existsb (os_key t) strs then cs S c (den g t) else azero.
  Proof.
    intros Ht. assert (Z : forall l, (forall s, In s l -> string_ok ty s) -> ~ In t l -> clincomb S g (combine (ind c t l) l) == azero).
    { intros l Hl Hn. rewrite ind_nil by auto. apply clin_vzero. }
    induction strs as [|s l IH]; [reflexivity|]. inversion Hnd; subst. assert (Hs : string_ok ty s) by (apply Hok; left; auto).
    unfold ind. cbn [map combine existsb]. rewrite clin_cons. fold (ind c t l). destruct (os_key t s) eqn:E; simpl.
    - apply key_eq in E; auto. subst t. rewrite Z; auto; [apply aadd_0_r | intros; apply Hok; right; auto].
    - rewrite cs_0, aadd_0_l. apply IH; auto. intros; apply Hok; right; auto.
  Qed.

  (** Images of the strings: t_j with the factors k_j. *)
  Variable imgs : list (R * OS).
  Hypothesis Himg : forall p, In p imgs -> (fst p = 1 \/ fst p = -1)%R /\ string_ok ty (snd p) /\ canonical (snd p).
  Hypothesis Hdis : NoDup (map snd imgs).
  Hypothesis Hlen : length imgs = length strs.
  Let N := length strs.
  Definition icols : list vec := map (fun p => ind (RtoC (fst p)) (snd p) strs) imgs.
  Definition imask : list bool := map (fun p => existsb (os_key (snd p)) strs) imgs.
  Lemma icols_vectors : vectors N icols.
  Proof. intros c Hc. apply in_map_iff in Hc. destruct Hc as (p & <- & _). apply map_length. Qed.
  Lemma icols_length : length icols = N.
  Proof. unfold icols. rewrite map_length. auto. Qed.
  Lemma imask_length : length imask = N.
  Proof. unfold imask. rewrite map_length. auto. Qed.
  Lemma icols_iso x : length x = N -> adj icols (mat_vec N icols x) = masked imask x.
  Proof.
    intros Lx. apply (iso_of N icols imask).
    - apply icols_vectors.
    - unfold icols, imask. clear Hdis Hlen Lx. induction imgs as [|p l IH]; simpl; constructor; auto; [|apply IH; intros; apply Himg; simpl; auto].
      destruct (Himg p (or_introl eq_refl)) as (Hk & Ht & _). rewrite ind_ind by auto. rewrite (proj2 (key_eq (snd p) (snd p) Ht Ht)) by auto. simpl.
      destruct (existsb _ _); auto. destruct Hk as [-> | ->]; apply C_ext; simpl; lra.
    - unfold icols. clear Hlen Lx. induction imgs as [|p l IH]; simpl; constructor.
      + apply Forall_forall. intros c Hc. apply in_map_iff in Hc. destruct Hc as (q & <- & Hq).
        destruct (Himg p (or_introl eq_refl)) as (_ & Hp & _). destruct (Himg q (or_intror Hq)) as (_ & Hq' & _).
        assert (Ne : snd p <> snd q) by (intros E; inversion Hdis; subst; apply H1; rewrite E; apply in_map; auto).
        rewrite !ind_ind by auto. replace (os_key (snd p) (snd q)) with false; [replace (os_key (snd q) (snd p)) with false; auto|].
        * symmetry. apply not_true_is_false. intros E. apply key_eq in E; auto.
        * symmetry. apply not_true_is_false. intros E. apply key_eq in E; auto.
      + apply IH; [intros; apply Himg; simpl; auto | inversion Hdis; auto].
    - exact (eq_trans Lx (eq_sym icols_length)).
  Qed.
  (** The terms of the image outside the basis. *)
  Fixpoint outside (x : vec) (l : list (R * OS)) : list (C * OS) :=
    match x, l with
    | z :: x', p :: l' => (if existsb (os_key (snd p)) strs then [] else [(Cmult z (RtoC (fst p)), snd p)]) ++ outside x' l'
    | _, _ => []
    end.
  Lemma outside_in x l t : In t (outside x l) -> exists p, In p l /\ snd t = snd p /\ existsb (os_key (snd p)) strs = false.
  Proof.
    revert x. induction l as [|p l IH]; intros [|z x] H; simpl in H; try destruct H. apply in_app_or in H. destruct H as [H|H].
    - destruct (existsb (os_key (snd p)) strs) eqn:E; [destruct H|]. destruct H as [<-|[]]. exists p. simpl. auto.
    - destruct (IH x H) as (q & ? & ?). exists q. simpl. auto.
  Qed.
  Lemma outside_nodup x l : NoDup (map snd l) -> NoDup (map snd (outside x l)).
  Proof.
    revert x. induction l as [|p l IH]; intros [|z x] H; simpl; try constructor. inversion H; subst.
    destruct (existsb (os_key (snd p)) strs) eqn:E; simpl; auto. constructor; auto. intros Hin. apply in_map_iff in Hin. destruct Hin as (t & Et & Ht).
    destruct (outside_in _ _ _ Ht) as (q & Hq & Eq & _). apply H2. rewrite <- Et, Eq. apply in_map; auto.
  Qed.
  Lemma outside_norm x l : (forall p, In p l -> (fst p = 1 \/ fst p = -1)%R) -> length x = length l ->
    sqsum (map fst (outside x l)) = sqsum (masked (map negb (map (fun p => existsb (os_key (snd p)) strs) l)) x).
  Proof.
    revert x. induction l as [|p l IH]; intros [|z x] H L; simpl in *; try discriminate; auto.
    rewrite map_app. assert (SA : forall a b, (sqsum (a ++ b) = sqsum a + sqsum b)%R).
    { clear. intros a b. unfold sqsum. induction a as [|y a IHa]; simpl; [lra|]. rewrite IHa. lra. }
    rewrite SA, IH by (auto; lia). unfold sqsum, masked. destruct (existsb (os_key (snd p)) strs); simpl; [lra|].
    destruct (H p (or_introl eq_refl)) as [-> | ->]; simpl; lra.
  Qed.
  Lemma outside_zero x l : sqsum (map fst (outside x l)) = 0%R <-> (forall t, In t (outside x l) -> fst t = RtoC 0).
  Proof.
    split.
    - intros H t Ht. apply sqsum_zero in H. apply (in_map fst) in Ht. rewrite H in Ht. apply repeat_spec in Ht. auto.
    - induction (outside x l) as [|t r IH]; intros H; auto. unfold sqsum in *. simpl. rewrite IH by (intros; apply H; simpl; auto).
      rewrite (H t) by (simpl; auto). simpl. lra.
  Qed.
  Lemma image_meaning {A : StarAlg} (S : RScal A) (g : op -> Z -> A) x : length x = N ->
    asum (map (fun p => cs S (fst p) (cs S (RtoC (fst (snd p))) (den g (snd (snd p))))) (combine x imgs)) ==
    clincomb S g (combine (mat_vec N icols x) strs) + clincomb S g (outside x imgs).
  Proof.
    intros Lx. unfold N in Lx. rewrite <- Hlen in Lx. clear Hdis. unfold icols. revert x Lx. clear Hlen.
    assert (Vl : forall l, vectors N (map (fun p : R * OS => ind (RtoC (fst p)) (snd p) strs) l)).
    { intros l c Hc. apply in_map_iff in Hc. destruct Hc as (q & <- & _). apply map_length. }
    induction imgs as [|p l IH]; intros [|z x] L; try discriminate.
    - simpl. rewrite clin_vzero. unfold clincomb. simpl. rewrite aadd_0_l. reflexivity.
    - simpl. rewrite IH by (auto; simpl in L; try lia; intros; apply Himg; simpl; auto).
      rewrite clin_vadd by (rewrite vscale_length, mat_vec_length by auto; apply map_length).
      rewrite clin_vscale, ind_meaning, clin_app by (apply Himg; simpl; auto).
      assert (Ac : forall a b c d : A, a + b + (c + d) == a + c + (b + d)).
      { intros a b c d. rewrite <- !aadd_assoc. apply aadd_proper; [reflexivity|]. rewrite !aadd_assoc. apply aadd_proper; [apply aadd_comm | reflexivity]. }
      rewrite Ac. apply aadd_proper; [|reflexivity]. destruct (existsb (os_key (snd p)) strs).
      + unfold clincomb. simpl. rewrite aadd_0_r. reflexivity.
      + unfold clincomb. simpl. rewrite cs_zero, aadd_0_l, aadd_0_r, cs_cs. reflexivity.
  Qed.
  (** T(O) = s O if and only if the image is in the span and the coordinates agree. *)
  Lemma image_eigen {A : StarAlg} (S : RScal A) (g : op -> Z -> A) (w : vec) x : rep ty g -> ~ (@aone A == azero) -> length x = N -> length w = N ->
    (clincomb S g (combine w strs) + clincomb S g (outside x imgs) == azero <-> w = vzero N /\ sqsum (map fst (outside x imgs)) = 0%R).
  Proof.
    intros Hr Hn Lx Lw. split.
    - intros H. rewrite <- clin_app in H.
      assert (G : forall c s, In (c, s) (combine w strs ++ outside x imgs) -> c = RtoC 0).
      { apply (cstrings_independent S ty g Hr Hn); auto.
        - intros t Ht. assert (Y : string_ok ty (snd t) /\ canonical (snd t)).
          { apply in_app_or in Ht. destruct Ht as [Ht|Ht]; [destruct t; apply in_combine_r in Ht; auto|].
            destruct (outside_in _ _ _ Ht) as (p & Hp & E & _). rewrite E. apply Himg; auto. }
          split; apply Y.
        - rewrite <- map_map with (f := snd) (g := body). rewrite map_app, map_snd_combine by auto.
          apply (canonical_NoDup_body ty).
          + assert (Dj : forall a, In a strs -> ~ In a (map snd (outside x imgs))).
            { intros a Ha Hb. apply in_map_iff in Hb. destruct Hb as (t & Et & Ht). destruct (outside_in _ _ _ Ht) as (p & Hp & E & Ef).
              apply not_true_iff_false in Ef. apply Ef, existsb_exists. exists a. split; auto. rewrite <- E, Et. apply key_eq; auto; apply Hok; auto. }
            revert Dj. pose proof (outside_nodup x imgs Hdis) as Dn. clear - Hnd Dn. induction strs as [|s l IH]; intros Dj; simpl; auto.
            inversion Hnd; subst. constructor; [|apply IH; auto; intros; apply Dj; simpl; auto].
            intros Hin. apply in_app_or in Hin. destruct Hin; [contradiction | apply (Dj s); simpl; auto].
          + intros s Hs. apply in_app_or in Hs. destruct Hs as [Hs|Hs]; auto. apply in_map_iff in Hs. destruct Hs as (t & <- & Ht).
            destruct (outside_in _ _ _ Ht) as (p & Hp & E & _). rewrite E. apply Himg; auto. }
      split.
      + apply nth_ext with (d := RtoC 0) (d' := RtoC 0); [rewrite vzero_length; auto|]. intros i Hi. unfold vzero. rewrite nth_repeat.
        assert (Hi' : (i < length strs)%nat) by (rewrite Lw in Hi; exact Hi).
        destruct (nth_error strs i) as [s|] eqn:Es; [|apply nth_error_None in Es; lia].
        destruct (nth_error w i) as [c|] eqn:Ec; [|apply nth_error_None in Ec; lia].
        rewrite (nth_error_nth _ _ _ Ec). apply (G c s). apply in_or_app. left. eapply nth_error_In. apply combine_nth_error; eauto.
      + apply outside_zero. intros [c s] Ht. apply (G c s). apply in_or_app; auto.
    - intros [-> H]. rewrite clin_vzero, aadd_0_l. rewrite outside_zero in H. clear - H.
      induction (outside x imgs) as [|[c s] r IH]; [reflexivity|]. rewrite clin_cons, IH by (intros; apply H; simpl; auto).
      assert (E : c = RtoC 0) by exact (H (c, s) (or_introl eq_refl)). rewrite E, cs_0. apply aadd_0_l.
  Qed.
End Strings.
