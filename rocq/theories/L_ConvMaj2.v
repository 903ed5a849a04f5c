(** Correctness of the Majorana to Fermion conversion. *)
From Coq Require Import String List Arith Lia ZArith Bool Setoid Morphisms Sorted Permutation QArith Qcanon.
From Verif Require Import GC Exn S_Alg S_Den S_Basis S_Conv M_OpString M_Tools M_Basis M_Cluster M_Conversion
  L_Alg L_Module L_StrAlg L_ConvAlg L_ConvOrd L_ConvMaj L_Sort L_Cluster L_Basis L_Operator L_PropTools.
Import ListNotations.
Local Open Scope nat_scope.
Local Open Scope alg_scope.

(* ------------------------------------------------ real or imaginary numbers *)

(** Real or imaginary, of modulus at least one. *)
Definition big (z : GC) : Prop := (re z = 0%Qc \/ im z = 0%Qc) /\ (1 <= norm2 z)%Qc.
Lemma norm2_mul a b : norm2 (gmul a b) = (norm2 a * norm2 b)%Qc.
Proof. unfold norm2; simpl. ring. Qed.
Lemma Qc_le1_mul a b : (1 <= a)%Qc -> (1 <= b)%Qc -> (1 <= a * b)%Qc.
Proof.
  intros Ha Hb. apply Qcle_trans with a; auto.
  assert (N : (0 <= a)%Qc) by (apply Qcle_trans with 1%Qc; auto; discriminate).
  pose proof (Qcmult_le_compat_r 1 b a Hb N) as M. rewrite Qcmult_1_l, (Qcmult_comm b a) in M. auto.
Qed.
Lemma big_mul a b : big a -> big b -> big (gmul a b).
Proof.
  intros [Pa Na] [Pb Nb]. split; [|rewrite norm2_mul; apply Qc_le1_mul; auto]. simpl.
  destruct Pa as [Pa|Pa], Pb as [Pb|Pb]; rewrite Pa, Pb; [right|left|left|right]; ring.
Qed.
Lemma big_1 : big g1.
Proof. split; [right; reflexivity | discriminate]. Qed.
Lemma big_i : big gi.
Proof. split; [left; reflexivity | discriminate]. Qed.
Lemma big_sg z : z = 1%Z \/ z = (-1)%Z -> big (gz z).
Proof. intros [->| ->]; (split; [right; reflexivity | discriminate]). Qed.
Lemma big_z1 o b : big (z1 o b).
Proof.
  destruct o, b; cbn [z1]; try apply big_1; try apply big_i; (split; [first [left; apply Qc_is_canon; reflexivity | right; apply Qc_is_canon; reflexivity] | discriminate]).
Qed.
Lemma big_zt w : forall t, big (zt w t).
Proof.
  induction w as [|[o l] w IH]; intros t; [apply big_1|]. destruct t as [|b t]; [apply big_1|].
  cbn [zt]. apply big_mul; auto using big_z1.
Qed.
Lemma sq_pos_nonneg (q : Qc) : (0 <= q * q)%Qc.
Proof. pose proof (norm2_nonneg (mkGC q 0)) as H. unfold norm2 in H. simpl in H. replace (q * q + 0 * 0)%Qc with (q * q)%Qc in H by ring. auto. Qed.
Lemma big_im z : big z -> abs_ltb (im_part z) eps52 = true <-> im z = 0%Qc.
Proof.
  intros [P N]. unfold abs_ltb. rewrite qc_ltb_lt. unfold norm2, im_part; cbn [re im]. split.
  - intros L. destruct P as [P|P]; auto. exfalso. unfold norm2 in N. rewrite P in N.
    replace (0 * 0 + im z * im z)%Qc with (im z * im z + 0 * 0)%Qc in N by ring.
    apply (Qclt_not_le _ _ L). apply Qcle_trans with 1%Qc; auto. discriminate.
  - intros ->. reflexivity.
Qed.
Lemma big_re z : big z -> im z <> 0%Qc -> re z = 0%Qc.
Proof. intros [[P|P] _] Nz; [auto|contradiction]. Qed.

(* --------------------------------------------------------------- emission *)

Definition FS (p : pref) (I J : list Z) : OS :=
  mkOS (repeat OCDag (length I) ++ repeat OC (length J)) (I ++ rev J) Fermion p.
Lemma FS_make p I J : p = p_one \/ p = p_j -> fermion_string_from p I J = Ok (FS p I J).
Proof. intros [->| ->]; reflexivity. Qed.

Lemma combine_app {T U} (a : list T) : forall (b : list T) (x y : list U), length a = length x ->
  combine (a ++ b) (x ++ y) = combine a x ++ combine b y.
Proof. induction a as [|u a IH]; intros b [|v x] y L; try discriminate; simpl; auto. f_equal. apply IH; auto. Qed.
Lemma combine_repeat {T U} (u : T) (x : list U) : combine (repeat u (length x)) x = map (fun v => (u, v)) x.
Proof. induction x; simpl; congruence. Qed.
Lemma filter_all {T} (f : T -> bool) l : (forall x, In x l -> f x = true) -> filter f l = l.
Proof. induction l as [|x l IH]; simpl; intros H; auto. rewrite H, IH; auto. Qed.
Lemma filter_none {T} (f : T -> bool) l : (forall x, In x l -> f x = false) -> filter f l = [].
Proof. induction l as [|x l IH]; simpl; intros H; auto. rewrite H, IH; auto. Qed.

(** The letters of a Fermion string. *)
Lemma form_letters I J s : fermion_form I J s ->
  letters s = map (fun l => (OCDag, l)) I ++ map (fun l => (OC, l)) (rev J).
Proof.
  intros (_ & Ho & Hl & _). unfold letters. rewrite Ho, Hl.
  rewrite combine_app by apply repeat_length. rewrite combine_repeat. f_equal.
  rewrite <- (rev_length J), combine_repeat. reflexivity.
Qed.
Lemma form_labs I J s : fermion_form I J s ->
  map snd (filter (fun p => op_eqb (fst p) OCDag) (combine (os_ops s) (os_labels s))) = I /\
  map snd (filter (fun p => op_eqb (fst p) OC) (combine (os_ops s) (os_labels s))) = rev J.
Proof.
  intros F. pose proof (form_letters I J s F) as E. unfold letters in E. rewrite E, !filter_app, !map_app. split.
  - rewrite filter_all, filter_none, map_map, app_nil_r, map_id; auto;
      intros x Hx; apply in_map_iff in Hx; destruct Hx as (l & <- & _); reflexivity.
  - rewrite filter_none, filter_all, map_map, map_id; auto;
      intros x Hx; apply in_map_iff in Hx; destruct Hx as (l & <- & _); reflexivity.
Qed.
Lemma form_den {A : StarAlg} (c : Z -> A) I J s : fermion_form I J s ->
  den (gferm c) s == pval (os_pref s) · nword c I J.
Proof.
  intros F. rewrite den_word, (form_letters I J s F), word_app. unfold nword, word. rewrite !map_map. reflexivity.
Qed.
Lemma form_fden {A : StarAlg} (c : Z -> A) I J s : fermion_form I J s ->
  fden c s == if list_eq_dec Z.eq_dec I J then pval (os_pref s) · nword c I J
              else pval (os_pref s) · nword c I J + (pval (os_pref s) · nword c I J)^*.
Proof.
  intros F. unfold fden. destruct (form_labs I J s F) as [-> ->]. rewrite rev_involutive.
  destruct (list_eq_dec Z.eq_dec I J); rewrite (form_den c I J s F); reflexivity.
Qed.
Lemma FS_form p I J : p = p_one \/ p = p_j -> fermion_form I J (FS p I J).
Proof. intros H. split; [|split; [|split]]; try reflexivity. destruct H as [->| ->]; simpl; auto. Qed.

Definition It w t := zsort (dags (lets w t)).
Definition Jt w t := zsort (anns (lets w t)).
Definition Ct large w p t : GC := gmul (gmul p (zt w t)) (gz (snd (sort_sign (map (fkey large) (lets w t))))).

(** What one choice of terms contributes. *)
Definition emit (large : Z) (w : list (op * Z)) (p : GC) (t : list bool) : option (GC * OS) :=
  let lex := compare (It w t) (Jt w t) in
  let k := Ct large w p t in
  if (lex <? 0)%Z then None
  else if (lex =? 0)%Z then Some (k, FS p_one (It w t) (Jt w t))
  else if abs_ltb (im_part k) eps52 then Some (k, FS p_one (It w t) (Jt w t))
  else Some (gdiv k gi, FS p_j (It w t) (Jt w t)).

Lemma re_part_real z : im z = 0%Qc -> re_part z = z.
Proof. destruct z; simpl. intros ->. reflexivity. Qed.
Lemma gdiv_i z : gdiv z gi = gmul (gopp gi) z.
Proof.
  unfold gdiv. replace (ginv gi) with (gopp gi) by (apply GC_ext; apply Qc_is_canon; reflexivity). ring.
Qed.

Lemma skipn_firstn_app {T} (a b : list T) n : n = length a -> firstn n (a ++ b) = a /\ skipn n (a ++ b) = b.
Proof.
  intros ->. rewrite firstn_app, skipn_app, Nat.sub_diag, firstn_all, skipn_all. simpl. rewrite app_nil_r. auto.
Qed.

Lemma maj_term_eq incl large w p t : (forall x, In x (lets w t) -> (2 * snd x < large)%Z) -> big p ->
  maj_term incl large w p t = Ok (if is_nil (lets w t) && negb incl then None else emit large w p t).
Proof.
  intros B Hp. unfold maj_term. rewrite maj_expand_eq.
  replace (is_nil (map (fkey large) (lets w t))) with (is_nil (lets w t)) by (destruct (lets w t); reflexivity).
  destruct (is_nil (lets w t) && negb incl)%bool; [reflexivity|].
  unfold maj_emit. rewrite zsort_sign, keys_sorted by auto.
  destruct (skipn_firstn_app (zsort (dags (lets w t))) (map (fun x => (- x + large)%Z) (rev (zsort (anns (lets w t)))))
    (length (filter fst (lets w t)))) as [-> ->].
  { rewrite zsort_length. unfold dags. rewrite map_length. reflexivity. }
  assert (E : rev (map (fun x => (large - x)%Z) (map (fun x => (- x + large)%Z) (rev (zsort (anns (lets w t)))))) = Jt w t).
  { unfold Jt. rewrite map_map, map_rev, rev_involutive. rewrite <- (map_id (zsort (anns (lets w t)))) at 2.
    apply map_ext. intros; lia. }
  rewrite E. fold (It w t). unfold emit.
  assert (EC : gmul (gmul p (zt w t)) (gz (if Nat.odd (inversions (map (fkey large) (lets w t))) then (-1)%Z else 1%Z)) = Ct large w p t).
  { unfold Ct. rewrite zsort_sign. reflexivity. }
  rewrite EC. rewrite !FS_make by auto.
  assert (BC : big (Ct large w p t)).
  { apply big_mul; [apply big_mul; auto using big_zt|]. apply big_sg. rewrite zsort_sign. simpl. destruct (Nat.odd _); auto. }
  destruct (_ <? 0)%Z; auto. destruct (_ =? 0)%Z; auto.
  destruct (abs_ltb (im_part (Ct large w p t)) eps52) eqn:Ei.
  - cbn [rbind]. rewrite re_part_real; auto. apply big_im; auto.
  - assert (Ni : im (Ct large w p t) <> 0%Qc).
    { intros Z. apply (proj2 (big_im _ BC)) in Z. congruence. }
    pose proof (big_re _ BC Ni) as R.
    replace (abs_ltb (re_part (Ct large w p t)) eps52) with true.
    + cbn [rbind]. rewrite re_part_real; auto. rewrite gdiv_i. cbn [gmul gopp gi re im]. rewrite R. ring.
    + symmetry. unfold abs_ltb. apply qc_ltb_lt. unfold re_part, norm2; cbn [re im]. rewrite R. reflexivity.
Qed.

(* -------------------------------------------------------------------- sum *)

Section Sum.
  Variable large : Z.
  Variable w : list (op * Z).
  Variable p : GC.
  Hypothesis Hops : forall q, In q w -> is_majorana_op (fst q) = true.
  Hypothesis Hnd : NoDup (map snd w).
  Hypothesis Hbound : forall q, In q w -> (2 * snd q < large)%Z.
  Hypothesis Hp : p = majorana_phase (length (filter is_ab (map fst w))).

  Lemma big_p : big p.
  Proof. rewrite Hp. unfold majorana_phase. destruct (Nat.odd _); auto using big_1, big_i. Qed.

  Lemma lets_label v : forall t x, In x (lets v t) -> exists o, In (o, snd x) v.
  Proof.
    induction v as [|[o l] v IH]; intros [|b t] x Hx; try destruct Hx as [].
    cbn [lets] in Hx. apply in_app_or in Hx. destruct Hx as [Hx|Hx].
    - exists o. left. f_equal. destruct o, b; simpl in Hx; intuition (subst; auto).
    - destruct (IH t x Hx) as (o' & Ho). exists o'. right; auto.
  Qed.
  Lemma lets_bound t : forall x, In x (lets w t) -> (2 * snd x < large)%Z.
  Proof. intros x Hx. apply lets_label in Hx. destruct Hx as (o & Ho). apply (Hbound (o, snd x)); auto. Qed.

  Lemma dags_app u v : dags (u ++ v) = dags u ++ dags v.
  Proof. unfold dags. rewrite filter_app, map_app. reflexivity. Qed.
  Lemma anns_app u v : anns (u ++ v) = anns u ++ anns v.
  Proof. unfold anns. rewrite filter_app, map_app. reflexivity. Qed.
  Lemma dags_lets_in v t l : In l (dags (lets v t)) -> In l (map snd v).
  Proof.
    unfold dags. intros H. apply in_map_iff in H. destruct H as (x & <- & H). apply filter_In in H.
    destruct H as [H _]. apply lets_label in H. destruct H as (o & H). apply in_map_iff. exists (o, snd x); auto.
  Qed.
  Lemma anns_lets_in v t l : In l (anns (lets v t)) -> In l (map snd v).
  Proof.
    unfold anns. intros H. apply in_map_iff in H. destruct H as (x & <- & H). apply filter_In in H.
    destruct H as [H _]. apply lets_label in H. destruct H as (o & H). apply in_map_iff. exists (o, snd x); auto.
  Qed.
  Lemma lets_dags_nodup v : NoDup (map snd v) -> forall t, NoDup (dags (lets v t)).
  Proof.
    induction v as [|[o l] v IH]; intros N [|b t]; try constructor. inversion N; subst.
    cbn [lets]. rewrite dags_app. apply NoDup_app2; auto.
    - destruct o, b; repeat constructor; simpl; auto.
    - intros x Hx Hy. apply dags_lets_in in Hy. assert (x = l) by (destruct o, b; simpl in Hx; intuition). congruence.
  Qed.
  Lemma lets_anns_nodup v : NoDup (map snd v) -> forall t, NoDup (anns (lets v t)).
  Proof.
    induction v as [|[o l] v IH]; intros N [|b t]; try constructor. inversion N; subst.
    cbn [lets]. rewrite anns_app. apply NoDup_app2; auto.
    - destruct o, b; repeat constructor; simpl; auto.
    - intros x Hx Hy. apply anns_lets_in in Hy. assert (x = l) by (destruct o, b; simpl in Hx; intuition). congruence.
  Qed.
  Lemma lets_ordered v : NoDup (map snd v) -> forall t, ordered (lets v t).
  Proof.
    induction v as [|[o l] v IH]; intros N [|b t]; try exact I. inversion N; subst.
    assert (K : forall y, In y (lets v t) -> l <> snd y).
    { intros y Hy ->. apply lets_label in Hy. destruct Hy as (o' & Hy). apply H1. apply in_map_iff. exists (o', snd y); auto. }
    cbn [lets]. destruct o, b; cbn [lets1 app ordered fst snd]; repeat split; auto; try discriminate.
    all: try (intros _ y Hy _; apply K; auto).
  Qed.

  (** Exchanging creation and annihilation. *)
  Lemma flip_length v : forall t, length (flip v t) = length t.
  Proof. induction v as [|[o l] v IH]; intros [|b t]; simpl; auto. Qed.
  Lemma flip_flip v : forall t, flip v (flip v t) = t.
  Proof.
    induction v as [|[o l] v IH]; intros [|b t]; auto. cbn [flip]. rewrite IH. f_equal.
    destruct o; simpl; auto using negb_involutive.
  Qed.
  Lemma flip_lets v : (forall q, In q v -> is_majorana_op (fst q) = true) -> forall t,
    dags (lets v (flip v t)) = anns (lets v t) /\ anns (lets v (flip v t)) = dags (lets v t).
  Proof.
    induction v as [|[o l] v IH]; intros Hv [|b t]; try (split; reflexivity).
    cbn [flip lets]. rewrite !dags_app, !anns_app.
    destruct (IH (fun q Hq => Hv q (or_intror Hq)) t) as [-> ->].
    pose proof (Hv (o, l) (or_introl eq_refl)) as Ho. destruct o, b; try discriminate; split; reflexivity.
  Qed.
  Lemma flip_I t : It w (flip w t) = Jt w t.
  Proof. unfold It, Jt. rewrite (proj1 (flip_lets w Hops t)). reflexivity. Qed.
  Lemma flip_J t : Jt w (flip w t) = It w t.
  Proof. unfold It, Jt. rewrite (proj2 (flip_lets w Hops t)). reflexivity. Qed.
  Lemma flip_perm n : Permutation (choices n) (map (flip w) (choices n)).
  Proof.
    apply NoDup_Permutation.
    - apply choices_NoDup.
    - apply NoDup_map_inj; auto using choices_NoDup. intros x y _ _ E. rewrite <- (flip_flip w x), E. apply flip_flip.
    - intros t. rewrite in_map_iff. split.
      + intros Ht. exists (flip w t). rewrite flip_flip. split; auto. apply choices_in. rewrite flip_length. apply choices_in; auto.
      + intros (u & <- & Hu). apply choices_in. rewrite flip_length. apply choices_in; auto.
  Qed.

  Section Alg.
    Context {A : StarAlg}.
    Variable c : Z -> A.
    Hypothesis HC : CAR A c.

    Definition T t : A := p · trm c w t.
    Lemma T_normal t : T t == Ct large w p t · nword c (It w t) (Jt w t).
    Proof.
      unfold T, trm. rewrite (normal_order large c HC (lets w t)).
      - unfold Ct. rewrite !ascal_ascal. unfold It, Jt. apply ascal_eq. ring.
      - apply lets_bound.
      - apply lets_ordered; auto.
      - apply lets_dags_nodup; auto.
      - apply lets_anns_nodup; auto.
    Qed.
    Lemma T_star t : length t = length w -> (T t)^* == T (flip w t).
    Proof. intros L. apply (trm_star c HC w p); auto. Qed.

    (** The operator contributed by an emitted term. *)
    Definition contrib (x : option (GC * OS)) : A :=
      match x with Some q => fst q · fden c (snd q) | None => azero end.
    Lemma emit_contrib t : length t = length w -> contrib (emit large w p t) ==
      if (compare (It w t) (Jt w t) <? 0)%Z then azero
      else if (compare (It w t) (Jt w t) =? 0)%Z then T t else T t + T (flip w t).
    Proof.
      intros L. unfold emit. destruct (_ <? 0)%Z; [reflexivity|]. destruct (_ =? 0)%Z eqn:E0.
      - cbn [contrib fst snd]. rewrite (form_fden c _ _ _ (FS_form p_one _ _ (or_introl eq_refl))).
        apply Z.eqb_eq in E0. apply (proj1 (proj2 (proj2 (compare_proof _ _ [])))) in E0.
        destruct (list_eq_dec Z.eq_dec (It w t) (Jt w t)); [|contradiction].
        cbn [os_pref FS pval p_one]. rewrite ascal_1, T_normal. reflexivity.
      - apply Z.eqb_neq in E0. 
        assert (NE : It w t <> Jt w t).
        { intros Eq. apply E0. apply (proj1 (proj2 (proj2 (compare_proof (It w t) (Jt w t) [])))). auto. }
        assert (BC : big (Ct large w p t)).
        { apply big_mul; [apply big_mul; auto using big_zt, big_p|]. apply big_sg. rewrite zsort_sign. simpl. destruct (Nat.odd _); auto. }
        destruct (abs_ltb _ _) eqn:Ei; cbn [contrib fst snd].
        + rewrite (form_fden c _ _ _ (FS_form p_one _ _ (or_introl eq_refl))).
          destruct (list_eq_dec Z.eq_dec (It w t) (Jt w t)); [contradiction|].
          cbn [os_pref FS pval p_one]. rewrite !ascal_1, <- T_star, T_normal, ascal_add_r, astar_scal by auto.
          apply aadd_proper; [reflexivity|]. apply ascal_eq.
          apply big_im in Ei; auto. apply GC_ext; cbn [gconj re im]; auto. rewrite Ei. ring.
        + rewrite (form_fden c _ _ _ (FS_form p_j _ _ (or_intror eq_refl))).
          destruct (list_eq_dec Z.eq_dec (It w t) (Jt w t)); [contradiction|].
          cbn [os_pref FS pval p_j]. rewrite <- T_star, T_normal, ascal_add_r, !astar_scal, !ascal_ascal, !gdiv_i by auto.
          assert (Ni : im (Ct large w p t) <> 0%Qc).
          { intros Z. apply (proj2 (big_im _ BC)) in Z. congruence. }
          pose proof (big_re _ BC Ni) as R.
          apply aadd_proper; apply ascal_eq; apply GC_ext; cbn [gmul gopp gconj gi re im]; rewrite R; ring.
    Qed.

    Lemma asum_ind (f : list bool -> A) (b : list bool -> bool) l :
      asum (map f l) == asum (map (fun t => if b t then f t else azero) l) + asum (map (fun t => if b t then azero else f t) l).
    Proof.
      rewrite <- asum_map_add. apply asum_ext. intros t _. destruct (b t); [rewrite aadd_0_r | rewrite aadd_0_l]; reflexivity.
    Qed.

    Theorem emit_sum : asum (map (fun t => contrib (emit large w p t)) (choices (length w))) ==
                       p · aprod (map (lval (gmaj c)) w).
    Proof.
      rewrite (expand c w Hops), asum_scal, map_map.
      transitivity (asum (map T (choices (length w)))); [|reflexivity].
      set (lex := fun t => compare (It w t) (Jt w t)).
      rewrite (asum_ind T (fun t => (lex t <? 0)%Z)).
      rewrite (asum_perm (map (fun t => if (lex t <? 0)%Z then T t else azero) (choices (length w)))
                         (map (fun t => if (lex (flip w t) <? 0)%Z then T (flip w t) else azero) (choices (length w)))).
      2:{ rewrite (Permutation_map _ (flip_perm (length w))). rewrite map_map. reflexivity. }
      rewrite <- asum_map_add. apply asum_ext. intros t Ht. apply choices_in in Ht.
      rewrite emit_contrib by auto. unfold lex. rewrite flip_I, flip_J.
      destruct (compare_proof (It w t) (Jt w t) []) as (An & _). rewrite An.
      destruct (Z.ltb_spec (compare (It w t) (Jt w t)) 0), (Z.ltb_spec (- compare (It w t) (Jt w t)) 0), (Z.eqb_spec (compare (It w t) (Jt w t)) 0); try lia.
      - symmetry. apply aadd_0_l.
      - apply aadd_comm.
      - symmetry. apply aadd_0_l.
    Qed.
  End Alg.

  (* ------------------------------------------------------------ distinctness *)

  Lemma lets_inj v : NoDup (map snd v) -> (forall q, In q v -> is_majorana_op (fst q) = true) ->
    forall t u, length t = length v -> length u = length v ->
    (forall l, In l (dags (lets v t)) <-> In l (dags (lets v u))) -> t = u.
  Proof.
    induction v as [|[o l] v IH]; intros N Hv [|b t] [|b' u] Lt Lu E; try discriminate; auto.
    inversion N as [|? ? N1 N2]; subst. cbn [lets] in E.
    assert (K : forall t x, In x (dags (lets1 o l b ++ lets v t)) <-> In x (dags (lets1 o l b)) \/ In x (dags (lets v t))).
    { intros. rewrite dags_app, in_app_iff. tauto. }
    assert (K' : forall t x, In x (dags (lets1 o l b' ++ lets v t)) <-> In x (dags (lets1 o l b')) \/ In x (dags (lets v t))).
    { intros. rewrite dags_app, in_app_iff. tauto. }
    assert (NI : forall t, ~ In l (dags (lets v t))) by (intros t0 Hl; apply dags_lets_in in Hl; auto).
    assert (Hb : b = b').
    { pose proof (E l) as El. rewrite K, K' in El. pose proof (NI t). pose proof (NI u).
      pose proof (Hv (o, l) (or_introl eq_refl)) as Ho.
      destruct o, b, b'; try discriminate; auto; simpl in El; exfalso; tauto. }
    subst b'. f_equal. apply IH; auto.
    - intros; apply Hv; simpl; auto.
    - intros x. pose proof (E x) as Ex. rewrite !K in Ex.
      split; intros Hx.
      + destruct (proj1 Ex (or_intror Hx)) as [H1|]; auto. exfalso.
        assert (x = l) by (destruct o, b; simpl in H1; intuition). subst x. apply (NI t); auto.
      + destruct (proj2 Ex (or_intror Hx)) as [H1|]; auto. exfalso.
        assert (x = l) by (destruct o, b; simpl in H1; intuition). subst x. apply (NI u); auto.
  Qed.

  Definition good_term (q : GC * OS) : Prop :=
    exists f I J, snd q = FS f I J /\ (f = p_one \/ f = p_j) /\ StronglySorted Z.lt I /\ StronglySorted Z.lt J /\
      (0 <= compare I J)%Z /\ (I = J -> f = p_one) /\
      (forall l, In l I \/ In l J -> In l (map snd w)) /\
      (im (fst q) = 0%Qc \/ I = J).

  Lemma emit_form t q : emit large w p t = Some q ->
    exists f, snd q = FS f (It w t) (Jt w t) /\ (f = p_one \/ f = p_j).
  Proof.
    unfold emit. destruct (_ <? 0)%Z; [discriminate|]. destruct (_ =? 0)%Z; [|destruct (abs_ltb _ _)];
      intros E; injection E as <-; cbn [snd]; eauto.
  Qed.
  Lemma emit_good t q : emit large w p t = Some q -> good_term q.
  Proof.
    intros E. 
    assert (S1 : StronglySorted Z.lt (It w t)) by (apply sorted_strict; [apply zsort_sorted | apply zsort_NoDup, lets_dags_nodup; auto]).
    assert (S2 : StronglySorted Z.lt (Jt w t)) by (apply sorted_strict; [apply zsort_sorted | apply zsort_NoDup, lets_anns_nodup; auto]).
    assert (S3 : forall l, In l (It w t) \/ In l (Jt w t) -> In l (map snd w)).
    { intros l [Hl|Hl]; apply (proj1 (zsort_in _ _)) in Hl; [eapply dags_lets_in | eapply anns_lets_in]; eauto. }
    assert (BC : big (Ct large w p t)).
    { apply big_mul; [apply big_mul; auto using big_zt, big_p|]. apply big_sg. rewrite zsort_sign. simpl. destruct (Nat.odd _); auto. }
    unfold emit in E. destruct (Z.ltb_spec (compare (It w t) (Jt w t)) 0); [discriminate|].
    destruct (Z.eqb_spec (compare (It w t) (Jt w t)) 0) as [E0|E0].
    - injection E as <-. exists p_one, (It w t), (Jt w t).
      apply (proj1 (proj2 (proj2 (compare_proof _ _ [])))) in E0. repeat split; auto.
    - assert (NE : It w t <> Jt w t).
      { intros Eq. apply E0. apply (proj1 (proj2 (proj2 (compare_proof (It w t) (Jt w t) [])))). auto. }
      destruct (abs_ltb _ _) eqn:Ei; injection E as <-.
      + exists p_one, (It w t), (Jt w t). repeat split; auto. left. cbn [fst]. apply big_im in Ei; auto.
      + assert (Ni : im (Ct large w p t) <> 0%Qc).
        { intros Z. apply (proj2 (big_im _ BC)) in Z. congruence. }
        pose proof (big_re _ BC Ni) as R.
        exists p_j, (It w t), (Jt w t). repeat split; auto; [contradiction|]. left. cbn [fst]. rewrite gdiv_i. cbn [gmul gopp gi re im]. rewrite R. ring.
  Qed.

  Lemma emit_inj t u q r : length t = length w -> length u = length w ->
    emit large w p t = Some q -> emit large w p u = Some r -> snd q = snd r -> t = u.
  Proof.
    intros Lt Lu Et Eu E. apply emit_form in Et, Eu. destruct Et as (f & Ef & Hf), Eu as (h & Eh & Hh).
    apply (lets_inj w); auto.
    pose proof (proj1 (form_labs _ _ _ (FS_form f (It w t) (Jt w t) Hf))) as L1.
    pose proof (proj1 (form_labs _ _ _ (FS_form h (It w u) (Jt w u) Hh))) as L2.
    rewrite <- Ef in L1. rewrite <- Eh in L2. rewrite E in L1. rewrite L1 in L2.
    intros l. rewrite <- (zsort_in l (dags (lets w t))), <- (zsort_in l (dags (lets w u))).
    unfold It in L2. rewrite L2. tauto.
  Qed.

  Lemma somes_in {X Y} (f : X -> option Y) l y : In y (somes (map f l)) <-> exists x, In x l /\ f x = Some y.
  Proof.
    induction l as [|a l IH]; simpl; [split; [tauto | intros (x & [] & _)]|].
    destruct (f a) as [b|] eqn:E; simpl; rewrite IH; split.
    - intros [->|(x & Hx & Ex)]; eauto.
    - intros (x & [->|Hx] & Ex); [left; congruence | right; eauto].
    - intros (x & Hx & Ex); eauto.
    - intros (x & [->|Hx] & Ex); [congruence | eauto].
  Qed.
  Lemma somes_nodup {X Y K} (f : X -> option Y) (k : Y -> K) l : NoDup l ->
    (forall x x' y y', In x l -> In x' l -> f x = Some y -> f x' = Some y' -> k y = k y' -> x = x') ->
    NoDup (map k (somes (map f l))).
  Proof.
    induction 1 as [|a l Ha N IH]; intros Hi; simpl; [constructor|].
    assert (NI : NoDup (map k (somes (map f l)))) by (apply IH; intros; eapply Hi; simpl; eauto).
    destruct (f a) as [b|] eqn:E; auto. simpl. constructor; auto. intros Hin.
    apply in_map_iff in Hin. destruct Hin as (y & Ey & Hy). apply somes_in in Hy. destruct Hy as (x & Hx & Ex).
    apply Ha. rewrite (Hi a x b y); simpl; auto.
  Qed.
  Lemma somes_filter {X Y} (f : X -> option Y) (g : X -> bool) (h : Y -> bool) l :
    (forall x y, In x l -> f x = Some y -> h y = g x) ->
    somes (map (fun x => if g x then f x else None) l) = filter h (somes (map f l)).
  Proof.
    induction l as [|a l IH]; intros Hg; simpl; auto. rewrite IH by (intros; apply Hg; simpl; auto).
    destruct (f a) as [b|] eqn:E; [|destruct (g a); reflexivity].
    simpl. rewrite (Hg a b (or_introl eq_refl) E). destruct (g a); reflexivity.
  Qed.
  Lemma somes_sum {X} {A : StarAlg} (c : Z -> A) (f : X -> option (GC * OS)) l :
    (forall q, In q (somes (map f l)) -> os_type (snd q) = Fermion) ->
    means c (somes (map f l)) == asum (map (fun t => contrib c (f t)) l).
  Proof.
    unfold means. induction l as [|a l IH]; simpl; intros Ht; [reflexivity|].
    destruct (f a) as [q|] eqn:E; cbn [contrib].
    - cbn [map]. change (asum (?x :: ?r)) with (x + asum r) at 1. cbn [somes] in Ht.
      rewrite IH by (intros; apply Ht; simpl; auto). apply aadd_proper; [|reflexivity].
      unfold meaning. rewrite (Ht q) by (simpl; auto). reflexivity.
    - rewrite IH by auto. symmetry. apply aadd_0_l.
  Qed.

  Lemma emit_some : w <> [] -> exists t q, length t = length w /\ lets w t <> [] /\ emit large w p t = Some q.
  Proof.
    intros Hw. set (t0 := repeat false (length w)).
    assert (L0 : length t0 = length w) by apply repeat_length.
    assert (N0 : lets w t0 <> []).
    { unfold t0. destruct w as [|[o l] v]; [congruence|]. pose proof (Hops (o, l) (or_introl eq_refl)) as Ho.
      cbn [length repeat lets]. destruct o; discriminate. }
    assert (N1 : lets w (flip w t0) <> []).
    { intros E. apply N0. destruct (flip_lets w Hops t0) as [E1 E2]. rewrite E in E1, E2.
      pose proof (dag_ann_perm (lets w t0)) as P. rewrite <- E1, <- E2 in P. apply Permutation_nil, P. }
    destruct (Z.ltb_spec (compare (It w t0) (Jt w t0)) 0) as [Hl|Hl].
    - exists (flip w t0). destruct (emit large w p (flip w t0)) as [q|] eqn:E.
      + exists q. rewrite flip_length. auto.
      + exfalso. unfold emit in E. rewrite flip_I, flip_J in E.
        destruct (compare_proof (It w t0) (Jt w t0) []) as (An & _). rewrite An in E.
        destruct (Z.ltb_spec (- compare (It w t0) (Jt w t0)) 0); [lia|].
        destruct (_ =? _)%Z in E; [discriminate|]. destruct (abs_ltb _ _) in E; discriminate.
    - exists t0. destruct (emit large w p t0) as [q|] eqn:E; [exists q; auto|].
      exfalso. unfold emit in E. destruct (Z.ltb_spec (compare (It w t0) (Jt w t0)) 0); [lia|].
      destruct (_ =? _)%Z in E; [discriminate|]. destruct (abs_ltb _ _) in E; discriminate.
  Qed.
End Sum.

Lemma op_of_terms_ok ts ty : (forall q, In q ts -> std (snd q)) -> NoDup (map snd ts) -> (ts <> [] \/ ty <> None) ->
  exists o, op_of_terms ts ty = Ok o /\ op_ok o /\ op_terms o = ts /\ (ts = [] -> Some (o_type o) = ty).
Proof.
  intros Hs N Hne. unfold op_of_terms.
  destruct (op_new_ok (map fst ts) (map snd ts) ty) as (o & Ho & Hok & Hc & Hb & Ht).
  - apply std_distinct; auto. intros s Hin. apply in_map_iff in Hin. destruct Hin as (q & <- & Hq); auto.
  - rewrite !map_length; auto.
  - destruct Hne; auto. left. intros E. apply map_eq_nil in E. auto.
  - exists o. split; auto. split; auto. unfold op_terms. rewrite Hc, Hb. split; [apply combine_split_eq|].
    intros ->. auto.
Qed.
Lemma op_terms_type o ts q : op_ok o -> op_terms o = ts -> In q ts -> (forall r, In r ts -> os_type (snd r) = os_type (snd q)) ->
  o_type o = os_type (snd q).
Proof.
  intros Hok E Hq Hall. pose proof (op_terms_snd o Hok) as Es. rewrite E in Es.
  destruct ts as [|r ts]; [destruct Hq|]. cbn [map] in Es. destruct Hok as (_ & _ & Hty).
  rewrite (Hty _ _ (eq_sym Es)). apply Hall. left; auto.
Qed.

Lemma rmap_pure {X Y} (f : X -> res Y) (g : X -> Y) l : (forall x, In x l -> f x = Ok (g x)) -> rmap f l = Ok (map g l).
Proof.
  induction l as [|a l IH]; simpl; intros Hf; auto. rewrite (Hf a) by auto. simpl. rewrite IH by auto. reflexivity.
Qed.

Lemma FS_std f I J : f = p_one \/ f = p_j -> std (FS f I J).
Proof. intros [->| ->]; unfold std, std_pref; simpl; auto. Qed.

(** The conversion of a Majorana string. *)
Theorem maj_conv s : string_ok Majorana s ->
  exists ts,
    (forall incl, exists o, convert_majorana_string s incl = Ok o /\ op_ok o /\ o_type o = Fermion /\
       op_terms o = (if incl then ts else without_identity ts)) /\
    (forall q, In q ts -> good_term (letters s) q) /\
    (forall (A : StarAlg) (c : Z -> A), CAR A c -> means c ts == den (gmaj c) s).
Proof.
  intros (Ht & Hl & Ho & Hn & Hp). destruct (os_ops s) as [|o0 ops0] eqn:Eo.
  - (* identity *)
    set (e := FS p_one [] []).
    exists [(g1, e)]. assert (El : os_labels s = []) by (destruct (os_labels s); [auto|discriminate]). split; [|split].
    + intros incl. unfold convert_majorana_string. rewrite Ht, Eo. destruct incl; cbn [rbind os_new].
      * destruct (op_of_terms_ok [(g1, e)] None) as (o & E1 & E2 & E3 & _).
        -- intros q [<-|[]]. apply FS_std; auto.
        -- repeat constructor; simpl; auto.
        -- left; discriminate.
        -- exists o. split; [exact E1|]. split; auto. split; auto.
           apply (op_terms_type o _ (g1, e) E2 E3); simpl; auto. intros r [<-|[]]; auto.
      * destruct (op_of_terms_ok [] (Some Fermion)) as (o & E1 & E2 & E3 & E4).
        -- intros q [].
        -- constructor.
        -- right; discriminate.
        -- exists o. split; [exact E1|]. split; auto. specialize (E4 eq_refl). injection E4 as E4. split; auto.
    + intros q [<-|[]]. exists p_one, [], []. repeat split; auto; try constructor; try discriminate.
      intros l [[]|[]].
    + intros A c HC. unfold means. cbn [map asum fold_right fst snd]. rewrite aadd_0_r, ascal_1.
      unfold meaning, e. cbn [os_type FS]. rewrite (form_fden c [] [] _ (FS_form p_one [] [] (or_introl eq_refl))).
      destruct (list_eq_dec Z.eq_dec [] []); [|congruence]. unfold nword; simpl. rewrite amul_1_l, ascal_1.
      unfold den. rewrite Eo, El, Hp. unfold majorana_phase; simpl. rewrite ascal_1. reflexivity.
  - rewrite <- Eo in Ho, Hl, Hp.
    assert (Hne : os_labels s <> []) by (intros E; rewrite E, Eo in Hl; discriminate).
    destruct (zmax_ok _ Hne) as (mx & Emx & _ & Hmx).
    set (large := (4 * Z.max 1 mx + 4)%Z). set (w := letters s). set (p := pval (os_pref s)).
    assert (Hw : forall q, In q w -> is_majorana_op (fst q) = true).
    { intros [o l] Hq. apply in_combine_l in Hq. apply (Ho o Hq). }
    assert (Hnd : NoDup (map snd w)) by (unfold w, letters; rewrite map_snd_combine; auto).
    assert (Hb : forall q, In q w -> (2 * snd q < large)%Z).
    { intros [o l] Hq. apply in_combine_r in Hq. apply Hmx in Hq. cbn [snd]; pose proof (Z.le_max_r 1 mx); unfold large; lia. }
    assert (Hph : p = majorana_phase (length (filter is_ab (map fst w)))).
    { unfold p, w, letters. rewrite map_fst_combine; auto. }
    assert (Hlen : length (os_ops s) = length w) by (unfold w, letters; rewrite combine_length, Hl; lia).
    assert (Hwne : w <> []) by (intros E; rewrite E, Eo in Hlen; discriminate).
    set (ts := somes (map (emit large w p) (choices (length w)))).
    assert (Hgood : forall q, In q ts -> good_term w q).
    { intros q Hq. apply somes_in in Hq. destruct Hq as (t & _ & E). apply (emit_good large w p Hnd Hph t); auto. }
    assert (Hform : forall q, In q ts -> exists f I J, snd q = FS f I J /\ (f = p_one \/ f = p_j)).
    { intros q Hq. destruct (Hgood q Hq) as (f & I & J & E & Hf & _). eauto. }
    assert (HN : NoDup (map snd ts)).
    { apply somes_nodup; auto using choices_NoDup. intros t u q r Ht' Hu E1 E2 E.
      apply choices_in in Ht', Hu. revert E. apply (emit_inj large w p Hw Hnd t u q r); auto. }
    exists ts. split; [|split]; auto.
    + intros incl.
      assert (Ets : somes (map (fun t => if is_nil (lets w t) && negb incl then None else emit large w p t) (choices (length w)))
                    = if incl then ts else without_identity ts).
      { destruct incl.
        - unfold ts. f_equal. apply map_ext. intros t. rewrite andb_false_r. reflexivity.
        - unfold ts, without_identity. rewrite <- (somes_filter (emit large w p) (fun t => negb (is_nil (lets w t)))).
          + f_equal. apply map_ext. intros t. rewrite andb_true_r. destruct (is_nil (lets w t)); reflexivity.
          + intros t q Ht' E. apply emit_form in E. destruct E as (f & -> & _). unfold FS; cbn [os_ops].
            destruct (lets w t) as [|x r] eqn:El; [unfold It, Jt; rewrite El; reflexivity|]. cbn [is_nil negb].
            destruct (repeat OCDag (length (It w t)) ++ repeat OC (length (Jt w t))) eqn:Er; auto. exfalso.
            apply app_eq_nil in Er. destruct Er as [E1 E2].
            assert (length (It w t) = 0) by (pose proof (repeat_length OCDag (length (It w t))) as R; rewrite E1 in R; auto).
            assert (length (Jt w t) = 0) by (pose proof (repeat_length OC (length (Jt w t))) as R; rewrite E2 in R; auto).
            unfold It, Jt in *. rewrite zsort_length in *.
            pose proof (Permutation_length (dag_ann_perm (lets w t))) as Pl. rewrite app_length, !map_length in Pl.
            rewrite El in Pl at 3. simpl in Pl. lia. }
      unfold convert_majorana_string. rewrite Ht, Eo, Emx. cbn [rbind]. fold large.
      rewrite <- Eo, <- Hl, Nat.ltb_irrefl. fold (letters s). fold w. fold p.
      rewrite (rmap_pure _ (fun t => if is_nil (lets w t) && negb incl then None else emit large w p t)).
      2:{ intros t _. apply maj_term_eq; [apply lets_bound; auto | apply (big_p w); auto]. }
      cbn [rbind]. rewrite Hlen, Ets.
      destruct (emit_some large w p) as (t & q & Lt & Nt & Et); auto.
      assert (Hq : In q (if incl then ts else without_identity ts)).
      { rewrite <- Ets. apply somes_in. exists t. split; [apply choices_in; auto|].
        destruct (lets w t); [congruence|]. auto. }
      assert (Hsub : forall r, In r (if incl then ts else without_identity ts) -> In r ts).
      { destruct incl; auto. intros r Hr. apply filter_In in Hr. tauto. }
      destruct (op_of_terms_ok (if incl then ts else without_identity ts) None) as (o & E1 & E2 & E3 & _).
      * intros r Hr. destruct (Hform r (Hsub r Hr)) as (f & I & J & -> & Hf). apply FS_std; auto.
      * destruct incl; auto. unfold without_identity. clear - HN.
        induction ts as [|x r IH]; simpl; [constructor|]. inversion HN; subst.
        destruct (os_ops (snd x)); auto. simpl. constructor; auto. intros Hin. apply H1.
        apply in_map_iff in Hin. destruct Hin as (y & <- & Hy). apply filter_In in Hy. apply in_map; tauto.
      * left. intros E. rewrite E in Hq. destruct Hq.
      * exists o. split; auto. split; auto. split; auto.
        rewrite (op_terms_type o _ q E2 E3 Hq).
        -- destruct (Hform q (Hsub q Hq)) as (f & I & J & -> & _). reflexivity.
        -- intros r Hr. destruct (Hform q (Hsub q Hq)) as (f & I & J & -> & _).
           destruct (Hform r (Hsub r Hr)) as (f' & I' & J' & -> & _). reflexivity.
    + intros A c HC. unfold ts. rewrite somes_sum.
      * rewrite emit_sum; auto. rewrite den_word. reflexivity.
      * intros q Hq. destruct (Hform q Hq) as (f & I & J & -> & _). reflexivity.
Qed.
