(** Hermiticity, squares, and linear independence of operator strings. *)
From Coq Require Import List ZArith Bool Arith Lia Sorted Permutation Setoid Morphisms Ring Field.
From Verif Require Import GC Exn M_OpString M_Tools M_Algebra S_Alg S_Den L_Alg L_Sort L_StrAlg L_StrOp.
Import ListNotations.
Local Open Scope nat_scope.
Local Open Scope alg_scope.

(* ------------------------------------------------------------------ reversal *)

Lemma inversions_app (l m : list Z) :
  inversions (l ++ m) = (inversions l + inversions m +
    list_sum (map (fun x => length (filter (fun y => Z.ltb y x) m)) l))%nat.
Proof.
  induction l as [|x l IH]; simpl; [lia|]. rewrite IH, filter_app, app_length. lia.
Qed.

Lemma inversions_rev (l : list Z) : NoDup l ->
  (2 * (inversions l + inversions (rev l)) = length l * (length l - 1))%nat.
Proof.
  induction l as [|x l IH]; intros Hn; [reflexivity|].
  inversion Hn as [|? ? Hx Hn']; subst. specialize (IH Hn').
  simpl rev. simpl inversions. rewrite inversions_app. simpl inversions. simpl filter.
  assert (D : (length (filter (fun y => Z.ltb y x) l) +
     list_sum (map (fun x0 => length (if Z.ltb x x0 then [x] else [])) (rev l)) = length l)%nat).
  { rewrite map_rev.
    assert (R : forall m, list_sum (rev m) = list_sum m).
    { clear. induction m; simpl; auto. rewrite list_sum_app, IHm. simpl. lia. }
    rewrite R. clear - Hx. induction l as [|y l IH]; simpl; auto.
    assert (x <> y) by (intros ->; apply Hx; left; auto).
    assert (~ In x l) by (intros H1; apply Hx; right; auto).
    specialize (IH H0).
    destruct (Z.ltb_spec y x), (Z.ltb_spec x y); simpl; lia. }
  simpl length. destruct (length l) as [|k]; simpl in *; nia.
Qed.

Lemma inversions_rev_par (l : list Z) : NoDup l ->
  xorb (Nat.odd (inversions l)) (Nat.odd (inversions (rev l))) = Nat.odd (length l * (length l - 1) / 2).
Proof.
  intros Hn. pose proof (inversions_rev l Hn) as H. rewrite <- H, Nat.mul_comm, Nat.div_mul by lia.
  rewrite Nat.odd_add. reflexivity.
Qed.

Lemma filter_rev' {T} (f : T -> bool) l : filter f (rev l) = rev (filter f l).
Proof.
  induction l; simpl; auto. rewrite filter_app, IHl. simpl. destruct (f a); simpl; auto using app_nil_r.
Qed.

Definition odd_count (ty : optype) (s : OS) : nat := length (filter (fun p => op_odd ty (fst p)) (letters s)).

Lemma odd_count_ab s : length (os_ops s) = length (os_labels s) ->
  odd_count Majorana s = length (filter is_ab (os_ops s)).
Proof.
  intros H. rewrite <- labels_ab_length by auto. unfold labels_ab. rewrite map_length. reflexivity.
Qed.

Lemma odd_count_pauli s : odd_count Pauli s = 0%nat.
Proof. unfold odd_count. induction (letters s); simpl; auto. Qed.

Definition csign (ty : optype) (o : op) (l : Z) (w : list (op * Z)) : bool :=
  fold_right (fun p b => xorb (if Z.eqb (snd p) l then negb (op_eqb o (fst p))
                               else op_odd ty o && op_odd ty (fst p)) b) false w.

Lemma csign_other ty o l w : (forall p, In p w -> snd p <> l) ->
  csign ty o l w = op_odd ty o && Nat.odd (length (filter (fun p => op_odd ty (fst p)) w)).
Proof.
  induction w as [|[p m] w IH]; intros H; [simpl; rewrite andb_false_r; auto|].
  simpl. rewrite (proj2 (Z.eqb_neq m l)) by (apply (H (p, m)); left; auto).
  rewrite IH by (intros; apply H; right; auto).
  destruct (op_odd ty o), (op_odd ty p); cbn [andb length];
    rewrite ?Nat.odd_succ, <- ?Nat.negb_odd; try reflexivity;
    destruct (Nat.odd (length (filter (fun p => op_odd ty (fst p)) w))); reflexivity.
Qed.

Lemma max_bound (ls : list Z) m : In m ls -> (m <= fold_right Z.max 0 ls)%Z.
Proof.
  induction ls as [|a ls IH]; simpl; [tauto|]. intros [H|H]; [lia|]. specialize (IH H). lia.
Qed.

Lemma anticommuting_letter ty s : ty <> Fermion -> string_ok ty s -> os_ops s <> [] ->
  exists o l, is_op_of ty o = true /\ csign ty o l (letters s) = true.
Proof.
  intros Hty Hs Hne. pose proof Hs as (_ & Hl & Hv & Hn & _).
  unfold letters in *. destruct (os_ops s) as [|p ops]; [congruence|].
  destruct (os_labels s) as [|l labs]; [discriminate|].
  simpl in Hl. injection Hl as Hl. inversion Hn as [|? ? Hx Hn']; subst.
  assert (Hw : forall q, In q (combine ops labs) -> snd q <> l).
  { intros [q m] H E. simpl in E. subst. apply in_combine_r in H. auto. }
  pose proof (Hv p (or_introl eq_refl)) as Hp.
  destruct ty; [| |congruence].
  - assert (exists o, is_op_of Pauli o = true /\ op_eqb o p = false) as (o & Ho & E).
    { destruct p; try discriminate; [exists OY | exists OX | exists OX]; auto. }
    exists o, l. split; auto. cbn [combine csign fold_right]. fold (csign Pauli o l (combine ops labs)).
    cbn [fst snd]. rewrite Z.eqb_refl, E, csign_other by auto. reflexivity.
  - destruct (Nat.odd (length (filter (fun q => op_odd Majorana (fst q)) (combine (p :: ops) (l :: labs))))) eqn:E.
    + (* odd string: a label outside the support *)
      set (f := (1 + fold_right Z.max 0 (l :: labs))%Z).
      assert (Hf : forall m, In m (l :: labs) -> (m < f)%Z).
      { intros m Hm. apply max_bound in Hm. unfold f. lia. }
      exists OA, f. split; auto. rewrite csign_other; auto.
      intros [q m] H. apply in_combine_r in H. specialize (Hf m H). simpl. lia.
    + destruct (is_ab p) eqn:Ep.
      * exists p, l. split; auto. cbn [combine csign fold_right]. fold (csign Majorana p l (combine ops labs)).
        cbn [fst snd]. rewrite Z.eqb_refl, op_eqb_refl, csign_other by auto.
        cbn [combine filter fst op_odd] in E. rewrite Ep in E. cbn [length] in E.
        rewrite Nat.odd_succ, <- Nat.negb_odd in E. cbn [op_odd]. rewrite Ep.
        apply negb_false_iff in E. cbn [op_odd] in E. rewrite E. reflexivity.
      * assert (p = OD) by (destruct p; try discriminate; auto). subst p.
        exists OA, l. split; auto. cbn [combine csign fold_right]. fold (csign Majorana OA l (combine ops labs)).
        cbn [fst snd]. rewrite Z.eqb_refl, csign_other by auto.
        cbn [combine filter fst op_odd is_ab] in E. cbn [op_odd is_ab] in *. rewrite E. reflexivity.
Qed.

Section Strings.
  Context {A : StarAlg} (ty : optype) (g : op -> Z -> A).
  Hypothesis Hrep : rep ty g.

  Lemma rep_not_fermion : ty <> Fermion.
  Proof. intros ->. exact Hrep. Qed.

  Lemma word_rev s : string_ok ty s ->
    word (lval g) (rev (letters s)) ==
    gsgn (Nat.odd (odd_count ty s * (odd_count ty s - 1) / 2)) · word (lval g) (letters s).
  Proof.
    intros Hs. set (ks := sort_uniq (os_labels s)).
    assert (Hks : StronglySorted Z.lt ks) by apply sort_uniq_sorted.
    assert (Hin : forall p, In p (letters s) -> In (snd p) ks).
    { intros [o l] H. apply sort_uniq_in. eapply letters_label; eauto. }
    rewrite (graded_sort (lval g) snd (fun p => op_odd ty (fst p)) (letters s) ks); auto.
    2:{ apply letters_gcomm; auto. intros o l; apply letters_valid; auto. }
    rewrite (graded_sort (lval g) snd (fun p => op_odd ty (fst p)) (rev (letters s)) ks); auto.
    2:{ intros x H. apply Hin, in_rev; auto. }
    2:{ apply letters_gcomm; auto. intros o l H. apply in_rev in H. eapply letters_valid; eauto. }
    assert (B : blocks (lval g) snd (rev (letters s)) ks = blocks (lval g) snd (letters s) ks).
    { unfold blocks. f_equal. apply map_ext. intros l. f_equal. unfold block. rewrite filter_rev'.
      fold (block snd (letters s) l).
      destruct (op_at_spec ty s l Hs) as [[_ E] | (o & _ & E & _)]; rewrite E; reflexivity. }
    rewrite B, ascal_ascal. apply ascal_eq. rewrite <- gsgn_xorb. f_equal.
    rewrite !invpar_inversions, filter_rev', map_rev.
    assert (Hn : NoDup (map snd (filter (fun p => op_odd ty (fst p)) (letters s)))).
    { destruct Hs as (_ & Hl & _ & Hn & _). rewrite <- (map_snd_combine _ _ Hl) in Hn.
      fold (letters s) in Hn. revert Hn. generalize (letters s). intros w.
      induction w as [|[o l] w IH]; simpl; auto.
      intros Hn. inversion Hn as [|? ? Hx Hn']; subst. destruct (op_odd ty o); simpl; auto.
      constructor; auto. intros H. apply Hx. apply in_map_iff in H. destruct H as (p & E & Hp).
      apply filter_In in Hp. apply in_map_iff. exists p; tauto. }
    pose proof (inversions_rev_par _ Hn) as H. rewrite map_length in H. fold (odd_count ty s) in H.
    rewrite <- H.
    destruct (Nat.odd (inversions (map snd _))), (Nat.odd (inversions (rev _))); reflexivity.
  Qed.

  Theorem den_star s : string_ok ty s -> (den g s)^* == den g s.
  Proof.
    intros Hs. rewrite den_word, astar_scal. unfold word at 1. rewrite aprod_star.
    assert (E : aprod (map astar (rev (map (lval g) (letters s)))) == word (lval g) (rev (letters s))).
    { unfold word. rewrite <- map_rev, map_map. apply aprod_ext. intros [o l] H. apply in_rev in H.
      unfold lval; simpl. apply (rep_star ty); auto. eapply letters_valid; eauto. }
    rewrite E, (word_rev s Hs), ascal_ascal. apply ascal_eq.
    pose proof Hs as (_ & Hl & _ & _ & ->). pose proof rep_not_fermion as Hty. clear - Hl Hty.
    destruct ty; [| |congruence].
    - rewrite odd_count_pauli by auto. apply GC_ext; reflexivity.
    - rewrite odd_count_ab by auto. unfold majorana_phase.
      match goal with |- context [gsgn ?b] => destruct b end; apply GC_ext; reflexivity.
  Qed.

  Theorem den_sq s : string_ok ty s -> den g s * den g s == aone.
  Proof.
    intros Hs. destruct (operation_spec ty s s rep_not_fermion Hs Hs) as (k & e & C & R).
    rewrite (or_st _ _ _ _ _ _ R A g Hrep).
    pose proof (or_prod _ _ _ _ _ _ R) as P. unfold product, operation_opstring in P.
    assert (E : os_eqb s s = true) by (apply os_eqb_spec; auto). rewrite E in P.
    pose proof (proj1 Hs) as Ht. rewrite Ht in P.
    assert (k = g1 /\ C = mkOS [] [] ty p_one) as [-> ->].
    { pose proof rep_not_fermion as Hty. clear - P Hty. destruct ty; [| |congruence]; simpl in P; injection P as <- <-; auto. }
    unfold den; simpl. rewrite !ascal_1. reflexivity.
  Qed.

  (* ------------------------------------------------- commuting past a letter *)

  Lemma csign_letter o p l m : is_op_of ty o = true -> is_op_of ty p = true ->
    g o l * g p m ==
    gsgn (if Z.eqb m l then negb (op_eqb o p) else op_odd ty o && op_odd ty p) · (g p m * g o l).
  Proof.
    intros Ho Hp. destruct (Z.eqb_spec m l) as [->|H].
    - destruct (op_eqb o p) eqn:E.
      + apply op_eqb_eq in E. subst. simpl. rewrite ascal_1. reflexivity.
      + assert (Hne : o <> p) by (intros ->; rewrite op_eqb_refl in E; discriminate).
        destruct (product_dict_total ty o p Ho Hp rep_not_fermion Hne) as (c & q & P1 & P2 & _ & Pc & _).
        rewrite (rep_table ty g Hrep o p l _ _ Ho Hp P1), (rep_table ty g Hrep p o l _ _ Hp Ho P2).
        rewrite ascal_ascal. apply ascal_eq. rewrite Pc. unfold gsgn, negb, gm1. ring.
    - apply rep_gcomm; auto.
  Qed.

  Lemma csign_word o l w : is_op_of ty o = true -> (forall p, In p w -> is_op_of ty (fst p) = true) ->
    g o l * word (lval g) w == gsgn (csign ty o l w) · (word (lval g) w * g o l).
  Proof.
    intros Ho. induction w as [|[p m] w IH]; intros Hv.
    - unfold word; simpl. rewrite ascal_1, amul_1_l, amul_1_r. reflexivity.
    - rewrite word_cons', lval_pair, amul_assoc, csign_letter by (auto; apply (Hv (p, m)); left; auto).
      rewrite ascal_mul_l, <- amul_assoc, IH by (intros; apply Hv; right; auto).
      rewrite ascal_mul_r, ascal_ascal, amul_assoc. apply ascal_eq.
      simpl csign. rewrite gsgn_xorb. ring.
  Qed.

  Lemma conj_letter o l s : is_op_of ty o = true -> string_ok ty s ->
    g o l * den g s * g o l == gsgn (csign ty o l (letters s)) · den g s.
  Proof.
    intros Ho Hs. rewrite den_word, ascal_mul_r, csign_word; auto.
    - rewrite !ascal_mul_l, <- amul_assoc, (rep_sq ty g Hrep o l Ho), amul_1_r, !ascal_ascal.
      apply ascal_eq. ring.
    - intros [p m] H. simpl. eapply letters_valid; eauto.
  Qed.


  (* ------------------------------------------------------ linear independence *)

  Definition lin (ts : list (GC * OS)) : A := asum (map (fun t => fst t · den g (snd t)) ts).

  Lemma lin_cons c s ts : lin ((c, s) :: ts) = c · den g s + lin ts.
  Proof. reflexivity. Qed.

  Lemma lin_conj o l ts : is_op_of ty o = true -> (forall t, In t ts -> string_ok ty (snd t)) ->
    lin ts + g o l * lin ts * g o l ==
    lin (map (fun t => (gmul (gadd g1 (gsgn (csign ty o l (letters (snd t))))) (fst t), snd t)) ts).
  Proof.
    intros Ho. induction ts as [|[c s] ts IH]; intros Hv.
    - unfold lin; simpl. rewrite amul_0_r, amul_0_l, aadd_0_l. reflexivity.
    - cbn [map]. rewrite !lin_cons. cbn [fst snd]. rewrite <- IH by (intros; apply Hv; right; auto).
      rewrite amul_add_r, amul_add_l, ascal_mul_r, ascal_mul_l, conj_letter by (auto; apply (Hv (c, s)); left; auto).
      rewrite ascal_ascal.
      assert (E : gmul (gadd g1 (gsgn (csign ty o l (letters s)))) c · den g s ==
                  c · den g s + gmul c (gsgn (csign ty o l (letters s))) · den g s).
      { rewrite <- ascal_add_l. apply ascal_eq. ring. }
      rewrite E. set (u := c · den g s). set (v := _ · den g s). set (x := lin ts). set (y := g o l * x * g o l).
      rewrite <- !aadd_assoc. assert (x + (v + y) == v + (x + y)).
      { rewrite !aadd_assoc. rewrite (aadd_comm _ x v). reflexivity. }
      rewrite H. reflexivity.
  Qed.

  Lemma indep_identity v ts : ~ (@aone A == azero) ->
    (forall t, In t ts -> string_ok ty (snd t) /\ os_ops (snd t) <> []) ->
    v · aone + lin ts == azero -> v = g0.
  Proof.
    intros Hnt. remember (length ts) as n eqn:En. revert v ts En.
    induction n as [|n IH]; intros v ts En Hv H.
    - destruct ts; [|discriminate]. unfold lin in H; simpl in H. rewrite aadd_0_r in H.
      destruct (gc_eq_dec v g0) as [E|E]; auto. exfalso. apply Hnt.
      apply (ascal_cancel v); auto. rewrite H, ascal_zero. reflexivity.
    - destruct ts as [|[c s] ts]; [discriminate|]. injection En as En.
      destruct (Hv (c, s) (or_introl eq_refl)) as [Hs Hne]. simpl in Hs, Hne.
      destruct (anticommuting_letter ty s rep_not_fermion Hs Hne) as (o & l & Ho & Hc).
      assert (H2 : gmul g2 v · aone + lin (map (fun t => (gmul (gadd g1 (gsgn (csign ty o l (letters (snd t))))) (fst t), snd t)) ts) == azero).
      { assert (Hts : forall t, In t ((c, s) :: ts) -> string_ok ty (snd t)) by (intros t Ht; apply (Hv t Ht)).
        pose proof (lin_conj o l _ Ho Hts) as Hl. cbn [map] in Hl. rewrite !lin_cons in Hl. cbn [fst snd] in Hl.
        rewrite Hc in Hl. replace (gmul (gadd g1 (gsgn true)) c) with g0 in Hl by (unfold gsgn, gm1; ring).
        rewrite ascal_0, aadd_0_l in Hl. rewrite <- Hl.
        rewrite lin_cons in H.
        assert (E : c · den g s + lin ts == gopp v · aone).
        { apply (aadd_cancel_r _ _ (v · aone)). rewrite aadd_comm, H, <- ascal_add_l.
          replace (gadd (gopp v) v) with g0 by ring. rewrite ascal_0. reflexivity. }
        rewrite E, ascal_mul_r, ascal_mul_l, amul_1_r, (rep_sq ty g Hrep o l Ho), <- !ascal_add_l.
        replace (gadd (gmul g2 v) (gadd (gopp v) (gopp v))) with g0.
        - apply ascal_0.
        - replace g2 with (gadd g1 g1) by (apply GC_ext; reflexivity). ring. }
      apply IH in H2.
      + apply gmul_integral in H2. destruct H2 as [H2|H2]; auto. exfalso. apply g2_neq_g0; auto.
      + rewrite map_length. auto.
      + intros t Ht. apply in_map_iff in Ht. destruct Ht as (t' & <- & Ht). simpl. apply Hv. right; auto.
  Qed.

  Definition body (s : OS) := (os_ops s, os_labels s).

  Lemma sorted_ext (u v : list (op * Z)) :
    StronglySorted Z.lt (map snd u) -> StronglySorted Z.lt (map snd v) ->
    (forall x, In x u <-> In x v) -> u = v.
  Proof.
    revert v. induction u as [|[o l] u IH]; intros v Su Sv H.
    - destruct v as [|x v]; auto. exfalso. apply (H x). left; auto.
    - destruct v as [|[p m] v]; [exfalso; apply (H (o, l)); left; auto|].
      simpl in Su, Sv. inversion Su as [|? ? Su' Fu]; subst. inversion Sv as [|? ? Sv' Fv]; subst.
      rewrite Forall_forall in Fu, Fv.
      assert (Eu : forall q k, In (q, k) u -> (l < k)%Z) by (intros q k Hk; apply Fu, in_map_iff; exists (q, k); auto).
      assert (Ev : forall q k, In (q, k) v -> (m < k)%Z) by (intros q k Hk; apply Fv, in_map_iff; exists (q, k); auto).
      assert (E : (o, l) = (p, m)).
      { destruct (proj1 (H (o, l)) (or_introl eq_refl)) as [E|H1]; auto.
        destruct (proj2 (H (p, m)) (or_introl eq_refl)) as [E|H2]; auto.
        apply Ev in H1. apply Eu in H2. lia. }
      f_equal; auto. apply IH; auto. injection E as -> ->.
      intros [q k]. split; intros Hq.
      + destruct (proj1 (H (q, k)) (or_intror Hq)) as [E|E]; auto. injection E as -> ->. apply Eu in Hq. lia.
      + destruct (proj2 (H (q, k)) (or_intror Hq)) as [E|E]; auto. injection E as -> ->. apply Ev in Hq. lia.
  Qed.

  Lemma body_letters s t : string_ok ty s -> string_ok ty t ->
    StronglySorted Z.lt (os_labels s) -> StronglySorted Z.lt (os_labels t) ->
    (forall x, In x (letters s) <-> In x (letters t)) -> body s = body t.
  Proof.
    intros (_ & Ls & _) (_ & Lt & _) Ss St H. unfold body.
    rewrite <- (map_snd_combine _ _ Ls) in Ss. rewrite <- (map_snd_combine _ _ Lt) in St.
    pose proof (sorted_ext _ _ Ss St H) as E. unfold letters in E.
    rewrite <- (map_fst_combine _ _ Ls), <- (map_fst_combine _ _ Lt), E.
    rewrite <- (map_snd_combine _ _ Ls) at 1. rewrite E, (map_snd_combine _ _ Lt). reflexivity.
  Qed.

  Theorem strings_independent ts : ~ (@aone A == azero) ->
    (forall t, In t ts -> string_ok ty (snd t) /\ StronglySorted Z.lt (os_labels (snd t))) ->
    NoDup (map (fun t => body (snd t)) ts) ->
    lin ts == azero -> forall c s, In (c, s) ts -> c = g0.
  Proof.
    intros Hnt Hv Hnd H c s Hin.
    apply in_split in Hin. destruct Hin as (l1 & l2 & ->).
    destruct (Hv (c, s)) as [Hs Ss]; [apply in_or_app; right; left; auto|]. simpl in Hs, Ss.
    assert (Hv' : forall t, In t (l1 ++ l2) -> string_ok ty (snd t) /\ StronglySorted Z.lt (os_labels (snd t)) /\ body (snd t) <> body s).
    { intros t Ht. assert (Ht' : In t (l1 ++ (c, s) :: l2)) by (apply in_app_or in Ht; apply in_or_app; simpl; tauto).
      destruct (Hv t Ht') as [? ?]. split; auto. split; auto. intros E.
      rewrite map_app in Hnd. cbn [map snd] in Hnd. apply NoDup_remove_2 in Hnd. apply Hnd.
      rewrite <- map_app, <- E. apply in_map_iff. exists t; auto. }
    assert (H' : c · den g s + lin (l1 ++ l2) == azero).
    { rewrite <- H. unfold lin. rewrite !map_app, !asum_app. simpl. rewrite !aadd_assoc.
      rewrite (aadd_comm _ (asum (map _ l1)) (c · den g s)). reflexivity. }
    assert (K : forall ts', (forall t, In t ts' -> string_ok ty (snd t) /\ StronglySorted Z.lt (os_labels (snd t)) /\ body (snd t) <> body s) ->
       exists us, (forall t, In t us -> string_ok ty (snd t) /\ os_ops (snd t) <> []) /\ lin ts' * den g s == lin us).
    { clear H' Hv' H Hv Hnd. induction ts' as [|[d t] ts' IH]; intros Hv.
      - exists []. split; [simpl; tauto|]. unfold lin; simpl. apply amul_0_l.
      - destruct IH as (us & Hu & Eu); [intros; apply Hv; right; auto|].
        destruct (Hv (d, t) (or_introl eq_refl)) as (Ht & St & Hb). simpl in Ht, St, Hb.
        destruct (operation_spec ty t s rep_not_fermion Ht Hs) as (k & e & C & R).
        exists ((gmul d k, C) :: us). split.
        + intros x [<-|Hx]; auto. split; [apply R|]. simpl. intros E. apply Hb.
          apply body_letters; auto. apply (or_id _ _ _ _ _ _ R E).
        + rewrite !lin_cons, amul_add_l, Eu, ascal_mul_l, (or_st _ _ _ _ _ _ R A g Hrep), ascal_ascal. reflexivity. }
    destruct (K _ Hv') as (us & Hu & Eu).
    apply (indep_identity c us); auto.
    rewrite <- Eu, <- (den_sq s Hs), <- ascal_mul_l, <- amul_add_l, H'. apply amul_0_l.
  Qed.
End Strings.
