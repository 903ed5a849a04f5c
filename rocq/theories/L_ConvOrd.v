(** Normal ordering of words of creation and annihilation operators. *)
From Coq Require Import List Arith Lia ZArith Bool Setoid Morphisms Sorted Permutation Qcanon.
From Verif Require Import GC S_Alg S_Den S_Conv M_OpString M_Tools L_Alg L_Module L_StrAlg L_ConvAlg L_Sort.
Import ListNotations.
Local Open Scope nat_scope.
Local Open Scope alg_scope.

Lemma sorted_perm_eq (l m : list Z) : StronglySorted Z.le l -> StronglySorted Z.le m -> Permutation l m -> l = m.
Proof.
  revert m. induction l as [|x l IH]; intros m Sl Sm P.
  - apply Permutation_nil in P. auto.
  - destruct m as [|y m]; [apply Permutation_sym, Permutation_nil in P; discriminate|].
    inversion Sl as [|? ? Sl' Fl]; inversion Sm as [|? ? Sm' Fm]; subst. rewrite Forall_forall in Fl, Fm.
    assert (E : x = y).
    { assert (Hx : In x (y :: m)) by (apply (Permutation_in _ P); left; auto).
      assert (Hy : In y (x :: l)) by (apply (Permutation_in _ (Permutation_sym P)); left; auto).
      destruct Hx as [|Hx]; auto. destruct Hy as [|Hy]; auto. apply Fm in Hx. apply Fl in Hy. lia. }
    subst y. f_equal. apply IH; auto. apply Permutation_cons_inv with x; auto.
Qed.

(** The sorted list of labels. *)
Definition zsort (l : list Z) : list Z := fst (sort_sign l).
Lemma zsort_sorted l : StronglySorted Z.le (zsort l).
Proof. apply sort_sign_spec. Qed.
Lemma zsort_perm l : Permutation (zsort l) l.
Proof. apply sort_sign_spec. Qed.
Lemma zsort_sign l : sort_sign l = (zsort l, if Nat.odd (inversions l) then (-1)%Z else 1%Z).
Proof. rewrite (surjective_pairing (sort_sign l)). f_equal. apply sort_sign_spec. Qed.
Lemma zsort_unique l m : StronglySorted Z.le m -> Permutation m l -> zsort l = m.
Proof. intros S P. apply sorted_perm_eq; auto using zsort_sorted. rewrite zsort_perm. symmetry; auto. Qed.
Lemma zsort_length l : length (zsort l) = length l.
Proof. apply Permutation_length, zsort_perm. Qed.
Lemma zsort_in x l : In x (zsort l) <-> In x l.
Proof. split; apply Permutation_in; [|symmetry]; apply zsort_perm. Qed.
Lemma zsort_NoDup l : NoDup l -> NoDup (zsort l).
Proof. intros; apply (Permutation_NoDup (Permutation_sym (zsort_perm l))); auto. Qed.
Lemma sorted_strict l : StronglySorted Z.le l -> NoDup l -> StronglySorted Z.lt l.
Proof.
  induction 1 as [|x l S IH F]; intros N; constructor; inversion N; subst; auto.
  rewrite Forall_forall in *. intros y Hy. specialize (F y Hy).
  assert (x <> y) by (intros ->; auto). lia.
Qed.
Lemma sorted_app l m : StronglySorted Z.le l -> StronglySorted Z.le m ->
  (forall x y, In x l -> In y m -> (x <= y)%Z) -> StronglySorted Z.le (l ++ m).
Proof.
  induction 1 as [|x l S IH F]; intros Sm H; simpl; auto. constructor.
  - apply IH; auto. intros; apply H; simpl; auto.
  - rewrite Forall_forall in *. intros y Hy. apply in_app_or in Hy. destruct Hy; auto. apply H; simpl; auto.
Qed.
Lemma sorted_snoc l x : StronglySorted Z.le l -> (forall y, In y l -> (y <= x)%Z) -> StronglySorted Z.le (l ++ [x]).
Proof.
  intros S H. apply sorted_app; auto; [repeat constructor|]. intros a b Ha [<-|[]]; auto.
Qed.
Lemma sorted_reflect large l : StronglySorted Z.le l -> StronglySorted Z.le (map (fun x => (- x + large)%Z) (rev l)).
Proof.
  induction 1 as [|x l S IH F]; simpl; [constructor|]. rewrite map_app. simpl. apply sorted_snoc; auto.
  rewrite Forall_forall in F. intros y Hy. apply in_map_iff in Hy. destruct Hy as (z & <- & Hz).
  apply in_rev in Hz. specialize (F z Hz). lia.
Qed.

(** Letters: creation (true) or annihilation (false) of a label. *)
Definition fl := (bool * Z)%type.
Definition fkey (large : Z) (x : fl) : Z := if fst x then snd x else (- snd x + large)%Z.
Definition fval {A : StarAlg} (c : Z -> A) (x : fl) : A := if fst x then (c (snd x))^* else c (snd x).
Definition dags (w : list fl) : list Z := map snd (filter fst w).
Definition anns (w : list fl) : list Z := map snd (filter (fun x => negb (fst x)) w).
(** No annihilation operator stands before the creation operator of the same label. *)
Fixpoint ordered (w : list fl) : Prop :=
  match w with
  | [] => True
  | x :: r => (fst x = false -> forall y, In y r -> fst y = true -> snd x <> snd y) /\ ordered r
  end.

Definition nword {A : StarAlg} (c : Z -> A) (I J : list Z) : A :=
  aprod (map (fun l => (c l)^*) I) * aprod (map c (rev J)).

Lemma block_nodup {T} (key : T -> Z) (w : list T) x : NoDup (map key w) -> In x w -> block key w (key x) = [x].
Proof.
  induction w as [|y w IH]; intros N H; [destruct H|]. inversion N as [|? ? N1 N2]; subst.
  unfold block; simpl. destruct H as [->|H].
  - rewrite Z.eqb_refl. f_equal.
    assert (K : forall v, (forall z, In z v -> key z <> key x) -> filter (fun z => Z.eqb (key z) (key x)) v = []).
    { induction v as [|z v IHv]; intros Hv; simpl; auto.
      rewrite (proj2 (Z.eqb_neq _ _) (Hv z (or_introl eq_refl))). apply IHv. intros; apply Hv; right; auto. }
    apply K. intros z Hz E. apply N1. rewrite <- E. apply in_map; auto.
  - assert (E : key y <> key x) by (intros E; apply N1; rewrite E; apply in_map; auto).
    rewrite (proj2 (Z.eqb_neq _ _) E). apply IH; auto.
Qed.

Lemma dag_ann_perm (w : list fl) : Permutation (map (fun l => (true, l)) (dags w) ++ map (fun l => (false, l)) (anns w)) w.
Proof.
  unfold dags, anns. induction w as [|[[|] l] w IH]; simpl; [constructor | apply perm_skip; auto |].
  rewrite <- Permutation_middle. apply perm_skip; auto.
Qed.

Section Order.
  Variable large : Z.

  Lemma keys_nodup (w : list fl) : (forall x, In x w -> (2 * snd x < large)%Z) -> NoDup (dags w) -> NoDup (anns w) ->
    NoDup (map (fkey large) w).
  Proof.
    intros B ND NA. apply (Permutation_NoDup (l := map (fkey large) (map (fun l => (true, l)) (dags w) ++ map (fun l => (false, l)) (anns w)))).
    - apply Permutation_map, dag_ann_perm.
    - assert (B1 : forall l, In l (dags w) -> (2 * l < large)%Z).
      { intros l Hl. apply in_map_iff in Hl. destruct Hl as (x & <- & Hx). apply filter_In in Hx. apply B; tauto. }
      assert (B2 : forall l, In l (anns w) -> (2 * l < large)%Z).
      { intros l Hl. apply in_map_iff in Hl. destruct Hl as (x & <- & Hx). apply filter_In in Hx. apply B; tauto. }
      rewrite map_app, !map_map. unfold fkey. cbn [fst snd]. rewrite map_id.
      revert ND B1. induction (dags w) as [|d ds IH]; intros ND B1; simpl.
      + clear - NA. induction NA as [|x l H N IH]; simpl; constructor; auto. rewrite in_map_iff.
        intros (y & E & Hy). apply H. replace x with y by lia. auto.
      + inversion ND; subst. constructor; [|apply IH; auto; intros; apply B1; simpl; auto].
        rewrite in_app_iff, in_map_iff. intros [Hd|(y & E & Hy)]; [tauto|].
        pose proof (B1 d (or_introl eq_refl)). pose proof (B2 y Hy). lia.
  Qed.

  Lemma keys_sorted (w : list fl) : (forall x, In x w -> (2 * snd x < large)%Z) ->
    zsort (map (fkey large) w) = zsort (dags w) ++ map (fun x => (- x + large)%Z) (rev (zsort (anns w))).
  Proof.
    intros B.
    assert (B1 : forall l, In l (dags w) -> (2 * l < large)%Z).
    { intros l Hl. apply in_map_iff in Hl. destruct Hl as (x & <- & Hx). apply filter_In in Hx. apply B; tauto. }
    assert (B2 : forall l, In l (anns w) -> (2 * l < large)%Z).
    { intros l Hl. apply in_map_iff in Hl. destruct Hl as (x & <- & Hx). apply filter_In in Hx. apply B; tauto. }
    apply zsort_unique.
    - apply sorted_app; auto using zsort_sorted, sorted_reflect.
      intros x y Hx Hy. apply (proj1 (zsort_in _ _)) in Hx. apply in_map_iff in Hy. destruct Hy as (z & <- & Hz).
      apply in_rev in Hz. apply (proj1 (zsort_in _ _)) in Hz. specialize (B1 _ Hx). specialize (B2 _ Hz). lia.
    - rewrite <- (Permutation_map (fkey large) (dag_ann_perm w)). rewrite map_app, !map_map.
      unfold fkey at 1 2. cbn [fst snd]. rewrite map_id. apply Permutation_app; [apply zsort_perm|].
      apply Permutation_map. rewrite <- Permutation_rev. apply zsort_perm.
  Qed.

  Context {A : StarAlg}.
  Variable c : Z -> A.
  Hypothesis H : CAR A c.

  Lemma fl_gcomm (w : list fl) : (forall x, In x w -> (2 * snd x < large)%Z) -> ordered w ->
    gcomm (fval c) (fkey large) (fun _ => true) w.
  Proof.
    induction w as [|x w IH]; intros B O; simpl; auto. destruct O as [O1 O2]. split.
    - intros y Hy Hk. unfold gcomm1. cbn [andb gsgn]. destruct x as [[|] l], y as [[|] m]; unfold fval, fkey in *; cbn [fst snd] in *.
      + apply c_dd; auto.
      + pose proof (B _ (or_introl eq_refl)). pose proof (B _ (or_intror Hy)). cbn [snd] in *. lia.
      + apply c_cd; auto. apply (O1 eq_refl (true, m)); auto.
      + apply c_cc; auto.
    - apply IH; auto. intros; apply B; simpl; auto.
  Qed.

  Lemma invpar_all (w : list fl) : invpar (fkey large) (fun _ => true) w = Nat.odd (inversions (map (fkey large) w)).
  Proof.
    rewrite invpar_inversions. do 3 f_equal. induction w as [|x w IH]; simpl; congruence.
  Qed.

  Theorem normal_order (w : list fl) : (forall x, In x w -> (2 * snd x < large)%Z) -> ordered w ->
    NoDup (dags w) -> NoDup (anns w) ->
    word (fval c) w == gz (snd (sort_sign (map (fkey large) w))) · nword c (zsort (dags w)) (zsort (anns w)).
  Proof.
    intros B O ND NA.
    assert (NK := keys_nodup w B ND NA). assert (SK := keys_sorted w B).
    rewrite (graded_sort (fval c) (fkey large) (fun _ => true) w (zsort (map (fkey large) w))).
    - rewrite invpar_all, zsort_sign. cbn [snd]. rewrite SK. unfold blocks, nword. rewrite map_app, aprod_app, map_map.
      replace (gz (if Nat.odd (inversions (map (fkey large) w)) then (-1)%Z else 1%Z)) with (gsgn (Nat.odd (inversions (map (fkey large) w))))
        by (destruct (Nat.odd _); apply GC_ext; apply Qc_is_canon; reflexivity).
      rewrite (aprod_ext (fun k => word (fval c) (block (fkey large) w k)) (fun l => (c l)^*)).
      + rewrite (aprod_ext (fun x => word (fval c) (block (fkey large) w (- x + large)%Z)) c); [reflexivity|].
        intros l Hl. apply in_rev in Hl. apply (proj1 (zsort_in _ _)) in Hl.
        apply in_map_iff in Hl. destruct Hl as ([[|] l'] & E & Hl); cbn [snd] in E; subst l'; apply filter_In in Hl; destruct Hl as [Hl Hb]; [discriminate|].
        change (- l + large)%Z with (fkey large (false, l)). rewrite block_nodup; auto.
        unfold word; simpl. rewrite amul_1_r. reflexivity.
      + intros l Hl. apply (proj1 (zsort_in _ _)) in Hl.
        apply in_map_iff in Hl. destruct Hl as ([[|] l'] & E & Hl); cbn [snd] in E; subst l'; apply filter_In in Hl; destruct Hl as [Hl Hb]; [|discriminate].
        change l with (fkey large (true, l)) at 1. rewrite block_nodup; auto.
        unfold word; simpl. rewrite amul_1_r. reflexivity.
    - apply sorted_strict; auto using zsort_sorted, zsort_NoDup.
    - intros x Hx. apply (proj2 (zsort_in _ _)). apply in_map; auto.
    - apply fl_gcomm; auto.
  Qed.
End Order.
