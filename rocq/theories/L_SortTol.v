(** sort_sign with its tolerance. *)
From Coq Require Import List ZArith Bool Arith Lia Sorted Permutation QArith Qcanon.
From Verif Require Import GC S_Alg S_Tools M_Tools L_Sort L_Perm.
Import ListNotations.
Local Open Scope nat_scope.

Section Generic.
  Context {T : Type}.
  Variable gtb : T -> T -> bool.
  Definition gtp (a b : nat * T) : bool := gtb (snd a) (snd b).

  Lemma bubble_snd rp x : bubble gtb (map snd rp) (snd x) = (map snd (fst (bubble gtp rp x)), snd (bubble gtp rp x)).
  Proof.
    induction rp as [|y rp IH]; cbn [map bubble]; auto. unfold gtp at 1 3. destruct (gtb (snd y) (snd x)); auto.
    rewrite IH. destruct (bubble gtp rp x). reflexivity.
  Qed.
  Lemma isort_snd l : forall rp k, isort_loop gtb (map snd rp) (map snd l) k = (map snd (fst (isort_loop gtp rp l k)), snd (isort_loop gtp rp l k)).
  Proof.
    induction l as [|x l IH]; intros rp k; cbn [map isort_loop]; [cbn [fst snd]; rewrite map_rev; auto|].
    rewrite bubble_snd. destruct (bubble gtp rp x) as [r j]. cbn [fst snd]. apply IH.
  Qed.
  Lemma bubble_split (rp : list T) x : exists a b, rp = a ++ b /\ bubble gtb rp x = (a ++ x :: b, length a) /\ forall y, In y a -> gtb y x = true.
  Proof.
    induction rp as [|y rp IH]; cbn [bubble]; [exists [], []; cbn; tauto|]. destruct (gtb y x) eqn:E.
    - destruct IH as (a & b & -> & -> & H). exists (y :: a), b. split; auto. split; auto. intros z [<-|Hz]; auto.
    - exists [], (y :: rp). cbn; tauto.
  Qed.
End Generic.

Lemma nodup_tail {T} (a b : list T) : NoDup (a ++ b) -> NoDup b.
Proof. induction a as [|x a IH]; cbn; auto. intros H. inversion H; auto. Qed.
Definition inds {T} (l : list (nat * T)) : list Z := map (fun p => Z.of_nat (fst p)) l.
Lemma isort_parity {T} (gtb : T -> T -> bool) l : forall rp k b, NoDup (map fst (rev rp ++ l)) -> ipar (inds (rev rp ++ l)) = xorb b (Nat.odd k) ->
  let r := isort_loop (gtp gtb) rp l k in Permutation (fst r) (rev rp ++ l) /\ ipar (inds (fst r)) = xorb b (Nat.odd (snd r)).
Proof.
  induction l as [|x l IH]; intros rp k b D H; cbn [isort_loop].
  - rewrite app_nil_r in *. cbn [fst snd]. auto.
  - destruct (bubble_split (gtp gtb) rp x) as (a & c & -> & -> & _). cbn zeta.
    assert (P : Permutation (rev (a ++ x :: c) ++ l) (rev (a ++ c) ++ x :: l)).
    { rewrite !rev_app_distr. cbn [rev]. rewrite <- !app_assoc. apply Permutation_app_head. cbn [app]. apply Permutation_middle. }
    destruct (IH (a ++ x :: c) (k + length a) b) as [H1 H2].
    + apply Permutation_NoDup with (2 := D). apply Permutation_map. symmetry. exact P.
    + rewrite Nat.odd_add, <- xorb_assoc, <- H. rewrite !rev_app_distr. cbn [rev]. rewrite <- !app_assoc. cbn [app]. unfold inds. rewrite !map_app. cbn [map].
      rewrite !map_app. cbn [map]. rewrite <- (rev_length a), <- (map_length (fun p => Z.of_nat (fst p)) (rev a)).
      apply ipar_move. rewrite !rev_app_distr in D. rewrite <- app_assoc in D. rewrite map_app in D. apply nodup_tail in D. rewrite map_app in D. cbn [map] in D.
      apply NoDup_remove_2 in D. intros Hin. apply D. apply in_or_app. left. apply in_map_iff in Hin. destruct Hin as (p & E & Hp). apply Nat2Z.inj in E. rewrite <- E. apply in_map. auto.
    + split; [rewrite H1; exact P | exact H2].
Qed.

Lemma ss_app {T} (R : T -> T -> Prop) a b : StronglySorted R (a ++ b) <-> StronglySorted R a /\ StronglySorted R b /\ forall x y, In x a -> In y b -> R x y.
Proof.
  induction a as [|z a IH]; cbn [app].
  - split; [intros H; split; [constructor|]; split; auto; intros x y [] | tauto].
  - split.
    + intros H. inversion H as [|? ? H1 H2]; subst. apply IH in H1. destruct H1 as (A & B & C). rewrite Forall_forall in H2. split.
      * constructor; auto. apply Forall_forall. intros x Hx. apply H2, in_or_app. auto.
      * split; auto. intros x y [<-|Hx] Hy; auto. apply H2, in_or_app. auto.
    + intros (A & B & C). inversion A as [|? ? H1 H2]; subst. constructor.
      * apply IH. split; auto. split; auto. intros x y Hx Hy. apply C; auto. right. auto.
      * apply Forall_app. split; auto. apply Forall_forall. intros y Hy. apply C; auto. left. auto.
Qed.
(** Only entries in the wrong order are exchanged. *)
Definition kept {T} (gtb : T -> T -> bool) (q r : nat * T) : Prop := (fst q < fst r)%nat \/ gtb (snd r) (snd q) = true.
Lemma isort_kept {T} (gtb : T -> T -> bool) l : forall rp k, StronglySorted (kept gtb) (rev rp ++ l) -> StronglySorted (kept gtb) (fst (isort_loop (gtp gtb) rp l k)).
Proof.
  induction l as [|x l IH]; intros rp k H; cbn [isort_loop]; [rewrite app_nil_r in H; auto|].
  destruct (bubble_split (gtp gtb) rp x) as (a & c & -> & -> & Ha). apply IH. rewrite rev_app_distr in *. cbn [rev]. rewrite <- !app_assoc in *. cbn [app].
  apply ss_app in H. destruct H as (H1 & H2 & H3). apply ss_app in H2. destruct H2 as (H2 & H4 & H5). inversion H4 as [|? ? H6 H7]; subst. rewrite Forall_forall in H7.
  apply ss_app. split; auto. split.
  - constructor; [apply ss_app; split; auto; split; auto; intros y z Hy Hz; apply H5; auto; right; auto|]. apply Forall_app. split; apply Forall_forall; auto.
    intros y Hy. right. apply Ha. apply in_rev. auto.
  - intros y z Hy [<-|Hz].
    + apply H3; auto. apply in_or_app. right. left. auto.
    + apply H3; auto. apply in_app_or in Hz. apply in_or_app. destruct Hz; [left | right; right]; auto.
Qed.

(** Insertion sort with any test applies a permutation and returns its sign. *)
Lemma isort_sign_perm {T} (gtb : T -> T -> bool) (d : T) v : exists p, is_perm (length v) p /\
  isort_sign gtb v = (map (fun i => nth i v d) p, inv_sign (map Z.of_nat p)) /\
  StronglySorted (fun i j => i < j \/ gtb (nth j v d) (nth i v d) = true) p.
Proof.
  set (l := combine (seq 0 (length v)) v).
  assert (L1 : map snd l = v).
  { unfold l. generalize 0. clear. induction v as [|x v IH]; intros n; cbn; auto. f_equal. apply IH. }
  assert (L2 : map fst l = seq 0 (length v)).
  { unfold l. generalize 0. clear. induction v as [|x v IH]; intros n; cbn; auto. f_equal. apply IH. }
  assert (L3 : forall q, In q l -> snd q = nth (fst q) v d).
  { intros [i x] Hq. unfold l in Hq. cbn. symmetry. apply nth_error_nth.
    assert (G : forall n m (w : list T), In (i, x) (combine (seq n m) w) -> nth_error w (i - n) = Some x /\ n <= i).
    { clear. intros n m. revert n. induction m as [|m IH]; intros n [|y w]; cbn; try tauto. intros [E|H].
      - injection E as -> ->. rewrite Nat.sub_diag. auto.
      - apply IH in H. destruct H as [H1 H2]. destruct (i - n) as [|k] eqn:E; [lia|]. cbn. replace k with (i - S n) by lia. split; auto. lia. }
    apply G in Hq. rewrite Nat.sub_0_r in Hq. apply Hq. }
  destruct (isort_parity gtb l [] 0 false) as [H1 H2].
  { cbn [rev app]. rewrite L2. apply seq_NoDup. }
  { cbn [rev app]. unfold inds. rewrite <- (map_map fst Z.of_nat), L2. apply ipar_sorted, seq_sorted. }
  cbn [rev app] in H1. rewrite xorb_false_l in H2. unfold isort_sign. pose proof (isort_snd gtb l [] 0) as HS. cbn [map] in HS. rewrite L1 in HS. rewrite HS.
  assert (H3 : StronglySorted (kept gtb) (fst (isort_loop (gtp gtb) [] l 0))).
  { apply isort_kept. cbn [rev app]. clear - L2. revert L2. generalize 0. generalize (length v). induction l as [|x l IH]; intros m n E; constructor.
    - destruct m; [discriminate|]. injection E as _ E. apply (IH m (S n)); auto.
    - apply Forall_forall. intros y Hy. left. destruct m; [discriminate|]. injection E as Ex E. apply (in_map fst) in Hy. rewrite E in Hy. apply in_seq in Hy. lia. }
  destruct (isort_loop (gtp gtb) [] l 0) as [s k]. cbn [fst snd] in *. exists (map fst s). split; [|split].
  - unfold is_perm. rewrite <- L2. apply Permutation_map. auto.
  - f_equal.
    + rewrite map_map. apply map_ext_in. intros q Hq. apply L3. apply (Permutation_in _ H1). auto.
    + unfold inv_sign. rewrite map_map. fold (inds s). fold (ipar (inds s)). rewrite H2. reflexivity.
  - assert (H4 : forall q, In q s -> snd q = nth (fst q) v d) by (intros q Hq; apply L3, (Permutation_in _ H1); auto).
    clear - H3 H4. induction H3 as [|q s Hs IH Hq]; cbn [map]; constructor; [apply IH; intros r Hr; apply H4; right; auto|].
    rewrite Forall_forall in *. intros j Hj. apply in_map_iff in Hj. destruct Hj as (r & <- & Hr). rewrite <- !H4 by (cbn; auto). apply (Hq r Hr).
Qed.

Local Open Scope Qc_scope.
(** Neighbouring entries are in order up to the tolerance. *)
Fixpoint steps_ok (tol : Qc) (l : list Qc) : Prop :=
  match l with
  | x :: (y :: _) as r => x <= y + tol /\ steps_ok tol r
  | _ => True
  end.
Fixpoint rsteps_ok (tol : Qc) (l : list Qc) : Prop :=
  match l with
  | x :: (y :: _) as r => y <= x + tol /\ rsteps_ok tol r
  | _ => True
  end.
Lemma gt_tol_false tol x y : 0 <= tol -> qc_gt_tol tol y x = false -> y <= x + tol.
Proof.
  intros Ht H. destruct (Qclt_le_dec (x + tol) y) as [L|L]; auto. exfalso. unfold qc_gt_tol in H.
  assert (H1 : tol < y - x) by (apply Qclt_minus_iff; apply Qclt_minus_iff in L; replace (y - x + - tol) with (y + - (x + tol)) by ring; auto).
  assert (H2 : x < y). { apply Qcle_lt_trans with (x + tol); auto. rewrite <- (Qcplus_0_r x) at 1. apply Qcplus_le_compat; auto. apply Qcle_refl. }
  apply qc_ltb_lt in H1, H2. rewrite H1, H2 in H. discriminate.
Qed.
Lemma gt_tol_true tol x y : qc_gt_tol tol y x = true -> x < y.
Proof. unfold qc_gt_tol. intros H. apply andb_true_iff in H. destruct H as [_ H]. apply qc_ltb_lt. auto. Qed.
Lemma le_tol tol x y : 0 <= tol -> x <= y -> x <= y + tol.
Proof. intros Ht H. rewrite <- (Qcplus_0_r x). apply Qcplus_le_compat; auto. Qed.
Lemma bubble_steps tol rp x : 0 <= tol -> rsteps_ok tol rp -> rsteps_ok tol (fst (bubble (qc_gt_tol tol) rp x)).
Proof.
  intros Ht. induction rp as [|y rp IH]; intros H; cbn [bubble]; [cbn; auto|].
  destruct (qc_gt_tol tol y x) eqn:E.
  - destruct (bubble (qc_gt_tol tol) rp x) as [r k] eqn:B. cbn [fst] in *.
    assert (Hr : rsteps_ok tol r) by (apply IH; destruct rp; cbn in *; tauto).
    destruct r as [|z r]; [exact I|]. split; auto. destruct rp as [|w rp]; cbn [bubble] in B.
    + injection B as <- <- <-. apply le_tol; auto. apply Qclt_le_weak. apply gt_tol_true in E. auto.
    + destruct (qc_gt_tol tol w x).
      * destruct (bubble (qc_gt_tol tol) rp x). injection B as <- _ _. apply H.
      * injection B as <- _ _. apply le_tol; auto. apply Qclt_le_weak. apply gt_tol_true in E. auto.
  - cbn [fst]. split; auto. apply gt_tol_false; auto.
Qed.
Lemma rsteps_rev tol l : rsteps_ok tol l -> forall i x y, nth_error (rev l) i = Some x -> nth_error (rev l) (S i) = Some y -> x <= y + tol.
Proof.
  intros H i x y Hx Hy. assert (Hi : (S i < length l)%nat) by (rewrite <- rev_length; apply nth_error_Some; congruence).
  assert (G : forall (m : list Qc) j a b, rsteps_ok tol m -> nth_error m j = Some a -> nth_error m (S j) = Some b -> b <= a + tol).
  { clear. induction m as [|z m IH]; intros j a b Hm Ha Hb; [destruct j; discriminate|]. destruct j as [|j].
    - cbn in Ha, Hb. destruct m as [|w m]; [discriminate|]. injection Ha as <-. injection Hb as <-. apply Hm.
    - apply (IH j); auto. destruct m; cbn in *; tauto. }
  assert (E : forall j, (j < length l)%nat -> nth_error (rev l) j = nth_error l (length l - S j)).
  { intros j Hj. rewrite (nth_error_nth' (rev l) 0) by (rewrite rev_length; auto). rewrite rev_nth by auto. symmetry. apply nth_error_nth'. lia. }
  rewrite E in Hx by lia. rewrite E in Hy by lia. apply (G l (length l - S (S i))%nat); auto. replace (S (length l - S (S i))) with (length l - S i)%nat by lia. auto.
Qed.
Lemma isort_steps tol l : 0 <= tol -> forall rp k, rsteps_ok tol rp -> exists m, rsteps_ok tol m /\ fst (isort_loop (qc_gt_tol tol) rp l k) = rev m.
Proof.
  intros Ht. induction l as [|x l IH]; intros rp k H; cbn [isort_loop]; [exists rp; auto|].
  pose proof (bubble_steps tol rp x Ht H) as HB. destruct (bubble (qc_gt_tol tol) rp x) as [r j]. apply IH. auto.
Qed.

Lemma sort_tol_proof : forall tol v, 0 <= tol -> exists p, is_perm (length v) p /\
  let w := map (fun i => nth i v 0) p in
  sort_sign_q tol v = (w, inv_sign (map Z.of_nat p)) /\
  (forall i x y, nth_error w i = Some x -> nth_error w (S i) = Some y -> x <= y + tol) /\
  (forall a b i j, (a < b)%nat -> nth_error p a = Some i -> nth_error p b = Some j -> (j < i)%nat -> nth i v 0 + tol < nth j v 0) /\
  ((forall x y, In x v -> In y v -> x <= y + tol -> x <= y) -> StronglySorted Qcle w).
Proof.
  intros tol v Ht. destruct (isort_sign_perm (qc_gt_tol tol) 0 v) as (p & Hp & E & HK). exists p. split; auto. cbn zeta. split; auto.
  assert (HS : forall i x y, nth_error (map (fun i => nth i v 0) p) i = Some x -> nth_error (map (fun i => nth i v 0) p) (S i) = Some y -> x <= y + tol).
  { unfold isort_sign in E. destruct (isort_steps tol v Ht [] 0%nat I) as (m & Hm & Em). destruct (isort_loop (qc_gt_tol tol) [] v 0) as [s k]. cbn [fst] in Em. subst s.
    injection E as E _. rewrite <- E. apply rsteps_rev. auto. }
  split; auto. split.
  { intros a b i j Hab Ha Hb Hij. assert (G : (i < j)%nat \/ qc_gt_tol tol (nth j v 0) (nth i v 0) = true).
    { clear - HK Hab Ha Hb. revert a b Hab Ha Hb. induction HK as [|x l Hs IH Hx]; intros a b Hab Ha Hb; [destruct a; discriminate|].
      destruct b as [|b]; [lia|]. destruct a as [|a]; cbn in Ha, Hb.
      - injection Ha as ->. rewrite Forall_forall in Hx. apply Hx. eapply nth_error_In; eauto.
      - apply (IH a b); auto. lia. }
    destruct G as [G|G]; [lia|]. unfold qc_gt_tol in G. apply andb_true_iff in G. destruct G as [G1 G2]. apply qc_ltb_lt in G2. apply orb_true_iff in G1.
    destruct G1 as [G1|G1]; apply qc_ltb_lt in G1.
    - apply Qclt_minus_iff. apply Qclt_minus_iff in G1. replace (nth j v 0 + - (nth i v 0 + tol)) with (nth j v 0 - nth i v 0 + - tol) by ring. auto.
    - exfalso. apply (Qclt_not_le _ _ G2). apply Qcle_trans with (nth j v 0 + tol); [apply le_tol; auto; apply Qcle_refl|]. apply Qclt_le_weak. apply Qclt_minus_iff. apply Qclt_minus_iff in G1.
      replace (nth i v 0 + - (nth j v 0 + tol)) with (nth i v 0 - nth j v 0 + - tol) by ring. auto. }
  intros Hsep. set (w := map (fun i => nth i v 0) p) in *.
  assert (Hin : forall x, In x w -> In x v).
  { intros x Hx. apply in_map_iff in Hx. destruct Hx as (i & <- & Hi). apply nth_In. apply (is_perm_in _ _ i Hp). auto. }
  assert (G : forall i x y, nth_error w i = Some x -> nth_error w (S i) = Some y -> x <= y).
  { intros i x y Hx Hy. apply Hsep; eauto using nth_error_In. }
  clear - G. apply Sorted_StronglySorted; [intros x y z; apply Qcle_trans|]. clearbody w. induction w as [|x w IH]; constructor.
  - apply IH. intros i. apply (G (S i)).
  - destruct w as [|y w]; constructor. apply (G 0%nat); reflexivity.
Qed.
Lemma sort_tol_unsorted : forall tol, 0 < tol -> sort_sign_q tol [tol + tol; tol; 0] = ([tol + tol; tol; 0], 1%Z) /\ 0 + tol < tol + tol.
Proof.
  intros tol Ht. split.
  - assert (N : forall x y, y <= x + tol -> qc_gt_tol tol y x = false).
    { intros x y H. unfold qc_gt_tol. destruct (qc_ltb x y) eqn:E; [|apply andb_false_r]. rewrite andb_true_r. apply orb_false_iff. split; apply not_true_is_false; intros X; apply qc_ltb_lt in X.
      - apply (Qclt_not_le _ _ X). apply Qcle_minus_iff. apply Qcle_minus_iff in H. replace (tol + - (y - x)) with (x + tol + - y) by ring. auto.
      - apply qc_ltb_lt in E. apply (Qclt_not_le _ _ (Qclt_trans _ _ _ Ht X)). apply Qclt_le_weak. apply Qclt_minus_iff. apply Qclt_minus_iff in E. replace (0 + - (x - y)) with (y + - x) by ring. auto. }
    unfold sort_sign_q, isort_sign. cbn [isort_loop bubble]. rewrite (N tol (tol + tol)) by apply Qcle_refl. cbn [isort_loop bubble]. rewrite (N 0 tol) by (rewrite Qcplus_0_l; apply Qcle_refl). reflexivity.
  - rewrite Qcplus_0_l. rewrite <- (Qcplus_0_l tol) at 1. apply Qclt_minus_iff. replace (tol + tol + - (0 + tol)) with tol by ring. auto.
Qed.
