(** Toolkit for *-algebras and the graded sorting lemma. *)
From Coq Require Import List ZArith Bool Setoid Morphisms Arith Lia Sorted Permutation Field.
From Verif Require Import GC S_Alg.
Import ListNotations.
Local Open Scope alg_scope.

Section Basic.
  Context {A : StarAlg}.
  Implicit Types x y z : A.

  #[global] Instance asub_proper : Proper (aeq ==> aeq ==> aeq) (@asub A).
  Proof. intros x x' Hx y y' Hy. unfold asub. rewrite Hx, Hy. reflexivity. Qed.

  Lemma aadd_0_r x : x + azero == x.
  Proof. rewrite aadd_comm. apply aadd_0_l. Qed.

  Lemma ascal_eq a b x : a = b -> a · x == b · x.
  Proof. intros ->. reflexivity. Qed.

  Lemma ascal_zero a : a · (azero : A) == azero.
  Proof.
    rewrite <- (ascal_0 A azero) at 1. rewrite ascal_ascal.
    replace (gmul a g0) with g0 by ring. apply ascal_0.
  Qed.

  Lemma amul_0_l x : azero * x == azero.
  Proof. rewrite <- (ascal_0 A azero) at 1. rewrite ascal_mul_l. apply ascal_0. Qed.
  Lemma amul_0_r x : x * azero == azero.
  Proof. rewrite <- (ascal_0 A azero) at 1. rewrite ascal_mul_r. apply ascal_0. Qed.

  Lemma asub_self x : asub x x == azero.
  Proof.
    unfold asub. rewrite <- (ascal_1 A x) at 1. rewrite <- ascal_add_l.
    replace (gadd g1 gm1) with g0 by (apply GC_ext; reflexivity). apply ascal_0.
  Qed.

  Lemma aadd_cancel_r x y z : x + z == y + z -> x == y.
  Proof.
    intros H.
    rewrite <- (aadd_0_r x), <- (aadd_0_r y), <- (asub_self z). unfold asub.
    rewrite !aadd_assoc, H. reflexivity.
  Qed.

  Lemma asub_0_eq x y : asub x y == azero <-> x == y.
  Proof.
    split.
    - unfold asub; intros H. apply aadd_cancel_r with (gm1 · y).
      rewrite H. symmetry. apply asub_self.
    - intros ->. apply asub_self.
  Qed.

  Lemma ascal_cancel a x y : a <> g0 -> a · x == a · y -> x == y.
  Proof.
    intros Ha H.
    rewrite <- (ascal_1 A x), <- (ascal_1 A y).
    replace g1 with (gmul (ginv a) a) by (field; auto).
    rewrite <- !ascal_ascal, H. reflexivity.
  Qed.

  Lemma ascal_add_self a x : a · x + a · x == (gmul g2 a) · x.
  Proof. rewrite <- ascal_add_l. apply ascal_eq. unfold g2. ring. Qed.

  Lemma gm1_gm1 x : gm1 · gm1 · x == x.
  Proof. rewrite ascal_ascal. replace (gmul gm1 gm1) with g1 by (apply GC_ext; reflexivity). apply ascal_1. Qed.

  Lemma astar_one : (aone : A)^* == aone.
  Proof.
    rewrite <- (amul_1_l A (aone^*)).
    rewrite <- (astar_star A aone) at 1.
    rewrite <- astar_mul. rewrite amul_1_l. apply astar_star.
  Qed.

  Lemma astar_zero : (azero : A)^* == azero.
  Proof. rewrite <- (ascal_0 A azero) at 1. rewrite astar_scal, gconj_0. apply ascal_0. Qed.

  (** Words. *)
  Lemma aprod_app (l m : list A) : aprod (l ++ m) == aprod l * aprod m.
  Proof.
    induction l as [|x l IH]; simpl.
    - rewrite amul_1_l. reflexivity.
    - rewrite IH. apply amul_assoc.
  Qed.

  Lemma aprod_cons x (l : list A) : aprod (x :: l) = x * aprod l.
  Proof. reflexivity. Qed.

  Lemma aprod_star (l : list A) : (aprod l)^* == aprod (map astar (rev l)).
  Proof.
    induction l as [|x l IH]; simpl.
    - apply astar_one.
    - rewrite astar_mul, IH, map_app, aprod_app. simpl. rewrite amul_1_r. reflexivity.
  Qed.

  Lemma asum_app (l m : list A) : asum (l ++ m) == asum l + asum m.
  Proof.
    induction l as [|x l IH]; simpl.
    - rewrite aadd_0_l. reflexivity.
    - rewrite IH. apply aadd_assoc.
  Qed.

  Lemma asum_perm (l m : list A) : Permutation l m -> asum l == asum m.
  Proof.
    induction 1; simpl.
    - reflexivity.
    - rewrite IHPermutation. reflexivity.
    - rewrite !aadd_assoc. rewrite (aadd_comm A y x). reflexivity.
    - rewrite IHPermutation1. auto.
  Qed.

  Lemma asum_mul_l x (l : list A) : x * asum l == asum (map (fun y => x * y) l).
  Proof.
    induction l as [|y l IH]; simpl.
    - apply amul_0_r.
    - rewrite amul_add_r, IH. reflexivity.
  Qed.
  Lemma asum_mul_r x (l : list A) : asum l * x == asum (map (fun y => y * x) l).
  Proof.
    induction l as [|y l IH]; simpl.
    - apply amul_0_l.
    - rewrite amul_add_l, IH. reflexivity.
  Qed.
  Lemma asum_scal a (l : list A) : a · asum l == asum (map (fun y => a · y) l).
  Proof.
    induction l as [|y l IH]; simpl.
    - apply ascal_zero.
    - rewrite ascal_add_r, IH. reflexivity.
  Qed.
  Lemma asum_star (l : list A) : (asum l)^* == asum (map astar l).
  Proof.
    induction l as [|y l IH]; simpl.
    - apply astar_zero.
    - rewrite astar_add, IH. reflexivity.
  Qed.
  Lemma asum_ext {T} (f g : T -> A) (l : list T) :
    (forall t : T, In t l -> f t == g t) -> asum (map f l) == asum (map g l).
  Proof.
    induction l as [|x l IH]; simpl; intros H.
    - reflexivity.
    - rewrite (H x), IH by auto. reflexivity.
  Qed.
  Lemma asum_map_add {T} (f g : T -> A) (l : list T) :
    asum (map (fun t : T => f t + g t) l) == asum (map f l) + asum (map g l).
  Proof.
    induction l as [|x l IH]; simpl.
    - rewrite aadd_0_l. reflexivity.
    - rewrite IH. rewrite <- !aadd_assoc.
      rewrite (aadd_assoc _ (g x)), (aadd_comm _ (g x)), <- aadd_assoc. reflexivity.
  Qed.
  Lemma asum_zero {T} (f : T -> A) (l : list T) :
    (forall t : T, In t l -> f t == azero) -> asum (map f l) == azero.
  Proof.
    induction l as [|x l IH]; simpl; intros H.
    - reflexivity.
    - rewrite (H x), IH by auto. apply aadd_0_l.
  Qed.

  Lemma aprod_ext {T} (f g : T -> A) (l : list T) :
    (forall t : T, In t l -> f t == g t) -> aprod (map f l) == aprod (map g l).
  Proof.
    induction l as [|x l IH]; simpl; intros H.
    - reflexivity.
    - rewrite (H x), IH by auto. reflexivity.
  Qed.
End Basic.

(** Parity of the number of list elements satisfying a test. *)
Fixpoint par {L} (p : L -> bool) (w : list L) : bool :=
  match w with
  | [] => false
  | y :: r => xorb (p y) (par p r)
  end.

Lemma par_app {L} (p : L -> bool) u v : par p (u ++ v) = xorb (par p u) (par p v).
Proof. induction u; simpl; [destruct (par p v); auto | rewrite IHu, xorb_assoc; auto]. Qed.

Lemma par_ext {L} (p q : L -> bool) w : (forall y, In y w -> p y = q y) -> par p w = par q w.
Proof. induction w; simpl; intros H; auto. rewrite H, IHw; auto. Qed.

Lemma par_false {L} (p : L -> bool) w : (forall y, In y w -> p y = false) -> par p w = false.
Proof. induction w; simpl; intros H; auto. rewrite H, IHw; auto. Qed.

Lemma par_filter {L} (p q : L -> bool) w : par p (filter q w) = par (fun y => q y && p y) w.
Proof. induction w; simpl; auto. destruct (q a); simpl; rewrite IHw; [reflexivity | symmetry; apply xorb_false_l]. Qed.

Lemma par_odd_length {L} (p : L -> bool) w : par p w = Nat.odd (length (filter p w)).
Proof.
  induction w; simpl; auto. rewrite IHw. destruct (p a).
  - cbn [xorb length]. rewrite Nat.odd_succ, <- Nat.negb_odd. destruct (Nat.odd _); auto.
  - destruct (Nat.odd _); auto.
Qed.

Lemma par_map {L M} (f : L -> M) (p : M -> bool) w : par p (map f w) = par (fun x => p (f x)) w.
Proof. induction w; simpl; auto. rewrite IHw; auto. Qed.

Section Graded.
  Context {A : StarAlg} {L : Type}.
  Variables (val : L -> A) (key : L -> Z) (odd : L -> bool).

  Definition word (w : list L) : A := aprod (map val w).

  Lemma word_cons x w : word (x :: w) = val x * word w.
  Proof. reflexivity. Qed.
  Lemma word_app u v : word (u ++ v) == word u * word v.
  Proof. unfold word; rewrite map_app; apply aprod_app. Qed.

  (** [x] and [y] commute up to the sign determined by their parities. *)
  Definition gcomm1 (x y : L) : Prop := val x * val y == gsgn (odd x && odd y) · (val y * val x).

  (** Parity of the number of inversions between odd letters. *)
  Fixpoint invpar (w : list L) : bool :=
    match w with
    | [] => false
    | x :: r => xorb (odd x && par (fun y => odd y && Z.ltb (key y) (key x)) r) (invpar r)
    end.

  (** Inverted pairs commute up to sign. *)
  Fixpoint gcomm (w : list L) : Prop :=
    match w with
    | [] => True
    | x :: r => (forall y, In y r -> (key y < key x)%Z -> gcomm1 x y) /\ gcomm r
    end.

  Lemma pass_word x u : (forall y, In y u -> gcomm1 x y) ->
    val x * word u == gsgn (odd x && par odd u) · (word u * val x).
  Proof.
    induction u as [|y u IH]; intros H.
    - simpl. rewrite andb_false_r. simpl. rewrite ascal_1. unfold word; simpl.
      rewrite amul_1_l, amul_1_r. reflexivity.
    - pose proof (H y (or_introl eq_refl)) as Hy. unfold gcomm1 in Hy.
      rewrite word_cons, amul_assoc, Hy.
      rewrite ascal_mul_l, <- amul_assoc, IH by (intros; apply H; right; auto).
      rewrite ascal_mul_r, ascal_ascal, <- gsgn_xorb, amul_assoc.
      replace (xorb (odd x && odd y) (odd x && par odd u)) with (odd x && par odd (y :: u))
        by (simpl; destruct (odd x), (odd y), (par odd u); auto).
      reflexivity.
  Qed.

  Definition block (w : list L) (k : Z) : list L := filter (fun y => Z.eqb (key y) k) w.
  Definition blocks (w : list L) (ks : list Z) : A := aprod (map (fun k => word (block w k)) ks).

  Lemma blocks_cons_out x w ks : (forall k, In k ks -> key x <> k) ->
    blocks (x :: w) ks == blocks w ks.
  Proof.
    intros H. unfold blocks. apply aprod_ext. intros k Hk.
    unfold block; simpl. rewrite (proj2 (Z.eqb_neq _ _) (H k Hk)). reflexivity.
  Qed.

  Lemma push_into_blocks x w ks :
    StronglySorted Z.lt ks -> In (key x) ks ->
    (forall y, In y w -> (key y < key x)%Z -> gcomm1 x y) ->
    val x * blocks w ks ==
    gsgn (odd x && par (fun y => odd y && (Z.ltb (key y) (key x) && existsb (Z.eqb (key y)) ks)) w)
      · blocks (x :: w) ks.
  Proof.
    induction ks as [|k ks IH]; intros Hs Hin Hg; [destruct Hin|].
    inversion Hs as [|? ? Hs' Hall]; subst.
    rewrite Forall_forall in Hall.
    destruct (Z.eq_dec (key x) k) as [E|E].
    - assert (P : par (fun y => odd y && (Z.ltb (key y) (key x) && existsb (Z.eqb (key y)) (k :: ks))) w = false).
      { apply par_false. intros y Hy. destruct (odd y); auto. simpl.
        destruct (Z.ltb_spec (key y) (key x)); auto. simpl.
        destruct (Z.eqb_spec (key y) k); [lia|]. simpl.
        apply not_true_is_false. intros Hex. apply existsb_exists in Hex.
        destruct Hex as (k' & Hk' & Heq). apply Z.eqb_eq in Heq. specialize (Hall k' Hk'). lia. }
      rewrite P, andb_false_r. simpl gsgn. rewrite ascal_1.
      unfold blocks at 1 2. cbn [map]. rewrite !aprod_cons.
      assert (B : block (x :: w) k = x :: block w k).
      { unfold block; simpl. rewrite (proj2 (Z.eqb_eq _ _) E). reflexivity. }
      rewrite B, word_cons, <- amul_assoc.
      change (aprod (map (fun k0 => word (block (x :: w) k0)) ks)) with (blocks (x :: w) ks).
      rewrite blocks_cons_out.
      + reflexivity.
      + intros k' Hk' He. specialize (Hall k' Hk'). lia.
    - destruct Hin as [Hin|Hin]; [congruence|].
      assert (Hlt : (k < key x)%Z) by (apply Hall; auto).
      unfold blocks at 1 2. cbn [map]. rewrite !aprod_cons.
      assert (B : block (x :: w) k = block w k).
      { unfold block; simpl. rewrite (proj2 (Z.eqb_neq _ _) E). reflexivity. }
      rewrite B, amul_assoc.
      rewrite pass_word.
      2:{ intros y Hy. apply filter_In in Hy. destruct Hy as [Hy He]. apply Z.eqb_eq in He.
          apply Hg; auto; lia. }
      rewrite ascal_mul_l, <- amul_assoc.
      change (aprod (map (fun k0 => word (block w k0)) ks)) with (blocks w ks).
      rewrite IH by auto. rewrite ascal_mul_r, ascal_ascal, <- gsgn_xorb.
      change (aprod (map (fun k0 => word (block (x :: w) k0)) ks)) with (blocks (x :: w) ks).
      apply ascal_eq. f_equal.
      rewrite <- (andb_true_r (odd x)) at 1 2.
      destruct (odd x); auto. simpl.
      unfold block. rewrite par_filter.
      clear - Hall Hlt. induction w as [|y w IH]; auto. simpl.
      rewrite <- IH.
      destruct (Z.eqb_spec (key y) k) as [Ek|Ek].
      + assert (Ex : existsb (Z.eqb (key y)) ks = false).
        { apply not_true_is_false. intros Hex. apply existsb_exists in Hex.
          destruct Hex as (k' & Hk' & Heq). apply Z.eqb_eq in Heq. specialize (Hall k' Hk'). lia. }
        rewrite Ex. destruct (Z.ltb_spec (key y) (key x)); [|lia].
        destruct (odd y); simpl; repeat (match goal with |- context [par ?p w] => destruct (par p w) end); auto.
      + destruct (odd y); simpl; destruct (Z.ltb (key y) (key x)); simpl;
        destruct (existsb (Z.eqb (key y)) ks); simpl;
        repeat (match goal with |- context [par ?p w] => destruct (par p w) end); auto.
  Qed.

  (** The graded sorting lemma: a word equals the sign of its odd inversions times the
      product, in increasing order of keys, of its blocks of letters of equal key. *)
  Theorem graded_sort w ks :
    StronglySorted Z.lt ks -> (forall x, In x w -> In (key x) ks) -> gcomm w ->
    word w == gsgn (invpar w) · blocks w ks.
  Proof.
    induction w as [|x w IH]; intros Hs Hin Hg.
    - simpl. rewrite ascal_1. unfold word, blocks; simpl.
      clear. induction ks; simpl; [reflexivity|]. rewrite <- IHks.
      unfold word; simpl. rewrite amul_1_l. reflexivity.
    - destruct Hg as [Hg1 Hg2].
      rewrite word_cons, IH; auto.
      2:{ intros; apply Hin; right; auto. }
      rewrite ascal_mul_r, push_into_blocks; auto.
      2:{ apply Hin; left; auto. }
      rewrite ascal_ascal, <- gsgn_xorb. apply ascal_eq. f_equal. simpl.
      rewrite xorb_comm. f_equal. f_equal. apply par_ext. intros y Hy.
      destruct (Z.ltb (key y) (key x)); auto.
      replace (existsb (Z.eqb (key y)) ks) with true; auto.
      symmetry. apply existsb_exists. exists (key y). split.
      + apply Hin; right; auto.
      + apply Z.eqb_refl.
  Qed.

  Lemma invpar_inversions w : invpar w = Nat.odd (inversions (map key (filter odd w))).
  Proof.
    induction w as [|x w IH]; simpl; auto.
    rewrite IH. destruct (odd x) eqn:E; simpl.
    - rewrite Nat.odd_add. f_equal.
      rewrite par_odd_length. f_equal.
      clear. induction w as [|y w IH]; simpl; auto.
      destruct (odd y) eqn:E; simpl.
      + destruct (Z.ltb (key y) (key x)); simpl; congruence.
      + auto.
    - destruct (Nat.odd _); auto.
  Qed.
End Graded.
