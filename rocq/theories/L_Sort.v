(** Insertion sort: sorted permutation, sign = parity of inversions. *)
From Coq Require Import List ZArith Bool Arith Lia Sorted Permutation.
From Verif Require Import GC S_Alg M_Tools M_Algebra.
Import ListNotations.
Local Open Scope Z_scope.

Section Gen.
  (** Descending reversed prefix: bubble inserts and counts the larger elements. *)
  Lemma bubble_spec rp x :
    StronglySorted Z.ge rp ->
    let '(r, k) := bubble Z.gtb rp x in
    StronglySorted Z.ge r /\ Permutation r (x :: rp) /\
    k = length (filter (fun y => Z.gtb y x) rp).
  Proof.
    induction rp as [|y rp IH]; intros Hs; simpl.
    - repeat split; auto. repeat constructor.
    - inversion Hs as [|? ? Hs' Hall]; subst.
      destruct (Z.gtb y x) eqn:E.
      + specialize (IH Hs'). destruct (bubble Z.gtb rp x) as [r k].
        destruct IH as (H1 & H2 & H3). repeat split.
        * constructor; auto. rewrite Forall_forall in *. intros z Hz.
          apply (Permutation_in _ H2) in Hz. destruct Hz as [->|Hz]; [|apply Hall; auto].
          apply Z.gtb_lt in E. lia.
        * rewrite H2. apply perm_swap.
        * simpl. congruence.
      + assert (y <= x) by (destruct (Z.gtb_spec y x); [discriminate | lia]).
        repeat split; auto.
        * constructor; auto. rewrite Forall_forall in *. intros z [->|Hz]; [lia|].
          specialize (Hall z Hz). lia.
        * rewrite (proj2 (length_zero_iff_nil _)); auto.
          rewrite Forall_forall in Hall.
          destruct (filter _ rp) as [|z l] eqn:F; auto.
          assert (Hz : In z (filter (fun y => Z.gtb y x) rp)) by (rewrite F; left; auto).
          apply filter_In in Hz. destruct Hz as [Hz1 Hz2]. apply Z.gtb_lt in Hz2.
          specialize (Hall z Hz1). lia.
  Qed.

  Lemma inversions_snoc l x :
    inversions (l ++ [x]) = (inversions l + length (filter (fun y => Z.gtb y x) l))%nat.
  Proof.
    induction l as [|y l IH]; simpl; auto.
    rewrite IH, filter_app, app_length. simpl.
    rewrite Z.gtb_ltb. destruct (x <? y); simpl; lia.
  Qed.

  Lemma filter_length_perm {T} (p : T -> bool) l m :
    Permutation l m -> length (filter p l) = length (filter p m).
  Proof.
    induction 1; simpl; auto.
    - destruct (p x); simpl; auto.
    - destruct (p x), (p y); simpl; auto.
    - congruence.
  Qed.

  Lemma isort_loop_spec l : forall rp done k,
    StronglySorted Z.ge rp -> Permutation rp done -> k = inversions done ->
    let '(s, n) := isort_loop Z.gtb rp l k in
    StronglySorted Z.le s /\ Permutation s (done ++ l) /\ n = inversions (done ++ l).
  Proof.
    induction l as [|x l IH]; intros rp done k Hs Hp Hk; simpl.
    - rewrite app_nil_r. repeat split; auto.
      + clear - Hs. induction rp as [|y rp IH]; simpl; [constructor|].
        inversion Hs as [|? ? Hs' Hall]; subst. specialize (IH Hs').
        clear Hs. rewrite Forall_forall in Hall.
        assert (G : forall z, In z (rev rp) -> z <= y) by
          (intros z Hz; apply in_rev in Hz; specialize (Hall z Hz); lia).
        revert IH G. generalize (rev rp). clear. intros l. induction l as [|z l IH]; simpl; intros Hs G.
        * repeat constructor.
        * inversion Hs as [|? ? Hs' Hall]; subst. constructor; auto.
          apply Forall_app; split; auto.
      + transitivity rp; auto. symmetry. apply Permutation_rev.
    - pose proof (bubble_spec rp x Hs) as B. destruct (bubble Z.gtb rp x) as [rp' j].
      destruct B as (B1 & B2 & B3).
      specialize (IH rp' (done ++ [x]) (k + j)%nat B1).
      rewrite <- app_assoc in IH. simpl in IH. apply IH.
      + rewrite B2. rewrite Hp. apply Permutation_cons_append.
      + rewrite inversions_snoc, Hk, B3. f_equal. apply filter_length_perm; auto.
  Qed.
End Gen.

Theorem sort_sign_spec l :
  StronglySorted Z.le (fst (sort_sign l)) /\
  Permutation (fst (sort_sign l)) l /\
  snd (sort_sign l) = if Nat.odd (inversions l) then -1 else 1.
Proof.
  unfold sort_sign, isort_sign.
  pose proof (isort_loop_spec l [] [] 0 (SSorted_nil _) (Permutation_refl _) eq_refl) as H.
  destruct (isort_loop Z.gtb [] l 0) as [s n]. simpl in H. destruct H as (H1 & H2 & ->).
  simpl. auto.
Qed.

Lemma sgn_num_spec l : sgn_num l = gsgn (Nat.odd (inversions l)).
Proof.
  unfold sgn_num. destruct (sort_sign_spec l) as (_ & _ & ->).
  destruct (Nat.odd _); apply GC_ext; reflexivity.
Qed.
