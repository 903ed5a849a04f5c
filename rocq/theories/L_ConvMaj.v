(** Majorana strings as combinations of Fermion strings. *)
From Coq Require Import String List Arith Lia ZArith Bool Setoid Morphisms Sorted Permutation Qcanon.
From Verif Require Import GC Exn S_Alg S_Den S_Basis S_Conv M_OpString M_Tools M_Basis M_Cluster M_Conversion
  L_Alg L_Module L_StrAlg L_ConvAlg L_ConvOrd L_Sort L_Cluster L_Basis L_Operator L_PropTools.
Import ListNotations.
Local Open Scope nat_scope.
Local Open Scope alg_scope.

(* ------------------------------------------------------------ expansion *)

Definition lets1 (o : op) (l : Z) (b : bool) : list fl :=
  match o, b with
  | OA, _ | OB, _ => [(b, l)]
  | OD, false => [(true, l); (false, l)]
  | _, _ => []
  end.
Definition z1 (o : op) (b : bool) : GC :=
  match o, b with
  | OB, false => gopp gi | OB, true => gi
  | OD, false => gmul gm1 g2
  | _, _ => g1
  end.
Fixpoint lets (w : list (op * Z)) (t : list bool) : list fl :=
  match w, t with
  | (o, l) :: w', b :: t' => lets1 o l b ++ lets w' t'
  | _, _ => []
  end.
Fixpoint zt (w : list (op * Z)) (t : list bool) : GC :=
  match w, t with
  | (o, l) :: w', b :: t' => gmul (z1 o b) (zt w' t')
  | _, _ => g1
  end.

Lemma maj_expand_eq large w : forall t p,
  maj_expand large w t p = (gmul p (zt w t), map (fkey large) (lets w t), length (filter fst (lets w t))).
Proof.
  induction w as [|[o l] w IH]; intros t p.
  - simpl. f_equal. f_equal. ring.
  - destruct t as [|b t]; [simpl; f_equal; f_equal; ring|].
    cbn [maj_expand]. destruct o, b; cbn [maj_letter lets lets1 zt z1]; rewrite IH; rewrite ?map_app, ?filter_app, ?app_length;
      cbn [app map filter fst length fkey snd]; f_equal; try f_equal; try ring; try lia.
Qed.

Lemma choices_S n : choices (S n) = map (cons false) (choices n) ++ map (cons true) (choices n).
Proof. unfold choices. cbn [tuples flat_map]. rewrite app_nil_r. reflexivity. Qed.
Lemma choices_in n t : In t (choices n) <-> length t = n.
Proof.
  unfold choices. rewrite tuples_in. split; [tauto|]. intros H; split; auto. intros [|] _; simpl; auto.
Qed.
Lemma choices_NoDup n : NoDup (choices n).
Proof. apply tuples_NoDup. repeat constructor; simpl; intuition discriminate. Qed.

Section Car.
  Context {A : StarAlg}.
  Variable c : Z -> A.
  Hypothesis H : CAR A c.

  Lemma expand1 o l : is_majorana_op o = true ->
    gmaj c o l == z1 o false · word (fval c) (lets1 o l false) + z1 o true · word (fval c) (lets1 o l true).
  Proof.
    destruct o; try discriminate; intros _; unfold word; cbn [gmaj z1 lets1 map aprod fold_right fval fst snd]; rewrite ?amul_1_r.
    - rewrite !ascal_1. reflexivity.
    - msolve [c l; (c l)^*]; apply GC_ext; cbn; ring.
    - msolve [(aone : A); (c l)^* * c l]; apply GC_ext; cbn; ring.
  Qed.

  Definition trm (w : list (op * Z)) (t : list bool) : A := zt w t · word (fval c) (lets w t).

  Lemma trm_cons o l w b t : trm ((o, l) :: w) (b :: t) == (z1 o b · word (fval c) (lets1 o l b)) * trm w t.
  Proof.
    unfold trm. cbn [zt lets]. rewrite word_app, ascal_mul_l, ascal_mul_r, ascal_ascal. reflexivity.
  Qed.

  Lemma expand w : (forall p, In p w -> is_majorana_op (fst p) = true) ->
    aprod (map (lval (gmaj c)) w) == asum (map (trm w) (choices (length w))).
  Proof.
    induction w as [|[o l] w IH]; intros Hw.
    - simpl. unfold trm. simpl. rewrite ascal_1, aadd_0_r. unfold word; simpl. reflexivity.
    - cbn [map length]. rewrite aprod_cons, IH by (intros; apply Hw; simpl; auto).
      unfold lval at 1. cbn [fst snd]. rewrite expand1 by (apply (Hw (o, l)); simpl; auto).
      rewrite amul_add_l, choices_S, map_app, asum_app, !map_map, !asum_mul_l, !map_map.
      apply aadd_proper; apply asum_ext; intros t Ht; symmetry; apply trm_cons.
  Qed.

  (* ----------------------------------------------------------- adjoints *)

  Definition flip1 (o : op) (b : bool) : bool := match o with OD => b | _ => negb b end.

  Lemma word2_pass (u v : list fl) : (forall x y, In x u -> In y v -> snd x <> snd y) ->
    word (fval c) u * word (fval c) v == gsgn (Nat.odd (length u) && Nat.odd (length v)) · (word (fval c) v * word (fval c) u).
  Proof.
    assert (PL : forall v : list fl, par (fun _ => true) v = Nat.odd (length v)).
    { intros v'. rewrite par_odd_length. f_equal. f_equal. induction v'; simpl; congruence. }
    induction u as [|x u IH]; intros D.
    - cbn [length Nat.odd Nat.even negb andb gsgn]. rewrite ascal_1. unfold word; simpl. rewrite amul_1_l, amul_1_r. reflexivity.
    - rewrite word_cons, <- amul_assoc, IH by (intros; apply D; simpl; auto).
      rewrite ascal_mul_r, amul_assoc.
      rewrite (pass_word (fval c) (fun _ => true) x v).
      + rewrite PL, ascal_mul_l, <- amul_assoc, ascal_ascal. apply ascal_eq. rewrite <- gsgn_xorb. f_equal.
        cbn [length]. rewrite Nat.odd_succ, <- Nat.negb_odd. destruct (Nat.odd (length u)), (Nat.odd (length v)); reflexivity.
      + intros y Hy. unfold gcomm1. cbn [andb gsgn]. assert (N : snd x <> snd y) by (apply D; simpl; auto).
        destruct x as [[|] l], y as [[|] m]; unfold fval; cbn [fst snd] in *; auto using c_cc, c_dd, c_cd, c_dc.
        * apply c_dd; auto. * apply c_dc; auto. * apply c_cd; auto. * apply c_cc; auto.
  Qed.

  Definition tval (o : op) (l : Z) (b : bool) : A := z1 o b · word (fval c) (lets1 o l b).
  Lemma tval_star o l b : is_majorana_op o = true -> (tval o l b)^* == tval o l (flip1 o b).
  Proof.
    unfold tval, word. destruct o, b; try discriminate; intros _; cbn [z1 lets1 flip1 negb map aprod fold_right fval fst snd];
      rewrite ?amul_1_r, astar_scal, ?astar_mul, ?astar_star, ?astar_one; apply ascal_eq; apply GC_ext; cbn; ring.
  Qed.
  Lemma tval_comm o l b p m b' : is_majorana_op o = true -> is_majorana_op p = true -> l <> m ->
    tval o l b * tval p m b' == gsgn (is_ab o && is_ab p) · (tval p m b' * tval o l b).
  Proof.
    intros Ho Hp N. unfold tval. rewrite !ascal_mul_l, !ascal_mul_r, word2_pass.
    - rewrite !ascal_ascal. apply ascal_eq.
      replace (Nat.odd (length (lets1 o l b)) && Nat.odd (length (lets1 p m b')))%bool with (is_ab o && is_ab p)%bool.
      + ring.
      + destruct o, p, b, b'; try discriminate; reflexivity.
    - intros x y Hx Hy. assert (snd x = l) by (destruct o, b; simpl in Hx; intuition (subst; auto)).
      assert (snd y = m) by (destruct p, b'; simpl in Hy; intuition (subst; auto)). congruence.
  Qed.

  Lemma rev_word (xs : list (A * bool)) :
    (forall l1 x l2 y, xs = l1 ++ x :: l2 -> In y l2 -> gcomm1 fst snd x y) ->
    aprod (map fst (rev xs)) == gsgn (Nat.odd (length (filter snd xs) * (length (filter snd xs) - 1) / 2)) · aprod (map fst xs).
  Proof.
    induction xs as [|x xs IH]; intros G.
    - simpl. rewrite ascal_1. reflexivity.
    - cbn [rev]. rewrite map_app, aprod_app, IH by (intros l1 y l2 z E Hz; apply (G (x :: l1) y l2 z); auto; rewrite E; reflexivity).
      pose proof (pass_word fst snd x xs (fun y Hy => G [] x xs y eq_refl Hy)) as P. unfold word in P.
      cbn [map]. rewrite !aprod_cons. cbn [aprod fold_right]. rewrite amul_1_r, P, ascal_mul_l, !ascal_ascal.
      transitivity ((gsgn (Nat.odd (length (filter snd (x :: xs)) * (length (filter snd (x :: xs)) - 1) / 2)) * gsgn (snd x && par snd xs))%gc ·
          (aprod (map fst xs) * fst x)); [|reflexivity].
      apply ascal_eq. rewrite par_odd_length. cbn [filter]. destruct (snd x); cbn [length andb].
      + rewrite <- gsgn_xorb. f_equal. set (n := length (filter snd xs)).
        replace (S n * (S n - 1) / 2)%nat with (n * (n - 1) / 2 + n)%nat.
        * rewrite Nat.odd_add. destruct (Nat.odd (n * (n - 1) / 2)), (Nat.odd n); reflexivity.
        * clear. replace (S n - 1)%nat with n by lia.
          replace (S n * n)%nat with (n * (n - 1) + n * 2)%nat by (destruct n; simpl; lia).
          rewrite Nat.div_add; auto.
      + cbn [gsgn]. ring.
  Qed.

  Fixpoint flip (w : list (op * Z)) (t : list bool) : list bool :=
    match w, t with
    | (o, l) :: w', b :: t' => flip1 o b :: flip w' t'
    | _, t => t
    end.
  Fixpoint tvals (w : list (op * Z)) (t : list bool) : list (A * bool) :=
    match w, t with
    | (o, l) :: w', b :: t' => (tval o l b, is_ab o) :: tvals w' t'
    | _, _ => []
    end.
  Lemma trm_tvals w : forall t, trm w t == aprod (map fst (tvals w t)).
  Proof.
    induction w as [|[o l] w IH]; intros t.
    - unfold trm; simpl. rewrite ascal_1. unfold word; simpl. reflexivity.
    - destruct t as [|b t]; [unfold trm; simpl; rewrite ascal_1; unfold word; simpl; reflexivity|].
      cbn [tvals map fst]. rewrite aprod_cons, <- IH. apply trm_cons.
  Qed.
  Lemma tvals_odd w : forall t, length t = length w -> length (filter snd (tvals w t)) = length (filter is_ab (map fst w)).
  Proof.
    induction w as [|[o l] w IH]; intros [|b t] L; try discriminate; auto.
    cbn [tvals filter snd map fst]. destruct (is_ab o); cbn [length]; rewrite IH; auto.
  Qed.
  Lemma tvals_in w : forall t y, In y (tvals w t) -> exists o l b, In (o, l) w /\ y = (tval o l b, is_ab o).
  Proof.
    induction w as [|[o l] w IH]; intros [|b t] y Hy; try destruct Hy as [].
    - exists o, l, b. simpl; auto.
    - destruct (IH t y H0) as (o' & l' & b' & Hi & E). exists o', l', b'. simpl; auto.
  Qed.
  Lemma tvals_comm w : (forall p, In p w -> is_majorana_op (fst p) = true) -> NoDup (map snd w) -> forall t,
    forall l1 x l2 y, tvals w t = l1 ++ x :: l2 -> In y l2 -> gcomm1 fst snd x y.
  Proof.
    induction w as [|[o l] w IH]; intros Hw N t l1 x l2 y E Hy.
    - destruct l1; discriminate.
    - destruct t as [|b t]; [destruct l1; discriminate|]. cbn [tvals] in E. inversion N; subst.
      destruct l1 as [|z l1]; injection E as E1 E2.
      + subst x l2. apply tvals_in in Hy. destruct Hy as (o' & l' & b' & Hi & ->).
        unfold gcomm1. cbn [fst snd]. apply tval_comm.
        * apply (Hw (o, l)); simpl; auto.
        * apply (Hw (o', l')); simpl; auto.
        * intros ->. apply H2. apply in_map_iff. exists (o', l'); auto.
      + apply (IH (fun p Hp => Hw p (or_intror Hp)) H3 t l1 x l2 y); auto.
  Qed.
  Lemma tvals_flip w : (forall p, In p w -> is_majorana_op (fst p) = true) -> forall t,
    aprod (map (fun x => (fst x)^*) (tvals w t)) == aprod (map fst (tvals w (flip w t))).
  Proof.
    induction w as [|[o l] w IH]; intros Hw t; [reflexivity|]. destruct t as [|b t]; [reflexivity|].
    cbn [tvals flip map fst]. rewrite !aprod_cons, IH by (intros; apply Hw; simpl; auto).
    rewrite tval_star; [reflexivity|]. apply (Hw (o, l)); simpl; auto.
  Qed.

  (** The adjoint of a term is the term with creation and annihilation exchanged. *)
  Theorem trm_star w p : (forall q, In q w -> is_majorana_op (fst q) = true) -> NoDup (map snd w) ->
    p = majorana_phase (length (filter is_ab (map fst w))) -> forall t, length t = length w ->
    (p · trm w t)^* == p · trm w (flip w t).
  Proof.
    intros Hw N Hp t L. rewrite astar_scal, trm_tvals, aprod_star, <- map_rev.
    rewrite map_map, map_rev.
    transitivity (gconj p · aprod (map fst (rev (map (fun x => ((fst x)^*, snd x)) (tvals w t))))).
    { rewrite map_rev, map_map. reflexivity. }
    rewrite rev_word.
    - rewrite map_map. cbn [fst]. rewrite tvals_flip, <- trm_tvals, ascal_ascal by auto. apply ascal_eq.
      replace (length (filter snd (map (fun x : A * bool => ((fst x)^*, snd x)) (tvals w t)))) with (length (filter snd (tvals w t))).
      + rewrite tvals_odd by auto. rewrite Hp. unfold majorana_phase. destruct (Nat.odd _); apply GC_ext; cbn; ring.
      + clear. induction (tvals w t) as [|[x b] r IH]; simpl; auto. destruct b; simpl; auto.
    - intros l1 x l2 y E Hy.
      assert (G := tvals_comm w Hw N (flip w t)).
      revert E. generalize dependent l1. clear L.
      (* pairs of adjoints *)
      assert (K : forall v t l1 x l2 y, (forall p, In p v -> is_majorana_op (fst p) = true) -> NoDup (map snd v) ->
          map (fun x : A * bool => ((fst x)^*, snd x)) (tvals v t) = l1 ++ x :: l2 -> In y l2 -> gcomm1 fst snd x y).
      { clear - H. induction v as [|[o l] v IH]; intros t l1 x l2 y Hv N E Hy.
        - destruct l1; discriminate.
        - destruct t as [|b t]; [destruct l1; discriminate|]. cbn [tvals map fst snd] in E. inversion N; subst.
          destruct l1 as [|z l1]; injection E as E1 E2.
          + subst x l2. apply in_map_iff in Hy. destruct Hy as (y' & <- & Hy). apply tvals_in in Hy.
            destruct Hy as (o' & l' & b' & Hi & ->). unfold gcomm1. cbn [fst snd].
            rewrite !tval_star by (first [apply (Hv (o, l)); simpl; auto | apply (Hv (o', l')); simpl; auto]).
            apply tval_comm.
            * apply (Hv (o, l)); simpl; auto.
            * apply (Hv (o', l')); simpl; auto.
            * intros ->. apply H2. apply in_map_iff. exists (o', l'); auto.
          + apply (IH t l1 x l2 y (fun p Hp => Hv p (or_intror Hp)) H3); auto. }
      intros l1 E. apply (K w t l1 x l2 y); auto.
  Qed.
End Car.
