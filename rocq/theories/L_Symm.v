(** symmetrize_basis. *)
From Coq Require Import List Arith Lia ZArith Bool Setoid Morphisms Sorted Permutation QArith Qcanon Ring.
From Verif Require Import GC Exn S_Alg S_Den S_Basis S_Built S_OpAlg S_Tools S_Transform S_Symm S_Fock M_OpString M_Tools M_Algebra M_Basis M_OpAlg M_Transform M_Symm
  L_Alg L_Module L_StrAlg L_StrOp L_PropStr L_Basis L_Operator L_VSum L_Struct L_Sum L_ConvLin L_Conversion2 L_Perm L_Tools L_PropTools L_Cluster
  L_Trans1 L_Trans2 L_Trans3 L_Trans4 L_Trans5 L_Trans6 L_Trans7 L_Trans8.
Import ListNotations.
Local Open Scope nat_scope.

(* ----------------------------------------------------------- permutations *)

Lemma after_perm n p q : is_perm n p -> is_perm n q -> is_perm n (after p q).
Proof. apply perm_compose. Qed.
Lemma after_nth n p q i : is_perm n q -> i < n -> nth i (after p q) 0 = nth (nth i q 0) p 0.
Proof.
  intros Hq Hi. unfold after. rewrite (nth_indep _ 0 (nth 0 p 0)) by (rewrite map_length, (p_length n q Hq); auto).
  rewrite (map_nth (fun i => nth i p 0)). reflexivity.
Qed.
Lemma after_assoc n p q r : is_perm n q -> is_perm n r -> after (after p q) r = after p (after q r).
Proof.
  intros Hq Hr. unfold after at 1 3. unfold after at 2. rewrite map_map. apply map_ext_in. intros i Hi. apply (after_nth n); auto. apply (is_perm_in n r); auto.
Qed.
Lemma after_id_r n p : is_perm n p -> after p (seq 0 n) = p.
Proof. intros Hp. unfold after. rewrite <- (p_length n p Hp) at 1. apply map_nth_seq. Qed.
Lemma after_id_l n p : is_perm n p -> after (seq 0 n) p = p.
Proof. intros Hp. unfold after. rewrite <- (map_id p) at 2. apply map_ext_in. intros i Hi. apply (is_perm_in n p i Hp) in Hi. rewrite seq_nth; auto. Qed.
Lemma id_perm n : is_perm n (seq 0 n).
Proof. apply Permutation_refl. Qed.
Lemma perm_nodup n p : is_perm n p -> NoDup p.
Proof. intros H. eapply Permutation_NoDup; [apply Permutation_sym; exact H | apply seq_NoDup]. Qed.
(** Cancellation on the left. *)
Lemma after_inj n h p q : is_perm n h -> is_perm n p -> is_perm n q -> after h p = after h q -> p = q.
Proof.
  intros Hh Hp Hq E. apply nth_ext with (d := 0) (d' := 0); [rewrite (p_length n p Hp), (p_length n q Hq); auto|].
  intros i Hi. rewrite (p_length n p Hp) in Hi. pose proof (f_equal (fun l => nth i l 0) E) as F. cbn beta in F.
  rewrite !(after_nth n) in F by auto. apply (proj1 (NoDup_nth h 0) (perm_nodup n h Hh)); auto.
  - rewrite (p_length n h Hh). apply (is_perm_in n p); auto. apply nth_In. rewrite (p_length n p Hp). auto.
  - rewrite (p_length n h Hh). apply (is_perm_in n q); auto. apply nth_In. rewrite (p_length n q Hq). auto.
Qed.

Definition pfun (p : list nat) (l : Z) : Z := Z.of_nat (nth (Z.to_nat l) p 0).
Lemma perm_permutes n p : is_perm n p -> permutes (map Z.of_nat p) (pfun p).
Proof.
  intros Hp. unfold permutes. rewrite map_length, (p_length n p Hp). split; [|split].
  - apply FinFun.Injective_map_NoDup; [intros a b; apply Nat2Z.inj | apply (perm_nodup n p Hp)].
  - intros l H. apply in_map_iff in H. destruct H as (i & <- & Hi). apply (is_perm_in n p i Hp) in Hi. lia.
  - intros l Hl. rewrite nth_error_map, (nth_error_nth' p 0) by (rewrite (p_length n p Hp); lia). reflexivity.
Qed.
Lemma pfun_after n h p l : is_perm n p -> (0 <= l < Z.of_nat n)%Z -> pfun (after h p) l = pfun h (pfun p l).
Proof. intros Hp Hl. unfold pfun. rewrite Nat2Z.id, (after_nth n) by (auto; lia). reflexivity. Qed.

Lemma perm_eqb_eq p q : perm_eqb p q = true <-> p = q.
Proof.
  revert q. induction p as [|x p IH]; intros [|y q]; cbn; split; intros H; try discriminate; auto.
  - apply andb_true_iff in H. destruct H as [H1 H2]. apply Nat.eqb_eq in H1. apply IH in H2. congruence.
  - injection H as -> ->. rewrite Nat.eqb_refl. apply IH. reflexivity.
Qed.
Lemma perm_mem_in p G : perm_mem p G = true <-> In p G.
Proof.
  unfold perm_mem. rewrite existsb_exists. split.
  - intros (q & Hq & E). apply perm_eqb_eq in E. subst; auto.
  - intros H. exists p. split; auto. apply perm_eqb_eq; auto.
Qed.

(* ----------------------------------------------------------- the group *)

Fixpoint power (n : nat) (gen : list nat) (k : nat) : list nat := match k with O => seq 0 n | S k' => after (power n gen k') gen end.
Lemma power_perm n gen k : is_perm n gen -> is_perm n (power n gen k).
Proof. intros H. induction k; [apply id_perm | apply after_perm; auto]. Qed.

Section Pass.
  Context (n : nat) (gen : list nat) (Hgen : is_perm n gen).

  Lemma pass_spec fuel : forall G i R, group_pass fuel gen G i = Some R -> (forall g, In g G -> is_perm n g) ->
    (forall j g, j < i -> nth_error G j = Some g -> In (after g gen) G) ->
    exists G', R = Ok G' /\ (forall g, In g G' -> is_perm n g) /\ incl G G' /\ (NoDup G -> NoDup G') /\
      (forall g, In g G' -> In (after g gen) G') /\
      (forall P : list nat -> Prop, (forall g, In g G -> P g) -> (forall g, P g -> is_perm n g -> P (after g gen)) -> forall g, In g G' -> P g).
  Proof.
    induction fuel as [|fuel IH]; intros G i R E Hp Hc; [discriminate|]. cbn [group_pass] in E.
    destruct (nth_error G i) as [g|] eqn:Ei.
    - assert (Hg : is_perm n g) by (apply Hp; eapply nth_error_In; eauto).
      rewrite (compose_spec n g gen Hg Hgen) in E. fold (after g gen) in E.
      destruct (perm_mem (after g gen) G) eqn:Em.
      + apply perm_mem_in in Em. apply (IH G (S i) R E Hp). intros j g' Hj Ej.
        destruct (Nat.eq_dec j i) as [->|N]; [rewrite Ei in Ej; injection Ej as <-; auto | apply (Hc j); auto; lia].
      + assert (Nm : ~ In (after g gen) G) by (intros H; apply perm_mem_in in H; congruence).
        destruct (IH (G ++ [after g gen]) (S i) R E) as (G' & -> & P1 & P2 & P3 & P4 & P5).
        * intros x Hx. apply in_app_or in Hx. destruct Hx as [Hx|[<-|[]]]; auto. apply after_perm; auto.
        * intros j g' Hj Ej. assert (j < length G) by (apply Nat.lt_le_trans with (S i); auto; apply nth_error_Some; congruence).
          rewrite nth_error_app1 in Ej by auto. apply in_or_app. destruct (Nat.eq_dec j i) as [->|N].
          -- rewrite Ei in Ej. injection Ej as <-. right. left. auto.
          -- left. apply (Hc j); auto. lia.
        * exists G'. split; auto. split; auto. split; [intros x Hx; apply P2, in_or_app; auto|]. split; [|split; auto].
          -- intros ND. apply P3. apply NoDup_app2; auto; [repeat constructor; intros [] | intros x Hx [<-|[]]; auto].
          -- intros P Q1 Q2. apply P5; auto. intros x Hx. apply in_app_or in Hx. destruct Hx as [Hx|[<-|[]]]; auto.
             apply Q2; auto. apply Q1. eapply nth_error_In; eauto.
    - injection E as <-. exists G. split; auto. split; auto. split; [intros x; auto|]. split; auto. split; [|auto].
      intros g Hg. apply In_nth_error in Hg. destruct Hg as (j & Ej). apply (Hc j); auto.
      apply nth_error_None in Ei. assert (j < length G) by (apply nth_error_Some; congruence). lia.
  Qed.

  (** Enough fuel. *)
  Lemma pass_fuel U : (forall p, is_perm n p -> In p U) -> forall fuel G i, (forall g, In g G -> is_perm n g) ->
    length (filter (fun p => negb (perm_mem p G)) U) + (length G - i) < fuel -> exists R, group_pass fuel gen G i = Some R.
  Proof.
    intros HU. induction fuel as [|fuel IH]; intros G i Hp Hf; [lia|]. cbn [group_pass].
    destruct (nth_error G i) as [g|] eqn:Ei; [|eauto].
    assert (Hi : i < length G) by (apply nth_error_Some; congruence).
    assert (Hg : is_perm n g) by (apply Hp; eapply nth_error_In; eauto).
    rewrite (compose_spec n g gen Hg Hgen). fold (after g gen). destruct (perm_mem (after g gen) G) eqn:Em.
    - apply IH; auto. lia.
    - apply IH.
      + intros x Hx. apply in_app_or in Hx. destruct Hx as [Hx|[<-|[]]]; auto. apply after_perm; auto.
      + rewrite app_length. cbn [length].
        assert (length (filter (fun p => negb (perm_mem p (G ++ [after g gen]))) U) < length (filter (fun p => negb (perm_mem p G)) U)); [|lia].
        assert (Hin : In (after g gen) U) by (apply HU, after_perm; auto).
        assert (M1 : forall p, perm_mem p (G ++ [after g gen]) = (perm_mem p G || perm_eqb p (after g gen))).
        { intros p. unfold perm_mem. rewrite existsb_app. cbn. rewrite orb_false_r. reflexivity. }
        assert (W : forall V, length (filter (fun p => negb (perm_mem p (G ++ [after g gen]))) V) <= length (filter (fun p => negb (perm_mem p G)) V)).
        { induction V as [|p V IHV]; cbn [filter]; auto. rewrite M1. destruct (perm_mem p G); cbn [orb negb]; auto. destruct (perm_eqb p (after g gen)); cbn [negb length]; lia. }
        clear - Hin M1 W Em. induction U as [|p U IHU]; [destruct Hin|]. cbn [filter]. rewrite M1. destruct Hin as [->|Hin].
        * rewrite Em. cbn [orb negb]. rewrite (proj2 (perm_eqb_eq (after g gen) (after g gen))) by auto. cbn [negb length]. specialize (W U). lia.
        * specialize (IHU Hin). destruct (perm_mem p G); cbn [orb negb]; auto. destruct (perm_eqb p (after g gen)); cbn [negb length]; lia.
  Qed.
End Pass.

Lemma perms_finite n : exists U, forall p : list nat, is_perm n p -> In p U.
Proof.
  assert (X : forall m, exists U, forall p : list nat, length p = m -> (forall i, In i p -> i < n) -> In p U).
  { induction m as [|m (U & HU)].
    - exists [[]]. intros [|x p] Hl _; [left; auto | discriminate].
    - exists (flat_map (fun x => map (cons x) U) (seq 0 n)). intros [|x p] Hl Hp; [discriminate|].
      apply in_flat_map. exists x. split; [apply in_seq; specialize (Hp x (or_introl eq_refl)); lia|]. apply in_map. apply HU; [injection Hl; auto | intros; apply Hp; right; auto]. }
  destruct (X n) as (U & HU). exists U. intros p Hp. apply HU; [apply (p_length n p Hp) | intros i; apply (is_perm_in n p i Hp)].
Qed.

Lemma passes_fuel n gens : (forall g, In g gens -> is_perm n g) -> forall G, (forall g, In g G -> is_perm n g) ->
  exists N, forall fuel, N <= fuel -> exists R, group_passes fuel gens G = Some R.
Proof.
  destruct (perms_finite n) as (U & HU).
  induction gens as [|gen gens IH]; intros Hg G HG; [exists 0; intros; cbn; eauto|].
  assert (Hgen : is_perm n gen) by (apply Hg; left; auto).
  set (N0 := S (length (filter (fun p => negb (perm_mem p G)) U) + length G)).
  (* the result of a pass does not depend on the fuel *)
  assert (Mono : forall f1 f2 G i R, group_pass f1 gen G i = Some R -> f1 <= f2 -> group_pass f2 gen G i = Some R).
  { clear. induction f1 as [|f1 IH]; intros f2 G i R E Hl; [discriminate|]. destruct f2 as [|f2]; [lia|]. cbn [group_pass] in *.
    destruct (nth_error G i); auto. destruct (compose_permutations l gen); auto. apply IH; auto. lia. }
  destruct (pass_fuel n gen Hgen U HU N0 G 0 HG ltac:(unfold N0; lia)) as (R & ER).
  destruct (pass_spec n gen Hgen N0 G 0 R ER HG ltac:(intros; lia)) as (G' & -> & P1 & _).
  destruct (IH ltac:(intros; apply Hg; right; auto) G' P1) as (N1 & H1).
  exists (N0 + N1). intros fuel Hf. cbn [group_passes]. rewrite (Mono N0 fuel G 0 _ ER) by lia. apply H1. lia.
Qed.
Theorem group_terminates n gens : gens <> [] -> (forall g, In g gens -> is_perm n g) ->
  exists N, forall fuel, N <= fuel -> exists R, symmetry_group fuel gens = Some R.
Proof.
  intros Hne Hg. destruct gens as [|g gens]; [congruence|]. unfold symmetry_group. apply (passes_fuel n); auto.
  rewrite (p_length n g) by (apply Hg; left; auto). intros x [<-|Hx]; auto. apply id_perm.
Qed.

Lemma passes_spec n fuel : forall gens G R, (forall g, In g gens -> is_perm n g) -> group_passes fuel gens G = Some R -> (forall g, In g G -> is_perm n g) ->
  exists G', R = Ok G' /\ (forall g, In g G' -> is_perm n g) /\ incl G G' /\ (NoDup G -> NoDup G') /\
    (forall P : list nat -> Prop, (forall g, In g G -> P g) -> (forall g q, P g -> is_perm n g -> In q gens -> P (after g q)) -> forall g, In g G' -> P g) /\
    (forall all, commuting all -> incl gens all -> (forall q, In q all -> is_perm n q) -> forall done, incl done all -> (forall g q, In g G -> In q done -> In (after g q) G) ->
       forall g q, In g G' -> In q done \/ In q gens -> In (after g q) G').
Proof.
  induction gens as [|gen gens IH]; intros G R Hg E HG.
  - injection E as <-. exists G. split; auto. split; auto. split; [intros x; auto|]. split; auto. split; [auto|]. intros all _ _ _ done _ Hd g q Hi [Hq|[]]. auto.
  - cbn [group_passes] in E. assert (Hgen : is_perm n gen) by (apply Hg; left; auto).
    destruct (group_pass fuel gen G 0) as [R0|] eqn:E0; [|discriminate].
    destruct (pass_spec n gen Hgen fuel G 0 R0 E0 HG ltac:(intros; lia)) as (G1 & -> & P1 & P2 & P3 & P4 & P5).
    destruct (IH G1 R ltac:(intros; apply Hg; right; auto) E P1) as (G' & -> & Q1 & Q2 & Q3 & Q4 & Q5).
    exists G'. split; auto. split; auto. split; [intros x Hx; apply Q2, P2; auto|]. split; [auto|]. split.
    + intros P A1 A2. apply Q4.
      * intros x Hx. apply (P5 P A1); auto. intros g B1 B2. apply A2; auto. left; auto.
      * intros g q B1 B2 B3. apply A2; auto. right; auto.
    + intros all Hall Hincl Hallp done Hdone Hd g q Hi Hq.
      apply (Q5 all Hall ltac:(intros x Hx; apply Hincl; right; auto) Hallp (gen :: done)); auto.
      * intros x [<-|Hx]; auto. apply Hincl. left; auto.
      * intros x y Hx [<-|Hy]; auto. revert x Hx.
        apply (P5 (fun x => In (after x y) G1)).
        -- intros x Hx. apply P2. apply Hd; auto.
        -- intros x Hx Hpx. assert (Hyp : is_perm n y) by (apply Hallp, Hdone; auto).
           rewrite (after_assoc n) by auto. rewrite (Hall gen y) by (auto; apply Hincl; left; auto).
           rewrite <- (after_assoc n) by auto. apply P4. exact Hx.
      * destruct Hq as [Hq|[<-|Hq]]; [left; right; auto | left; left; auto | right; auto].
Qed.

Section Group.
  Context (n : nat) (gens : list (list nat)).
  Hypothesis Hgens : forall g, In g gens -> is_perm n g.
  Hypothesis Hne : gens <> [].

  Lemma generated_perm p : generated n gens p -> is_perm n p.
  Proof. induction 1; [apply id_perm | apply after_perm; auto]. Qed.

  Theorem group_spec fuel R : symmetry_group fuel gens = Some R ->
    exists G, R = Ok G /\ (forall g, In g G -> generated n gens g) /\ In (seq 0 n) G /\ incl gens G /\
      (NoDup (seq 0 n :: gens) -> NoDup G) /\
      (commuting gens -> forall g, generated n gens g -> In g G).
  Proof.
    intros E. assert (Hfirst : exists g0 r, gens = g0 :: r /\ length g0 = n).
    { destruct gens as [|g0 r]; [congruence|]. exists g0, r. split; auto. apply (p_length n); auto. apply Hgens. left; auto. }
    destruct Hfirst as (g0 & r & Eg & Hl). unfold symmetry_group in E. rewrite Eg in E. rewrite Hl, <- Eg in E.
    assert (Hp : forall g, In g (seq 0 n :: gens) -> is_perm n g) by (intros g [<-|H]; [apply id_perm | auto]).
    destruct (passes_spec n fuel gens _ R Hgens E Hp) as (G & -> & P1 & P2 & P3 & P4 & P5).
    exists G. split; auto. split; [|split; [apply P2; left; auto | split; [intros x Hx; apply P2; right; auto | split; auto]]].
    - apply P4.
      + intros g [<-|Hg]; [constructor|]. rewrite <- (after_id_l n g) by auto. constructor; auto. constructor.
      + intros g q A1 A2 A3. constructor; auto.
    - intros Hc g Hg. induction Hg as [|p q Hp' IH Hq]; [apply P2; left; auto|].
      apply (P5 gens Hc ltac:(intros x; auto) Hgens []); auto; [intros x []|intros x y _ []].
  Qed.

  (** The group is closed on the left as well. *)
  Lemma generated_left h g : In h gens -> generated n gens g -> generated n gens (after h g).
  Proof.
    intros Hh Hg. induction Hg as [|p q Hp IH Hq].
    - rewrite (after_id_r n) by auto. rewrite <- (after_id_l n h) by auto. constructor; auto. constructor.
    - rewrite <- (after_assoc n) by auto using generated_perm. constructor; auto.
  Qed.
  Lemma group_shift G h : In h gens -> NoDup G -> (forall g, In g G <-> generated n gens g) -> Permutation (map (after h) G) G.
  Proof.
    intros Hh ND HG. apply NoDup_Permutation_bis.
    - apply NoDup_map_inj; auto. intros p q Hp Hq. apply (after_inj n); auto; apply generated_perm, HG; auto.
    - rewrite map_length. lia.
    - intros x Hx. apply in_map_iff in Hx. destruct Hx as (g & <- & Hg). apply HG, generated_left; auto. apply HG; auto.
  Qed.
End Group.
