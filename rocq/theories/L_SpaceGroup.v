(** Lemmas about the transformations built from a Lattice. *)
From Coq Require Import String List ZArith Bool Arith QArith Qcanon Lia.
From Verif Require Import GC Exn M_OpString M_Tools M_Basis M_Lattice M_Transform M_SpaceGroup S_Lattice S_Transform L_Lattice1 L_Lattice2 L_Lattice3 L_Lattice4.
Import ListNotations.
Local Open Scope Qc_scope.

Lemma check_ok l p : check_labels l = Ok p <-> p = l /\ ~ In (-1)%Z l.
Proof.
  unfold check_labels. destruct (existsb (Z.eqb (-1)) l) eqn:E.
  - split; [discriminate|]. intros [_ H]. exfalso. apply H. apply existsb_exists in E. destruct E as (x & Hx & Ex). apply Z.eqb_eq in Ex. subst; auto.
  - split; [intros H; injection H as <-; split; auto|intros [-> _]; auto].
    intros H. rewrite <- not_true_iff_false in E. apply E. apply existsb_exists. exists (-1)%Z. split; auto.
Qed.
Lemma check_err l : In (-1)%Z l -> check_labels l = Err ValueError.
Proof.
  intros H. unfold check_labels. destruct (existsb (Z.eqb (-1)) l) eqn:E; auto.
  rewrite <- not_true_iff_false in E. exfalso. apply E. apply existsb_exists. exists (-1)%Z. split; auto.
Qed.

(** A duplicate-free list of labels below its length is a permutation. *)
Lemma permutes_of p : NoDup p -> (forall l, In l p -> (0 <= l < Z.of_nat (length p))%Z) -> permutes p (perm_fun p).
Proof.
  intros H1 H2. split; auto. split; auto. intros l Hl. unfold perm_fun. apply nth_error_nth'. lia.
Qed.

Section Sym.
Variables (show : pvec -> string) (d : nat) (uc : UnitCell) (ns : list Z) (per : list bool) (tol : Qc) (L : Lattice).
Hypothesis HS : cell_shape d uc.
Hypothesis Hns : length ns = d.
Hypothesis Hper : length per = d.
Hypothesis HL : lattice_new show uc ns (Some per) tol = Ok L.
Let vs := uc_vectors uc.
Let ats := atoms uc.

Local Notation moved := (moved show tol d vs ns per (l_orbitals L)).
Local Notation stay_apart := (stay_apart show tol d vs ns per (l_orbitals L)).

Lemma moved_ok f g p : check_labels (map (fun o : orbital => l_index show L (f (fst (fst o))) (g (snd (fst o)))) (l_orbitals L)) = Ok p -> moved f g p.
Proof.
  intros H. apply check_ok in H. destruct H as [-> Hm]. split; [rewrite map_length; reflexivity|].
  intros i r name c Hi. rewrite nth_error_map, Hi. simpl.
  destruct (index_meaning show d uc ns per tol L HS Hns Hper HL (f r) (g name)) as [[E _]|(i' & [[r' n'] c'] & m & E & Ho & Hl & Hn & [M1 M2])].
  - exfalso. apply Hm. apply in_map_iff. exists (r, name, c). split; auto. eapply nth_error_In; eauto.
  - simpl in M1, M2. subst n'. exists i', r', c', m. rewrite E. auto.
Qed.
Lemma moved_range f g p : moved f g p -> forall l, In l p -> (0 <= l < Z.of_nat (length p))%Z.
Proof.
  intros [H1 H2] l Hl. fold (l_len L) in H1. apply In_nth_error in Hl. destruct Hl as [i Hi].
  assert (Li : (i < l_len L)%nat) by (rewrite <- H1; apply nth_error_Some; congruence).
  destruct (nth_error (l_orbitals L) i) as [[[r name] c]|] eqn:E; [|apply nth_error_None in E; unfold l_len in Li; lia].
  destruct (H2 _ _ _ _ E) as (i' & r' & c' & m & E1 & E2 & _). rewrite Hi in E1. injection E1 as ->.
  assert (i' < l_len L)%nat by (apply nth_error_Some; congruence). lia.
Qed.
Lemma moved_permutes f g p : moved f g p -> stay_apart f g -> permutes p (perm_fun p).
Proof.
  intros HM HA. apply permutes_of; [|eapply moved_range; eauto]. destruct HM as [H1 H2]. fold (l_len L) in H1.
  apply NoDup_nth_error. intros i i' Hi E.
  assert (Hi' : (i' < length p)%nat).
  { apply nth_error_Some. rewrite <- E. apply nth_error_Some. auto. }
  rewrite H1 in Hi, Hi'. apply nth_error_Some in Hi, Hi'.
  destruct (nth_error (l_orbitals L) i) as [[[r name] c]|] eqn:E1; [|congruence].
  destruct (nth_error (l_orbitals L) i') as [[[r' name'] c']|] eqn:E2; [|congruence].
  destruct (H2 _ _ _ _ E1) as (k & q & e & m & A1 & A2 & A3 & A4 & A5).
  destruct (H2 _ _ _ _ E2) as (k' & q' & e' & m' & B1 & B2 & B3 & B4 & B5).
  rewrite A1, B1 in E. injection E as E. apply Nat2Z.inj in E. subst k'. rewrite A2 in B2. injection B2 as Bq Bn Bc.
  apply (HA i i' r r' name name' c c' m m'); auto; congruence.
Qed.

Hypothesis Hnames : names_differ ats.
Hypothesis Htol : 0 <= tol.
Variable B : Z.
Hypothesis HT : told_apart show tol d vs ats B.
Hypothesis HB : Forall (fun n => (n <= B)%Z) ns.

(* ------------------------------------------------------------ spin flips *)

Lemma flip_ok g : flip_closed ats g -> exists p,
  check_labels (map (fun o : orbital => l_index show L (fst (fst o)) (g (snd (fst o)))) (l_orbitals L)) = Ok p /\ permutes p (perm_fun p) /\ length p = l_len L /\
  (forall i r name c, nth_error (l_orbitals L) i = Some (r, name, c) ->
     exists i', perm_fun p (Z.of_nat i) = Z.of_nat i' /\ nth_error (l_orbitals L) i' = Some (r, g name, c)) /\
  (forall l, (0 <= l < Z.of_nat (l_len L))%Z -> perm_fun p (perm_fun p l) = l).
Proof.
  intros HF.
  set (l := map (fun o : orbital => l_index show L (fst (fst o)) (g (snd (fst o)))) (l_orbitals L)).
  assert (K : forall i r name c, nth_error (l_orbitals L) i = Some (r, name, c) ->
     exists i', nth_error l i = Some (Z.of_nat i') /\ nth_error (l_orbitals L) i' = Some (r, g name, c) /\ g (g name) = name).
  { intros i r name c E. unfold l. rewrite nth_error_map, E. simpl.
    destruct (orbital_inv show d uc ns per tol L HS Hns Hper HL _ _ E) as (c1 & j & k & a & os & nm & Hc & Ha & Hk & Hi & Ho).
    injection Ho as -> -> ->. destruct (HF a os nm) as [F1 F2]; try (eapply nth_error_In; eassumption).
    apply In_nth_error in F1. destruct F1 as [k' F1]. exists (label_of ns ats c1 j k').
    pose proof (orbital_ok show d uc ns per tol L HS Hns Hper HL _ _ _ _ _ _ Hc Ha F1) as G. split; [|auto].
    f_equal. exact (index_own show d uc ns per tol L HS Hns Hper HL Hnames B _ _ _ c1 Htol HT HB G). }
  assert (Len : length l = l_len L) by (unfold l; rewrite map_length; reflexivity).
  assert (Own : forall i i' r name c, nth_error (l_orbitals L) i = Some (r, name, c) -> nth_error (l_orbitals L) i' = Some (r, name, c) -> i = i').
  { intros i i' r name c E E'. apply Nat2Z.inj.
    rewrite <- (index_own show d uc ns per tol L HS Hns Hper HL Hnames B _ _ _ c Htol HT HB E).
    exact (index_own show d uc ns per tol L HS Hns Hper HL Hnames B _ _ _ c Htol HT HB E'). }
  assert (Inv : forall i, (i < l_len L)%nat -> exists i', (i' < l_len L)%nat /\ nth_error l i = Some (Z.of_nat i') /\ nth_error l i' = Some (Z.of_nat i)).
  { intros i Hi. destruct (nth_error (l_orbitals L) i) as [[[r name] c]|] eqn:E; [|apply nth_error_None in E; unfold l_len in Hi; lia].
    destruct (K _ _ _ _ E) as (i' & E1 & E2 & G). exists i'. split; [apply nth_error_Some; congruence|]. split; auto.
    destruct (K _ _ _ _ E2) as (i2 & F1 & F2 & _). rewrite G in F2. rewrite (Own _ _ _ _ _ F2 E) in F1. auto. }
  exists l. split; [|split; [|split; [auto|split]]].
  - apply check_ok. split; auto. intros H. apply In_nth_error in H. destruct H as [i H].
    assert (Hi : (i < l_len L)%nat) by (rewrite <- Len; apply nth_error_Some; congruence).
    destruct (Inv i Hi) as (i' & _ & E & _). rewrite H in E. injection E. lia.
  - apply permutes_of.
    + apply NoDup_nth_error. intros i i' Hi E. rewrite Len in Hi. destruct (Inv i Hi) as (a & Ha & E1 & E2).
      assert (Hi' : (i' < l_len L)%nat). { rewrite <- Len. apply nth_error_Some. rewrite <- E, E1. discriminate. }
      destruct (Inv i' Hi') as (b & Hb & F1 & F2). rewrite E1, F1 in E. injection E as E. apply Nat2Z.inj in E. subst b.
      rewrite E2 in F2. injection F2 as F2. lia.
    + intros x Hx. apply In_nth_error in Hx. destruct Hx as [i H].
      assert (Hi : (i < l_len L)%nat) by (rewrite <- Len; apply nth_error_Some; congruence).
      destruct (Inv i Hi) as (i' & Hi' & E & _). rewrite H in E. injection E as ->. lia.
  - intros i r name c E. destruct (K _ _ _ _ E) as (i' & E1 & E2 & _). exists i'. split; auto.
    unfold perm_fun. rewrite Nat2Z.id. apply nth_error_nth. auto.
  - intros x Hx. destruct (Inv (Z.to_nat x)) as (i' & Hi' & E1 & E2); [lia|].
    unfold perm_fun at 2. rewrite (nth_error_nth _ _ _ E1). unfold perm_fun. rewrite Nat2Z.id, (nth_error_nth _ _ _ E2). lia.
Qed.

(** Labels of the orbitals whose name has a property. *)
Lemma labels_of_ok (q : string -> bool) x :
  In x (map (fun o : orbital => l_index show L (fst (fst o)) (snd (fst o))) (filter (fun o : orbital => q (snd (fst o))) (l_orbitals L))) <->
  exists i r name c, x = Z.of_nat i /\ nth_error (l_orbitals L) i = Some (r, name, c) /\ q name = true.
Proof.
  rewrite in_map_iff. split.
  - intros ([[r name] c] & <- & H). apply filter_In in H. destruct H as [H Hq]. simpl in Hq. apply In_nth_error in H. destruct H as [i H].
    exists i, r, name, c. split; auto. simpl. exact (index_own show d uc ns per tol L HS Hns Hper HL Hnames B _ _ _ c Htol HT HB H).
  - intros (i & r & name & c & -> & H & Hq). exists (r, name, c). split.
    + simpl. exact (index_own show d uc ns per tol L HS Hns Hper HL Hnames B _ _ _ c Htol HT HB H).
    + apply filter_In. split; [eapply nth_error_In; eauto|auto].
Qed.
End Sym.

Lemma prefix_app a : forall s, prefix a s = true <-> exists t, s = (a ++ t)%string.
Proof.
  induction a as [|x a IH]; intros s; simpl.
  - split; [intros _; exists s; auto|destruct s; auto].
  - destruct s as [|y s]; [split; [discriminate|intros (t & H); discriminate]|].
    cbn [prefix]. destruct (Ascii.ascii_dec x y) as [->|N].
    + rewrite IH. split; intros (t & H); exists t; [rewrite H; auto|injection H; auto].
    + split; [discriminate|]. intros (t & H). injection H as H _. congruence.
Qed.
Lemma contains_ok a : forall s, contains a s = true <-> exists u v, s = (u ++ a ++ v)%string.
Proof.
  induction s as [|y s IH]; cbn [contains]; rewrite orb_true_iff, prefix_app.
  - split.
    + intros [(t & H)|H]; [|discriminate]. exists EmptyString, t. auto.
    + intros (u & v & H). left. destruct u; [exists v; auto|discriminate].
  - rewrite IH. split.
    + intros [(t & H)|(u & v & H)]; [exists EmptyString, t; auto|]. exists (String y u), v. rewrite H. reflexivity.
    + intros (u & v & H). destruct u as [|z u]; simpl in H; [left; exists v; auto|]. injection H as <- H. right. exists u, v. auto.
Qed.
