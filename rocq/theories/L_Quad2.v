(** The quadratic matrix of Fermion Operators, and which Operators are accepted. *)
From Coq Require Import List ZArith Bool Arith QArith Qcanon Lia Setoid Morphisms Permutation.
From Verif Require Import GC Exn S_Alg S_Den S_Basis S_Conv S_Quad L_Alg L_Module M_OpString M_Tools M_Basis M_Conversion M_Quad
  L_Operator L_ConvAlg L_ConvOrd L_ConvLin L_Conversion L_Conversion2 L_Conversion3 L_Conversion4 L_Quad.
Import ListNotations.
Local Open Scope alg_scope.

(* ---------------------------------------------- only quadratic strings *)

Lemma quad_term_cases t : string_ok Majorana (snd t) ->
  (exists i j sg, quad_term t = Ok (quad_entries i j sg (fst t)) /\
     ((os_ops (snd t) = [OD] /\ exists l, os_labels (snd t) = [l] /\ i = (2 * l)%Z /\ j = (2 * l + 1)%Z) \/
      (exists o1 o2 l1 l2, os_ops (snd t) = [o1; o2] /\ o1 <> OD /\ o2 <> OD /\ os_labels (snd t) = [l1; l2] /\
         i = maj_index o1 l1 /\ j = maj_index o2 l2))) \/
  (quad_term t = Err ValueError /\ os_ops (snd t) <> [OD] /\ forall o1 o2, os_ops (snd t) = [o1; o2] -> o1 = OD \/ o2 = OD).
Proof.
  destruct t as [x s]. cbn [fst snd]. intros (Ht & Hl & Ho & Hn & Hp). unfold quad_term. cbn [fst snd].
  destruct (os_ops s) as [|o1 [|o2 [|o3 ops]]].
  - right. repeat split; intros; discriminate.
  - destruct (os_labels s) as [|l [|]]; try discriminate. specialize (Ho o1 (or_introl eq_refl)).
    destruct o1; try discriminate.
    + right. repeat split; intros; discriminate.
    + right. repeat split; intros; discriminate.
    + left. do 3 eexists. split; [reflexivity|]. left. split; auto. exists l. auto.
  - destruct (os_labels s) as [|l1 [|l2 [|]]]; try discriminate.
    pose proof (Ho o1 (or_introl eq_refl)) as H1. pose proof (Ho o2 (or_intror (or_introl eq_refl))) as H2.
    destruct o1, o2; try discriminate H1; try discriminate H2; cbn;
      first [ left; do 3 eexists; split; [reflexivity|]; right; do 4 eexists; split; [reflexivity|]; repeat split; discriminate
            | right; repeat split; [discriminate | intros ? ? E; injection E as <- <-; auto] ].
  - right. destruct o1; repeat split; intros; discriminate.
Qed.
Lemma maj_index_inv n o l : In (maj_index o l) (below (2 * n)) -> (0 <= l < Z.of_nat n)%Z.
Proof. rewrite below_in. destruct o; cbn [maj_index]; lia. Qed.

Lemma concat_terms_err f ts e : concat_terms f ts = Err e -> exists t, In t ts /\ f t = Err e.
Proof.
  unfold concat_terms. intros H. assert (E : rmap f ts = Err e) by (destruct (rmap f ts); cbn in H; [discriminate | congruence]).
  clear H. induction ts as [|t ts IH]; cbn [rmap] in E; [discriminate|].
  destruct (f t) as [d|x] eqn:Et; cbn [rbind] in E.
  - destruct (rmap f ts) as [l|y]; cbn [rbind] in E; [discriminate|]. injection E as ->.
    destruct IH as (t' & H1 & H2); auto. exists t'. split; auto. right; auto.
  - injection E as ->. exists t. split; auto. left; auto.
Qed.

Theorem majorana_quadratic_only o n : o_type o = Majorana ->
  (forall t, In t (op_terms o) -> string_ok Majorana (snd t)) ->
  ~ (forall t, In t (op_terms o) -> quadratic_majorana n (snd t)) -> quadratic_matrix o n = Err ValueError.
Proof.
  intros Ty Hs Hn. unfold quadratic_matrix. rewrite Ty. cbn [rbind].
  destruct (concat_terms quad_term (op_terms o)) as [d|e] eqn:E; cbn [rbind].
  - unfold zcsr. match goal with |- context [if ?b then _ else _] => destruct b eqn:Eb end; auto. exfalso. apply Hn. intros t Ht.
    destruct (concat_terms_inv _ _ _ E) as (l & F & ->). rewrite forallb_forall in Eb.
    assert (Hin : forall d, quad_term t = Ok d -> forall u, In u d -> In u (concat l)).
    { clear - F Ht. intros d Ed u Hu. induction F as [|t' d' ts l Hr F IH]; [destruct Ht|]. cbn [concat]. apply in_app_iff.
      destruct Ht as [->|Ht]; [left; congruence | right; auto]. }
    destruct (quad_term_cases t (Hs t Ht)) as [(i & j & sg & Eq & Hc) | (Eq & _)].
    + assert (Bij : In i (below (2 * n)) /\ In j (below (2 * n))).
      { specialize (Eb _ (Hin _ Eq _ (or_introl eq_refl))). cbn [fst snd] in Eb. apply andb_true_iff in Eb. rewrite !inside_iff in Eb. auto. }
      destruct Bij as [Bi Bj]. destruct Hc as [(Ho & l0 & Hl & -> & ->) | (o1 & o2 & l1 & l2 & Ho & N1 & N2 & Hl & -> & ->)].
      * split; [|left; auto]. rewrite Hl. intros x [<-|[]]. apply below_in in Bi. lia.
      * split; [|right; exists o1, o2; auto]. rewrite Hl. apply maj_index_inv in Bi, Bj. intros x [<-|[<-|[]]]; auto.
    + exfalso. clear - F Ht Eq. induction F as [|t' d' ts l Hr F IH]; [destruct Ht|]. destruct Ht as [->|Ht]; auto. congruence.
  - destruct (concat_terms_err _ _ _ E) as (t & Ht & Et).
    destruct (quad_term_cases t (Hs t Ht)) as [(i & j & sg & Eq & Hc) | (Eq & _)]; congruence.
Qed.

(* ---------------------------------------------------- Fermion Operators *)

Lemma zsort_perm2 a b : zsort [a; b] = [a; b] \/ zsort [a; b] = [b; a].
Proof.
  destruct (Permutation_length_2_inv (Permutation_sym (zsort_perm [a; b]))); auto.
Qed.

Definition good_quad (n : nat) (q : GC * OS) : Prop := string_ok Majorana (snd q) /\ quadratic_majorana n (snd q) /\ real (fst q).

Lemma os_new_ops ops labels s : os_new ops labels Majorana = Ok s -> os_ops s = ops /\ os_labels s = labels.
Proof.
  unfold os_new, os_make. destruct (_ <? _)%nat; [discriminate|]. cbv zeta. destruct (pref_ok _ _); [|discriminate].
  intros E; injection E as <-; auto.
Qed.
(** The strings made by a list of term choices. *)
Lemma ferm_term_ops incl herm ops sg p t q : ferm_term incl herm ops sg p t = Ok (Some q) ->
  os_ops (snd q) = map fst (snd (ferm_expand ops t g1)) /\ os_labels (snd q) = map snd (snd (ferm_expand ops t g1)).
Proof.
  unfold ferm_term. destruct (ferm_expand ops t g1) as [c w]. cbn [snd]. destruct (_ && _); [discriminate|].
  destruct (os_new _ _ _) as [m|e] eqn:E; [|discriminate]. apply os_new_ops in E. cbn [rbind]. cbv zeta. destruct herm.
  - destruct (abs_gtb _ _); [discriminate|]. intros H; injection H as <-; auto.
  - intros H; injection H as <-; auto.
Qed.
Lemma two_letters o1 o2 l1 l2 n s : os_ops s = [o1; o2] -> os_labels s = [l1; l2] -> is_ab o1 = true -> is_ab o2 = true ->
  (0 <= l1 < Z.of_nat n)%Z -> (0 <= l2 < Z.of_nat n)%Z -> quadratic_majorana n s.
Proof.
  intros Ho Hl A1 A2 B1 B2. split.
  - rewrite Hl. intros l H. destruct H as [H|[H|H] ]; subst; auto. destruct H.
  - right. exists o1, o2. split; auto. split; intros ->; discriminate.
Qed.

(** Two different orbitals, each with one operator. *)
Lemma ferm_two_ops n f1 f2 l1 l2 incl herm sg p t q : f1 <> FCDagC -> f2 <> FCDagC ->
  (0 <= l1 < Z.of_nat n)%Z -> (0 <= l2 < Z.of_nat n)%Z -> In t (choices 2) ->
  ferm_term incl herm [(f1, l1); (f2, l2)] sg p t = Ok (Some q) -> quadratic_majorana n (snd q).
Proof.
  intros N1 N2 B1 B2 Ht E. apply ferm_term_ops in E. destruct E as [Eo El].
  assert (X : exists o1 o2, is_ab o1 = true /\ is_ab o2 = true /\ snd (ferm_expand [(f1, l1); (f2, l2)] t g1) = [(o1, l1); (o2, l2)]).
  { cbn in Ht. destruct f1, f2; try congruence; repeat (destruct Ht as [<-|Ht]; [do 2 eexists; cbn; repeat split; reflexivity|]); destruct Ht. }
  destruct X as (o1 & o2 & A1 & A2 & Ex). rewrite Ex in *. cbn [map fst snd] in *. eapply two_letters; eauto.
Qed.

Lemma quad_form n s : quadratic_fermion n s -> exists I J, fermion_form I J s /\ NoDup I /\ NoDup J /\ (I = J \/ (orbitals I J <= 51)%nat) /\
  produces I J (pval (os_pref s)) false /\
  (forall l, In l I \/ In l J -> (0 <= l < Z.of_nat n)%Z) /\
  ((exists i, I = [i] /\ J = [i]) \/ (exists i j, i <> j /\ (I = [i] /\ J = [j] \/ I = [i; j] /\ J = []))).
Proof.
  intros [(i & j & Ht & Ho & Hl & Bi & Bj & Hp) | (i & j & Ht & Ho & Hl & Bi & Bj & Hij & Hp)].
  - exists [i], [j]. split; [repeat split; auto; tauto|]. split; [repeat constructor; cbn; tauto|]. split; [repeat constructor; cbn; tauto|].
    split.
    { right. unfold orbitals. cbn [app]. apply Nat.le_trans with 2%nat; [|lia]. change 2%nat with (length [i; j]).
      apply NoDup_incl_length; [apply NoDup_nodup | intros x; rewrite nodup_In; auto]. }
    split.
    { split; [discriminate|]. destruct (Z.eq_dec i j) as [->|N]; [left; auto|]. right. right. intros P.
      apply Permutation_length_1 in P. auto. }
    split; [intros l [H|H]; destruct H as [<-|[]]; auto|].
    destruct (Z.eq_dec i j) as [->|N]; [left; exists j; auto | right; exists i, j; auto].
  - exists [i; j], []. split; [repeat split; auto|]. split; [repeat constructor; cbn; intuition congruence|]. split; [constructor|].
    split.
    { right. unfold orbitals. cbn [app]. apply Nat.le_trans with 2%nat; [|lia]. change 2%nat with (length [i; j]).
      apply NoDup_incl_length; [apply NoDup_nodup | intros x; rewrite nodup_In; auto]. }
    split.
    { split; [discriminate|]. right. right. intros P. apply Permutation_length in P. discriminate. }
    split; [intros l [H|[]]; destruct H as [<-|[<-|[]]]; auto|].
    right. exists i, j. auto.
Qed.

Lemma conv_quad n s o : quadratic_fermion n s -> convert (CString s) Majorana false = Ok o ->
  forall q, In q (op_terms o) -> good_quad n q.
Proof.
  intros Hq E. destruct (quad_form n s Hq) as (I & J & F & NI & NJ & Hn & Hp & Hb & Hc).
  destruct (proj1 (fermion_majorana_proof s I J false F NI NJ Hn) Hp) as (o' & k & E' & Ho & To & _ & Hs & _).
  rewrite E in E'. injection E' as <-.
  pose proof F as (Ht & Hops & Hlab & Hpv).
  cbn [convert] in E. unfold convert_string in E. rewrite Ht in E. cbn [optype_eqb] in E. unfold convert_fermion_string in E.
  destruct Hc as [(i & -> & ->) | (i & j & Hij & Hc)].
  - (* number operator *)
    cbn in Hops, Hlab. assert (L1 : labels_of OCDag s = [i]) by (unfold labels_of; rewrite Hops, Hlab; reflexivity).
    assert (L2 : labels_of OC s = [i]) by (unfold labels_of; rewrite Hops, Hlab; reflexivity).
    rewrite L1, L2 in E. cbn [rev app] in E. rewrite zsort_sign in E.
    assert (Es : zsort [i; i] = [i; i]) by (destruct (zsort_perm2 i i); auto). rewrite Es in E.
    replace (inversions [i; i]) with 0%nat in E by (cbn [inversions filter length]; rewrite Z.ltb_irrefl; reflexivity).
    cbn [Nat.odd Nat.even negb] in E.
    assert (Et : label_types [i] [i] = [(i, FCDagC)]).
    { unfold label_types. cbn [fold_left dset dget]. rewrite Z.eqb_refl. cbn [dset]. rewrite ?Z.eqb_refl. reflexivity. }
    rewrite Et in E. assert (Eo : ferm_ops [(i, FCDagC)] [i; i] [] = Ok [(FCDagC, i)]).
    { cbn [ferm_ops dget]. rewrite Z.eqb_refl. cbn [of_option rbind existsb app fst snd ftype_eqb andb]. rewrite Z.eqb_refl. reflexivity. }
    rewrite Eo in E. cbn [rbind] in E.
    destruct (rmap _ _) as [ts|e] eqn:Er; [|discriminate]. cbn [rbind] in E. apply op_of_terms_inv in E. destruct E as (_ & ET & _).
    intros q Hin. destruct (Hs (fst q) (snd q)) as (S1 & _); [rewrite <- surjective_pairing; auto|].
    rewrite ET in Hin. destruct (rmap_somes_in _ _ _ _ Er Hin) as (t & Htin & Hterm).
    assert (P1 : pval (os_pref s) = g1).
    { destruct Hq as [(a & b & _ & _ & Hl' & _ & _ & Hpp) | (a & b & _ & Ho' & _)].
      - rewrite Hlab in Hl'. injection Hl' as <- <-. destruct Hpp as [|[_ N] ]; auto. congruence.
      - rewrite Hops in Ho'. discriminate. }
    cbn in Htin. destruct Htin as [<-|[<-|[]]].
    + cbn [ferm_term ferm_expand ferm_letter is_nil andb app] in Hterm. unfold ferm_term in Hterm.
      cbn [ferm_expand ferm_letter is_nil andb app map fst snd] in Hterm.
      change (os_new [OD] [i] Majorana) with (Ok (mkOS [OD] [i] Majorana p_one)) in Hterm. cbn [rbind] in Hterm.
      assert (Hherm : list_eqb Z.eqb [i] [i] = true) by (cbn; rewrite Z.eqb_refl; auto). rewrite Hherm in Hterm.
      cbn [negb] in Hterm. injection Hterm as <-. split; auto. cbn [snd fst]. split.
      * split; [|left; auto]. cbn. intros l [<-|[]]. apply Hb. left. left. auto.
      * rewrite P1. unfold real. apply Qc_is_canon. vm_compute. reflexivity.
    + cbn in Hterm. discriminate.
  - (* two orbitals *)
    assert (X : forall q, In q (op_terms o) -> quadratic_majorana n (snd q)).
    { assert (Bi : (0 <= i < Z.of_nat n)%Z) by (apply Hb; left; destruct Hc as [[-> _]|[-> _]]; cbn; auto).
      assert (Bj : (0 <= j < Z.of_nat n)%Z) by (apply Hb; destruct Hc as [[_ ->]|[-> _]]; cbn; auto).
      assert (Y : exists f1 f2, f1 <> FCDagC /\ f2 <> FCDagC /\
        (ferm_ops (label_types (labels_of OCDag s) (rev (labels_of OC s))) (zsort (labels_of OCDag s ++ rev (rev (labels_of OC s)))) [] = Ok [(f1, i); (f2, j)] \/
         ferm_ops (label_types (labels_of OCDag s) (rev (labels_of OC s))) (zsort (labels_of OCDag s ++ rev (rev (labels_of OC s)))) [] = Ok [(f2, j); (f1, i)])).
      { assert (E1 : (i =? j)%Z = false) by (apply Z.eqb_neq; auto). assert (E2 : (j =? i)%Z = false) by (apply Z.eqb_neq; auto).
        destruct Hc as [[-> ->] | [-> ->] ]; cbn in Hops, Hlab.
        - assert (L1 : labels_of OCDag s = [i]) by (unfold labels_of; rewrite Hops, Hlab; reflexivity).
          assert (L2 : labels_of OC s = [j]) by (unfold labels_of; rewrite Hops, Hlab; reflexivity).
          rewrite L1, L2. cbn [rev app]. exists FCDag, FC. split; [discriminate|]. split; [discriminate|].
          assert (Et : label_types [i] [j] = [(i, FCDag); (j, FC)]).
          { unfold label_types. cbn [fold_left dset dget]. rewrite E1. reflexivity. }
          rewrite Et. destruct (zsort_perm2 i j) as [-> | ->]; [left|right]; cbn [ferm_ops dget];
            rewrite ?E1, ?E2, ?Z.eqb_refl; cbn [of_option rbind existsb app fst snd ftype_eqb andb]; rewrite ?E1, ?E2, ?Z.eqb_refl; reflexivity.
        - assert (L1 : labels_of OCDag s = [i; j]) by (unfold labels_of; rewrite Hops, Hlab; reflexivity).
          assert (L2 : labels_of OC s = []) by (unfold labels_of; rewrite Hops, Hlab; reflexivity).
          rewrite L1, L2. cbn [rev app]. exists FCDag, FCDag. split; [discriminate|]. split; [discriminate|].
          assert (Et : label_types [i; j] [] = [(i, FCDag); (j, FCDag)]).
          { unfold label_types. cbn [fold_left dset dget]. rewrite E1. reflexivity. }
          rewrite Et. destruct (zsort_perm2 i j) as [-> | ->]; [left|right]; cbn [ferm_ops dget];
            rewrite ?E1, ?E2, ?Z.eqb_refl; cbn [of_option rbind existsb app fst snd ftype_eqb andb]; rewrite ?E1, ?E2, ?Z.eqb_refl; reflexivity. }
      rewrite zsort_sign in E. destruct Y as (f1 & f2 & N1 & N2 & [Y|Y]); rewrite Y in E; cbn [rbind] in E;
        (destruct (rmap _ _) as [ts|e] eqn:Er; [|discriminate]); cbn [rbind] in E; apply op_of_terms_inv in E; destruct E as (_ & ET & _);
        intros q Hin; rewrite ET in Hin; destruct (rmap_somes_in _ _ _ _ Er Hin) as (t & Htin & Hterm); cbn [length] in Htin.
      - exact (ferm_two_ops n f1 f2 i j _ _ _ _ _ _ N1 N2 Bi Bj Htin Hterm).
      - exact (ferm_two_ops n f2 f1 j i _ _ _ _ _ _ N2 N1 Bj Bi Htin Hterm). }
    intros q Hin. destruct (Hs (fst q) (snd q)) as (S1 & _ & _ & S2); [rewrite <- surjective_pairing; auto|].
    split; auto. split; auto. apply S2. destruct Hc as [[-> ->]|[-> ->]]; congruence.
Qed.

(** Coefficients of combinations of real coefficients are real. *)
Lemma combined_real u ts c n : (forall t, In t ts -> real (fst t) /\ quadratic_fermion n (snd t)) ->
  combined Majorana false u ts c -> real c.
Proof.
  intros H C. induction C as [|x s ts o c d E Hc C IH]; [reflexivity|].
  assert (R : real d) by (apply IH; intros; apply H; right; auto). destruct (H (x, s) (or_introl eq_refl)) as [Hx Hs]. cbn [fst snd] in *.
  assert (Rc : real c).
  { destruct Hc as [(t & Hin & _) | (-> & _)]; [|reflexivity]. apply (conv_quad n s o Hs E (c, t) Hin). }
  unfold real in *. cbn. rewrite Hx, Rc, R. ring.
Qed.

Theorem fermion_quadratic o n : op_ok o -> op_std o -> o_type o = Fermion ->
  (forall t, In t (op_terms o) -> real (fst t) /\ quadratic_fermion n (snd t)) -> exists M k,
  quadratic_matrix o n = Ok M /\ z_dim M = (2 * n)%nat /\ antisymmetric (zentry M) /\ real_entries (zentry M) /\
  (forall (A : StarAlg) (c : Z -> A), CAR A c ->
     means c (op_terms o) == gmul gi (gmul half half) · form (2 * n) (zentry M) (maj (gmaj c)) (maj (gmaj c)) + k · aone).
Proof.
  intros Ho Hst Ty H.
  assert (Hs : forall s, In s (b_strings (o_basis o)) -> quadratic_fermion n s).
  { intros s Hin. unfold op_terms in H. destruct Ho as (_ & Hl & _). destruct (In_nth _ _ s Hin) as (i & Hi & Ei).
    destruct (H (nth i (o_coeffs o) g0, s)); auto. rewrite <- Ei at 1. rewrite <- combine_nth by auto. apply nth_In.
    rewrite combine_length. lia. }
  destruct (conv_operator_denotes o Majorana false Ho Hst) as (r & k & Er & Hr & Tr & _ & _ & Hm).
  { intros s Hin. destruct (quad_form n s (Hs s Hin)) as (I & J & F & NI & NJ & Hn & Hp & _). split.
    - split.
      + rewrite (proj1 F). exists I, J. auto.
      + intros _ [X|X]; [rewrite (proj1 F) in X|]; discriminate.
    - intros _ _ I' J' F'. destruct (form_unique _ _ _ _ _ F F') as [<- <-]. auto. }
  assert (Hgood : forall t, In t (op_terms r) -> string_ok Majorana (snd t) /\ quadratic_majorana n (snd t) /\ real (fst t)).
  { destruct (op_empty Majorana) as (z & Ez & Hz & Tz & Nz).
    pose proof Er as Er'. cbn [convert] in Er'. rewrite (conv_operator_eq o Majorana false z Ho Ez) in Er'.
    pose proof (conv_fold_inv Majorana false (op_terms o) z r Hz Tz Er') as Hall.
    pose proof (conv_fold_strings Majorana false (fun u => string_ok Majorana u /\ quadratic_majorana n u) (op_terms o) z r Hz Tz) as HS.
    intros [x u] Hin. cbn [fst snd].
    assert (Hu : string_ok Majorana u /\ quadratic_majorana n u).
    { apply HS; auto.
      - intros t m Htin Em v Hv. destruct (H t Htin) as [_ Hq]. destruct (conv_shape _ _ _ _ Em) as (Hmok & _).
        destruct Hmok as (_ & Hml & _). destruct (In_nth _ _ v Hv) as (i & Hi & Ei).
        destruct (conv_quad n (snd t) m Hq Em (nth i (o_coeffs m) g0, v)) as (G1 & G2 & _); auto.
        unfold op_terms. rewrite <- Ei at 1. rewrite <- combine_nth by auto. apply nth_In. rewrite combine_length. lia.
      - intros v Hv. exfalso. destruct Hz as (_ & Hzl & _). unfold op_terms in Nz. destruct (b_strings (o_basis z)) as [|s0 l0]; [destruct Hv|].
        destruct (o_coeffs z); discriminate.
      - apply (in_combine_r _ _ _ _ Hin). }
    destruct Hu as [U1 U2]. split; auto. split; auto.
    destruct (conv_linear o Majorana false Ho) as (_ & HL). destruct (HL r Er) as (_ & _ & HC).
    apply (combined_real u (op_terms o) x n); auto. apply HC. left. exists u. split; auto. repeat split. }
  destruct (majorana_quadratic r n Hr Tr) as (M & EM & HD & HA & HR & HM).
  { intros t Ht. destruct (Hgood t Ht) as (? & ? & _). auto. }
  exists M, k. split.
  { unfold quadratic_matrix in *. rewrite Ty. rewrite Er. cbn [rbind]. rewrite Tr in EM. exact EM. }
  split; auto. split; auto. split; auto. intros A c HC. rewrite (Hm A c HC).
  rewrite <- (HM (fun t Ht => proj2 (proj2 (Hgood t Ht))) A (gmaj c) (gmaj_rep c HC)).
  apply aadd_proper; [|reflexivity]. apply asum_ext. intros t Ht. destruct (Hgood t Ht) as ((G & _) & _). unfold meaning. rewrite G. reflexivity.
Qed.
