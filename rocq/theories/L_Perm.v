(** Parity of permutations: inversions, cycles, sorting. *)
From Coq Require Import List ZArith Bool Arith Lia Sorted Permutation.
From Verif Require Import GC Exn S_Alg S_Tools M_Tools L_Sort L_Indep.
Import ListNotations.

Definition ipar (l : list Z) : bool := Nat.odd (inversions l).
Definition less (x : Z) (l : list Z) : nat := length (filter (fun y => Z.ltb y x) l).

Lemma ipar_cons x l : ipar (x :: l) = xorb (Nat.odd (less x l)) (ipar l).
Proof. unfold ipar; simpl. apply Nat.odd_add. Qed.

Lemma less_perm x l m : Permutation l m -> less x l = less x m.
Proof. apply filter_length_perm. Qed.

(** Applying an injective map changes the parity by an amount that does not depend on the
    order of the list. *)
Lemma ipar_map_perm (f : Z -> Z) l m : (forall x y, In x l -> In y l -> f x = f y -> x = y) ->
  NoDup l -> Permutation l m ->
  xorb (ipar (map f l)) (ipar l) = xorb (ipar (map f m)) (ipar m).
Proof.
  intros Hf Hn Hp. revert Hf Hn. induction Hp as [|x l m Hp IH|x y l|l m k Hp1 IH1 Hp2 IH2]; intros Hf Hn.
  - reflexivity.
  - simpl map. rewrite !ipar_cons. inversion Hn; subst.
    rewrite (less_perm x l m) by auto. rewrite (less_perm (f x) (map f l) (map f m)) by (apply Permutation_map; auto).
    assert (E : xorb (ipar (map f l)) (ipar l) = xorb (ipar (map f m)) (ipar m)).
    { apply IH; auto. intros a b Ha Hb. apply Hf; right; auto. }
    destruct (Nat.odd (less (f x) (map f m))), (Nat.odd (less x m)),
      (ipar (map f l)), (ipar l), (ipar (map f m)), (ipar m); simpl in *; congruence.
  - simpl map. rewrite !ipar_cons. unfold less. simpl filter.
    assert (x <> y) by (inversion Hn; subst; simpl in *; intuition congruence).
    assert (f x <> f y) by (intros E; apply H; apply Hf; simpl; auto).
    destruct (Z.ltb_spec (f x) (f y)), (Z.ltb_spec (f y) (f x)); try lia;
    destruct (Z.ltb_spec x y), (Z.ltb_spec y x); try lia;
    cbn [length]; rewrite ?Nat.odd_succ, <- ?Nat.negb_odd;
    repeat match goal with |- context [Nat.odd ?a] => destruct (Nat.odd a) end;
    destruct (ipar (map f l)), (ipar l); reflexivity.
  - rewrite IH1 by auto. apply IH2.
    + intros a b Ha Hb. apply Hf; eapply Permutation_in; try apply Permutation_sym; eauto.
    + eapply Permutation_NoDup; eauto.
Qed.

(** Moving one entry across a block of entries different from it. *)
Lemma ipar_move x l2 : forall l1 l3, ~ In x l2 ->
  ipar (l1 ++ x :: l2 ++ l3) = xorb (ipar (l1 ++ l2 ++ x :: l3)) (Nat.odd (length l2)).
Proof.
  assert (Adj : forall l1 x y l, x <> y -> ipar (l1 ++ x :: y :: l) = negb (ipar (l1 ++ y :: x :: l))).
  { clear. intros l1 x y l Hxy. induction l1 as [|a l1 IH].
    - simpl app. rewrite !ipar_cons. unfold less. simpl filter.
      destruct (Z.ltb_spec x y), (Z.ltb_spec y x); try lia;
      cbn [length]; rewrite ?Nat.odd_succ, <- ?Nat.negb_odd;
      repeat match goal with |- context [Nat.odd ?a] => destruct (Nat.odd a) end; destruct (ipar l); reflexivity.
    - simpl app. rewrite !ipar_cons, IH.
      rewrite (less_perm a (l1 ++ x :: y :: l) (l1 ++ y :: x :: l)) by (apply Permutation_app_head, perm_swap).
      destruct (Nat.odd _), (ipar (l1 ++ y :: x :: l)); reflexivity. }
  induction l2 as [|y l2 IH]; intros l1 l3 Hx; simpl app.
  - rewrite xorb_false_r. reflexivity.
  - rewrite Adj by (intros ->; apply Hx; left; auto).
    replace (l1 ++ y :: x :: l2 ++ l3) with ((l1 ++ [y]) ++ x :: l2 ++ l3) by (rewrite <- app_assoc; reflexivity).
    rewrite IH by (intros H; apply Hx; right; auto). rewrite <- app_assoc. cbn [app length].
    rewrite Nat.odd_succ, <- Nat.negb_odd.
    destruct (ipar _), (Nat.odd _); reflexivity.
Qed.

Lemma ipar_swap l1 x l2 y l3 : x <> y -> ~ In x l2 -> ~ In y l2 ->
  ipar (l1 ++ x :: l2 ++ y :: l3) = negb (ipar (l1 ++ y :: l2 ++ x :: l3)).
Proof.
  intros Hxy Hx Hy.
  replace (l1 ++ x :: l2 ++ y :: l3) with (l1 ++ x :: (l2 ++ [y]) ++ l3) by (rewrite <- app_assoc; reflexivity).
  rewrite ipar_move by (intros H; apply in_app_or in H; simpl in H; intuition).
  rewrite <- app_assoc. cbn [app].
  rewrite (ipar_move y l2 l1 (x :: l3)) by auto.
  rewrite app_length. cbn [length]. rewrite Nat.add_1_r, Nat.odd_succ, <- Nat.negb_odd.
  destruct (ipar _), (Nat.odd _); reflexivity.
Qed.

(* ---------------------------------------------------------------- functions *)

Definition fpar (f : nat -> nat) (n : nat) : bool := ipar (map (fun i => Z.of_nat (f i)) (seq 0 n)).

Lemma fpar_ext f h n : (forall i, i < n -> f i = h i) -> fpar f n = fpar h n.
Proof.
  intros H. unfold fpar. f_equal. apply map_ext_in. intros i Hi. apply in_seq in Hi. rewrite H by lia. auto.
Qed.

Lemma ipar_sorted l : StronglySorted Z.lt l -> ipar l = false.
Proof.
  induction 1 as [|x l Hs IH Hf]; [reflexivity|]. rewrite ipar_cons, IH.
  unfold less. rewrite (proj2 (length_zero_iff_nil _)); [reflexivity|].
  rewrite Forall_forall in Hf. clear - Hf. induction l as [|y l IH]; simpl; auto.
  destruct (Z.ltb_spec y x); [specialize (Hf y (or_introl eq_refl)); lia|]. apply IH. intros; apply Hf; right; auto.
Qed.

Lemma seq_sorted n : forall k, StronglySorted Z.lt (map Z.of_nat (seq k n)).
Proof.
  induction n; intros k; simpl; constructor; auto.
  apply Forall_forall. intros z Hz. apply in_map_iff in Hz. destruct Hz as (i & <- & Hi). apply in_seq in Hi. lia.
Qed.

Lemma fpar_id n : fpar (fun i => i) n = false.
Proof. unfold fpar. apply ipar_sorted, seq_sorted. Qed.

Definition fswap (f : nat -> nat) (i j k : nat) : nat :=
  if Nat.eqb k i then f j else if Nat.eqb k j then f i else f k.

Lemma seq_split3 n i j : i < j -> j < n ->
  seq 0 n = seq 0 i ++ i :: seq (S i) (j - S i) ++ j :: seq (S j) (n - S j).
Proof.
  intros Hi Hj.
  replace n with (i + (n - i)) at 1 by lia. rewrite seq_app. f_equal. simpl.
  replace (n - i) with (S (n - S i)) by lia. simpl. f_equal.
  replace (n - S i) with ((j - S i) + (n - j)) by lia. rewrite seq_app. f_equal.
  replace (S i + (j - S i)) with j by lia. replace (n - j) with (S (n - S j)) by lia. reflexivity.
Qed.

Lemma fpar_swap f n i j : i < n -> j < n -> i <> j ->
  (forall a b, a < n -> b < n -> f a = f b -> a = b) ->
  fpar (fswap f i j) n = negb (fpar f n).
Proof.
  assert (K : forall i j, i < j -> j < n -> (forall a b, a < n -> b < n -> f a = f b -> a = b) ->
              fpar (fswap f i j) n = negb (fpar f n)).
  { clear i j. intros i j Hij Hj Hf. unfold fpar. rewrite (seq_split3 n i j) by auto.
    rewrite !map_app. cbn [map]. rewrite !map_app. cbn [map].
    assert (E : forall k m, (forall a, In a (seq k m) -> a <> i /\ a <> j) ->
      map (fun a => Z.of_nat (fswap f i j a)) (seq k m) = map (fun a => Z.of_nat (f a)) (seq k m)).
    { intros k m H. apply map_ext_in. intros a Ha. destruct (H a Ha) as [H1 H2]. unfold fswap.
      rewrite (proj2 (Nat.eqb_neq a i)), (proj2 (Nat.eqb_neq a j)) by auto. auto. }
    rewrite !E by (intros a Ha; apply in_seq in Ha; lia).
    replace (fswap f i j i) with (f j) by (unfold fswap; rewrite Nat.eqb_refl; auto).
    replace (fswap f i j j) with (f i).
    2:{ unfold fswap. rewrite Nat.eqb_refl. destruct (Nat.eqb_spec j i); [lia | auto]. }
    apply ipar_swap.
    - intros H. apply Nat2Z.inj in H. apply Hf in H; lia.
    - intros H. apply in_map_iff in H. destruct H as (a & Ha & Hs). apply in_seq in Hs. apply Nat2Z.inj in Ha.
      apply Hf in Ha; lia.
    - intros H. apply in_map_iff in H. destruct H as (a & Ha & Hs). apply in_seq in Hs. apply Nat2Z.inj in Ha.
      apply Hf in Ha; lia. }
  intros Hi Hj Hij Hf. destruct (lt_eq_lt_dec i j) as [[H|H]|H]; [apply K; auto | congruence |].
  rewrite <- (K j i) by auto. apply fpar_ext. intros a _. unfold fswap.
  destruct (Nat.eqb_spec a i), (Nat.eqb_spec a j); subst; auto; congruence.
Qed.

(* --------------------------------------------------------- walking the cycles *)

Lemma memn_in x l : memn x l = true <-> In x l.
Proof.
  unfold memn. rewrite existsb_exists. split.
  - intros (y & H & E). apply Nat.eqb_eq in E. subst; auto.
  - intros H. exists x. split; auto. apply Nat.eqb_refl.
Qed.
Lemma memn_not x l : memn x l = false <-> ~ In x l.
Proof. rewrite <- memn_in. destruct (memn x l); split; congruence. Qed.

Section Cycles.
  Variables (n : nat) (p : list nat).
  Hypothesis Hp : is_perm n p.

  Definition pf (i : nat) : nat := nth i p 0.

  Lemma p_length : length p = n.
  Proof. rewrite (Permutation_length Hp). apply seq_length. Qed.
  Lemma pf_lt i : i < n -> pf i < n.
  Proof.
    intros H. unfold pf. assert (In (nth i p 0) p) by (apply nth_In; rewrite p_length; auto).
    apply (Permutation_in _ Hp) in H0. apply in_seq in H0. lia.
  Qed.
  Lemma pf_inj i j : i < n -> j < n -> pf i = pf j -> i = j.
  Proof.
    intros Hi Hj H. apply (proj1 (NoDup_nth p 0)); try rewrite p_length; auto.
    apply (Permutation_NoDup (Permutation_sym Hp)), seq_NoDup.
  Qed.
  Lemma p_nth i : i < n -> nth_error p i = Some (pf i).
  Proof. intros H. apply nth_error_nth'. rewrite p_length; auto. Qed.

  (** [p] on the visited indices, except that [last] is sent to [start]; identity elsewhere. *)
  Definition qf (V : list nat) (start last : nat) (i : nat) : nat :=
    if Nat.eqb i last then start else if memn i V then pf i else i.
  (** [p] on the visited indices. *)
  Definition rf (V : list nat) (i : nat) : nat := if memn i V then pf i else i.

  (** [V] is a set of indices closed under [p]. *)
  Definition closed (V : list nat) : Prop :=
    (forall i, In i V -> i < n) /\ (forall i, i < n -> (In (pf i) V <-> In i V)).


  Record open_inv (V0 W : list nat) (start last : nat) : Prop := {
    oi_nd : NoDup (W ++ V0);
    oi_lt : forall i, In i W -> i < n;
    oi_start : In start W;
    oi_last : In last W;
    oi_next : forall i, In i W -> i <> last -> In (pf i) W /\ pf i <> start;
    oi_prev : forall i, In i W -> i <> start -> exists j, In j W /\ j <> last /\ pf j = i }.

  Lemma nodup_app_not {T} (a b : list T) x : NoDup (a ++ b) -> In x a -> In x b -> False.
  Proof.
    intros H Ha Hb. induction a; simpl in *; [tauto|]. inversion H; subst. destruct Ha; subst; auto.
    apply H2. apply in_or_app; auto.
  Qed.

  Lemma qf_inj V0 W start last : closed V0 -> open_inv V0 W start last ->
    forall a b, a < n -> b < n -> qf (W ++ V0) start last a = qf (W ++ V0) start last b -> a = b.
  Proof.
    intros [C1 C2] [Hn Hl Hs Hla H1 H2].
    assert (K : forall a b, a < n -> b < n -> a <> last -> qf (W ++ V0) start last a = start -> False).
    { intros a b Ha Hb Na. unfold qf. rewrite (proj2 (Nat.eqb_neq a last)) by auto.
      destruct (memn a (W ++ V0)) eqn:E.
      - apply memn_in, in_app_or in E. destruct E as [E|E].
        + intros E2. destruct (H1 a E Na). auto.
        + intros E2. apply (proj2 (C2 a Ha)) in E. rewrite E2 in E. apply (nodup_app_not _ _ _ Hn Hs E).
      - intros ->. apply memn_not in E. apply E, in_or_app. auto. }
    intros a b Ha Hb E.
    destruct (Nat.eq_dec a last) as [->|Na], (Nat.eq_dec b last) as [->|Nb]; auto.
    - exfalso. apply (K b b Hb Hb Nb). rewrite <- E. unfold qf. rewrite Nat.eqb_refl. auto.
    - exfalso. apply (K a a Ha Ha Na). rewrite E. unfold qf. rewrite Nat.eqb_refl. auto.
    - assert (M : forall c, c < n -> c <> last -> In c (W ++ V0) -> In (pf c) (W ++ V0)).
      { intros c Hc Nc Hi. apply in_app_or in Hi. apply in_or_app. destruct Hi as [Hi|Hi].
        - left. apply H1; auto.
        - right. apply C2; auto. }
      unfold qf in E. rewrite (proj2 (Nat.eqb_neq a last)), (proj2 (Nat.eqb_neq b last)) in E by auto.
      destruct (memn a (W ++ V0)) eqn:Ea, (memn b (W ++ V0)) eqn:Eb; auto.
      + apply pf_inj; auto.
      + exfalso. apply memn_in in Ea. apply memn_not in Eb. apply Eb. rewrite <- E. auto.
      + exfalso. apply memn_in in Eb. apply memn_not in Ea. apply Ea. rewrite E. auto.
  Qed.

  Lemma nodup_bound (l : list nat) : NoDup l -> (forall i, In i l -> i < n) -> length l <= n.
  Proof.
    intros H Hl. rewrite <- (seq_length n 0). apply NoDup_incl_length; auto.
    intros i Hi. apply in_seq. specialize (Hl i Hi). lia.
  Qed.

  Lemma walk_spec V0 start : closed V0 -> forall fuel W last,
    open_inv V0 W start last ->
    fpar (qf (W ++ V0) start last) n = xorb (fpar (rf V0) n) (Nat.even (length W)) ->
    n <= fuel + length (W ++ V0) ->
    exists W', walk_cycle fuel p (W ++ V0) (pf last) (length W) = Ok (W' ++ V0, length W') /\
      closed (W' ++ V0) /\ NoDup (W' ++ V0) /\ In start W' /\
      fpar (rf (W' ++ V0)) n = xorb (fpar (rf V0) n) (Nat.even (length W')).
  Proof.
    intros Hc. pose proof Hc as [C1 C2]. induction fuel as [|fuel IH]; intros W last Hi Hf Hfuel.
    all: pose proof Hi as [Hn Hl Hs Hla H1 H2].
    all: destruct (memn (pf last) (W ++ V0)) eqn:E.
    1, 3: exists W; (assert (Es : pf last = start) by
      (apply memn_in, in_app_or in E; destruct E as [E|E];
        [ destruct (Nat.eq_dec (pf last) start) as [|N]; auto;
          destruct (H2 _ E N) as (j & Hj & Nj & Ej); apply pf_inj in Ej; auto; congruence
        | apply (proj1 (C2 last (Hl _ Hla))) in E; destruct (nodup_app_not _ _ _ Hn Hla E)])).
    1, 2: (split; [unfold walk_cycle; rewrite E; reflexivity|]).
    1, 2: (repeat split; auto;
      [ intros i Hi'; apply in_app_or in Hi'; destruct Hi'; auto
      | intros Hi'; apply in_app_or in Hi'; apply in_or_app; destruct Hi' as [Hi'|Hi'];
        [ destruct (Nat.eq_dec i last) as [->|Ni]; [auto|];
          destruct (Nat.eq_dec (pf i) start) as [Ei|Ei];
          [ rewrite <- Es in Ei; apply pf_inj in Ei; auto; congruence
          | destruct (H2 _ Hi' Ei) as (j & Hj & _ & Ej); apply pf_inj in Ej; auto; subst; auto ]
        | right; apply C2; auto ]
      | intros Hi'; apply in_app_or in Hi'; apply in_or_app; destruct Hi' as [Hi'|Hi'];
        [ destruct (Nat.eq_dec i last) as [->|Ni]; [rewrite Es; auto | left; apply H1; auto]
        | right; apply C2; auto ]
      | rewrite <- Hf; apply fpar_ext; intros i Hi'; unfold rf, qf;
        destruct (Nat.eqb_spec i last) as [->|]; [|reflexivity];
        rewrite (proj2 (memn_in last (W ++ V0))) by (apply in_or_app; auto); auto ]).
    - exfalso. apply memn_not in E.
      assert (length (pf last :: W ++ V0) <= n).
      { apply nodup_bound.
        - constructor; auto.
        - intros i [<-|Hi']; [apply pf_lt; auto|]. apply in_app_or in Hi'. destruct Hi'; auto. }
      simpl in H. lia.
    - assert (Hlt : pf last < n) by (apply pf_lt; auto).
      pose proof E as E'. apply memn_not in E'.
      assert (NW : ~ In (pf last) W) by (intros H; apply E', in_or_app; auto).
      assert (NV : ~ In (pf last) V0) by (intros H; apply E', in_or_app; auto).
      cbn [walk_cycle]. rewrite E, p_nth by auto.
      assert (Hstep : open_inv V0 (pf last :: W) start (pf last)).
      { constructor.
        - simpl. constructor; auto.
        - intros i [<-|Hi']; auto.
        - right; auto.
        - left; auto.
        - intros i [<-|Hi'] Ni; [congruence|].
          destruct (Nat.eq_dec i last) as [->|Nl].
          + split; [left; auto | intros Ei; rewrite Ei in NW; auto].
          + destruct (H1 i Hi' Nl). split; [right|]; auto.
        - intros i [<-|Hi'] Ni.
          + exists last. split; [right; auto|]. split; [|reflexivity]. intros Ei. apply NW. rewrite <- Ei. auto.
          + destruct (H2 i Hi' Ni) as (j & Hj & Nj & Ej). exists j. repeat split; [right; auto | | auto].
            intros ->; auto. }
      destruct (IH (pf last :: W) (pf last)) as (W' & HW); auto.
      + rewrite (fpar_ext (qf ((pf last :: W) ++ V0) start (pf last)) (fswap (qf (W ++ V0) start last) last (pf last))).
        * rewrite fpar_swap; auto.
          -- rewrite Hf. cbn [length]. rewrite Nat.even_succ, <- Nat.negb_even.
             destruct (fpar (rf V0) n), (Nat.even (length W)); reflexivity.
          -- intros Ei. apply NW. rewrite <- Ei. auto.
          -- apply (qf_inj V0 W); auto.
        * intros i Hi'. unfold fswap, qf.
          destruct (Nat.eqb_spec i (pf last)) as [->|N1].
          -- destruct (Nat.eqb_spec (pf last) last) as [Ea|Ea]; [rewrite Ea in NW; tauto|].
             rewrite Nat.eqb_refl. auto.
          -- destruct (Nat.eqb_spec i last) as [->|N2].
             ++ rewrite (proj2 (Nat.eqb_neq (pf last) last)) by auto.
                rewrite E. cbn [app]. rewrite (proj2 (memn_in last (pf last :: W ++ V0))) by (right; apply in_or_app; auto). auto.
             ++ cbn [app]. destruct (memn i (W ++ V0)) eqn:Ei.
                ** rewrite (proj2 (memn_in i (pf last :: W ++ V0))) by (right; apply memn_in; auto). auto.
                ** rewrite (proj2 (memn_not i (pf last :: W ++ V0))); auto.
                   apply memn_not in Ei. intros [|]; [congruence | auto].
      + cbn [app length]. lia.
      + exists W'. exact HW.
  Qed.

  Lemma sign_fold : forall k m V, k + m = n -> closed V -> NoDup V -> (forall i, i < k -> In i V) ->
    exists V', rfold (sign_step p) (seq k m) (V, if fpar (rf V) n then (-1)%Z else 1%Z)
             = Ok (V', if fpar pf n then (-1)%Z else 1%Z).
  Proof.
    intros k m. revert k. induction m as [|m IH]; intros k V Hk Hc Hn Hall.
    - exists V. simpl. f_equal. f_equal. replace (fpar (rf V) n) with (fpar pf n); auto.
      apply fpar_ext. intros i Hi. unfold rf. rewrite (proj2 (memn_in i V)); auto. apply Hall; lia.
    - cbn [seq rfold]. unfold sign_step at 1. destruct (memn k V) eqn:E.
      + cbn [rbind]. apply IH; auto; [lia|].
        intros i Hi. destruct (Nat.eq_dec i k) as [->|]; [apply memn_in; auto | apply Hall; lia].
      + rewrite p_nth by lia. cbn [of_option rbind].
        pose proof E as E'. apply memn_not in E'. pose proof Hc as [C1 C2].
        assert (Hi : open_inv V [k] k k).
        { constructor; try (simpl; auto; fail).
          - simpl. constructor; auto.
          - intros i [<-|[]]; lia.
          - intros i [<-|[]]; congruence.
          - intros i [<-|[]]; congruence. }
        destruct (walk_spec V k Hc (length p) [k] k Hi) as (W' & Ew & Hc' & Hn' & Hs & Hf).
        * cbn [length Nat.even]. rewrite xorb_false_r. apply fpar_ext. intros i _. unfold qf, rf. cbn [app].
          destruct (Nat.eqb_spec i k) as [->|Nk]; [rewrite E; auto|].
          destruct (memn i V) eqn:Ei.
          -- rewrite (proj2 (memn_in i (k :: V))) by (right; apply memn_in; auto). auto.
          -- rewrite (proj2 (memn_not i (k :: V))); auto. apply memn_not in Ei. intros [|]; [congruence | auto].
        * rewrite p_length. lia.
        * cbn [length app] in Ew. rewrite Ew. cbn [rbind].
          replace (if Nat.even (length W') then (- (if fpar (rf V) n then -1 else 1))%Z else if fpar (rf V) n then (-1)%Z else 1%Z)
            with (if fpar (rf (W' ++ V)) n then (-1)%Z else 1%Z)
            by (rewrite Hf; destruct (fpar (rf V) n), (Nat.even (length W')); reflexivity).
          apply IH; auto; [lia|].
          intros i Hi'. apply in_or_app. destruct (Nat.eq_dec i k) as [->|]; [left; auto | right; apply Hall; lia].
  Qed.

  Lemma fpar_pf : fpar pf n = ipar (map Z.of_nat p).
  Proof.
    unfold fpar. f_equal. unfold pf. rewrite <- map_map with (f := fun i => nth i p 0) (g := Z.of_nat). f_equal.
    rewrite <- p_length. clear. induction p as [|a l IH]; simpl; auto. f_equal.
    rewrite <- seq_shift, map_map. auto.
  Qed.

  Lemma sign_spec : sign p = Ok (inv_sign (map Z.of_nat p)).
  Proof.
    unfold sign. rewrite p_length.
    destruct (sign_fold 0 n []) as (V' & E); auto.
    - split; simpl; tauto.
    - constructor.
    - intros; lia.
    - rewrite (fpar_ext (rf []) (fun i => i)) in E by reflexivity. rewrite fpar_id in E. rewrite E. cbn [rbind].
      rewrite fpar_pf. reflexivity.
  Qed.
End Cycles.

(* ------------------------------------------------------------- composition *)

Lemma is_perm_in n p i : is_perm n p -> (In i p <-> i < n).
Proof.
  intros H. split.
  - intros Hi. apply (Permutation_in _ H) in Hi. apply in_seq in Hi. lia.
  - intros Hi. apply (Permutation_in _ (Permutation_sym H)). apply in_seq. lia.
Qed.

Lemma map_nth_seq {T} (p : list T) d : map (fun i => nth i p d) (seq 0 (length p)) = p.
Proof.
  induction p as [|a l IH]; simpl; auto. f_equal. rewrite <- seq_shift, map_map. auto.
Qed.

Lemma perm_compose n p q : is_perm n p -> is_perm n q -> is_perm n (map (fun i => nth i p 0) q).
Proof.
  intros Hp Hq. unfold is_perm. eapply Permutation_trans; [apply (Permutation_map _ Hq)|].
  rewrite <- (p_length n p Hp). rewrite map_nth_seq. rewrite (p_length n p Hp). exact Hp.
Qed.

Lemma inv_sign_mult n p q : is_perm n p -> is_perm n q ->
  inv_sign (map Z.of_nat (map (fun i => nth i p 0) q))
  = (inv_sign (map Z.of_nat p) * inv_sign (map Z.of_nat q))%Z.
Proof.
  intros Hp Hq. pose (f := fun z : Z => Z.of_nat (nth (Z.to_nat z) p 0)).
  assert (E := ipar_map_perm f (map Z.of_nat q) (map Z.of_nat (seq 0 n))).
  rewrite !map_map in E.
  assert (M : forall l, map (fun x => f (Z.of_nat x)) l = map Z.of_nat (map (fun i => nth i p 0) l)).
  { intros l. rewrite map_map. apply map_ext. intros a. unfold f. rewrite Nat2Z.id. auto. }
  rewrite !M in E.
  assert (Ep : map (fun i => nth i p 0) (seq 0 n) = p) by (rewrite <- (p_length n p Hp); apply map_nth_seq).
  rewrite Ep in E.
  rewrite (ipar_sorted (map Z.of_nat (seq 0 n))) in E by apply seq_sorted.
  assert (E' : xorb (ipar (map Z.of_nat (map (fun i => nth i p 0) q))) (ipar (map Z.of_nat q))
             = xorb (ipar (map Z.of_nat p)) false).
  { apply E.
    - intros x y Hx Hy. apply in_map_iff in Hx. apply in_map_iff in Hy.
      destruct Hx as (a & <- & Ha), Hy as (b & <- & Hb). unfold f. rewrite !Nat2Z.id. intros Hab.
      apply Nat2Z.inj in Hab. f_equal. apply (pf_inj n p Hp); auto; apply (is_perm_in n q); auto.
    - apply FinFun.Injective_map_NoDup; [intros a b; apply Nat2Z.inj|].
      apply (Permutation_NoDup (Permutation_sym Hq)), seq_NoDup.
    - apply Permutation_map. exact Hq. }
  unfold inv_sign. fold (ipar (map Z.of_nat (map (fun i => nth i p 0) q))) (ipar (map Z.of_nat p)) (ipar (map Z.of_nat q)).
  destruct (ipar (map Z.of_nat (map (fun i => nth i p 0) q))), (ipar (map Z.of_nat p)), (ipar (map Z.of_nat q));
    simpl in *; congruence || reflexivity.
Qed.

(* -------------------------------------------------------------- stable sort *)

Section Stable.
  Context {T : Type} (key : T -> Z).
  Let lt x y := Z.ltb (key x) (key y).
  Let le x y := (key x <= key y)%Z.

  Lemma sinsert_perm x l : Permutation (sinsert lt x l) (x :: l).
  Proof.
    induction l as [|y l IH]; simpl; auto. destruct (lt y x); auto.
    eapply Permutation_trans; [apply perm_skip, IH|]. apply perm_swap.
  Qed.
  Lemma stable_sort_perm l : Permutation (stable_sort lt l) l.
  Proof.
    induction l as [|x l IH]; simpl; auto.
    eapply Permutation_trans; [apply sinsert_perm|]. apply perm_skip; auto.
  Qed.
  Lemma sinsert_sorted x l : StronglySorted le l -> StronglySorted le (sinsert lt x l).
  Proof.
    induction 1 as [|y l Hs IH Hf]; simpl; [repeat constructor|].
    unfold lt at 1. destruct (Z.ltb_spec (key y) (key x)).
    - constructor; auto. apply Forall_forall. intros z Hz.
      apply (Permutation_in _ (sinsert_perm x l)) in Hz. destruct Hz as [<-|Hz]; [red; lia|].
      rewrite Forall_forall in Hf; auto.
    - constructor; [constructor; auto|]. constructor; [red; lia|].
      eapply Forall_impl; [|exact Hf]. unfold le. intros; lia.
  Qed.
  Lemma stable_sort_sorted l : StronglySorted le (stable_sort lt l).
  Proof. induction l; simpl; [constructor | apply sinsert_sorted; auto]. Qed.
End Stable.

Lemma less_zero x l : (forall y, In y l -> (x <= y)%Z) -> less x l = 0.
Proof.
  unfold less. induction l as [|y l IH]; simpl; auto. intros H.
  destruct (Z.ltb_spec y x); [specialize (H y (or_introl eq_refl)); lia|]. apply IH; auto.
Qed.

(** Inserting the smallest index [x] into the sorted index list. *)
Lemma sinsert_inv (v : list Z) x l :
  (forall y, In y l -> x < y) ->
  StronglySorted (fun a b => (nth a v 0 <= nth b v 0)%Z) l ->
  inversions (map Z.of_nat (sinsert (fun i j => Z.ltb (nth i v 0%Z) (nth j v 0%Z)) x l))
  = less (nth x v 0%Z) (map (fun i => nth i v 0%Z) l) + inversions (map Z.of_nat l).
Proof.
  intros Hx Hs. induction Hs as [|y l Hs IH Hf]; [reflexivity|].
  cbn [sinsert map]. destruct (Z.ltb_spec (nth y v 0%Z) (nth x v 0%Z)).
  - cbn [map inversions]. rewrite IH by (intros; apply Hx; right; auto).
    fold (less (Z.of_nat y) (map Z.of_nat (sinsert (fun i j => Z.ltb (nth i v 0%Z) (nth j v 0%Z)) x l))).
    fold (less (Z.of_nat y) (map Z.of_nat l)).
    rewrite (less_perm (Z.of_nat y) _ (map Z.of_nat (x :: l)))
      by (apply Permutation_map, (sinsert_perm (fun i => nth i v 0%Z))).
    cbn [map]. unfold less. cbn [filter].
    rewrite (proj2 (Z.ltb_lt (nth y v 0%Z) (nth x v 0%Z))) by auto.
    rewrite (proj2 (Z.ltb_lt (Z.of_nat x) (Z.of_nat y))) by (specialize (Hx y (or_introl eq_refl)); lia).
    cbn [length]. lia.
  - cbn [map inversions].
    fold (less (Z.of_nat x) (Z.of_nat y :: map Z.of_nat l)).
    rewrite (less_zero (Z.of_nat x)).
    2:{ intros z Hz. change (In z (map Z.of_nat (y :: l))) in Hz. apply in_map_iff in Hz.
        destruct Hz as (a & <- & Ha). specialize (Hx a Ha). lia. }
    rewrite less_zero; [reflexivity|].
    intros z Hz. change (In z (map (fun i => nth i v 0%Z) (y :: l))) in Hz. apply in_map_iff in Hz.
    destruct Hz as (a & <- & [<-|Ha]); [lia|]. rewrite Forall_forall in Hf. specialize (Hf a Ha). lia.
Qed.

Lemma argsort_stable_perm v : is_perm (length v) (argsort_stable v).
Proof. apply (stable_sort_perm (fun i => nth i v 0%Z)). Qed.

Lemma stable_inv (v : list Z) m : forall k,
  inversions (map Z.of_nat (stable_sort (fun i j => Z.ltb (nth i v 0%Z) (nth j v 0%Z)) (seq k m)))
  = inversions (map (fun i => nth i v 0%Z) (seq k m)).
Proof.
  induction m as [|m IH]; intros k; [reflexivity|]. cbn [seq stable_sort].
  rewrite sinsert_inv.
  - rewrite IH. cbn [map inversions]. unfold less. f_equal.
    apply filter_length_perm. apply Permutation_map. apply (stable_sort_perm (fun i => nth i v 0%Z)).
  - intros y Hy. apply (Permutation_in _ (stable_sort_perm (fun i => nth i v 0%Z) _)) in Hy.
    apply in_seq in Hy. lia.
  - apply (stable_sort_sorted (fun i => nth i v 0%Z)).
Qed.

Lemma argsort_stable_inv v : inversions (map Z.of_nat (argsort_stable v)) = inversions v.
Proof. unfold argsort_stable. rewrite stable_inv, map_nth_seq. reflexivity. Qed.

Lemma StronglySorted_map {A B} (R : B -> B -> Prop) (f : A -> B) l :
  StronglySorted (fun a b => R (f a) (f b)) l -> StronglySorted R (map f l).
Proof.
  induction 1; simpl; constructor; auto.
  apply Forall_forall. intros b Hb. apply in_map_iff in Hb. destruct Hb as (c & <- & Hc).
  rewrite Forall_forall in H0. auto.
Qed.

Lemma sort_sign_merge_spec v : exists w, sort_sign_merge v = Ok (w, inv_sign v) /\
  Permutation w v /\ StronglySorted Z.le w.
Proof.
  exists (map (fun i => nth i v 0%Z) (argsort_stable v)). split; [|split].
  - unfold sort_sign_merge. rewrite (sign_spec (length v)) by apply argsort_stable_perm. cbn [rbind].
    unfold inv_sign. rewrite argsort_stable_inv. reflexivity.
  - eapply Permutation_trans; [apply Permutation_map, argsort_stable_perm|]. rewrite map_nth_seq. auto.
  - apply StronglySorted_map. apply (stable_sort_sorted (fun i => nth i v 0%Z)).
Qed.

Lemma sort_sign_sign v : sort_sign v = (fst (sort_sign v), inv_sign v).
Proof.
  destruct (sort_sign_spec v) as (_ & _ & E). rewrite surjective_pairing at 1. f_equal. exact E.
Qed.
