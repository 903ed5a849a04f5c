(** Bron-Kerbosch enumeration of maximal cliques and connected components. *)
From Coq Require Import List ZArith Bool Arith Lia Permutation Relations.
From Verif Require Import GC Exn S_Alg S_Tools M_Tools L_Perm.
Import ListNotations.

Lemma inter_in x l m : In x (inter l m) <-> In x l /\ In x m.
Proof. unfold inter. rewrite filter_In, memn_in. tauto. Qed.
Lemma removen_in x y l : In x (removen y l) <-> In x l /\ x <> y.
Proof.
  unfold removen. rewrite filter_In, negb_true_iff, Nat.eqb_neq. intuition.
Qed.
Lemma filter_le {T} (f : T -> bool) l : length (filter f l) <= length l.
Proof. induction l; simpl; auto. destruct (f a); simpl; lia. Qed.
Lemma filter_lt {T} (f : T -> bool) l x : In x l -> f x = false -> length (filter f l) < length l.
Proof.
  intros Hx Hf. induction l as [|a l IH]; simpl in *; [tauto|].
  destruct Hx as [->|Hx].
  - rewrite Hf. pose proof (filter_le f l). lia.
  - specialize (IH Hx). destruct (f a); simpl; lia.
Qed.

Lemma NoDup_app_remove_l {T} (a b : list T) : NoDup (a ++ b) -> NoDup b.
Proof. induction a; simpl; auto. inversion 1; auto. Qed.
Lemma NoDup_app_remove_r {T} (a b : list T) : NoDup (a ++ b) -> NoDup a.
Proof.
  induction a; simpl; intros H; constructor; inversion H; subst; auto. intros Hi. apply H2, in_or_app; auto.
Qed.

Lemma all_differ_app a b : all_differ a -> all_differ b ->
  (forall c d, In c a -> In d b -> ~ same_set c d) -> all_differ (a ++ b).
Proof.
  induction 1 as [|c cs Hc Ha IH]; simpl; intros Hb H; auto. constructor.
  - intros d Hd. apply in_app_or in Hd. destruct Hd; auto.
  - apply IH; auto.
Qed.

Section BK.
  Variable adj : list (list nat).
  Let n := length adj.
  Let E (u v : nat) := In v (adj_of adj u).
  Hypothesis HG : graph n E.
  Variable pick : list nat -> list nat -> list nat -> nat.
  Variable order : list nat -> list nat -> list nat -> list nat.
  Hypothesis Hpick : forall R P X, P ++ X <> [] -> In (pick R P X) (P ++ X).
  Hypothesis Horder : forall R P X, Permutation (order R P X) P.

  Record state (R P X : list nat) : Prop := {
    st_R : clique E R;
    st_Rn : forall v, In v R -> v < n;
    st_P : NoDup P;
    st_dis : forall v, In v P -> In v X -> False;
    st_lt : forall v, In v P \/ In v X -> v < n;
    st_common : forall w, w < n -> (In w P \/ In w X <-> forall r, In r R -> E w r) }.

  Lemma E_sym u v : E u v -> E v u.
  Proof. destruct HG as (_ & H & _). apply H. Qed.
  Lemma E_irr v : ~ E v v.
  Proof. destruct HG as (_ & _ & H). apply H. Qed.

  Lemma state_notR R P X v : state R P X -> In v P \/ In v X -> ~ In v R.
  Proof.
    intros S Hv Hr. pose proof (proj1 (st_common _ _ _ S v (st_lt _ _ _ S v Hv)) Hv v Hr). apply (E_irr v); auto.
  Qed.

  Definition covers (R P cs_K : list nat) : Prop := incl R cs_K /\ incl cs_K (R ++ P).

  Section Loop.
    Variable rec : list nat -> list nat -> list nat -> res (list (list nat)).
    Variable R : list nat.
    Variable skip : nat -> bool.
    Fixpoint gloop (vs P X : list nat) : res (list (list nat)) :=
      match vs with
      | [] => Ok []
      | v :: vs' =>
          if skip v then gloop vs' P X
          else
            let! c1 := rec (R ++ [v]) (inter P (adj_of adj v)) (inter X (adj_of adj v)) in
            let! c2 := gloop vs' (removen v P) (X ++ [v]) in
            Ok (c1 ++ c2)
      end.

    Definition good (R P : list nat) (sel : list nat -> Prop) (r : res (list (list nat))) : Prop :=
      exists cs, r = Ok cs /\
        (forall c, In c cs -> maximal_clique n E c /\ covers R P c /\ sel c) /\
        (forall K, maximal_clique n E K -> covers R P K -> sel K -> exists c, In c cs /\ same_set c K) /\
        all_differ cs.

    Variable bound : nat.
    Hypothesis Hrec : forall R P X, state R P X -> length P < bound -> good R P (fun _ => True) (rec R P X).

    Lemma state_step P X v : state R P X -> In v P ->
      state (R ++ [v]) (inter P (adj_of adj v)) (inter X (adj_of adj v)).
    Proof.
      intros S Hv. assert (Hvn : v < n) by (apply (st_lt _ _ _ S); auto).
      assert (HvR : forall r, In r R -> E v r) by (apply (st_common _ _ _ S v Hvn); auto).
      assert (HnR := state_notR _ _ _ v S (or_introl Hv)).
      constructor.
      - destruct (st_R _ _ _ S) as [Hn He]. split.
        + apply (Permutation_NoDup (Permutation_cons_append R v)). constructor; auto.
        + intros a b Ha Hb Hab. apply in_app_or in Ha. apply in_app_or in Hb. simpl in *.
          destruct Ha as [Ha|[<-|[]]], Hb as [Hb|[<-|[]]]; auto.
          * apply E_sym; auto.
          * congruence.
      - intros a Ha. apply in_app_or in Ha. destruct Ha as [Ha|[<-|[]]]; auto. apply (st_Rn _ _ _ S); auto.
      - apply NoDup_filter, (st_P _ _ _ S).
      - intros a Ha Hb. apply inter_in in Ha. apply inter_in in Hb. apply (st_dis _ _ _ S a); tauto.
      - intros a Ha. apply (st_lt _ _ _ S). rewrite !inter_in in Ha. tauto.
      - intros w Hw. rewrite !inter_in. pose proof (st_common _ _ _ S w Hw) as Hc. split.
        + intros H r Hr. apply in_app_or in Hr. destruct Hr as [Hr|[<-|[]]].
          * apply Hc; tauto.
          * apply E_sym. unfold E. tauto.
        + intros H. assert (In w P \/ In w X) by (apply Hc; intros; apply H, in_or_app; auto).
          assert (E v w) by (apply E_sym, H, in_or_app; right; left; auto). unfold E in *. tauto.
    Qed.

    Lemma state_move P X v : state R P X -> In v P -> state R (removen v P) (X ++ [v]).
    Proof.
      intros S Hv. constructor.
      - apply (st_R _ _ _ S).
      - apply (st_Rn _ _ _ S).
      - apply NoDup_filter, (st_P _ _ _ S).
      - intros a Ha Hb. apply removen_in in Ha. apply in_app_or in Hb. destruct Hb as [Hb|[<-|[]]]; [|tauto].
        apply (st_dis _ _ _ S a); tauto.
      - intros a Ha. apply (st_lt _ _ _ S). rewrite removen_in, in_app_iff in Ha. simpl in Ha.
        destruct Ha as [Ha|[Ha|[<-|[]]]]; tauto.
      - intros w Hw. rewrite <- (st_common _ _ _ S w Hw), removen_in, in_app_iff. simpl.
        destruct (Nat.eq_dec w v) as [->|]; [tauto|]. intuition congruence.
    Qed.

    Lemma gloop_good vs : forall P X, state R P X -> NoDup vs -> incl vs P -> length P <= bound ->
      good R P (fun K => exists v, In v vs /\ skip v = false /\ In v K) (gloop vs P X).
    Proof.
      induction vs as [|v vs IH]; intros P X S Hn Hi Hb.
      - exists []. simpl. repeat split; try tauto.
        + intros K _ _ (v & [] & _).
        + constructor.
      - inversion Hn as [|? ? Hv Hn']; subst. assert (HvP : In v P) by (apply Hi; left; auto).
        cbn [gloop]. destruct (skip v) eqn:Hsk.
        + destruct (IH P X S Hn') as (cs & Ec & H1 & H2 & H3); auto.
          { intros a Ha. apply Hi; right; auto. }
          exists cs. split; [exact Ec|]. split; [|split; auto].
          * intros c Hc. destruct (H1 c Hc) as (? & ? & w & Hw & ? & ?). split; [|split]; auto. exists w. simpl; tauto.
          * intros K HK HC (w & [<-|Hw] & Hs & Hin); [congruence|]. apply H2; eauto.
        + assert (Hlen : length (inter P (adj_of adj v)) < bound).
          { eapply Nat.lt_le_trans; [|exact Hb]. apply filter_lt with v; auto.
            apply memn_not. intros H. apply (E_irr v). exact H. }
          destruct (Hrec _ _ _ (state_step P X v S HvP) Hlen) as (c1 & E1 & A1 & A2 & A3).
          assert (Hi' : incl vs (removen v P)).
          { intros a Ha. apply removen_in. split; [apply Hi; right; auto | intros ->; auto]. }
          destruct (IH (removen v P) (X ++ [v]) (state_move P X v S HvP) Hn' Hi') as (c2 & E2 & B1 & B2 & B3).
          { pose proof (filter_le (fun y => negb (Nat.eqb v y)) P). unfold removen. lia. }
          rewrite E1. cbn [rbind]. rewrite E2. cbn [rbind].
          assert (HnR := state_notR _ _ _ v S (or_introl HvP)).
          exists (c1 ++ c2). split; [reflexivity|]. split; [|split].
          * intros c Hc. apply in_app_or in Hc. destruct Hc as [Hc|Hc].
            -- destruct (A1 c Hc) as (M & (C1 & C2) & _). split; [auto|]. split; [split|].
               ++ intros a Ha. apply C1, in_or_app; auto.
               ++ intros a Ha. specialize (C2 a Ha). rewrite !in_app_iff, inter_in in C2. simpl in C2.
                  apply in_or_app. destruct C2 as [[?|[<-|[]]]|[? _]]; auto.
               ++ exists v. repeat split; simpl; auto. apply C1, in_or_app. right; left; auto.
            -- destruct (B1 c Hc) as (M & (C1 & C2) & w & Hw & Hs & Hin). split; [auto|]. split; [split; auto|].
               ++ intros a Ha. specialize (C2 a Ha). rewrite in_app_iff, removen_in in C2. apply in_or_app. tauto.
               ++ exists w. simpl; auto.
          * intros K HK (C1 & C2) (w & Hw & Hs & Hin). destruct (in_dec Nat.eq_dec v K) as [HvK|HvK].
            -- destruct (A2 K HK) as (c & Hc & Hsame); auto.
               { split.
                 - intros a Ha. apply in_app_or in Ha. destruct Ha as [Ha|[<-|[]]]; auto.
                 - intros a Ha. destruct (Nat.eq_dec a v) as [->|N]; [rewrite !in_app_iff; simpl; auto|].
                   specialize (C2 a Ha). rewrite !in_app_iff, inter_in in *. destruct C2; [auto|].
                   right. split; auto. destruct HK as ((_ & He) & _). apply E_sym. apply He; auto. }
               exists c. split; auto. apply in_or_app; auto.
            -- destruct (B2 K HK) as (c & Hc & Hsame).
               { split; auto. intros a Ha. specialize (C2 a Ha). rewrite in_app_iff, removen_in in *.
                 destruct C2; auto. right. split; auto. intros ->; auto. }
               { exists w. destruct Hw as [->|Hw]; [contradiction|]. auto. }
               exists c. split; auto. apply in_or_app; auto.
          * apply all_differ_app; auto. intros c d Hc Hd Hsame.
            destruct (A1 c Hc) as (_ & (C1 & _) & _). destruct (B1 d Hd) as (_ & (_ & D2) & _).
            assert (In v d) by (apply Hsame, C1, in_or_app; right; left; auto).
            specialize (D2 v H). rewrite in_app_iff, removen_in in D2. destruct D2; tauto.
    Qed.
  End Loop.

  Lemma bk_unfold f R P X : bron_kerbosch adj pick order (S f) R P X =
    match P ++ X with
    | [] => Ok [R]
    | _ => gloop (bron_kerbosch adj pick order f) R (fun v => memn v (adj_of adj (pick R P X))) (order R P X) P X
    end.
  Proof. destruct P, X; reflexivity. Qed.

  Lemma bk_good fuel : forall R P X, state R P X -> length P < fuel ->
    good R P (fun _ => True) (bron_kerbosch adj pick order fuel R P X).
  Proof.
    induction fuel as [|f IH]; intros R P X S Hf; [lia|].
    rewrite bk_unfold. destruct (P ++ X) as [|y ys] eqn:EPX.
    - apply app_eq_nil in EPX. destruct EPX as [-> ->]. exists [R]. split; [reflexivity|].
      assert (M : maximal_clique n E R).
      { split; [apply (st_R _ _ _ S)|]. split; [apply (st_Rn _ _ _ S)|].
        intros w Hw H. destruct (in_dec Nat.eq_dec w R) as [|N]; auto. exfalso.
        destruct (proj2 (st_common _ _ _ S w Hw)) as [[]|[]].
        intros r Hr. apply H; auto. intros ->; auto. }
      repeat split.
      + destruct H as [<-|[]]. apply M.
      + destruct H as [<-|[]]. apply M.
      + destruct H as [<-|[]]. apply M.
      + destruct H as [<-|[]]. apply M.
      + destruct H as [<-|[]]. apply incl_refl.
      + destruct H as [<-|[]]. rewrite app_nil_r. apply incl_refl.
      + intros K HK (C1 & C2) _. exists R. split; [left; auto|]. rewrite app_nil_r in C2. split; auto.
      + constructor; [intros d []|constructor].
    - assert (Hne : P ++ X <> []) by (rewrite EPX; discriminate). clear EPX y ys.
      set (u := pick R P X). assert (Hu := Hpick R P X Hne). fold u in Hu. apply in_app_or in Hu.
      destruct (gloop_good (bron_kerbosch adj pick order f) R (fun v => memn v (adj_of adj u)) (length P)) with
        (vs := order R P X) (P := P) (X := X) as (cs & Ec & H1 & H2 & H3); auto.
      + intros R' P' X' S' Hl. apply IH; auto. lia.
      + apply (Permutation_NoDup (Permutation_sym (Horder R P X))), (st_P _ _ _ S).
      + intros a Ha. apply (Permutation_in _ (Horder R P X)); auto.
      + exists cs. split; [exact Ec|]. split; [|split; auto].
        * intros c Hc. destruct (H1 c Hc) as (? & ? & _). auto.
        * intros K HK HC _. apply H2; auto.
          assert (Hun : u < n) by (apply (st_lt _ _ _ S); auto).
          assert (HuR : forall r, In r R -> E u r) by (apply (st_common _ _ _ S u Hun); auto).
          destruct (existsb (fun v => memn v P && negb (memn v (adj_of adj u))) K) eqn:Ex.
          -- apply existsb_exists in Ex. destruct Ex as (v & Hv & Hx). apply andb_true_iff in Hx.
             destruct Hx as [HvP Hvu]. exists v. repeat split; auto.
             ++ apply (Permutation_in _ (Permutation_sym (Horder R P X))). apply memn_in; auto.
             ++ apply negb_true_iff in Hvu; auto.
          -- exfalso.
             assert (All : forall v, In v K -> In v P -> E u v).
             { intros v Hv HvP. destruct (memn v (adj_of adj u)) eqn:Em; [apply memn_in in Em; auto|].
               assert (existsb (fun v => memn v P && negb (memn v (adj_of adj u))) K = true).
               { apply existsb_exists. exists v. split; auto. rewrite Em, (proj2 (memn_in v P)) by auto. auto. }
               congruence. }
             destruct HK as (HKc & HKn & HKm). destruct HC as (C1 & C2).
             assert (HuK : In u K).
             { apply HKm; auto. intros v Hv _. specialize (C2 v Hv). apply in_app_or in C2. destruct C2; auto. }
             assert (In u P).
             { specialize (C2 u HuK). apply in_app_or in C2. destruct C2 as [C2|]; auto.
               exfalso. apply (state_notR R P X u S); auto. }
             apply (E_irr u); auto.
  Qed.


  Lemma cliques_loop_gloop fuel vs : forall P X,
    cliques_loop adj pick order fuel vs P X
    = gloop (bron_kerbosch adj pick order fuel) [] (fun _ => false) vs P X.
  Proof.
    induction vs as [|v vs IH]; intros P X; [reflexivity|]. cbn [cliques_loop gloop app].
    destruct (bron_kerbosch _ _ _ _ _ _ _); [|reflexivity]. cbn [rbind]. rewrite IH. reflexivity.
  Qed.

  Lemma maximal_cliques_spec ordering : 0 < n -> Permutation ordering (seq 0 n) ->
    exists cs, maximal_cliques adj pick order ordering = Ok cs /\
      (forall c, In c cs -> maximal_clique n E c) /\
      (forall K, maximal_clique n E K -> exists c, In c cs /\ same_set c K) /\
      all_differ cs.
  Proof.
    intros Hn0 Ho. unfold maximal_cliques. rewrite cliques_loop_gloop.
    assert (S : state [] (seq 0 n) []).
    { constructor; simpl; try tauto.
      - split; [constructor | intros ? ? []].
      - apply seq_NoDup.
      - intros v [Hv|[]]. apply in_seq in Hv. lia.
      - intros w Hw. split; [intros _ ? []|]. intros _. left. apply in_seq. lia. }
    destruct (gloop_good (bron_kerbosch adj pick order (Datatypes.S (length adj))) [] (fun _ => false) (length (seq 0 n)))
      with (vs := ordering) (P := seq 0 n) (X := @nil nat) as (cs & Ec & H1 & H2 & H3); auto.
    - intros R' P' X' S' Hl. apply bk_good; auto. rewrite seq_length in Hl. unfold n in Hl. lia.
    - apply (Permutation_NoDup (Permutation_sym Ho)), seq_NoDup.
    - intros a Ha. apply (Permutation_in _ Ho); auto.
    - exists cs. split; [exact Ec|]. split; [|split; auto].
      + intros c Hc. apply H1; auto.
      + intros K HK. apply H2; auto.
        * split; [intros ? []|]. intros a Ha. cbn [app]. apply in_seq. destruct HK as (_ & HKn & _).
          specialize (HKn a Ha). lia.
        * destruct K as [|k K].
          -- exfalso. destruct HK as (_ & _ & Hm). apply (Hm 0 Hn0). intros ? [].
          -- exists k. repeat split; [|left; auto]. apply (Permutation_in _ (Permutation_sym Ho)), in_seq.
             destruct HK as (_ & HKn & _). specialize (HKn k (or_introl eq_refl)). lia.
  Qed.
End BK.

(* ----------------------------------------------------- connected components *)


Lemma pop_perm mode l x r : pop_node mode l = Some (x, r) -> Permutation l (x :: r).
Proof.
  destruct mode; simpl.
  - destruct (rev l) as [|y s] eqn:El; [discriminate|]. intros H. injection H as <- <-.
    apply (f_equal (@rev nat)) in El. rewrite rev_involutive in El. subst l. simpl.
    apply Permutation_sym, Permutation_cons_append.
  - destruct l; [discriminate|]. intros H; injection H as <- <-. auto.
Qed.
Lemma pop_none mode l : pop_node mode l = None -> l = [].
Proof.
  destruct mode; simpl.
  - destruct (rev l) eqn:El; [|discriminate]. intros _. apply (f_equal (@rev nat)) in El.
    rewrite rev_involutive in El. auto.
  - destruct l; auto; discriminate.
Qed.

Lemma push_spec visited nbrs : forall tv,
  NoDup tv -> (forall a, In a tv -> ~ In a visited) ->
  NoDup (push_neighbors visited nbrs tv) /\
  (forall a, In a (push_neighbors visited nbrs tv) <-> In a tv \/ (In a nbrs /\ ~ In a visited)).
Proof.
  induction nbrs as [|x r IH]; intros tv Hn Hd; simpl.
  - split; auto. intros a; tauto.
  - destruct (memn x visited || memn x tv) eqn:Ex.
    + apply orb_true_iff in Ex. rewrite !memn_in in Ex. destruct (IH tv Hn Hd) as [A B]. split; auto.
      intros a. rewrite B. intuition (subst; tauto).
    + apply orb_false_iff in Ex. rewrite !memn_not in Ex. destruct Ex as [N1 N2].
      destruct (IH (tv ++ [x])) as [A B].
      * apply (Permutation_NoDup (Permutation_cons_append tv x)). constructor; auto.
      * intros a Ha. apply in_app_or in Ha. destruct Ha as [Ha|[<-|[]]]; auto.
      * split; auto. intros a. rewrite B, in_app_iff. simpl. intuition (subst; tauto).
Qed.

Section CC.
  Variable adj : list (list nat).
  Let n := length adj.
  Let E (u v : nat) := In v (adj_of adj u).
  Hypothesis HE : forall u v, E u v -> u < n /\ v < n.
  Hypothesis HS : forall u v, E u v -> E v u.

  Lemma conn_sym u v : connected E u v -> connected E v u.
  Proof.
    induction 1; [apply rt_step; auto | apply rt_refl | eapply rt_trans; eauto].
  Qed.

  Definition closedE (V : list nat) : Prop := forall u v, E u v -> In u V -> In v V.

  Lemma closedE_conn V u v : closedE V -> connected E u v -> In u V -> In v V.
  Proof. intros H. induction 1; auto. apply H; auto. Qed.

  Lemma search_spec mode V0 start : closedE V0 -> start < n -> ~ In start V0 ->
    forall fuel tv comp,
    NoDup (comp ++ tv ++ V0) ->
    (forall a, In a (comp ++ tv ++ V0) -> a < n) ->
    (forall a, In a (comp ++ tv) -> connected E start a) ->
    (forall u v, In u comp -> E u v -> In v (comp ++ tv)) ->
    In start (comp ++ tv) ->
    n <= fuel + length (comp ++ V0) ->
    exists comp', search_loop fuel mode adj tv (rev comp ++ V0) comp = Ok (rev comp' ++ V0, comp') /\
      NoDup (comp' ++ V0) /\ (forall a, In a (comp' ++ V0) -> a < n) /\ In start comp' /\
      (forall a, In a comp' <-> connected E start a) /\ closedE (comp' ++ V0).
  Proof.
    intros HV Hst HstV. induction fuel as [|f IH]; intros tv comp Hn Hlt Hc Hnb Hs Hf.
    all: cbn [search_loop]; destruct (pop_node mode tv) as [[x rest]|] eqn:Ep.
    2, 4: apply pop_none in Ep; subst tv; rewrite app_nil_r in *; cbn [app] in *;
      exists comp;
      (assert (HV' : forall u v, connected E u v -> In u comp -> In v comp) by
         (induction 1; eauto));
      split; [reflexivity|]; repeat split; auto;
      [ eauto
      | intros u v Huv Hu; apply in_app_or in Hu; apply in_or_app; destruct Hu; [left | right]; eauto ].
    - exfalso. apply pop_perm in Ep. assert (length (comp ++ tv ++ V0) <= n).
      { rewrite <- (seq_length n 0). apply NoDup_incl_length; auto. intros a Ha. apply in_seq. specialize (Hlt a Ha). lia. }
      rewrite !app_length in *. rewrite (Permutation_length Ep) in H. simpl in H. lia.
    - apply pop_perm in Ep.
      assert (Hx : x < n). { apply Hlt. rewrite !in_app_iff. right; left. apply (Permutation_in _ (Permutation_sym Ep)). left; auto. }
      destruct (nth_error adj x) as [nbrs|] eqn:Ex; [|apply nth_error_None in Ex; unfold n in Hx; lia].
      assert (Enb : nbrs = adj_of adj x) by (unfold adj_of; symmetry; apply nth_error_nth; auto).
      assert (Perm : Permutation (comp ++ tv ++ V0) ((comp ++ [x]) ++ rest ++ V0)).
      { rewrite <- app_assoc. apply Permutation_app_head. cbn [app].
        apply (Permutation_app_tail V0) in Ep. exact Ep. }
      assert (Hn' : NoDup ((comp ++ [x]) ++ rest ++ V0)) by (eapply Permutation_NoDup; eauto).
      assert (Vis : forall a, In a (x :: rev comp ++ V0) <-> In a ((comp ++ [x]) ++ V0)).
      { intros a. simpl. rewrite !in_app_iff, <- in_rev. simpl. tauto. }
      destruct (push_spec (x :: rev comp ++ V0) nbrs rest) as [PN PI].
      + apply NoDup_app_remove_l in Hn'. apply NoDup_app_remove_r in Hn'. auto.
      + intros a Ha Hv. apply Vis in Hv. apply in_app_or in Hv. destruct Hv as [Hv|Hv].
        * apply (nodup_app_not _ _ a Hn' Hv). apply in_or_app; auto.
        * apply NoDup_app_remove_l in Hn'. apply (nodup_app_not _ _ a Hn' Ha Hv).
      + replace (x :: rev comp ++ V0) with (rev (comp ++ [x]) ++ V0) in * by (rewrite rev_app_distr; reflexivity).
        set (tv' := push_neighbors (rev (comp ++ [x]) ++ V0) nbrs rest) in *.
        assert (TV : forall a, In a tv' -> ~ In a (comp ++ [x]) /\ ~ In a V0).
        { intros a Ha. apply PI in Ha. destruct Ha as [Ha|[_ Ha]].
          - split; intros Hv.
            + apply (nodup_app_not _ _ a Hn' Hv). apply in_or_app; auto.
            + apply NoDup_app_remove_l in Hn'. apply (nodup_app_not _ _ a Hn' Ha Hv).
          - rewrite in_app_iff, <- in_rev in Ha. tauto. }
        assert (App : forall (a b : list nat), NoDup a -> NoDup b -> (forall c, In c a -> ~ In c b) -> NoDup (a ++ b)).
        { clear. induction a; simpl; auto. intros b Ha Hb H. inversion Ha; subst. constructor.
          - intros Hi. apply in_app_or in Hi. destruct Hi; auto. apply (H a); auto.
          - apply IHa; auto. }
        assert (NV : NoDup V0) by (repeat apply NoDup_app_remove_l in Hn'; auto).
        assert (NC : NoDup (comp ++ [x])) by (apply NoDup_app_remove_r in Hn'; auto).
        apply IH.
        * apply App; auto.
          -- apply App; auto. intros c Hc'. apply TV; auto.
          -- intros c Hc' Hi. apply in_app_or in Hi. destruct Hi as [Hi|Hi].
             ++ apply TV in Hi. tauto.
             ++ apply (nodup_app_not _ _ c Hn' Hc'). apply in_or_app; auto.
        * intros a Ha. rewrite !in_app_iff in Ha. simpl in Ha.
          destruct Ha as [[Ha|[<-|[]]]|[Ha|Ha]]; auto.
          -- apply Hlt. rewrite !in_app_iff; auto.
          -- apply PI in Ha. destruct Ha as [Ha|[Ha _]].
             ++ apply Hlt. apply (Permutation_in _ (Permutation_sym Perm)). rewrite !in_app_iff; auto.
             ++ apply (HE x a). unfold E. rewrite <- Enb. auto.
          -- apply Hlt. rewrite !in_app_iff; auto.
        * assert (Cx : connected E start x).
          { apply Hc, in_or_app. right. apply (Permutation_in _ (Permutation_sym Ep)). left; auto. }
          intros a Ha. rewrite !in_app_iff in Ha. simpl in Ha.
          destruct Ha as [[Ha|[<-|[]]]|Ha]; auto.
          -- apply Hc, in_or_app; auto.
          -- apply PI in Ha. destruct Ha as [Ha|[Ha _]].
             ++ apply Hc, in_or_app. right. apply (Permutation_in _ (Permutation_sym Ep)). right; auto.
             ++ eapply rt_trans; [exact Cx|]. apply rt_step. unfold E. rewrite <- Enb. auto.
        * intros u v Hu Huv. apply in_app_or in Hu. destruct Hu as [Hu|[<-|[]]].
          -- specialize (Hnb u v Hu Huv). apply in_app_or in Hnb. rewrite !in_app_iff. simpl.
             destruct Hnb as [Hnb|Hnb]; auto. apply (Permutation_in _ Ep) in Hnb. destruct Hnb as [<-|Hnb]; auto.
             right. apply PI. auto.
          -- destruct (in_dec Nat.eq_dec v (rev (comp ++ [x]) ++ V0)) as [Hv|Hv].
             ++ rewrite in_app_iff, <- in_rev in Hv. destruct Hv as [Hv|Hv]; [apply in_or_app; auto|].
                exfalso. assert (In x V0) by (apply (HV v x); auto).
                apply (nodup_app_not _ _ x Hn'); [apply in_or_app; right; left; auto | apply in_or_app; auto].
             ++ apply in_or_app. right. apply PI. right. split; auto. rewrite Enb. exact Huv.
        * apply in_app_or in Hs. rewrite !in_app_iff. simpl. destruct Hs as [Hs|Hs]; auto.
          apply (Permutation_in _ Ep) in Hs. destruct Hs as [<-|Hs]; auto. right. apply PI. auto.
        * rewrite !app_length in *. simpl. lia.
  Qed.

  Lemma components_spec mode : forall k m V, k + m = n -> closedE V -> NoDup V ->
    (forall a, In a V -> a < n) -> (forall i, i < k -> In i V) ->
    exists cs, components_loop mode adj (seq k m) V = Ok cs /\
      Permutation (concat cs ++ V) (seq 0 n) /\
      (forall c, In c cs -> c <> [] /\ forall u, In u c -> forall v, In v c <-> connected E u v).
  Proof.
    intros k m. revert k. induction m as [|m IH]; intros k V Hk HV Hn Hlt Hall.
    - exists []. cbn [seq components_loop concat app]. split; [reflexivity|]. split; [|intros ? []].
      apply NoDup_Permutation; auto; [apply seq_NoDup|]. intros a. rewrite in_seq. split.
      + intros Ha. specialize (Hlt a Ha). lia.
      + intros Ha. apply Hall. lia.
    - cbn [seq components_loop]. destruct (memn k V) eqn:Ek.
      + apply IH; auto; [lia|]. intros i Hi. apply memn_in in Ek.
        destruct (Nat.eq_dec i k) as [->|]; auto. apply Hall; lia.
      + apply memn_not in Ek.
        destruct (search_spec mode V k HV ltac:(lia) Ek (S (length adj)) [k] []) as (comp & Es & A & B & C & D & F).
        * simpl. constructor; auto.
        * intros a [<-|Ha]; auto; lia.
        * intros a [<-|[]]. apply rt_refl.
        * intros ? ? [].
        * left; auto.
        * unfold n. lia.
        * cbn [rev app] in Es. rewrite Es. cbn [rbind].
          destruct (IH (S k) (rev comp ++ V)) as (cs & Ec & P1 & P2).
          -- lia.
          -- intros u v Huv Hu. rewrite in_app_iff, <- in_rev in *. rewrite <- in_app_iff in *. eapply F; eauto.
          -- eapply Permutation_NoDup; [|exact A]. apply Permutation_app_tail, Permutation_rev.
          -- intros a Ha. apply B. rewrite in_app_iff, <- in_rev in *. auto.
          -- intros i Hi. rewrite in_app_iff, <- in_rev. destruct (Nat.eq_dec i k) as [->|]; auto. right. apply Hall; lia.
          -- rewrite Ec. cbn [rbind]. exists (comp :: cs). split; [reflexivity|]. split.
             ++ eapply Permutation_trans; [|exact P1]. cbn [concat].
                rewrite <- app_assoc. eapply Permutation_trans; [apply Permutation_app_swap_app|].
                apply Permutation_app_head, Permutation_app_tail, Permutation_rev.
             ++ intros c [<-|Hc]; auto. split; [intros ->; destruct C|].
                intros u Hu v. rewrite D. apply D in Hu. split; intros H.
                ** eapply rt_trans; [apply conn_sym; exact Hu | exact H].
                ** eapply rt_trans; eauto.
  Qed.
End CC.

