(** Lemmas on distance_basis. *)
From Coq Require Import String List ZArith Bool Arith Lia Sorted Permutation.
From Verif Require Import GC Exn S_Alg S_Den S_Basis S_Built S_Cluster S_Tools M_OpString M_Tools M_Basis M_Cluster
  L_Perm L_Cliques L_Basis L_Operator L_Heap L_Struct L_Cluster.
Import ListNotations.
Local Open Scope nat_scope.

Section Dist.
  Variable pick : list nat -> list nat -> list nat -> nat.
  Variable order : list nat -> list nat -> list nat -> list nat.
  Hypothesis Hpick : forall R P X, P ++ X <> [] -> In (pick R P X) (P ++ X).
  Hypothesis Horder : forall R P X, Permutation (order R P X) P.

  (** Bron-Kerbosch on any irreflexive adjacency: it ends and its results contain R. *)
  Lemma bk_total (adj : list (list nat)) : (forall v, ~ In v (adj_of adj v)) -> forall f R P X, NoDup P -> length P < f ->
    exists cs, bron_kerbosch adj pick order f R P X = Ok cs /\ forall c, In c cs -> incl R c.
  Proof.
    intros Hirr. induction f as [|f IH]; intros R P X HP Hf; [lia|]. rewrite bk_unfold.
    destruct (P ++ X) eqn:EPX; [exists [R]; split; auto; intros c [<-|[]]; apply incl_refl|]. clear EPX.
    set (skip := fun v => memn v (adj_of adj (pick R P X))).
    assert (L : forall vs Q Y, incl vs P -> NoDup Q -> incl Q P -> 
       exists cs, gloop adj (bron_kerbosch adj pick order f) R skip vs Q Y = Ok cs /\ forall c, In c cs -> incl R c).
    { induction vs as [|v vs IHv]; intros Q Y Hvs HQ HQP; cbn [gloop]; [exists []; split; auto; intros c []|].
      assert (Hvs' : incl vs P) by (intros a Ha; apply Hvs; right; auto).
      destruct (skip v); [apply IHv; auto|].
      destruct (IH (R ++ [v]) (inter Q (adj_of adj v)) (inter Y (adj_of adj v))) as (c1 & E1 & H1).
      - apply NoDup_filter; auto.
      - assert (S (length (inter Q (adj_of adj v))) <= length P); [|lia].
        change (length (v :: inter Q (adj_of adj v)) <= length P). apply NoDup_incl_length.
        + constructor; [intros H; apply inter_in in H; apply (Hirr v); tauto | apply NoDup_filter; auto].
        + intros a [<-|Ha]; [apply Hvs; left; auto | apply inter_in in Ha; apply HQP; tauto].
      - destruct (IHv (removen v Q) (Y ++ [v])) as (c2 & E2 & H2); auto.
        + apply NoDup_filter; auto.
        + intros a Ha. apply removen_in in Ha. apply HQP; tauto.
        + rewrite E1. cbn [rbind]. rewrite E2. cbn [rbind]. exists (c1 ++ c2). split; auto.
          intros c Hc. apply in_app_iff in Hc. destruct Hc as [Hc|Hc]; auto. intros a Ha. apply (H1 c Hc), in_or_app; auto. }
    apply L; auto; [|apply incl_refl]. intros a Ha. apply (Permutation_in _ (Horder R P X)); auto.
  Qed.

  Lemma adj_of_map n (h : nat -> list nat) i : i < n -> adj_of (map h (seq 0 n)) i = h i.
  Proof.
    intros H. unfold adj_of. rewrite (nth_indep _ [] (h 0)) by (rewrite map_length, seq_length; auto).
    rewrite (map_nth h). rewrite seq_nth; auto.
  Qed.
  Lemma adj_of_out n (h : nat -> list nat) i : n <= i -> adj_of (map h (seq 0 n)) i = [].
  Proof. intros H. unfold adj_of. rewrite nth_overflow; auto. rewrite map_length, seq_length; auto. Qed.

  (** Only what happens at a set of nodes closed under adjacency matters. *)
  Lemma bk_agree (adj adj' : list (list nat)) (D : nat -> Prop) : (forall v, D v -> adj_of adj v = adj_of adj' v) ->
    (forall v w, D v -> In w (adj_of adj v) -> D w) ->
    forall f R P X, (forall v, In v P \/ In v X -> D v) ->
    bron_kerbosch adj pick order f R P X = bron_kerbosch adj' pick order f R P X.
  Proof.
    intros Hag Hcl. induction f as [|f IH]; intros R P X HD; [reflexivity|]. rewrite !bk_unfold.
    destruct (P ++ X) eqn:EPX; [reflexivity|].
    assert (Hu : D (pick R P X)).
    { apply HD. apply in_app_iff. apply Hpick. rewrite EPX; discriminate. }
    clear EPX. rewrite <- (Hag _ Hu). set (skip := fun v => memn v (adj_of adj (pick R P X))).
    assert (L : forall vs Q Y, (forall v, In v vs -> D v) -> (forall v, In v Q \/ In v Y -> D v) ->
       gloop adj (bron_kerbosch adj pick order f) R skip vs Q Y = gloop adj' (bron_kerbosch adj' pick order f) R skip vs Q Y).
    { induction vs as [|v vs IHv]; intros Q Y Hvs HQ; cbn [gloop]; [reflexivity|].
      assert (Hv : D v) by (apply Hvs; left; auto).
      assert (Hvs' : forall w, In w vs -> D w) by (intros; apply Hvs; right; auto).
      destruct (skip v); [apply IHv; auto|]. rewrite <- (Hag _ Hv). rewrite IH.
      - rewrite IHv; auto. intros w [Hw|Hw]; [apply removen_in in Hw; apply HQ; tauto|].
        apply in_app_iff in Hw. destruct Hw as [Hw|[<-|[]]]; auto.
      - intros w [Hw|Hw]; apply inter_in in Hw; apply HQ; tauto. }
    apply L; auto. intros v Hv. apply HD. left. apply (Permutation_in _ (Horder R P X)); auto.
  Qed.

  Variable within : nat -> nat -> bool.
  Variable n : nat.
  Variable allowed : list nat.
  Hypothesis Hall : forall v, In v allowed -> v < n.

  Definition nbrs (i : nat) := filter (fun j => near within i j && negb (Nat.eqb j i)) allowed.
  Definition adjA := orbitals_within within n allowed.
  Definition adjR := map (fun i => if memn i allowed then nbrs i else []) (seq 0 n).
  Definition okc (c : list nat) := forallb (fun v => memn v allowed) c.

  Lemma nbrs_in i j : In j (nbrs i) <-> In j allowed /\ near within i j = true /\ j <> i.
  Proof. unfold nbrs. rewrite filter_In, andb_true_iff, negb_true_iff, Nat.eqb_neq. tauto. Qed.
  Lemma adjA_in i j : In j (adj_of adjA i) <-> i < n /\ In j (nbrs i).
  Proof.
    unfold adjA, orbitals_within. destruct (Nat.lt_ge_cases i n) as [H|H].
    - rewrite adj_of_map by auto. unfold nbrs. tauto.
    - rewrite adj_of_out by auto. simpl. split; [tauto | intros [? _]; lia].
  Qed.
  Lemma adjR_in i j : In j (adj_of adjR i) <-> In i allowed /\ In j (nbrs i).
  Proof.
    unfold adjR. destruct (Nat.lt_ge_cases i n) as [H|H].
    - rewrite adj_of_map by auto. destruct (memn i allowed) eqn:M.
      + apply memn_in in M. tauto.
      + split; [intros []|]. intros [H1 _]. apply memn_in in H1. congruence.
    - rewrite adj_of_out by auto. simpl. split; [tauto | intros [H1 _]; specialize (Hall _ H1); lia].
  Qed.
  Lemma adj_same i : In i allowed -> adj_of adjA i = adj_of adjR i.
  Proof.
    intros H. unfold adjA, orbitals_within, adjR. rewrite !adj_of_map by auto. apply memn_in in H. rewrite H. reflexivity.
  Qed.
  Lemma adjA_len : length adjA = n.
  Proof. unfold adjA, orbitals_within. rewrite map_length, seq_length. auto. Qed.
  Lemma adjR_len : length adjR = n.
  Proof. unfold adjR. rewrite map_length, seq_length. auto. Qed.
  Lemma near_sym i j : i <> j -> near within i j = near within j i.
  Proof. intros H. unfold near. destruct (Nat.ltb_spec i j), (Nat.ltb_spec j i); auto; lia. Qed.

  Definition E := fun u v => In v (adj_of adjR u).
  Lemma E_iff u v : E u v <-> In u allowed /\ In v allowed /\ near within u v = true /\ v <> u.
  Proof. unfold E. rewrite adjR_in, nbrs_in. tauto. Qed.
  Lemma E_graph : graph (length adjR) E.
  Proof.
    rewrite adjR_len. split; [|split].
    - intros u v H. apply E_iff in H. destruct H as (H1 & H2 & _). auto.
    - intros u v H. apply E_iff in H. apply E_iff. rewrite near_sym by tauto. destruct H as (H1 & H2 & H3 & H4). auto.
    - intros v H. apply E_iff in H. tauto.
  Qed.

  Lemma okc_iff c : okc c = true <-> forall v, In v c -> In v allowed.
  Proof. unfold okc. rewrite forallb_forall. split; intros H v Hv; apply memn_in; auto. Qed.

  Lemma loops_agree f : n < f -> forall vs P X, NoDup P -> incl P (seq 0 n) ->
    exists cs cs', cliques_loop adjA pick order f vs P X = Ok cs /\ cliques_loop adjR pick order f vs P X = Ok cs' /\
      filter okc cs = filter okc cs'.
  Proof.
    intros Hf. induction vs as [|v vs IH]; intros P X HP HI; cbn [cliques_loop]; [exists [], []; auto|].
    destruct (IH (removen v P) (X ++ [v])) as (c2 & d2 & E2 & F2 & G2).
    { apply NoDup_filter; auto. } { intros a Ha. apply removen_in in Ha. apply HI; tauto. }
    assert (LP : forall l, length (inter P l) < f).
    { intros l. unfold inter. pose proof (filter_le (fun x => memn x l) P). pose proof (NoDup_incl_length HP HI) as Q. rewrite seq_length in Q. lia. }
    destruct (bk_total adjA) with (f := f) (R := [v]) (P := inter P (adj_of adjA v)) (X := inter X (adj_of adjA v)) as (c1 & E1 & K1).
    { intros w H. apply adjA_in in H. destruct H as [_ H]. apply nbrs_in in H. tauto. } { apply NoDup_filter; auto. } { apply LP. }
    destruct (bk_total adjR) with (f := f) (R := [v]) (P := inter P (adj_of adjR v)) (X := inter X (adj_of adjR v)) as (d1 & F1 & L1).
    { intros w H. apply adjR_in in H. destruct H as [_ H]. apply nbrs_in in H. tauto. } { apply NoDup_filter; auto. } { apply LP. }
    rewrite E1, F1. cbn [rbind]. rewrite E2, F2. cbn [rbind]. exists (c1 ++ c2), (d1 ++ d2). split; auto. split; auto.
    rewrite !filter_app, G2. f_equal. destruct (memn v allowed) eqn:M.
    - apply memn_in in M. rewrite <- (adj_same v M) in F1.
      rewrite (bk_agree adjA adjR (fun w => In w allowed)) in E1.
      + congruence.
      + apply adj_same.
      + intros a b _ Hb. apply adjA_in in Hb. destruct Hb as [_ Hb]. apply nbrs_in in Hb. tauto.
      + intros w [Hw|Hw]; apply inter_in in Hw; destruct Hw as [_ Hw]; apply adjA_in in Hw; destruct Hw as [_ Hw]; apply nbrs_in in Hw; tauto.
    - assert (Q : forall cs, (forall c, In c cs -> incl [v] c) -> filter okc cs = []).
      { intros cs Hcs. apply filter_none. intros c Hc. destruct (okc c) eqn:O; auto. rewrite okc_iff in O.
        assert (In v allowed) by (apply O, (Hcs c Hc); left; auto). apply memn_in in H. congruence. }
      rewrite !Q; auto.
  Qed.

  (** Any clique is contained in a maximal one. *)
  Lemma extend m : forall K, n - length K <= m -> clique E K -> (forall v, In v K -> v < n) ->
    exists K', incl K K' /\ maximal_clique n E K'.
  Proof.
    induction m as [|m IH]; intros K Hm HK Hn.
    - exists K. split; [apply incl_refl|]. split; auto. split; auto. intros w Hw _.
      destruct (in_dec Nat.eq_dec w K) as [|N]; auto. exfalso.
      assert (length (w :: K) <= length (seq 0 n)).
      { apply NoDup_incl_length; [constructor; auto; apply HK|]. intros a [<-|Ha]; apply in_seq; [lia | specialize (Hn _ Ha); lia]. }
      rewrite seq_length in H. simpl in H. lia.
    - destruct (existsb (fun w => negb (memn w K) && forallb (fun v => memn v (adj_of adjR w)) K) (seq 0 n)) eqn:Ex.
      + apply existsb_exists in Ex. destruct Ex as (w & Hw & Hx). apply andb_true_iff in Hx. destruct Hx as [H1 H2].
        apply in_seq in Hw. apply negb_true_iff in H1. assert (H1' : ~ In w K) by (intros H; apply memn_in in H; congruence).
        rewrite forallb_forall in H2.
        destruct (IH (w :: K)) as (K' & I1 & I2).
        * simpl. lia.
        * split; [constructor; auto; apply HK|]. intros a b [<-|Ha] [<-|Hb] D; try congruence.
          -- apply memn_in, H2; auto.
          -- apply E_graph. apply memn_in, H2; auto.
          -- apply HK; auto.
        * intros v [<-|Hv]; [lia | auto].
        * exists K'. split; auto. intros a Ha. apply I1. right; auto.
      + exists K. split; [apply incl_refl|]. split; auto. split; auto. intros w Hw Hadj.
        destruct (in_dec Nat.eq_dec w K) as [|N]; auto. exfalso.
        assert (existsb (fun w => negb (memn w K) && forallb (fun v => memn v (adj_of adjR w)) K) (seq 0 n) = true); [|congruence].
        apply existsb_exists. exists w. split; [apply in_seq; lia|]. apply andb_true_iff. split.
        * apply negb_true_iff. destruct (memn w K) eqn:M; auto. apply memn_in in M. contradiction.
        * apply forallb_forall. intros v Hv. apply memn_in. apply Hadj; auto. intros ->; auto.
  Qed.

  (** The clusters: all allowed, pairwise near, and every such set is inside one of them. *)
  Lemma clusters_ok ordering : Permutation ordering (seq 0 n) ->
    exists cs, maximal_cliques adjA pick order ordering = Ok cs /\
      (forall c, In c (filter okc cs) -> NoDup c /\ (forall v, In v c -> In v allowed) /\
         forall u v, In u c -> In v c -> u <> v -> near within u v = true) /\
      (forall K, K <> [] -> NoDup K -> (forall v, In v K -> In v allowed) -> (forall u v, In u K -> In v K -> u <> v -> near within u v = true) ->
         exists c, In c (filter okc cs) /\ incl K c).
  Proof.
    intros Ho. destruct (loops_agree (S n) (Nat.lt_succ_diag_r n) ordering (seq 0 n) [] (seq_NoDup _ _) (incl_refl _)) as (cs & cs' & E1 & E2 & E3).
    exists cs. unfold maximal_cliques. rewrite adjA_len. split; auto.
    destruct (Nat.eq_dec n 0) as [Z|Z].
    { assert (allowed = []) by (destruct allowed as [|a l]; auto; specialize (Hall a (or_introl eq_refl)); lia).
      assert (ordering = []) by (rewrite Z in Ho; apply Permutation_nil, Permutation_sym; auto). subst ordering.
      injection E1 as <-. split; [intros c []|]. intros K Hne _ HK. destruct K as [|k K]; [congruence|]. specialize (HK k (or_introl eq_refl)).
      rewrite H in HK. destruct HK. }
    destruct (maximal_cliques_spec adjR E_graph pick order Hpick Horder ordering) as (cs2 & F & H1 & H2 & _).
    { rewrite adjR_len; lia. } { rewrite adjR_len; auto. }
    unfold maximal_cliques in F. rewrite adjR_len in F. rewrite E2 in F. injection F as <-.
    rewrite adjR_len in H1, H2. rewrite E3. split.
    - intros c Hc. apply filter_In in Hc. destruct Hc as [Hc Ho']. rewrite okc_iff in Ho'. destruct (H1 c Hc) as ((N & C) & _).
      split; auto. split; auto. intros u v Hu Hv D. specialize (C u v Hu Hv D). apply E_iff in C. tauto.
    - intros K Hne HN HK HW. destruct (extend n K) as (K' & I1 & M).
      + lia.
      + split; auto. intros u v Hu Hv D. apply E_iff. auto.
      + intros v Hv; auto.
      + destruct (H2 K' M) as (c & Hc & Sc). exists c. split; [|intros a Ha; apply Sc; auto].
        apply filter_In. split; auto. apply okc_iff. intros v Hv. apply Sc in Hv. destruct K as [|k K]; [congruence|].
        assert (Hk : In k K') by (apply I1; left; auto). destruct (Nat.eq_dec v k) as [->|D]; [apply HK; left; auto|].
        destruct M as ((_ & C) & _). specialize (C v k Hv Hk D). apply E_iff in C. tauto.
  Qed.

  Lemma cluster_fold k ty : k_valid k -> forall l b, (forall c, In c l -> NoDup c) -> basis_ok b -> (forall s, In s (b_strings b) -> std s) ->
    exists r, rfold (fun b c => let! cb := cluster_basis k c ty false in Ok (basis_iadd b cb)) l b = Ok r /\ basis_ok r /\ (forall s, In s (b_strings r) -> std s) /\
      forall s, In s (b_strings r) <-> In s (b_strings b) \/ (local_string ty k s /\ exists c, In c l /\ forall x, In x (os_labels s) -> In x c).
  Proof.
    intros Hk. induction l as [|c l IH]; intros b Hl Hb Hs.
    - exists b. split; [reflexivity|]. split; auto. split; auto. intros s. split; auto. intros [H|(_ & c & [] & _)]; auto.
    - cbn [rfold]. destruct (cluster_ok k c ty false (Hl c (or_introl eq_refl)) Hk) as (cb & E1 & Kb & In1 & N1 & S1 & _).
      rewrite E1. cbn [rbind]. destruct (basis_iadd_ok b cb Hb) as (Ob & Ap).
      assert (Inn : forall s, In s (b_strings (basis_iadd b cb)) <-> In s (b_strings b) \/ In s (b_strings cb)).
      { intros s. split; [apply (append_new_in _ _ _ Ap)|]. intros [H|H]; [apply (append_new_left _ _ _ Ap); auto|].
        destruct (append_new_right _ _ _ Ap s H) as (u & Hu & K). apply std_key in K; auto; [subst; auto|].
        destruct (append_new_in _ _ _ Ap u Hu) as [H'|H']; auto. }
      destruct (IH (basis_iadd b cb)) as (r & Er & Or & Sr & Ir); auto.
      { intros d Hd; apply Hl; right; auto. }
      { intros s H. apply Inn in H. destruct H; auto. }
      exists r. split; auto. split; auto. split; auto. intros s. rewrite Ir, Inn, In1. split.
      + intros [[H|[[H _]|[H1 H2]]]|(H1 & d & Hd & H2)]; auto; [discriminate H | right; split; auto; exists c; split; auto; left; auto | right; split; auto; exists d; split; auto; right; auto].
      + intros [H|(H1 & d & [<-|Hd] & H2)]; auto. right. split; eauto.
  Qed.

  Lemma distance_ok ordering k ty id : Permutation ordering (seq 0 n) -> k_valid k ->
    exists b, distance_basis pick order ordering within n k ty allowed id = Ok b /\ basis_ok b /\ NoDup (b_strings b) /\
      forall s, In s (b_strings b) <-> local_string ty k s /\ labelled_within within allowed s.
  Proof.
    intros Ho Hk. destruct (clusters_ok ordering Ho) as (cs & Ec & C1 & C2). unfold distance_basis. fold adjA. rewrite Ec. cbn [rbind]. fold okc.
    change (filter (forallb (fun v => memn v allowed)) cs) with (filter okc cs).
    set (l := stable_sort _ (map (map Z.of_nat) (filter okc cs))).
    assert (Pl : Permutation l (map (map Z.of_nat) (filter okc cs))) by apply stable_sort_perm.
    assert (Inl : forall d, In d l <-> exists c, In c (filter okc cs) /\ d = map Z.of_nat c).
    { intros d. split; intros H.
      - apply (Permutation_in _ Pl) in H. apply in_map_iff in H. destruct H as (c & <- & Hc). eauto.
      - destruct H as (c & Hc & ->). apply (Permutation_in _ (Permutation_sym Pl)). apply in_map; auto. }
    destruct (cluster_fold k ty Hk l basis_empty) as (r & Er & Or & Sr & Ir).
    { intros d Hd. apply Inl in Hd. destruct Hd as (c & Hc & ->). apply NoDup_map_inj; [intros; lia | apply C1; auto]. }
    { apply basis_ok_empty. } { intros s []. }
    exists r. split; auto. split; auto. split; [apply distinct_NoDup, Or|]. intros s. rewrite Ir. split.
    - intros [[]|(H1 & d & Hd & H2)]. split; auto. apply Inl in Hd. destruct Hd as (c & Hc & ->). destruct (C1 c Hc) as (N & A & W). split.
      + intros x Hx. specialize (H2 x Hx). apply in_map_iff in H2. destruct H2 as (i & <- & Hi). eauto.
      + intros i j Hi Hj L. apply H2 in Hi. apply H2 in Hj. apply in_map_iff in Hi. apply in_map_iff in Hj.
        destruct Hi as (i' & Ei & Hi), Hj as (j' & Ej & Hj). apply Nat2Z.inj in Ei. apply Nat2Z.inj in Ej. subst.
        specialize (W i j Hi Hj). unfold near in W. replace (i <? j) with true in W by (symmetry; apply Nat.ltb_lt; auto). apply W. lia.
    - intros [H1 [H2 H3]]. right. split; auto.
      set (K := nodup Nat.eq_dec (map Z.to_nat (os_labels s))).
      assert (IK : forall i, In i K <-> In (Z.of_nat i) (os_labels s)).
      { intros i. unfold K. rewrite nodup_In, in_map_iff. split.
        - intros (x & <- & Hx). destruct (H2 x Hx) as (j & _ & ->). rewrite Nat2Z.id. auto.
        - intros H. exists (Z.of_nat i). rewrite Nat2Z.id. auto. }
      destruct (C2 K) as (c & Hc & Ic).
      + intros E0. pose proof (local_nonempty _ _ _ H1) as Hne. destruct (os_labels s) as [|x r'] eqn:El; [congruence|].
        destruct (H2 x (or_introl eq_refl)) as (j & _ & Ej). assert (In j K) by (apply IK; rewrite <- Ej; left; auto). rewrite E0 in H. destruct H.
      + apply NoDup_nodup.
      + intros v Hv. apply IK in Hv. destruct (H2 _ Hv) as (j & Hj & Ej). apply Nat2Z.inj in Ej. subst; auto.
      + intros u v Hu Hv D. apply IK in Hu. apply IK in Hv. unfold near. destruct (Nat.ltb_spec u v); [apply H3; auto | apply H3; auto; lia].
      + exists (map Z.of_nat c). split; [apply Inl; eauto|]. intros x Hx. destruct (H2 x Hx) as (j & Hj & Ej). subst x. apply in_map. apply Ic, IK. auto.
  Qed.
End Dist.

Lemma cluster_proof k labels ty id : NoDup labels -> k_valid k ->
  exists b, cluster_basis k labels ty id = Ok b /\ built b /\ NoDup (b_strings b) /\
    (forall s, In s (b_strings b) <-> (id = true /\ s = identity_string ty) \/ (local_string ty k s /\ forall x, In x (os_labels s) -> In x labels)) /\
    basis_len b = (if id then 1 else 0) + sum_nums k (length labels) (count_strings ty (length labels)).
Proof.
  intros Hn Hk. destruct (cluster_ok k labels ty id Hn Hk) as (b & H1 & H2 & H3 & H4 & _ & H5). exists b.
  split; auto. split; [apply built_iff; auto|]. auto.
Qed.

Lemma distance_proof pick order ordering within n k ty allowed id :
  (forall R P X, P ++ X <> [] -> In (pick R P X) (P ++ X)) ->
  (forall R P X, Permutation (order R P X) P) ->
  Permutation ordering (seq 0 n) ->
  (forall v, In v allowed -> v < n) -> k_valid k ->
  exists b, distance_basis pick order ordering within n k ty allowed id = Ok b /\ built b /\ NoDup (b_strings b) /\
    forall s, In s (b_strings b) <-> local_string ty k s /\ labelled_within within allowed s.
Proof.
  intros H1 H2 H3 H4 H5. destruct (distance_ok pick order H1 H2 within n allowed H4 ordering k ty id H3 H5) as (b & E1 & E2 & E3 & E4).
  exists b. split; auto. split; [apply built_iff; auto|]. auto.
Qed.

Lemma distance_identity pick order ordering within n k ty allowed :
  (forall R P X, P ++ X <> [] -> In (pick R P X) (P ++ X)) ->
  (forall R P X, Permutation (order R P X) P) ->
  Permutation ordering (seq 0 n) ->
  (forall v, In v allowed -> v < n) -> k_valid k ->
  exists b, distance_basis pick order ordering within n k ty allowed true = Ok b /\ ~ In (identity_string ty) (b_strings b).
Proof.
  intros H1 H2 H3 H4 H5. destruct (distance_proof pick order ordering within n k ty allowed true H1 H2 H3 H4 H5) as (b & E1 & _ & _ & E4).
  exists b. split; auto. intros H. apply E4 in H. destruct H as [H _]. apply local_nonempty in H. apply H. reflexivity.
Qed.
