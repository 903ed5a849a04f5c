(** Proofs about the search of selected_ci_greedy: growing, truncating and stopping. *)
From Coq Require Import String List ZArith Bool Arith Lia Permutation Sorted Reals QArith Qreals Qcanon Lra.
From Coquelicot Require Import Complex.
From Verif Require Import GC Exn M_OpString M_Tools M_Algebra M_Basis M_OpAlg M_Transform M_LinAlg M_Explore M_Core M_Greedy
  S_Alg S_Den S_Basis S_Built S_OpAlg S_Explore S_Fock S_RScal S_CFock S_CScal S_LinAlg S_Core S_Greedy S_Search
  L_Alg L_StrAlg L_StrOp L_Indep L_PropStr L_Basis L_Operator L_Heap L_PropBasis L_OpAlg L_Struct L_PropOpAlg L_Explore L_Explore2 L_Explore3 L_Explore4
  L_CScal L_Fock L_CFock L_LinAlg L_Inter L_Herm L_Core L_Commuting L_Invariant L_Invariant2 L_Cumul2 L_Greedy1 L_Greedy2 L_Greedy3 L_Greedy4.
Import ListNotations.
Local Open Scope nat_scope.
Local Open Scope alg_scope.

(* ---------------------------------------------------------- sorted lists *)

Lemma sorted_app {T} (R : T -> T -> Prop) l m : StronglySorted R (l ++ m) <-> StronglySorted R l /\ StronglySorted R m /\ forall x y, In x l -> In y m -> R x y.
Proof.
  induction l as [|a l IH]; cbn [app].
  - split; [intros H; split; [constructor|]; split; auto; intros x y [] | tauto].
  - split.
    + intros H. apply StronglySorted_inv in H. destruct H as [H1 H2]. apply IH in H1. destruct H1 as (K1 & K2 & K3). rewrite Forall_forall in H2.
      split; [constructor; auto; apply Forall_forall; intros x Hx; apply H2, in_or_app; auto|]. split; auto.
      intros x y [<-|Hx] Hy; auto. apply H2, in_or_app; auto.
    + intros (H1 & H2 & H3). apply StronglySorted_inv in H1. destruct H1 as [K1 K2]. constructor; [apply IH; split; auto; split; auto; intros; apply H3; [right|]; auto|].
      apply Forall_forall. intros x Hx. apply in_app_or in Hx. destruct Hx as [Hx|Hx]; [rewrite Forall_forall in K2; auto | apply H3; [left|]; auto].
Qed.
Lemma sorted_rev {T} (R : T -> T -> Prop) l : StronglySorted R l -> StronglySorted (fun x y => R y x) (rev l).
Proof.
  induction 1 as [|a l H IH F]; cbn [rev]; [constructor|]. apply sorted_app. split; auto. split; [constructor; constructor|].
  intros x y Hx [<-|[]]. rewrite Forall_forall in F. apply F, in_rev; auto.
Qed.
Lemma sorted_filter {T} (R : T -> T -> Prop) f l : StronglySorted R l -> StronglySorted R (filter f l).
Proof.
  induction 1 as [|a l H IH F]; cbn [filter]; [constructor|]. destruct (f a); auto. constructor; auto. rewrite Forall_forall in *. intros x Hx. apply filter_In in Hx. apply F, Hx.
Qed.
Lemma sorted_nth {T} (R : T -> T -> Prop) l : (forall p q x y, p < q -> nth_error l p = Some x -> nth_error l q = Some y -> R x y) -> StronglySorted R l.
Proof.
  induction l as [|a l IH]; intros H; constructor.
  - apply IH. intros p q x y L. apply (H (S p) (S q)); lia.
  - apply Forall_forall. intros x Hx. apply In_nth_error in Hx. destruct Hx as (q & Hq). apply (H 0 (S q)); auto; lia.
Qed.
Lemma sorted_map {T U} (R : U -> U -> Prop) (f : T -> U) l : StronglySorted (fun x y => R (f x) (f y)) l -> StronglySorted R (map f l).
Proof. induction 1 as [|a l H IH F]; cbn; constructor; auto. rewrite Forall_forall in *. intros x Hx. apply in_map_iff in Hx. destruct Hx as (y & <- & Hy). auto. Qed.

Lemma nodup_left {T} (l m : list T) : NoDup (l ++ m) -> NoDup l.
Proof. induction l as [|x l IH]; intros H; [constructor|]. cbn in H. apply NoDup_cons_iff in H. destruct H as [H1 H2]. constructor; auto. intros F. apply H1, in_or_app; auto. Qed.
Lemma filter_short {T} (f : T -> bool) l : length (filter f l) <= length l.
Proof. induction l as [|x l IH]; cbn; auto. destruct (f x); cbn; lia. Qed.

(** Positions in the order of descending absolute values. *)
Definition descending (ts : list (C * OS)) (inds : list nat) : Prop :=
  Permutation inds (seq 0 (length ts)) /\
  StronglySorted (fun i j => forall x y, nth_error ts i = Some x -> nth_error ts j = Some y -> (Cmod (fst y) <= Cmod (fst x))%R) inds.

Lemma largest_first_ok Or v ss : sorts_reals (gr_sort Or) -> length v = length ss -> descending (combine v ss) (largest_first Or v).
Proof.
  intros Hs L. unfold largest_first, descending. destruct (Hs (map Cmod v)) as [P O].
  split; [rewrite combine_length, L, Nat.min_id; rewrite map_length in P; unfold vec in *; rewrite L in P; eapply Permutation_trans; [apply Permutation_sym, Permutation_rev | auto]|].
  refine (sorted_rev (fun i j => forall x y, nth_error (combine v ss) j = Some x -> nth_error (combine v ss) i = Some y -> (Cmod (fst y) <= Cmod (fst x))%R) _ _).
  apply sorted_nth. intros p q i j Hpq Hp Hq [x s] [y t] Hx Hy. cbn [fst].
  assert (G : forall (l : list C) (m : list OS) k c u, nth_error (combine l m) k = Some (c, u) -> nth_error l k = Some c).
  { induction l as [|a l IH]; intros [|b m] [|k] c u E; cbn in *; try discriminate; [congruence|eauto]. }
  apply G in Hx, Hy. apply (O p q i j); auto; rewrite nth_error_map; [rewrite Hy | rewrite Hx]; auto.
Qed.

Lemma picks_firstn size cand ts inds cb kinds kept : descending ts inds -> (forall i t, nth_error ts i = Some t -> (cb i = true <-> cand t)) ->
  kinds = firstn size (filter cb inds) -> Forall2 (fun i t => nth_error ts i = Some t) kinds kept -> picks size cand ts kept.
Proof.
  intros [P S] Hc Ek F. assert (ND : NoDup inds) by (eapply Permutation_NoDup; [apply Permutation_sym; eauto | apply seq_NoDup]).
  set (l := filter cb inds) in *. assert (El : l = kinds ++ skipn size l) by (rewrite Ek; symmetry; apply firstn_skipn).
  pose proof (sorted_filter _ cb _ S) as Sl. fold l in Sl. pose proof (NoDup_filter cb ND) as NDl. fold l in NDl.
  assert (Lk : length kept = length kinds) by (clear - F; induction F; cbn; auto).
  exists kinds. split; auto. split; [rewrite El in NDl; apply nodup_left in NDl; auto|].
  assert (In_k : forall i, In i kinds -> cb i = true). { intros i Hi. apply (filter_In cb i inds). fold l. rewrite El. apply in_or_app; auto. }
  split.
  { clear - F In_k Hc. induction F as [|i t k kept H F IH]; constructor; [apply (Hc i t H), In_k; left; auto|]. apply IH. intros j Hj. apply In_k. right; auto. }
  rewrite El in Sl. apply sorted_app in Sl. destruct Sl as (S1 & S2 & S3).
  split.
  { clear - F S1. induction F as [|i t k kept H F IH]; [constructor|]. apply StronglySorted_inv in S1. destruct S1 as [S1 S4]. constructor; auto.
    apply Forall_forall. intros u Hu. rewrite Forall_forall in S4.
    assert (G : exists j, In j k /\ nth_error ts j = Some u). { clear - F Hu. induction F as [|j x k kept E F IH]; [destruct Hu|]. destruct Hu as [<-|Hu]; [exists j; split; auto; left; auto|]. destruct (IH Hu) as (n & N1 & N2). exists n. split; auto. right; auto. }
    destruct G as (j & Hj & Ej). apply (S4 j Hj); auto. }
  split; [rewrite Lk, Ek; apply firstn_le_length|].
  intros j t Hj Ct. destruct (in_dec Nat.eq_dec j kinds) as [Hi|Hi]; auto. right.
  assert (Jl : In j l). { apply filter_In. split; [|apply (Hc j t); auto]. apply (Permutation_in j (Permutation_sym P)), in_seq. split; [lia|]. apply nth_error_Some. congruence. }
  rewrite El in Jl. apply in_app_or in Jl. destruct Jl as [Jl|Jl]; [contradiction|].
  split.
  - rewrite Lk, Ek, firstn_length. destruct (Nat.le_gt_cases (length l) size) as [Q|Q]; [|lia]. rewrite (skipn_all2 l Q) in Jl. destruct Jl.
  - clear - F S3 Jl Hj. apply Forall_forall. intros u Hu.
    assert (G : exists j, In j kinds /\ nth_error ts j = Some u). { clear - F Hu. induction F as [|j x k kept E F IH]; [destruct Hu|]. destruct Hu as [<-|Hu]; [exists j; split; auto; left; auto|]. destruct (IH Hu) as (n & N1 & N2). exists n. split; auto. right; auto. }
    destruct G as (i & Hi & Ei). apply (S3 i j Hi Jl); auto.
Qed.

(* ------------------------------------------------------- reading positions *)

Lemma take_nth {T} (l : list T) inds m : take l inds = Ok m -> Forall2 (fun i x => nth_error l i = Some x) inds m.
Proof.
  unfold take. revert m. induction inds as [|i inds IH]; intros m E; cbn [rmap] in E; [injection E as <-; constructor|].
  destruct (nth_error l i) as [x|] eqn:N; [|discriminate]. cbn [of_option rbind] in E. destruct (rmap _ inds) as [r|]; [|discriminate]. cbn [rbind] in E. injection E as <-. constructor; auto.
Qed.
Lemma nth_combine {A B} (l : list A) : forall (m : list B) i a b, nth_error l i = Some a -> nth_error m i = Some b -> nth_error (combine l m) i = Some (a, b).
Proof. induction l as [|x l IH]; intros [|y m] [|i] a b H1 H2; cbn in *; try discriminate; [congruence | eauto]. Qed.
Lemma combine_nth_error {A B} (l : list A) : forall (m : list B) i a b, nth_error (combine l m) i = Some (a, b) -> nth_error l i = Some a /\ nth_error m i = Some b.
Proof. induction l as [|x l IH]; intros [|y m] [|i] a b H; cbn in *; try discriminate; [split; congruence | eauto]. Qed.
Lemma take_combine {A B} (l : list A) (m : list B) inds l' m' : take l inds = Ok l' -> take m inds = Ok m' ->
  Forall2 (fun i t => nth_error (combine l m) i = Some t) inds (combine l' m') /\ length l' = length m'.
Proof.
  intros H1 H2. apply take_nth in H1, H2. revert m' H2. induction H1 as [|i x inds l' E F IH]; intros m' H2; inversion H2; subst; cbn; [split; constructor|].
  destruct (IH _ H4) as [I1 I2]. split; [constructor; auto; apply nth_combine; auto | auto].
Qed.
Lemma map_snd_combine {A B} (l : list A) : forall m : list B, length l = length m -> map snd (combine l m) = m.
Proof. induction l as [|x l IH]; intros [|y m] L; cbn in *; try discriminate; auto. f_equal. auto. Qed.
Lemma map_fst_combine {A B} (l : list A) : forall m : list B, length l = length m -> map fst (combine l m) = l.
Proof. induction l as [|x l IH]; intros [|y m] L; cbn in *; try discriminate; auto. f_equal. auto. Qed.

Lemma explore_nothing A H x L ext x' : b_strings A = [] -> explore A H x None = Ok (L, ext, x') -> basis_len ext = 0.
Proof.
  intros EA E. unfold explore in E. destruct (explore_update A H x) as [s|]; [|discriminate]. cbn [rbind] in E. rewrite EA in E. cbn [rmap rbind] in E.
  change (inverse_dict []) with (@nil (nat * nat)) in E.
  assert (G1 : forall ts acc, rfold (extend_entry (x_ext s) []) ts acc = Ok acc) by (induction ts as [|t ts IH]; intros acc; cbn [rfold]; auto; unfold extend_entry at 1; cbn [dmem dget rbind]; apply IH).
  assert (G2 : forall ts acc acc', rfold (extend_term None s []) ts acc = Ok acc' -> acc' = acc).
  { induction ts as [|t ts IH]; intros acc acc' F; cbn [rfold] in F; [congruence|]. unfold extend_term at 1 in F. cbn [considered] in F. destruct (dget os_key _ _); [|discriminate]. cbn [of_option rbind] in F.
    rewrite G1 in F. cbn [rbind] in F. auto. }
  destruct (rfold (extend_term None s []) (op_terms H) (basis_empty, [])) as [p|] eqn:F; [|discriminate]. apply G2 in F. subst p. cbn [rbind] in E.
  match type of E with context [rfold (matrix_term ?a ?b ?c ?d) ?e ?f] => destruct (rfold (matrix_term a b c d) e f); [|discriminate] end. cbn [rbind] in E.
  destruct (sm_make _ _ _); [|discriminate]. cbn [rbind] in E. injection E as _ <- _. reflexivity.
Qed.

Section Search.
  Variables (ty : optype) (H : Operator).
  Hypotheses (Hty : ty <> Fermion) (HH : std_op ty H).
  Notation cok := (cache_ok ty (b_strings (o_basis H))).

  Lemma std_mem b s : std_basis ty b -> std s -> (basis_mem b s = true <-> In s (b_strings b)).
  Proof. intros Hb Hs. apply std_basis_ok in Hb. destruct Hb as [H1 H2]. apply (mem_std b s); auto. intros t Ht. apply H2; auto. Qed.
  Lemma std_nodup b : std_basis ty b -> NoDup (b_strings b).
  Proof. intros Hb. apply std_basis_ok in Hb. apply distinct_NoDup. apply Hb. Qed.
  Lemma add_strings b s : basis_mem b s = false -> b_strings (basis_iadd_string b s) = b_strings b ++ [s].
  Proof. intros E. unfold basis_iadd_string. rewrite E. reflexivity. Qed.

  (* ------------------------------------------------------------ adding terms *)
  Lemma add_terms_spec k ext cb : std_list ty (b_strings ext) -> NoDup (b_strings ext) -> forall inds n b b', std_basis ty b -> NoDup inds -> n < k ->
    (forall i s, In i inds -> nth_error (b_strings ext) i = Some s -> cb i = negb (basis_mem b s)) ->
    add_terms k ext inds n b = Ok b' ->
    exists new, b_strings b' = b_strings b ++ new /\ Forall2 (fun i s => nth_error (b_strings ext) i = Some s) (firstn (k - n) (filter cb inds)) new.
  Proof.
    intros He Hd. induction inds as [|i inds IH]; intros n b b' Hb Hn Hk Hc E; cbn [add_terms] in E.
    - injection E as <-. exists []. rewrite app_nil_r. split; auto. cbn [filter]. rewrite firstn_nil. constructor.
    - destruct (nth_error (b_strings ext) i) as [s|] eqn:N; [|discriminate]. cbn [of_option rbind] in E. apply NoDup_cons_iff in Hn. destruct Hn as [Ni Hn].
      assert (Hs : string_ok ty s /\ std s) by (apply He; eapply nth_error_In; eauto).
      pose proof (Hc i s (or_introl eq_refl) N) as Ci. cbn [filter]. destruct (basis_mem b s) eqn:Mb; cbn [negb] in Ci; rewrite Ci.
      + destruct (k <=? n) eqn:Ek; [apply Nat.leb_le in Ek; lia|]. apply (IH n b b'); auto. intros; apply Hc; auto. right; auto.
      + replace (k - n) with (S (k - S n)) by lia. cbn [firstn].
        destruct (k <=? S n) eqn:Ek.
        * injection E as <-. apply Nat.leb_le in Ek. replace (k - S n) with 0 by lia. exists [s]. rewrite add_strings by auto. split; auto. constructor; auto. constructor.
        * apply Nat.leb_gt in Ek. apply IH in E; auto; [|apply std_add; tauto|].
          -- destruct E as (new & E1 & E2). exists (s :: new). rewrite E1, add_strings, <- app_assoc by auto. split; auto.
          -- intros j t Hj Nj. rewrite (Hc j t (or_intror Hj) Nj). f_equal.
             assert (Ht : string_ok ty t /\ std t) by (apply He; eapply nth_error_In; eauto).
             apply eq_true_iff_eq. rewrite !std_mem; auto; [|apply std_add; tauto|tauto|tauto]. rewrite add_strings by auto. rewrite in_app_iff. split; [auto|].
             intros [F|[F|[]]]; auto. subst t. exfalso. apply Ni. rewrite NoDup_nth_error in Hd. rewrite (Hd i j); auto; [apply nth_error_Some; congruence | congruence].
  Qed.

  Lemma commutator_terms_of b x L ext x' v : std_basis ty b -> cok x -> explore b H x None = Ok (L, ext, x') -> length v = basis_len b ->
    commutator_terms ty H (combine v (b_strings b)) (combine (rows_vec (dense_rows L) v) (b_strings ext)) /\
    length (rows_vec (dense_rows L) v) = length (b_strings ext) /\ canonical_basis ty ext.
  Proof.
    intros Hb Hc E Lv. destruct (explore_main ty H Hty HH _ _ _ _ _ Hc Hb E) as (_ & _ & HC & R1 & R2 & D).
    assert (Er : rows_vec (dense_rows L) v = mat_vec (basis_len ext) (dense_cols L) v).
    { rewrite <- R1. apply rows_cols. exact (eq_trans Lv (eq_sym R2)). }
    assert (Lr : length (rows_vec (dense_rows L) v) = length (b_strings ext)).
    { rewrite Er. apply (mat_vec_length (basis_len ext)). rewrite <- R1. apply dense_cols_vectors. }
    split; [|auto]. split; [exists ext; split; auto; apply map_snd_combine; auto|]. intros A Sc g Hr. rewrite Er. apply D; auto.
  Qed.

  (* ---------------------------------------------------- growing by commutators *)
  Lemma grow_commutators_spec Or nH b o x b' x' : sorts_reals (gr_sort Or) -> std_basis ty b -> cok x -> b_strings (c_basis o) = b_strings b -> length (c_coeffs o) = basis_len b ->
    grow_commutators Or H [H] nH b o x = Ok (b', x') ->
    exists t1 a t2 new, commutator_terms ty H (c_terms o) t1 /\ picks nH (fun _ => True) t1 a /\ commutator_terms ty H a t2 /\
      picks nH (fun t => ~ In (snd t) (b_strings b)) t2 new /\ b_strings b' = b_strings b ++ map snd new.
  Proof.
    intros Hs Hb Hc Eo Lo E. unfold grow_commutators in E. destruct (explore b H x None) as [[[L ext] x1]|] eqn:Ex; [|discriminate]. cbn [rbind] in E.
    destruct (commutator_terms_of _ _ _ _ _ (c_coeffs o) Hb Hc Ex Lo) as (CT & Lv & HC).
    destruct (explore_main ty H Hty HH _ _ _ _ _ Hc Hb Ex) as (Hc1 & _).
    destruct (negb _); [discriminate|]. set (v := rows_vec (dense_rows L) (c_coeffs o)) in *. set (inds := largest_first Or v) in *.
    pose proof (largest_first_ok Or v (b_strings ext) Hs Lv) as Dsc. fold inds in Dsc.
    assert (Em : firstn (Nat.min (length inds) nH) inds = firstn nH inds). { destruct (Nat.le_ge_cases (length inds) nH); [rewrite Nat.min_l by auto; rewrite !firstn_all2; auto | rewrite Nat.min_r; auto]. }
    rewrite Em in E. destruct (take (b_strings ext) (firstn nH inds)) as [sA|] eqn:Et; [|discriminate]. cbn [rbind] in E.
    destruct (basis_new sA) as [A|] eqn:EA; [|discriminate]. cbn [rbind] in E.
    destruct (take v (firstn nH inds)) as [cA|] eqn:Ev; [|discriminate]. cbn [rbind] in E.
    destruct (take_combine _ _ _ _ _ Ev Et) as [FA LA].
    assert (HA : std_basis ty A). { apply (std_new ty sA); auto. intros s Hin. apply (canonical_list ty ext HC). eapply take_in; eauto. }
    destruct (basis_new_ok _ _ EA) as [EsA _].
    cbn [rfold] in E. destruct (grow_com Or nH A cA (b, x1) H) as [acc|] eqn:Eg; [|discriminate]. cbn [rbind] in E. injection E as ->.
    unfold grow_com in Eg. cbn [fst snd] in Eg. destruct (explore A H x1 None) as [[[L2 ext2] x2]|] eqn:Ex2; [|discriminate]. cbn [rbind] in Eg.
    assert (LcA : length cA = basis_len A) by (unfold basis_len; rewrite EsA; exact LA).
    destruct (commutator_terms_of _ _ _ _ _ cA HA Hc1 Ex2 LcA) as (CT2 & Lv2 & HC2). rewrite EsA in CT2.
    set (v2 := rows_vec (dense_rows L2) cA) in *.
    pose proof (largest_first_ok Or v2 (b_strings ext2) Hs Lv2) as Dsc2. set (inds2 := largest_first Or v2) in *.
    destruct (add_terms (Nat.min (length v2) nH) ext2 inds2 0 b) as [b1|] eqn:Ea; [|discriminate]. cbn [rbind] in Eg. injection Eg as <- _.
    exists (combine v (b_strings ext)), (combine cA sA), (combine v2 (b_strings ext2)).
    assert (CT' : commutator_terms ty H (c_terms o) (combine v (b_strings ext))) by (unfold c_terms; rewrite Eo; exact CT).
    assert (PA : picks nH (fun _ => True) (combine v (b_strings ext)) (combine cA sA)).
    { apply (picks_firstn nH _ _ inds (fun _ => true) (firstn nH inds)); auto; [intros; tauto|].
      f_equal. clear. induction inds as [|i l IH]; auto. cbn [filter]. f_equal; auto. }
    assert (Li : length inds2 = length v2). { rewrite (Permutation_length (proj1 Dsc2)), seq_length, combine_length. unfold vec in *. lia. }
    set (cb := fun i => match nth_error (b_strings ext2) i with Some s => negb (basis_mem b s) | None => true end).
    assert (Hsub : forall i t, nth_error (combine v2 (b_strings ext2)) i = Some t -> (cb i = true <-> ~ In (snd t) (b_strings b))).
    { intros i [c s] Ei. apply combine_nth_error in Ei. destruct Ei as [_ Ei]. unfold cb. rewrite Ei. cbn [snd].
      rewrite <- (std_mem b s Hb) by (apply (canonical_list ty ext2 HC2); eapply nth_error_In; eauto). rewrite negb_true_iff. destruct (basis_mem b s); split; congruence. }
    destruct (Nat.eq_dec (Nat.min (length v2) nH) 0) as [K0|K0].
    - assert (Ei : inds2 = []).
      { destruct (length v2) as [|m] eqn:Em2; [apply length_zero_iff_nil; congruence|]. assert (nH = 0) by lia. subst nH. exfalso.
        cbn [firstn] in Et, Ev. unfold take in Et. cbn [rmap] in Et. injection Et as <-.
        pose proof (explore_nothing _ _ _ _ _ _ EsA Ex2) as En.
        unfold basis_len in En. unfold vec in *. lia. }
      rewrite Ei in Ea. cbn [add_terms] in Ea. injection Ea as <-. exists []. split; auto. split; auto. split; auto. cbn [map]. rewrite app_nil_r. split; auto.
      apply (picks_firstn nH _ _ inds2 cb []); auto. rewrite Ei. cbn. rewrite firstn_nil. auto.
    - apply (add_terms_spec _ ext2 cb (canonical_list ty ext2 HC2)) in Ea; auto; [|apply (canonical_distinct ty ext2 HC2)| |lia|].
      + destruct Ea as (new & N1 & N2). rewrite Nat.sub_0_r in N2.
        replace (firstn (Nat.min (length v2) nH) (filter cb inds2)) with (firstn nH (filter cb inds2)) in N2.
        2:{ destruct (Nat.le_ge_cases (length v2) nH); [rewrite Nat.min_l by auto | rewrite Nat.min_r by auto; auto].
            assert (length (filter cb inds2) <= length v2) by (rewrite <- Li; apply filter_short). rewrite !firstn_all2 by (unfold vec in *; lia). auto. }
        assert (G : exists cs, length cs = length new /\ Forall2 (fun i t => nth_error (combine v2 (b_strings ext2)) i = Some t) (firstn nH (filter cb inds2)) (combine cs new)).
        { clear - N2 Lv2. induction N2 as [|i s l new E F IH]; [exists []; split; constructor|]. destruct IH as (cs & I1 & I2).
          destruct (nth_error v2 i) as [c|] eqn:Ec.
          - exists (c :: cs). split; [cbn; auto|]. constructor; auto. apply nth_combine; auto.
          - exfalso. apply nth_error_None in Ec. assert (i < length (b_strings ext2)) by (apply nth_error_Some; congruence). unfold vec in *. lia. }
        destruct G as (cs & G1 & G2). exists (combine cs new). rewrite map_snd_combine by auto. split; auto. split; auto. split; auto. split; auto.
        apply (picks_firstn nH _ _ inds2 cb (firstn nH (filter cb inds2))); auto.
      + eapply Permutation_NoDup; [apply Permutation_sym, (proj1 Dsc2) | apply seq_NoDup].
      + intros i s _ Ei. unfold cb. rewrite Ei. auto.
  Qed.

  (* ------------------------------------------------ growing by anticommutators *)
  Lemma anti_unique s t c oc u : mode_result ty MAnticommutator s t c oc -> anticommutes_to ty s t u -> oc = Some u.
  Proof.
    intros R (Hu & Hcu & d & Hd & Du). pose proof (fock_rep ty Hty) as Hr. pose proof (mr_den _ _ _ _ _ _ R Fock fock_gen Hr) as D1.
    pose proof (Du Fock fock_gen Hr) as D2. destruct oc as [w|].
    - destruct (mr_some _ _ _ _ _ _ R w eq_refl) as (_ & Hw & Hcw & _). f_equal. symmetry.
      apply (multiple_unique ty fock_gen d c u w Hr fock_nontrivial); auto. rewrite <- D2. exact D1.
    - exfalso. apply Hd. destruct (multiple_unique ty fock_gen d g0 u u Hr fock_nontrivial) as [E _]; auto.
      rewrite <- D2, D1. symmetry. apply ascal_0.
  Qed.
  Lemma anti_found s t c u : mode_result ty MAnticommutator s t c (Some u) -> anticommutes_to ty s t u /\ abs_gtb c tol16 = true.
  Proof.
    intros R. destruct (mr_some _ _ _ _ _ _ R u eq_refl) as ((k & _ & Hk & Hc) & Hu & Hcu & _). split.
    - split; auto. split; auto. exists c. split; [|intros A g Hr; apply (mr_den _ _ _ _ _ _ R A g Hr)].
      destruct Hk as [<-|[<-|[<-|[<-|[]]]]]; destruct Hc as [-> | ->]; intros F; vm_compute in F; discriminate.
    - destruct Hk as [<-|[<-|[<-|[<-|[]]]]]; destruct Hc as [-> | ->]; vm_compute; reflexivity.
  Qed.
  Lemma anti_run k : forall ps b added stop b' added' stop', (forall p, In p ps -> string_ok ty (fst p) /\ string_ok ty (snd p)) -> std_basis ty b ->
    stop = (k <=? length added) -> rfold (anti_add k) ps (b, added, stop) = Ok (b', added', stop') ->
    exists new, b_strings b' = b_strings b ++ new /\ added' = added ++ new /\ (length added <= k -> length added' <= k) /\
      (forall u, In u new -> ~ In u (b_strings b) /\ exists p, In p ps /\ anticommutes_to ty (fst p) (snd p) u) /\
      (length added' < k -> forall p u, In p ps -> anticommutes_to ty (fst p) (snd p) u -> In u (b_strings b')).
  Proof.
    induction ps as [|p ps IH]; intros b added stop b' added' stop' Hp Hb Es E; cbn [rfold] in E.
    - injection E as <- <- <-. exists []. rewrite !app_nil_r. do 3 (split; [auto|]). split; [intros u []|intros _ p u []].
    - destruct (anti_add k (b, added, stop) p) as [[[b1 a1] s1]|] eqn:Ea; [|discriminate]. cbn [rbind] in E.
      destruct (Hp p (or_introl eq_refl)) as [P1 P2]. pose proof (fun q Hq => Hp q (or_intror Hq)) as Hp'.
      assert (Hb1 : std_basis ty b1) by exact (proj1 (anti_add_ok ty Hty k (b, added, stop) p (b1, a1, s1) Hb P1 P2 Ea)).
      unfold anti_add in Ea. destruct stop.
      + injection Ea as <- <- <-. destruct (IH _ _ _ _ _ _ Hp' Hb Es E) as (new & N1 & N2 & N3 & N4 & N5). exists new. do 3 (split; [auto|]).
        split; [intros u Hu; destruct (N4 u Hu) as [U1 (q & U2 & U3)]; split; auto; exists q; split; auto; right; auto|].
        intros L. exfalso. symmetry in Es. apply Nat.leb_le in Es. rewrite N2, app_length in L. lia.
      + destruct (mode_spec ty MAnticommutator (fst p) (snd p) Hty P1 P2) as (c & os3 & R). rewrite (mr_run _ _ _ _ _ _ R) in Ea. cbn [rbind] in Ea.
        symmetry in Es. apply Nat.leb_gt in Es.
        assert (Keep : b1 = b -> a1 = added -> s1 = (k <=? length a1) -> (forall u, anticommutes_to ty (fst p) (snd p) u -> In u (b_strings b)) ->
          exists new, b_strings b' = b_strings b ++ new /\ added' = added ++ new /\ (length added <= k -> length added' <= k) /\
            (forall u, In u new -> ~ In u (b_strings b) /\ exists q, In q (p :: ps) /\ anticommutes_to ty (fst q) (snd q) u) /\
            (length added' < k -> forall q u, In q (p :: ps) -> anticommutes_to ty (fst q) (snd q) u -> In u (b_strings b'))).
        { intros -> -> Es1 Hk. destruct (IH _ _ _ _ _ _ Hp' Hb Es1 E) as (new & N1 & N2 & N3 & N4 & N5). exists new. do 3 (split; [auto|]).
          split; [intros u Hu; destruct (N4 u Hu) as [U1 (q & U2 & U3)]; split; auto; exists q; split; auto; right; auto|].
          intros L q u [<-|Hq] Hu; [rewrite N1; apply in_or_app; left; auto | eapply N5; eauto]. }
        destruct os3 as [s|].
        * destruct (anti_found _ _ _ _ R) as [As Ag]. rewrite Ag in Ea. cbn [andb] in Ea.
          destruct (mr_some _ _ _ _ _ _ R s eq_refl) as (_ & Hs & Hcs & _). pose proof (canonical_std _ Hcs) as Hss.
          assert (Only : forall u, anticommutes_to ty (fst p) (snd p) u -> u = s) by (intros u Hu; pose proof (anti_unique _ _ _ _ _ R Hu) as Q; congruence).
          destruct (basis_mem b s) eqn:Mb; cbn [negb] in Ea; injection Ea as <- <- <-.
          -- apply Keep; auto. intros u Hu. rewrite (Only u Hu). apply (std_mem b s Hb); auto.
          -- destruct (IH _ _ _ _ _ _ Hp' Hb1 eq_refl E) as (new & N1 & N2 & N3 & N4 & N5). rewrite add_strings in N1, N4 by auto.
             exists (s :: new). rewrite N1, N2, <- !app_assoc. do 2 (split; [auto|]).
             assert (Ns : ~ In s (b_strings b)) by (intros F; apply (std_mem b s Hb Hss) in F; congruence).
             split; [intros _; rewrite app_assoc, <- N2; apply N3; rewrite app_length; cbn; lia|]. split.
             ++ intros u [<-|Hu]; [split; auto; exists p; split; auto; left; auto|]. destruct (N4 u Hu) as [U1 (q & U2 & U3)].
                split; [intros F; apply U1, in_or_app; auto | exists q; split; auto; right; auto].
             ++ intros L q u [<-|Hq] Hu; [rewrite (Only u Hu); apply in_or_app; right; left; auto|].
                assert (Z : In u (b_strings b')) by (apply (N5) with (p := q); auto; rewrite N2, <- app_assoc; exact L).
                rewrite N1, <- app_assoc in Z. exact Z.
        * injection Ea as <- <- <-. apply Keep; auto. intros u Hu. pose proof (anti_unique _ _ _ _ _ R Hu). discriminate.
  Qed.

  Lemma grow_anticommutators_spec Or nO o b b' : sorts_reals (gr_sort Or) -> std_list ty (b_strings (c_basis o)) -> NoDup (b_strings (c_basis o)) ->
    length (c_coeffs o) = basis_len (c_basis o) -> std_basis ty b -> grow_anticommutators Or nO o b = Ok b' ->
    exists n1 n2, let k := Nat.min (length (c_terms o)) nO in
      anti_new ty k (fun s t => In s (map snd (c_terms o)) /\ In t (map snd (c_terms o)) /\ s <> t) (b_strings b) n1 /\
      anti_new ty k (fun s t => In s (map snd (c_terms o)) /\ In t n1) (b_strings b ++ n1) n2 /\ b_strings b' = b_strings b ++ n1 ++ n2.
  Proof.
    intros Hs Ho Hnd Lo Hb E. unfold grow_anticommutators in E.
    assert (Lt : length (c_terms o) = length (c_coeffs o)) by (unfold c_terms; rewrite combine_length; unfold basis_len in Lo; lia). rewrite Lt.
    assert (Es : map snd (c_terms o) = b_strings (c_basis o)) by (apply map_snd_combine; exact Lo). rewrite Es.
    set (k := Nat.min (length (c_coeffs o)) nO) in *. cbv zeta. pose proof (largest_first_ok Or (c_coeffs o) (b_strings (c_basis o)) Hs Lo) as [P _].
    destruct (take _ _) as [ss|] eqn:Et; [|discriminate]. cbn [rbind] in E.
    set (inds := largest_first Or (c_coeffs o)) in *.
    assert (Iss : forall s, In s ss <-> In s (b_strings (c_basis o))).
    { intros s. split; [apply (take_in _ _ _ Et)|]. intros Hi. apply In_nth_error in Hi. destruct Hi as (i & Hi). pose proof (take_nth _ _ _ Et) as F.
      assert (Ii : In i inds). { apply (Permutation_in i (Permutation_sym P)), in_seq. rewrite combine_length. assert (i < length (b_strings (c_basis o))) by (apply nth_error_Some; congruence). unfold basis_len in Lo. lia. }
      clear - F Ii Hi. induction F as [|j x l m E F IH]; [destruct Ii|]. destruct Ii as [<-|Ii]; [left; congruence | right; auto]. }
    assert (NDs : NoDup ss).
    { pose proof (take_nth _ _ _ Et) as F. assert (NDi : NoDup inds) by (eapply Permutation_NoDup; [apply Permutation_sym; eauto | apply seq_NoDup]).
      clear - F NDi Hnd. induction F as [|j x l m E F IH]; [constructor|]. apply NoDup_cons_iff in NDi. destruct NDi as [N1 N2]. constructor; auto. intros Hx. apply N1.
      rewrite NoDup_nth_error in Hnd.
      clear - F Hx Hnd E. induction F as [|i y l m E2 F IH]; [destruct Hx|]. destruct Hx as [->|Hx]; [left; apply Hnd; [apply nth_error_Some; congruence | congruence] | right; auto]. }
    destruct (k =? 0) eqn:Ek.
    { injection E as <-. apply Nat.eqb_eq in Ek. exists [], []. rewrite !app_nil_r, Ek.
      split; [split; [auto|]; split; [intros u []|intros F; inversion F]|]. split; auto. split; [auto|]. split; [intros u []|intros F; inversion F]. }
    apply Nat.eqb_neq in Ek. set (iss := combine (seq 0 (length ss)) ss) in E.
    assert (Hss : forall s, In s ss -> string_ok ty s) by (intros s Hin; apply Ho, Iss; auto).
    set (ps1 := flat_map _ iss) in E.
    assert (Hps : forall s t, In (s, t) ps1 <-> In s ss /\ In t ss /\ s <> t).
    { assert (Ii : forall i s, In (i, s) iss <-> nth_error ss i = Some s).
      { unfold iss. assert (G : forall (l : list OS) a i s, In (i, s) (combine (seq a (length l)) l) <-> a <= i /\ nth_error l (i - a) = Some s).
        { induction l as [|x l IH]; intros a i s; cbn [length seq combine].
          - split; [intros [] | intros [_ F]; destruct (i - a); discriminate].
          - split.
            + intros [F|F]; [injection F as -> ->; rewrite Nat.sub_diag; split; auto | apply IH in F; destruct F as [F1 F2]; split; [lia|]; replace (i - a) with (S (i - S a)) by lia; auto].
            + intros [F1 F2]. destruct (Nat.eq_dec i a) as [->|N]; [rewrite Nat.sub_diag in F2; cbn in F2; injection F2 as ->; left; auto|].
              right. apply IH. split; [lia|]. replace (i - a) with (S (i - S a)) in F2 by lia. auto. }
        intros i s. rewrite G, Nat.sub_0_r. split; [tauto | split; [lia | auto]]. }
      intros s t. unfold ps1. rewrite in_flat_map. split.
      - intros ((i & s') & Hi & Hq). apply in_flat_map in Hq. destruct Hq as ((j & t') & Hj & Hq). cbn [fst snd] in Hq. destruct (j =? i) eqn:Eij; [destruct Hq|]. destruct Hq as [Hq|[]]. injection Hq as -> ->.
        apply Nat.eqb_neq in Eij. apply Ii in Hi, Hj. split; [eapply nth_error_In; eauto|]. split; [eapply nth_error_In; eauto|]. intros F. subst t. apply Eij.
        rewrite NoDup_nth_error in NDs. apply NDs; [apply nth_error_Some; congruence | congruence].
      - intros (H1 & H2 & H3). apply In_nth_error in H1, H2. destruct H1 as (i & H1), H2 as (j & H2). exists (i, s). split; [apply Ii; auto|]. apply in_flat_map. exists (j, t). split; [apply Ii; auto|].
        cbn [fst snd]. destruct (j =? i) eqn:Eij; [|left; auto]. apply Nat.eqb_eq in Eij. exfalso. congruence. }
    destruct (rfold (anti_add k) ps1 (b, [], false)) as [[[b1 n1] st1]|] eqn:E1; [|discriminate]. cbn [rbind fst snd] in E.
    destruct (rfold (anti_add k) _ (b1, [], false)) as [[[b2 n2] st2]|] eqn:E2; [|discriminate]. cbn [rbind fst snd] in E. injection E as <-.
    assert (K0 : false = (k <=? length (@nil OS))) by (symmetry; apply Nat.leb_gt; cbn; lia).
    assert (Hp1 : forall p, In p ps1 -> string_ok ty (fst p) /\ string_ok ty (snd p)) by (intros [s t] Hin; apply Hps in Hin; cbn; split; apply Hss; tauto).
    destruct (anti_fold ty Hty k ps1 (b, [], false) (b1, n1, st1) Hp1 Hb (fun s F => match F with end) E1) as [Hb1 Hn1]. cbn [fst snd] in Hb1, Hn1.
    destruct (anti_run k ps1 b [] false b1 n1 st1 Hp1 Hb K0 E1) as (m1 & M1 & M2 & M3 & M4 & M5). cbn [app] in M2. subst m1.
    set (ps2 := flat_map _ ss) in E2.
    assert (Hps2 : forall s t, In (s, t) ps2 <-> In s ss /\ In t n1).
    { intros s t. unfold ps2. rewrite in_flat_map. split.
      - intros (s' & Hs' & Hq). apply in_map_iff in Hq. destruct Hq as (t' & F & Ht). injection F as -> ->. auto.
      - intros [H1 H2]. exists s. split; auto. apply in_map_iff. exists t. auto. }
    assert (Hp2 : forall p, In p ps2 -> string_ok ty (fst p) /\ string_ok ty (snd p)) by (intros [s t] Hin; apply Hps2 in Hin; cbn; split; [apply Hss | apply Hn1]; tauto).
    destruct (anti_run k ps2 b1 [] false b2 n2 st2 Hp2 Hb1 K0 E2) as (m2 & Q1 & Q2 & Q3 & Q4 & Q5). cbn [app] in Q2. subst m2.
    exists n1, n2. rewrite M1 in Q1, Q4. split; [|split].
    - split; [apply M3; cbn; lia|]. split.
      + intros u Hu. destruct (M4 u Hu) as [U1 ([s t] & U2 & U3)]. split; auto. exists s, t. apply Hps in U2. rewrite <- !Iss. auto.
      + intros L s t u (S1 & S2 & S3) Hu. rewrite <- Iss in S1, S2. apply in_app_or. rewrite <- M1. apply (M5 L (s, t)); auto. apply Hps; auto.
    - split; [apply Q3; cbn; lia|]. split.
      + intros u Hu. destruct (Q4 u Hu) as [U1 ([s t] & U2 & U3)]. split; auto. exists s, t. apply Hps2 in U2. rewrite <- Iss. auto.
      + intros L s t u (S1 & S2) Hu. rewrite <- Iss in S1. apply in_app_or. rewrite <- Q1. apply (Q5 L (s, t)); auto. apply Hps2; auto.
    - rewrite Q1, app_assoc. auto.
  Qed.
End Search.
