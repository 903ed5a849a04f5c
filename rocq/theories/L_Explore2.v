(** Proofs about the caching exploration: the update keeps the invariant. *)
From Coq Require Import String List ZArith Bool Arith Lia Sorted Permutation QArith Qcanon.
From Verif Require Import GC Exn S_Alg S_Den S_Basis S_Built S_OpAlg S_Explore M_OpString M_Algebra M_Basis M_OpAlg M_Explore
  L_Alg L_StrAlg L_StrOp L_Indep L_PropStr L_Basis L_Operator L_Heap L_PropBasis L_OpAlg L_Struct L_Explore.
Import ListNotations.
Local Open Scope nat_scope.

Lemma append_new_disjoint l m r : append_new l m r -> (forall s, In s (l ++ m) -> std s) -> NoDup (l ++ m) -> r = l ++ m.
Proof.
  induction 1 as [l|l s m r H A IH|l s m r H A IH]; intros Hs Hn.
  - rewrite app_nil_r; auto.
  - exfalso. destruct H as (t & Ht & K).
    assert (t = s) by (apply std_key; auto; apply Hs; apply in_or_app; [left | right; left]; auto). subst t.
    apply (NoDup_remove_2 _ _ _ Hn). apply in_or_app. auto.
  - replace (l ++ s :: m) with ((l ++ [s]) ++ m) in * by (rewrite <- app_assoc; auto). auto.
Qed.
Lemma NoDup_app3 {T} (a b : list T) : NoDup a -> NoDup b -> (forall x, In x a -> In x b -> False) -> NoDup (a ++ b).
Proof.
  induction a as [|x a IH]; intros Ha Hb Hd; auto. cbn [app]. inversion Ha as [|? ? H1 H2]; subst. constructor.
  - intros H. apply in_app_or in H. destruct H as [H|H]; auto. apply (Hd x); auto. left; auto.
  - apply IH; auto. intros y Hy. apply Hd. right; auto.
Qed.
Lemma std_nodup b : basis_ok b -> NoDup (b_strings b).
Proof. intros [H _]. apply distinct_NoDup; auto. Qed.

Lemma rmap_rel {T U V} (f : T -> res U) (R : T -> V -> Prop) (Q : U -> V -> Prop) ts vs : Forall2 R ts vs ->
  (forall t v, R t v -> exists u, f t = Ok u /\ Q u v) -> exists us, rmap f ts = Ok us /\ Forall2 Q us vs.
Proof.
  intros F H. induction F as [|t v ts vs Hr F IH]; [exists []; split; [reflexivity | constructor]|].
  destruct (H t v Hr) as (u & E & Hq). destruct IH as (us & Es & Fs). exists (u :: us). cbn [rmap]. rewrite E. cbn [rbind]. rewrite Es.
  split; [reflexivity | constructor; auto].
Qed.

Section Update.
  Variables (ty : optype).
  Hypothesis Hty : ty <> Fermion.

  Lemma canon_std C c : canon_ok ty C -> In c (b_strings C) -> std c.
  Proof. intros [_ H] Hc. apply canonical_std. apply H; auto. Qed.

  Lemma update_fold ud U UE X E (Us : list OS) : 
    basis_ok X -> (forall s, In s (b_strings X) -> std s) -> (forall s, In s Us -> In s (b_strings X)) ->
    canon_ok ty E -> (forall s, In s (b_strings UE) -> In s (b_strings E)) -> b_strings U = Us ->
    forall terms d0 old,
    distinct_keys (map snd terms) ->
    (forall t, In t terms -> exists uts, dget os_key ud (snd t) = Some uts /\ decode (b_strings UE) Us uts (comms (snd t) Us)) ->
    (forall t, In t terms -> decode (b_strings E) (b_strings X) (old_data d0 (snd t)) (old (snd t))) ->
    exists d, rfold (update_data ud U UE X E) terms d0 = Ok d /\
      (forall t, In t terms -> exists ts, dget os_key d (snd t) = Some ts /\ decode (b_strings E) (b_strings X) ts (old (snd t) ++ comms (snd t) Us)) /\
      (forall s, (forall t, In t terms -> ~ same_key (snd t) s) -> dget os_key d s = dget os_key d0 s).
  Proof.
    intros HX SX HU HE HUE EU. subst Us.
    induction terms as [|[c s] terms IH]; intros d0 old Hd Hud Hold.
    - exists d0. split; [reflexivity|]. split; [intros t []|]. auto.
    - cbn [rfold]. unfold update_data at 1. cbn [snd].
      destruct (Hud (c, s) (or_introl eq_refl)) as (uts & Eu & Du). cbn [snd] in Eu, Du. rewrite Eu. cbn [of_option rbind].
      destruct (rmap_rel (relocate U UE X E) (stands (b_strings UE) (b_strings U)) (stands (b_strings E) (b_strings X)) uts (comms s (b_strings U)) Du) as (new & En & Fn).
      { intros t u (H1 & H2 & H3). unfold relocate. rewrite H1. cbn [of_option rbind].
        assert (I1 : In (fst (fst u)) (b_strings E)) by (apply HUE; eapply nth_error_In; eauto).
        destruct (basis_index_in E _ (proj1 HE) I1) as (r & Er & Nr). rewrite Er. cbn [rbind]. rewrite H2. cbn [of_option rbind].
        assert (I2 : In (snd (fst u)) (b_strings X)) by (apply HU; eapply nth_error_In; eauto).
        destruct (basis_index_in X _ HX I2) as (k & Ek & Nk). rewrite Ek. cbn [rbind]. eexists. split; [reflexivity|].
        split; [|split]; cbn [fst snd]; auto. }
      rewrite En. cbn [rbind].
      assert (Hd' : distinct_keys (map snd terms) /\ forall t, In t terms -> ~ same_key s (snd t)).
      { cbn [map snd] in Hd. change (s :: map snd terms) with ([s] ++ map snd terms) in Hd. apply distinct_app in Hd. destruct Hd as (_ & H1 & H2).
        split; auto. intros t Ht. apply H2; [left; auto | apply in_map; auto]. }
      destruct Hd' as [Hd1 Hd2].
      destruct (IH (dset os_key d0 s (old_data d0 s ++ new)) old Hd1) as (d & Ed & G1 & G2).
      + intros t Ht. apply Hud. right; auto.
      + intros t Ht. assert (Eo : old_data (dset os_key d0 s (old_data d0 s ++ new)) (snd t) = old_data d0 (snd t)).
        { unfold old_data at 1. rewrite dget_dset. destruct (os_key s (snd t)) eqn:K; [|reflexivity].
          exfalso. apply os_key_spec in K. apply (Hd2 t Ht K). }
        rewrite Eo. apply Hold. right; auto.
      + exists d. split; auto. split.
        * intros t [<-|Ht]; auto. cbn [snd]. exists (old_data d0 s ++ new). split.
          -- rewrite G2, dget_dset, os_key_refl; auto. intros t Ht K. apply (Hd2 t Ht). apply same_key_sym; auto.
          -- apply Forall2_app; auto. apply (Hold (c, s)). left; auto.
        * intros s' Hs'. rewrite G2 by (intros t Ht; apply Hs'; right; auto). rewrite dget_dset.
          destruct (os_key s s') eqn:K; auto. exfalso. apply os_key_spec in K. apply (Hs' (c, s)); [left|]; auto.
  Qed.

  Lemma made_terms o : made o -> map snd (op_terms o) = b_strings (o_basis o) /\ basis_ok (o_basis o).
  Proof.
    intros (cs & l & y & Hl & E). unfold op_new in E. destruct (basis_new l) as [b|] eqn:Eb; [|discriminate]. cbn [rbind] in E.
    apply basis_new_ok in Eb. destruct Eb as [<- Hb].
    assert (o_coeffs o = cs /\ o_basis o = b).
    { unfold op_of_basis in E. destruct (b_strings b); [destruct y; [|discriminate]|]; injection E as <-; auto. }
    destruct H as [<- <-]. split; auto. unfold op_terms. clear - Hl. revert Hl. generalize (o_coeffs o), (b_strings (o_basis o)).
    induction l as [|c l IH]; intros [|x m] H; cbn in *; try discriminate; auto. f_equal. auto.
  Qed.

  Theorem explore_update_ok H st b : std_op ty H -> cache_ok ty (b_strings (o_basis H)) st -> std_basis ty b ->
    exists st', explore_update b H st = Ok st' /\ cache_ok ty (b_strings (o_basis H)) st' /\
      (forall s, In s (b_strings b) -> In s (b_strings (x_basis st'))) /\
      (forall s, In s (b_strings (o_basis H)) -> exists ts, dget os_key (x_data st') s = Some ts) /\
      forall s, (forall t, In t (b_strings (o_basis H)) -> ~ same_key t s) -> dget os_key (x_data st') s = dget os_key (x_data st) s.
  Proof.
    intros [(Hm & HtH & HsH) HstdH] (HX & SX & HE & HD) [(Hb & Hbs) Hstd].
    apply built_iff in Hb. destruct (made_terms H Hm) as [ET HbH]. unfold explore_update.
    set (Us := filter (fun s => negb (basis_mem (x_basis st) s)) (b_strings b)).
    assert (IU : forall s, In s Us <-> In s (b_strings b) /\ ~ In s (b_strings (x_basis st))).
    { intros s. unfold Us. rewrite filter_In, negb_true_iff. split.
      - intros [H1 H2]. split; auto. intros F. apply (mem_std _ s) in F; auto; try congruence. intros t Ht; apply SX; auto.
      - intros [H1 H2]. split; auto. destruct (basis_mem (x_basis st) s) eqn:E; auto. exfalso. apply H2.
        apply (mem_std _ s) in E; auto. intros t Ht; apply SX; auto. }
    assert (NU : NoDup Us) by (apply NoDup_filter, std_nodup; auto).
    assert (SU : forall s, In s Us -> std s) by (intros s Hs; apply Hstd; apply IU; auto).
    destruct (proj1 (basis_new_spec Us) (std_distinct Us SU NU)) as (U & EU & SUs & HU). rewrite EU. cbn [rbind].
    unfold structure_data. rewrite SUs.
    destruct (sc_outer_decode ty Hty Us) with (Bs := b_strings (o_basis H)) (C := basis_empty) (md := @nil (OS * list (nat * nat * GC))) as (UE & ud & Eo & HUE & Em & Hdec).
    { intros S HS. apply Hbs. apply IU; auto. } { auto. } { apply HbH. } { split; [apply basis_ok_empty | intros c []]. } { intros B ts []. }
    cbn [app] in Eo, Hdec. rewrite Eo. cbn [rbind].
    set (X := basis_iadd (x_basis st) U). set (E := basis_iadd (x_ext st) UE).
    destruct (basis_iadd_ok (x_basis st) U HX) as [HX' AX]. destruct (basis_iadd_ok (x_ext st) UE (proj1 HE)) as [HE' AE]. fold X in HX', AX. fold E in HE', AE.
    rewrite SUs in AX. apply append_new_disjoint in AX.
    2:{ intros s Hs. apply in_app_or in Hs. destruct Hs; auto. apply SX; auto. }
    2:{ apply NoDup_app3; auto; [apply std_nodup; auto|]. intros s H1 H2. apply IU in H2. tauto. }
    assert (CE : canon_ok ty E).
    { split; auto. intros c Hc. destruct (append_new_in _ _ _ AE c Hc); [apply HE | apply HUE]; auto. }
    assert (IE : forall s, In s (b_strings UE) -> In s (b_strings E)).
    { intros s Hs. destruct (append_new_right _ _ _ AE s Hs) as (u & Hu & K). replace s with u; auto.
      apply std_key; auto; [apply (canon_std E u CE Hu) | apply (canon_std UE s HUE Hs)]. }
    destruct (append_new_prefix _ _ _ AE) as (DE & EDE).
    assert (SX' : forall s, In s (b_strings X) -> std s).
    { rewrite AX. intros s Hs. apply in_app_or in Hs. destruct Hs; auto. apply SX; auto. }
    destruct (update_fold ud U UE X E Us HX' SX') with (terms := op_terms H) (d0 := x_data st) (old := fun s => comms s (b_strings (x_basis st))) as (d & Ed & G1 & G2); auto.
    { rewrite AX. intros s Hs. apply in_or_app; auto. }
    { rewrite ET. apply HbH. }
    { intros t Ht. assert (Hs : In (snd t) (b_strings (o_basis H))) by (rewrite <- ET; apply in_map; auto).
      rewrite <- Em in Hs. apply in_map_iff in Hs. destruct Hs as ([s uts] & Es & Hin). cbn [fst] in Es. subst s.
      exists uts. split; [|apply Hdec; auto]. apply In_nth_error in Hin. destruct Hin as (i & Hi). eapply dget_nth; eauto. rewrite Em. apply HbH. }
    { intros t Ht. rewrite EDE, AX. apply decode_extend. apply HD. rewrite <- ET; apply in_map; auto. }
    rewrite Ed. cbn [rbind]. eexists. split; [reflexivity|]. cbn [x_basis x_ext x_data]. split; [|split; [|split] ].
    - split; [exact HX'|]. split; [|split; [exact CE|] ].
      + cbn [x_basis]. intros s Hs. split; [|apply SX'; auto]. rewrite AX in Hs. apply in_app_or in Hs. destruct Hs as [Hs|Hs]; [apply SX; auto|]. apply Hbs. apply IU; auto.
      + cbn [x_basis x_ext x_data]. intros s Hs. rewrite <- ET in Hs. apply in_map_iff in Hs. destruct Hs as (t & <- & Ht).
        destruct (G1 t Ht) as (ts & E1 & E2). unfold old_data. rewrite E1. rewrite AX at 2. rewrite comms_app. exact E2.
    - intros s Hs. rewrite AX. apply in_or_app. destruct (basis_mem (x_basis st) s) eqn:M.
      + left. apply (mem_std _ s) in M; auto. intros t Ht; apply SX; auto.
      + right. apply filter_In. rewrite M. auto.
    - intros s Hs. rewrite <- ET in Hs. apply in_map_iff in Hs. destruct Hs as (t & <- & Ht). destruct (G1 t Ht) as (ts & E1 & _). eauto.
    - intros s Hs. apply G2. intros t Ht. apply Hs. rewrite <- ET. apply in_map; auto.
  Qed.
End Update.
