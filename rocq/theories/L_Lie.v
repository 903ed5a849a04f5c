(** Termination and correctness of generate_lie_algebra on a Basis. *)
From Coq Require Import String List ZArith Bool Arith Lia Sorted QArith Qcanon.
From Verif Require Import GC Exn S_Alg S_Den S_Basis S_Built S_OpAlg M_OpString M_Algebra M_Basis M_OpAlg
  L_Alg L_StrAlg L_StrOp L_Indep L_PropStr L_Basis L_Operator L_Heap L_PropBasis L_OpAlg L_Sum L_Struct L_Commutant L_Jacobi.
Import ListNotations.
Local Open Scope nat_scope.

(* -------------------------------------------------------- finitely many canonical strings *)

Fixpoint words {T} (l : list T) (n : nat) : list (list T) :=
  match n with O => [[]] | S k => flat_map (fun x => map (cons x) (words l k)) l end.
Lemma in_words {T} (l : list T) w : (forall x, In x w -> In x l) -> In w (words l (length w)).
Proof.
  induction w as [|x w IH]; intros H; simpl; auto.
  apply in_flat_map. exists x. split; [apply H; simpl; auto|]. apply in_map. apply IH. intros; apply H; simpl; auto.
Qed.
Definition all_ops : list op := [OX; OY; OZ; OA; OB; OD; OCDag; OC].
Lemma in_all_ops ty o : is_op_of ty o = true -> In o all_ops.
Proof. intros H. destruct o; simpl; try tauto. destruct ty; discriminate. Qed.

Definition all_strings (ty : optype) (ls : list Z) : list OS :=
  flat_map (fun n => flat_map (fun lw => flat_map (fun ow => [mkOS ow lw ty p_one; mkOS ow lw ty p_j]) (words all_ops n)) (words ls n))
           (seq 0 (S (length ls))).

Lemma in_all_strings ty ls s : string_ok ty s -> canonical s -> (forall l, In l (os_labels s) -> In l ls) -> In s (all_strings ty ls).
Proof.
  intros (Ht & Hl & Ho & Hn & _) [_ Hp] Hls. destruct s as [ops labels y p]; cbn [os_ops os_labels os_type os_pref] in *. subst y.
  unfold all_strings. apply in_flat_map. exists (length labels). split.
  { apply in_seq. pose proof (NoDup_incl_length Hn Hls). lia. }
  apply in_flat_map. exists labels. split; [apply in_words; auto|].
  apply in_flat_map. exists ops. split; [rewrite <- Hl; apply in_words; intros o Hin; eapply in_all_ops; eauto|].
  destruct Hp as [-> | ->]; simpl; auto.
Qed.

(* -------------------------------------------------------- invariant *)

Lemma pair_mem_in p l : pair_mem p l = true <-> In p l.
Proof.
  unfold pair_mem. rewrite existsb_exists. split.
  - intros ([a b] & Hin & H). apply andb_true_iff in H. destruct H as [H1 H2]. apply Nat.eqb_eq in H1, H2.
    destruct p; simpl in *; subst; auto.
  - intros H. exists p. split; auto. rewrite !Nat.eqb_refl. auto.
Qed.

Lemma commutator_swap ty S T k c : ty <> Fermion -> string_ok ty S -> string_ok ty T ->
  commutator S T = Ok (k, Some c) -> exists k', commutator T S = Ok (k', Some c).
Proof.
  intros Hty HS HT H. destruct (operation_spec ty S T Hty HS HT) as (u & e & C & R).
  destruct (operation_spec ty T S Hty HT HS) as (u' & e' & C' & R').
  destruct (op_result_swap _ _ _ _ _ _ _ _ _ Hty R R') as (-> & -> & ->).
  rewrite (or_comm _ _ _ _ _ _ R) in H. rewrite (or_comm _ _ _ _ _ _ R'). destruct e; [|discriminate].
  injection H as _ <-. eauto.
Qed.

Section Lie.
  Variables (ty : optype) (tol : Qc) (l0 : list OS).
  Hypothesis Hty : ty <> Fermion.
  Hypothesis Htol : tol_ok tol.
  Hypothesis Hpos : (0 < tol)%Qc.
  Hypothesis H0 : forall s, In s l0 -> string_ok ty s.

  Definition labels0 : list Z := flat_map os_labels l0.
  Definition universe : list OS := l0 ++ all_strings ty labels0.

  Definition pair_ok (b : Basis) (p : nat * nat) : Prop :=
    forall S T k c, nth_error (b_strings b) (fst p) = Some S -> nth_error (b_strings b) (snd p) = Some T ->
      commutator S T = Ok (k, Some c) -> In c (b_strings b).

  Record lie_inv (st : lie_st) : Prop := {
    lv_ok : basis_ok (li_basis st);
    lv_pre : exists m, b_strings (li_basis st) = l0 ++ m;
    lv_str : forall s, In s (b_strings (li_basis st)) -> string_ok ty s /\ nested l0 s /\ In s universe /\
               forall l, In l (os_labels s) -> In l labels0;
    lv_done : forall p, In p (li_done st) -> fst p < basis_len (li_basis st) /\ snd p < basis_len (li_basis st) /\ pair_ok (li_basis st) p;
    lv_cov : forall i j, i < li_a st -> j <= i -> In (i, j) (li_done st) \/ In (j, i) (li_done st);
    lv_cur : forall j, j < li_b st -> In (li_a st, j) (li_done st) \/ In (j, li_a st) (li_done st)
  }.

  Lemma pair_ok_extend b b' m p : b_strings b' = b_strings b ++ m -> fst p < basis_len b -> snd p < basis_len b ->
    pair_ok b p -> pair_ok b' p.
  Proof.
    intros E H1 H2 H S T k c HS HT Hc. rewrite E in *. unfold basis_len in *. rewrite nth_error_app1 in HS, HT by auto.
    apply in_or_app. left. eapply H; eauto.
  Qed.

  Lemma lie_len st : lie_inv st -> basis_len (li_basis st) <= length universe.
  Proof.
    intros I. apply NoDup_incl_length; [apply distinct_NoDup, I|]. intros s Hs. apply (lv_str st I s Hs).
  Qed.

  Lemma lie_step_ok st : lie_inv st ->
    (exists st', lie_step tol st = Ok (LieMore st') /\ lie_inv st' /\
       ((li_a st' = li_a st /\ li_b st' = S (li_b st) /\ li_a st < basis_len (li_basis st) /\ li_b st < basis_len (li_basis st)) \/
        (li_a st' = S (li_a st) /\ li_b st' = 0 /\ li_a st < basis_len (li_basis st)))) \/
    (lie_step tol st = Ok (LieDone (li_basis st)) /\ basis_len (li_basis st) <= li_a st).
  Proof.
    intros I. destruct st as [b don ia ib]. destruct I as [I1 I2 I3 I4 I5 I6]. cbn [li_basis li_done li_a li_b] in *.
    unfold lie_step. destruct (Nat.ltb_spec ia (basis_len b)) as [La|La]; [|right; auto]. left.
    destruct (Nat.ltb_spec ib (basis_len b)) as [Lb|Lb].
    2:{ eexists. split; [reflexivity|]. cbn [li_basis li_done li_a li_b]. split; [|right; auto].
        constructor; cbn [li_basis li_done li_a li_b]; auto; [|intros j Hj; lia].
        intros i j Hi Hj. destruct (Nat.eq_dec i ia) as [->|]; [apply I6; lia | apply I5; lia]. }
    destruct (pair_mem (ia, ib) don || pair_mem (ib, ia) don) eqn:Ep.
    { eexists. split; [reflexivity|]. cbn [li_basis li_done li_a li_b]. split; [|left; auto].
      constructor; cbn [li_basis li_done li_a li_b]; auto.
      intros j Hj. destruct (Nat.eq_dec j ib) as [->|]; [|apply I6; lia].
      apply orb_true_iff in Ep. rewrite !pair_mem_in in Ep. auto. }
    destruct (nth_len (b_strings b) ia La) as (SA & HA). destruct (nth_len (b_strings b) ib Lb) as (SB & HB).
    rewrite HA, HB. cbn [of_option rbind].
    assert (SA_in : In SA (b_strings b)) by (eapply nth_error_In; eauto).
    assert (SB_in : In SB (b_strings b)) by (eapply nth_error_In; eauto).
    destruct (I3 SA SA_in) as (OA & NA & UA & LA). destruct (I3 SB SB_in) as (OB & NB & UB & LB).
    destruct (mode_spec ty MCommutator SA SB Hty OA OB) as (k & oc & R).
    pose proof (mr_run _ _ _ _ _ _ R) as Hrun. change (operation_opstring MCommutator SA SB) with (commutator SA SB) in Hrun.
    rewrite Hrun. cbn [rbind].
    assert (Cur : forall j, j < S ib -> In (ia, j) ((ia, ib) :: don) \/ In (j, ia) ((ia, ib) :: don)).
    { intros j Hj. destruct (Nat.eq_dec j ib) as [->|]; [simpl; auto|]. destruct (I6 j); simpl; auto; lia. }
    assert (Cov : forall i j, i < ia -> j <= i -> In (i, j) ((ia, ib) :: don) \/ In (j, i) ((ia, ib) :: don)).
    { intros i j Hi Hj. destruct (I5 i j Hi Hj); simpl; auto. }
    destruct oc as [c|].
    - rewrite (mode_not_small _ _ _ _ _ _ _ R Htol).
      destruct (mr_some _ _ _ _ _ _ R c eq_refl) as (_ & Hc & Hcan & Hlab).
      assert (Lc : forall l, In l (os_labels c) -> In l labels0) by (intros l Hl; destruct (Hlab l Hl); auto).
      eexists. split; [reflexivity|]. cbn [li_basis li_done li_a li_b]. split; [|left; auto].
      set (b' := if basis_mem b c then b else basis_iadd_string b c).
      assert (Hb' : basis_ok b' /\ (exists m, b_strings b' = b_strings b ++ m) /\ In c (b_strings b') /\
                    forall s, In s (b_strings b') -> In s (b_strings b) \/ s = c).
      { unfold b'. destruct (basis_mem b c) eqn:Em.
        - split; auto. split; [exists []; rewrite app_nil_r; auto|]. split; auto.
          apply (basis_ok_mem b c I1) in Em. destruct Em as (t & Ht & K).
          rewrite <- (key_string_ok ty t c); auto. apply I3; auto.
        - destruct (basis_iadd_string_ok b c I1) as [K1 K2]. split; auto.
          split; [destruct (append_new_prefix _ _ _ K2); eauto|].
          assert (In' : forall s, In s (b_strings (basis_iadd_string b c)) -> In s (b_strings b) \/ s = c).
          { intros s Hs. destruct (append_new_in _ _ _ K2 s Hs) as [|[E|[]]]; auto. }
          split; auto. destruct (append_new_right _ _ _ K2 c) as (t & Ht & K); [simpl; auto|].
          assert (t = c) as <-; auto. destruct (In' t Ht) as [Hin|]; auto. apply (key_string_ok ty); auto. apply I3; auto. }
      destruct Hb' as (B1 & (m & B2) & B3 & B4).
      assert (Lenb : basis_len b <= basis_len b') by (unfold basis_len; rewrite B2, app_length; lia).
      constructor; cbn [li_basis li_done li_a li_b]; auto.
      + destruct I2 as (m0 & E). exists (m0 ++ m). rewrite B2, E, app_assoc. auto.
      + intros s Hs. destruct (B4 s Hs) as [Hin| ->]; auto. split; auto. split; [eapply nested_comm; [exact NA | exact NB | exact Hrun]|].
        split; auto. unfold universe. apply in_or_app. right. apply in_all_strings; auto.
      + intros p [<-|Hp].
        * cbn [fst snd]. split; [lia|]. split; [lia|]. intros S T k' c' HS HT Hc'. cbn [fst snd] in *.
          rewrite B2, nth_error_app1 in HS, HT by auto. rewrite HA in HS. rewrite HB in HT. injection HS as <-. injection HT as <-.
          rewrite Hrun in Hc'. injection Hc' as _ <-. auto.
        * destruct (I4 p Hp) as (P1 & P2 & P3). split; [lia|]. split; [lia|]. eapply pair_ok_extend; eauto.
    - rewrite (mr_none _ _ _ _ _ _ R eq_refl).
      assert (Done : forall p, In p ((ia, ib) :: don) -> fst p < basis_len b /\ snd p < basis_len b /\ pair_ok b p).
      { intros p [<-|Hp]; auto. cbn [fst snd]. split; auto. split; auto. intros S T k' c' HS HT Hc'. cbn [fst snd] in *.
        rewrite HA in HS. rewrite HB in HT. injection HS as <-. injection HT as <-. rewrite Hrun in Hc'. discriminate. }
      assert (E0 : abs_ltb g0 tol = true).
      { unfold abs_ltb. apply qc_ltb_lt. replace (norm2 g0) with 0%Qc by (apply Qc_is_canon; reflexivity).
        rewrite <- (Qcmult_0_l tol). apply Qcmult_lt_compat_r; auto. }
      rewrite E0. eexists. split; [reflexivity|]. cbn [li_basis li_done li_a li_b]. split; [|left; auto].
      constructor; cbn [li_basis li_done li_a li_b]; auto.
  Qed.

  Definition measure (st : lie_st) : nat :=
    (length universe - li_a st) * (length universe + 2) + (length universe + 1 - li_b st).

  Lemma lie_run_ok : forall n st, measure st < n -> lie_inv st -> li_b st <= basis_len (li_basis st) ->
    exists b ia ib don, lie_inv (mkLie b don ia ib) /\ basis_len b <= ia /\ forall fuel, n <= fuel -> lie_run fuel tol st = Some (Ok b).
  Proof.
    induction n as [|n IH]; intros st Hm I Hb; [lia|].
    pose proof (lie_len st I) as Hlen.
    destruct (lie_step_ok st I) as [(st' & Hs & I' & Hcase)|[Hs Hfin]].
    - assert (Hm' : measure st' < measure st).
      { unfold measure. destruct Hcase as [(-> & -> & H1 & H2)|(-> & -> & H1)]; [lia|].
        replace (length universe - li_a st) with (S (length universe - S (li_a st))) by lia. simpl. lia. }
      destruct (IH st') as (b & ia & ib & don & J & Hf & Hrun); auto; [lia| |].
      + destruct Hcase as [(_ & -> & _ & H2)|(_ & -> & _)]; [|lia].
        assert (basis_len (li_basis st) <= basis_len (li_basis st')); [|lia].
        unfold lie_step in Hs. destruct st as [b0 d0 a0 c0]. cbn [li_basis li_b li_a] in *.
        clear - Hs I. revert Hs. destruct (a0 <? basis_len b0); [|discriminate].
        destruct (c0 <? basis_len b0); [|intros E; injection E as <-; auto].
        destruct (_ || _); [intros E; injection E as <-; auto|].
        intros E. apply rbind_ok in E. destruct E as (A & _ & E). apply rbind_ok in E. destruct E as (B & _ & E).
        apply rbind_ok in E. destruct E as ([k oc] & _ & E). destruct (abs_ltb k tol); [injection E as <-; auto|].
        destruct oc as [c|]; [|discriminate]. injection E as <-. cbn [li_basis].
        destruct (basis_mem b0 c) eqn:Em; auto. unfold basis_iadd_string, basis_len. rewrite Em. simpl. rewrite app_length. lia.
      + exists b, ia, ib, don. split; auto. split; auto. intros fuel Hfuel. destruct fuel as [|fuel]; [lia|].
        cbn [lie_run]. rewrite Hs. apply Hrun. lia.
    - exists (li_basis st), (li_a st), (li_b st), (li_done st). split; [destruct st; auto|]. split; auto.
      intros fuel Hfuel. destruct fuel as [|fuel]; [lia|]. cbn [lie_run]. rewrite Hs. auto.
  Qed.
End Lie.

Lemma basis_iadd_empty b : basis_ok b -> basis_iadd basis_empty b = b.
Proof.
  intros Hb. destruct (basis_iadd_ok basis_empty b basis_ok_empty) as [H1 H2]. apply basis_ok_eq; auto.
  apply (append_new_fun _ _ _ H2). simpl. destruct Hb as [Hd _]. revert Hd.
  assert (G : forall m l, distinct_keys (l ++ m) -> append_new l m (l ++ m)).
  { induction m as [|s m IH]; intros l Hd; [rewrite app_nil_r; constructor|].
    apply an_take.
    - intros (t & Ht & K). apply distinct_app in Hd. destruct Hd as (_ & _ & Hd). apply (Hd t s); simpl; auto.
    - replace (l ++ s :: m) with ((l ++ [s]) ++ m) by (rewrite <- app_assoc; auto). apply IH. rewrite <- app_assoc; auto. }
  apply (G (b_strings b) []).
Qed.

Lemma lie_proof ty tol b : ty <> Fermion -> (0 < tol)%Qc -> (tol <= 1)%Qc -> good_basis ty b ->
  exists fuel0 r, (forall fuel, fuel0 <= fuel -> generate_lie_algebra fuel tol b = Some (Ok r)) /\
    good_basis ty r /\ (exists m, b_strings r = b_strings b ++ m) /\
    (forall S T k c, In S (b_strings r) -> In T (b_strings r) -> commutator S T = Ok (k, Some c) -> In c (b_strings r)) /\
    (forall s, In s (b_strings r) -> nested (b_strings b) s) /\
    (forall l, (forall s, In s (b_strings b) -> In s l) ->
               (forall S T k c, In S l -> In T l -> commutator S T = Ok (k, Some c) -> In c l) ->
               forall s, In s (b_strings r) -> In s l).
Proof.
  intros Hty H0 H1 [Hb Hs]. apply built_ok in Hb.
  assert (Ht : tol_ok tol) by (split; auto; apply Qclt_le_weak; auto).
  set (st := mkLie b [] 0 0).
  assert (I : lie_inv ty (b_strings b) st).
  { constructor; cbn [st li_basis li_done li_a li_b]; auto.
    - exists []. rewrite app_nil_r; auto.
    - intros s Hin. split; auto. split; [apply nested_in; auto|]. split; [unfold universe; apply in_or_app; auto|].
      intros l Hl. unfold labels0. apply in_flat_map. exists s; auto.
    - intros p []. - intros; lia. - intros; lia. }
  destruct (lie_run_ok ty tol (b_strings b) Hty Ht H0 (S (measure ty (b_strings b) st)) st) as (r & ia & ib & don & J & Hf & Hrun); auto.
  { simpl. lia. }
  exists (S (measure ty (b_strings b) st)), r. destruct J as [J1 J2 J3 J4 J5 J6]. cbn [li_basis li_done li_a li_b] in *.
  assert (Hn : forall s, In s (b_strings r) -> nested (b_strings b) s) by (intros s Hin; apply J3; auto).
  split; [|split; [|split; [|split; [|split]]]]; auto.
  - intros fuel Hfuel. unfold generate_lie_algebra. rewrite basis_iadd_empty by auto. apply Hrun; auto.
  - split; [apply built_iff; auto|]. intros s Hin. apply J3; auto.
  - intros S T k c HS HT Hc.
    assert (OS : string_ok ty S) by (apply J3; auto). assert (OT : string_ok ty T) by (apply J3; auto).
    destruct (commutator_swap ty S T k c Hty OS OT Hc) as (k' & Hc').
    apply In_nth_error in HS, HT. destruct HS as (i & Hi), HT as (j & Hj).
    assert (Li : i < basis_len r) by (apply nth_error_Some; congruence).
    assert (Lj : j < basis_len r) by (apply nth_error_Some; congruence).
    assert (D : In (i, j) don \/ In (j, i) don).
    { destruct (Nat.le_ge_cases j i) as [L|L]; [apply J5; lia|]. destruct (J5 j i); auto; lia. }
    destruct D as [D|D]; destruct (J4 _ D) as (_ & _ & P); unfold pair_ok in P; cbn [fst snd] in P; eauto.
  - intros l Hin Hcl s Hsin. specialize (Hn s Hsin). clear Hsin.
    induction Hn as [s Hs'|s t k c Ns IHs Nt IHt Hc]; auto. eapply Hcl; [exact IHs | exact IHt | exact Hc].
Qed.
