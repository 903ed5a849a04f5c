(** Proofs about the ladder operator functions: the result for a closed Basis. *)
From Coq Require Import String List ZArith Bool Arith Lia Reals QArith Qreals Qcanon Lra Setoid Morphisms Sorted Permutation.
From Coquelicot Require Import Complex.
From Verif Require Import GC Exn S_Alg M_OpString M_Tools M_Algebra M_Basis M_OpAlg M_LinAlg M_Core M_Greedy M_Ladder
  S_Den S_Basis S_Built S_OpAlg S_RScal S_CFock S_CScal S_LinAlg S_Core S_Greedy S_Transform S_Modes S_SelectedCI S_Ladder
  L_Alg L_Module L_StrAlg L_StrOp L_Indep L_PropStr L_Basis L_Operator L_PropBasis L_OpAlg L_Struct L_Commutant L_Conversion L_CScal L_CFock L_LinAlg L_Inter L_Herm L_Core L_Commuting L_Invariant L_Invariant2 L_Sparsify L_Cumulative L_Cumul2 L_Explore L_PartIso L_Modes2 L_Search L_Search2 L_Target L_Diagonalize L_Generate L_Ladder L_Ladder2 L_Ladder3.
From Verif Require P_SelectedCI.
Import ListNotations.
Local Open Scope nat_scope.
Local Open Scope alg_scope.

Lemma cs_real {A : StarAlg} (S : RScal A) l x : cs S (RtoC l) x == rs S l x.
Proof. unfold cs. cbn [RtoC fst snd]. rewrite rs_0, ascal_zero. apply aadd_0_r. Qed.
Lemma ladder_iff {A : StarAlg} (S : RScal A) H x l : exact MCommutator x (gm1 · H) == cs S (RtoC l) x <-> ladder S H l x.
Proof.
  assert (X : exact MCommutator x (gm1 · H) == asub (H * x) (x * H)).
  { unfold exact, asub. rewrite ascal_mul_r, ascal_mul_l, ascal_ascal. rewrite (aadd_comm A (gm1 · (x * H))). apply aadd_proper; [|reflexivity].
    rewrite <- (ascal_1 _ (H * x)) at 2. apply ascal_eq. unfold gm1. ring. }
  rewrite X, cs_real. unfold ladder. split; intros E.
  - rewrite <- E. unfold asub. rewrite (aadd_comm A (H * x)), aadd_assoc. rewrite <- (ascal_1 _ (x * H)) at 1. rewrite <- ascal_add_l.
    replace (gadd g1 gm1) with g0 by (unfold gm1; ring). rewrite ascal_0, aadd_0_l. reflexivity.
  - rewrite E. unfold asub. rewrite (aadd_comm A (x * H)), <- aadd_assoc. rewrite <- (ascal_1 _ (x * H)) at 1. rewrite <- ascal_add_l.
    replace (gadd g1 gm1) with g0 by (unfold gm1; ring). rewrite ascal_0, aadd_0_r. reflexivity.
Qed.
Lemma neg_ok ty o : good_op ty o -> real_coeffs o -> exists m, op_neg o = Ok m /\ good_op ty m /\ real_coeffs m /\ b_strings (o_basis m) = b_strings (o_basis o) /\
  forall (A : StarAlg) (g : op -> Z -> A), lincomb g (op_terms m) == gm1 · lincomb g (op_terms o).
Proof.
  intros Ho Hr. destruct (op_scale_ok gm1 o (good_op_ok ty o Ho)) as (m & Em & Om & Tm & Bm & Cm & _). exists m. split; [exact Em|].
  split; [split; [apply made_ok; auto | split; [rewrite Tm; apply Ho | rewrite Bm; apply Ho]]|].
  split; [|split; [rewrite Bm; auto|]].
  - intros c Hc. rewrite Cm in Hc. apply in_map_iff in Hc. destruct Hc as (d & <- & Hd). rewrite gconj_mul, (Hr d Hd). reflexivity.
  - intros A g. rewrite <- lincomb_scal. unfold op_terms. rewrite Bm, Cm.
    replace (combine (map (fun c => gmul c gm1) (o_coeffs o)) (b_strings (o_basis o))) with (map (fun t => (gmul (fst t) gm1, snd t)) (combine (o_coeffs o) (b_strings (o_basis o)))); [reflexivity|].
    clear Cm. generalize (b_strings (o_basis o)). induction (o_coeffs o) as [|c cs IH]; intros [|s l]; cbn; f_equal; auto.
Qed.
Lemma filter_all {T} (p : T -> bool) l : (forall x, In x l -> p x = true) -> filter p l = l /\ filter (fun x => negb (p x)) l = [].
Proof.
  induction l as [|x l IH]; intros H; auto. cbn [filter]. rewrite (H x (or_introl eq_refl)). cbn [negb]. destruct IH as [-> ->]; [intros; apply H; right; auto | auto].
Qed.

Section Run.
  Variables (ty : optype) (b : Basis) (o : Operator) (Or : lad_oracles) (tol : R).
  Hypotheses (Hty : ty <> Fermion) (Hb : canonical_basis ty b) (Ho : good_op ty o) (Hre : real_coeffs o) (Hc : closed_under ty o b)
    (Hs : exact_hermitian_solver (basis_len b) (la_eigh Or)) (Hso : sorts_reals (la_sort Or)) (Htol : (0 < tol)%R).

  Lemma ladder_closed : exists vs ls, ladder_operators Or b o tol = Ok (vs, ls) /\ length vs = length ls /\ StronglySorted Rle ls /\ orthonormal vs /\
    (forall i v l, nth_error vs i = Some v -> nth_error ls i = Some l -> length v = basis_len b /\ (tol < l)%R /\
       forall (A : StarAlg) (S : RScal A) (g : op -> Z -> A), rep ty g -> ladder S (lincomb g (op_terms o)) l (cden S g (CBasis b) v)) /\
    (forall (A : StarAlg) (S : RScal A) (g : op -> Z -> A) v l, rep ty g -> ~ (@aone A == azero) -> length v = basis_len b -> (tol < l)%R ->
       ladder S (lincomb g (op_terms o)) l (cden S g (CBasis b) v) ->
       exists us, (forall u, In u us -> exists i, nth_error vs i = Some u /\ nth_error ls i = Some l) /\ span (basis_len b) us v).
  Proof.
    destruct (neg_ok ty o Ho Hre) as (m & Em & Hm & Hrm & Bm & Dm).
    assert (Hgb : good_basis ty b) by (split; [apply Hb | intros s Hin; apply Hb; auto]).
    destruct (liouvillian_strings_proof ty MCommutator b m Hty Hgb Hm) as (L & E & HL & HE & RL & CL & _ & _).
    assert (Hin : forall t, In t (b_strings E) -> In t (b_strings b)).
    { intros t Ht. destruct (ext_origin ty b m L E Hty Hgb Hm HL t Ht) as (s & c & k & H1 & H2 & H3). rewrite Bm in H2. apply (Hc s c); auto.
      apply (P_SelectedCI.commutes_iff ty Hty); [apply Hb; auto | apply Ho; auto | eauto]. }
    assert (NLE : forall l, (tol < l)%R -> l <> 0%R) by (intros; lra).
    unfold ladder_operators. rewrite Em. cbn [rbind]. rewrite HL. cbn [rbind].
    destruct (Nat.eqb_spec (length (filter (basis_mem E) (b_strings b))) 0) as [Z|NZ].
    { assert (W0 : b_strings E = []).
      { destruct (b_strings E) as [|t W] eqn:EW; auto. exfalso. assert (Ht : In t (filter (basis_mem E) (b_strings b))).
        - apply filter_In. split; [apply Hin; left; auto|]. apply basis_ok_mem; [apply built_ok, HE|]. exists t. rewrite EW. split; [left; auto | apply same_key_refl].
        - destruct (filter (basis_mem E) (b_strings b)); [destruct Ht | discriminate]. }
      exists [], []. split; auto. split; auto. split; [constructor|]. split; [split; [intros v [] | intros [|i] j v w H; discriminate]|].
      split; [intros [|i] v l H; discriminate|]. intros A S g v l Hr Hn Lv Hl HLd. exists []. split; [intros u []|].
      destruct (ladder_support ty b m L E Hty Hb Hm HL Hin [] ltac:(rewrite W0; constructor) A S g v l Hr Hn Lv (NLE l Hl)) as (w & Lw & Ev & _).
      { unfold ladder in HLd. rewrite Dm. apply ladder_iff. exact HLd. }
      rewrite W0 in Lw. destruct w; [|discriminate]. subst v.
      replace (scatter (basis_len b) [] []) with (repeat (RtoC 0) (basis_len b)); [constructor|]. unfold scatter. cbn [combine fold_left]. 
      assert (Q : forall k j, repeat (RtoC 0) k = map (fun _ : nat => RtoC 0) (seq j k)) by (induction k as [|k IH]; intros j; cbn [repeat seq map]; [|f_equal]; auto). apply Q. }
    set (W := b_strings E) in *. set (n := length W).
    assert (Nu : length (combine (seq 0 (basis_len E)) W) = n) by (rewrite combine_length, seq_length; unfold basis_len; fold W; lia).
    assert (Sn : map snd (combine (seq 0 (basis_len E)) W) = W) by (apply combine_snd; rewrite seq_length; reflexivity).
    assert (Fn : map fst (combine (seq 0 (basis_len E)) W) = seq 0 n) by (apply combine_fst; rewrite seq_length; reflexivity).
    destruct (filter_all (fun p : nat * OS => basis_mem b (snd p)) (combine (seq 0 (basis_len E)) W)) as [-> ->].
    { intros [i t] H. apply in_combine_r in H. cbn [snd]. apply basis_ok_mem; [apply built_ok, Hb|]. exists t. split; [apply Hin; auto | apply same_key_refl]. }
    cbn [map length Nat.eqb].
    destruct (rmap_total (fun p : nat * OS => basis_index b (snd p)) (combine (seq 0 (basis_len E)) W)) as (inA & EA).
    { intros [i t] H. apply in_combine_r in H. cbn [snd]. destruct (basis_index_in b t (built_ok _ (proj1 Hb)) (Hin t H)) as (j & Hj & _). eauto. }
    rewrite EA. cbn [rbind].
    assert (HA : Forall2 (fun t i => nth_error (b_strings b) i = Some t) W inA).
    { apply rmap_forall2 in EA. rewrite <- Sn. clear - EA Hb Hin W. assert (Q : forall p, In p (combine (seq 0 (basis_len E)) W) -> In (snd p) (b_strings b)) by (intros [i t] H; apply in_combine_r in H; apply Hin; auto).
      revert Q. induction EA as [|p i l inds H EA IH]; intros Q; cbn [map]; constructor; [|apply IH; intros; apply Q; right; auto].
      destruct (basis_index_in b (snd p) (built_ok _ (proj1 Hb)) (Q p (or_introl eq_refl))) as (j & Hj & Nj). rewrite H in Hj. injection Hj as ->. auto. }
    rewrite Fn.
    assert (LD : sub_rows L (seq 0 n) inA = ld_rows m E).
    { unfold sub_rows, ld_rows. fold W. destruct (ext_entries ty b m L E Hty Hgb Hm HL) as (_ & _ & _ & En).
      assert (Q : forall i t, nth_error W i = Some t -> map (fun j => to_C (sm_entry L i j)) inA = map (ecoef m t) W).
      { intros i t Hi. clear - HA En Hi W. enough (G : forall U, Forall2 (fun t i => nth_error (b_strings b) i = Some t) U inA -> map (fun j => to_C (sm_entry L i j)) inA = map (ecoef m t) U) by auto.
        intros U H. clear HA. induction H as [|s j U inds Hj H IH]; auto. cbn [map]. rewrite IH. f_equal. apply En; auto. }
      apply nth_ext with (d := []) (d' := []); rewrite !map_length, seq_length; auto. intros i Hi. destruct (nth_some W i Hi) as (t & Et).
      rewrite (nthm (fun t => map (ecoef m t) W) _ _ _ t Et). rewrite (nthm (fun i => map (fun j => to_C (sm_entry L i j)) inA) _ _ _ i); auto.
      rewrite (nth_error_nth' _ 0) by (rewrite seq_length; auto). rewrite seq_nth by auto. reflexivity. }
    rewrite LD. rewrite (D_part ty b m L E Hty Hb Hm Hrm HL).
    assert (Lt : (@length (list C) (ld_rows m E) <= basis_len b)%nat).
    { replace (@length (list C) (ld_rows m E)) with n by (symmetry; apply (D_length m E)). apply NoDup_incl_length; [apply built_nodup, HE | intros t Ht; apply Hin; auto]. }
    destruct (Hs (ld_rows m E) Lt (D_matrix ty b m L E Hty Hb Hm Hrm HL)) as [[EP SP] OP].
    set (D := ld_rows m E) in *. set (ps := la_eigh Or D) in *.
    assert (LDn : @length (list C) D = n) by apply (D_length m E). rewrite LDn in SP. unfold eigenpairs in EP. rewrite LDn in EP.
    destruct (Hso (map fst (partnered tol ps))) as [PS _]. rewrite map_length in PS.
    destruct (take_total (partnered tol ps) (la_sort Or (map fst (partnered tol ps)))) as (qs & Eq & _).
    { intros i Hi. apply (Permutation_in _ PS) in Hi. apply in_seq in Hi. lia. }
    rewrite Eq. cbn [rbind]. pose proof (take_perm _ _ _ PS Eq) as PQ.
    assert (PI : forall l w, In (l, w) (partnered tol ps) <-> In (l, w) ps /\ (tol < l)%R /\ exists l' w', In (l', w') ps /\ (Rabs (l + l') < tol)%R).
    { intros l w. unfold partnered. rewrite filter_In, !andb_true_iff, !lt_dec_true, existsb_exists. cbn [fst]. split.
      - intros (H1 & (_ & H2) & [l' w'] & H3 & H4). apply lt_dec_true in H4. eauto 8.
      - intros (H1 & H2 & l' & w' & H3 & H4). split; auto. split; auto. exists (l', w'). split; auto. apply lt_dec_true. auto. }
    assert (Len : forall p, In p qs -> length (snd p) = n).
    { intros [l w] H. apply (Permutation_in _ PQ) in H. apply PI in H. apply (EP l w). tauto. }
    exists (map (fun p => scatter (basis_len b) inA (snd p)) qs), (map fst qs). split; auto. split; [rewrite !map_length; auto|].
    split; [apply (sorted_pairs _ _ _ Hso Eq)|]. split; [|split].
    - assert (OQ : orthonormal (map snd qs)).
      { apply (take_orthonormal _ _ _ (Permutation_NoDup (Permutation_sym PS) (seq_NoDup _ _)) Eq).
        apply (keep_orthonormal (fun l => lt_dec 0 tol && lt_dec tol l && existsb (fun q => lt_dec (Rabs (l + fst q)) tol) ps)). exact OP. }
      destruct OQ as [O1 O2]. split.
      + intros v Hv. apply in_map_iff in Hv. destruct Hv as (p & <- & Hp). rewrite (scatter_inner ty b m L E Hty Hb Hm HL Hin inA HA) by (apply Len; auto). apply O1, in_map. auto.
      + intros i j v w Hi Hj N. rewrite nth_error_map in Hi, Hj. destruct (nth_error qs i) as [p|] eqn:Ei; [|discriminate]. destruct (nth_error qs j) as [q|] eqn:Ej; [|discriminate].
        injection Hi as <-. injection Hj as <-. rewrite (scatter_inner ty b m L E Hty Hb Hm HL Hin inA HA) by (apply Len; eapply nth_error_In; eauto).
        apply (O2 i j); auto; rewrite nth_error_map; [rewrite Ei | rewrite Ej]; auto.
    - intros i v l Hi Hl. rewrite nth_error_map in Hi, Hl. destruct (nth_error qs i) as [[l' w]|] eqn:Ei; [|discriminate]. injection Hi as <-. injection Hl as <-. cbn [fst snd].
      pose proof (nth_error_In _ _ Ei) as Hq. pose proof (Len _ Hq) as Lw. cbn [snd] in Lw. apply (Permutation_in _ PQ) in Hq. apply PI in Hq. destruct Hq as (H1 & H2 & _).
      split; [apply scatter_length|]. split; auto. intros A S g Hr. apply ladder_iff. rewrite <- Dm. rewrite (scatter_meaning ty b m L E Hty Hb Hm HL Hin inA HA A S g w Lw).
      rewrite (D_meaning ty b m L E Hty Hb Hm HL Hin A S g w Hr Lw). destruct (EP _ _ H1) as (_ & _ & Ew). fold D. rewrite Ew. apply clin_vscale.
    - intros A S g v l Hr Hn Lv Hl HLd.
      destruct (ladder_support ty b m L E Hty Hb Hm HL Hin inA HA A S g v l Hr Hn Lv (NLE l Hl)) as (w & Lw & Ev & Ew).
      { rewrite Dm. apply ladder_iff. exact HLd. }
      fold D in Ew. fold W in Lw. fold n in Lw. pose proof (D_hermitian ty b m L E Hty Hb Hm Hrm HL) as HH. fold D W n in HH.
      assert (EP' : forall l v, In (l, v) ps -> length v = n /\ rows_vec D v = vscale (RtoC l) v) by (intros l' v' H; destruct (EP l' v' H) as (H1 & _ & H2); auto).
      destruct (list_eq_dec Ceq_dec w (vzero n)) as [Zw|Nw].
      { exists []. split; [intros u []|]. subst w v. pose proof (scatter_zero ty b m L E Hty Hb Hm HL inA HA) as SZ. fold W n in SZ. rewrite SZ. constructor. }
      set (test := fun l' => if Req_EM_T l' l then true else false).
      pose proof (select_complete n D test ps l w HH EP' ltac:(unfold test; destruct (Req_EM_T l l); auto; contradiction) Lw Ew (SP w Lw)) as SW.
      pose proof (D_conj ty b m L E Hty Hb Hm Hrm HL w l Lw Ew) as Ec.
      assert (Lc : length (map Cconj w) = n) by (rewrite map_length; auto).
      set (test2 := fun l' => if Req_EM_T l' (- l) then true else false).
      pose proof (select_complete n D test2 ps (- l) (map Cconj w) HH EP' ltac:(unfold test2; destruct (Req_EM_T (- l) (- l)); auto; contradiction) Lc Ec (SP _ Lc)) as SC.
      assert (Pa : exists l' w', In (l', w') ps /\ (Rabs (l + l') < tol)%R).
      { destruct (filter (fun p => test2 (fst p)) ps) as [|[l' w'] r] eqn:Ef.
        - exfalso. apply Nw. apply span_nil in SC. rewrite <- (map_id w). rewrite <- (map_ext _ _ Cconj_conj), <- map_map. rewrite SC. unfold vzero. clear.
          induction n as [|k IH]; auto. cbn [repeat map]. rewrite IH, Cconj_R. auto.
        - assert (Hp : In (l', w') (filter (fun p => test2 (fst p)) ps)) by (rewrite Ef; left; auto). apply filter_In in Hp. destruct Hp as [Hp Ht]. exists l', w'. split; auto.
          unfold test2 in Ht. cbn [fst] in Ht. destruct (Req_EM_T l' (- l)) as [->|]; [|discriminate]. replace (l + - l)%R with 0%R by ring. rewrite Rabs_R0. auto. }
      exists (map (scatter (basis_len b) inA) (map snd (filter (fun p => test (fst p)) ps))). split.
      + intros u Hu. rewrite map_map in Hu. apply in_map_iff in Hu. destruct Hu as ([l' w'] & <- & Hp). apply filter_In in Hp. destruct Hp as [Hp Ht].
        unfold test in Ht. cbn [fst] in Ht. destruct (Req_EM_T l' l) as [->|]; [|discriminate].
        assert (Hq : In (l, w') qs) by (apply (Permutation_in _ (Permutation_sym PQ)), PI; auto). apply In_nth_error in Hq. destruct Hq as (i & Hi). exists i. rewrite !nth_error_map, Hi. auto.
      + subst v. apply (scatter_span ty b m L E Hty Hb Hm HL inA HA); auto. intros u Hu. apply in_map_iff in Hu. destruct Hu as ([l' w'] & <- & Hp). apply filter_In in Hp. apply (EP' l' w'). tauto.
  Qed.
End Run.
