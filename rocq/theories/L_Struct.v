(** Proofs about structure constants and Liouvillian matrices. *)
From Coq Require Import String List ZArith Bool Arith Lia Sorted QArith Qcanon.
From Verif Require Import GC Exn S_Alg S_Den S_Basis S_Built S_OpAlg M_OpString M_Algebra M_Basis M_OpAlg
  L_Alg L_StrAlg L_StrOp L_Indep L_PropStr L_Basis L_Operator L_Heap L_PropBasis L_OpAlg.
Import ListNotations.
Local Open Scope nat_scope.
Local Open Scope alg_scope.

Lemma built_iff b : built b <-> basis_ok b.
Proof. split; [apply built_ok|]. intros H. eapply built_new, ok_new; auto. Qed.

(* -------------------------------------------------------- tolerances *)

Definition tol_ok (tol : Qc) : Prop := (0 <= tol)%Qc /\ (tol <= 1)%Qc.

Lemma qc_ltb_false a b : (b <= a)%Qc -> qc_ltb a b = false.
Proof.
  intros H. destruct (qc_ltb a b) eqn:E; auto. apply qc_ltb_lt in E. exfalso.
  apply (Qclt_not_le _ _ E); auto.
Qed.
Lemma tol_sq tol : tol_ok tol -> (tol * tol <= 1)%Qc.
Proof.
  intros [H0 H1]. apply Qcle_trans with (1 * tol)%Qc.
  - apply Qcmult_le_compat_r; auto.
  - rewrite Qcmult_1_l; auto.
Qed.
Lemma mode_not_small ty m S T k C tol : mode_result ty m S T k (Some C) -> tol_ok tol -> abs_ltb k tol = false.
Proof.
  intros R Ht. destruct (mr_some _ _ _ _ _ _ R C eq_refl) as ((u & Hu & _ & [->| ->]) & _); unfold abs_ltb; apply qc_ltb_false.
  - rewrite (unit_norm2 _ Hu). apply tol_sq; auto.
  - replace (norm2 (gmul u g2)) with (norm2 g2 * norm2 u)%Qc by (unfold norm2; simpl; ring).
    rewrite (unit_norm2 _ Hu). apply Qcle_trans with 1%Qc; [apply tol_sq; auto|]. vm_compute. discriminate.
Qed.
Lemma tol16_ok : tol_ok tol16.
Proof. split; vm_compute; discriminate. Qed.

(* -------------------------------------------------------- column sums *)

Section Col.
  Context {A : StarAlg} (g : op -> Z -> A).

  Definition den_at (Cs : list OS) (i : nat) : A :=
    match nth_error Cs i with Some s => den g s | None => azero end.
  Definition colsum (Cs : list OS) (j : nat) (ts : list (nat * nat * GC)) : A :=
    asum (map (fun t : nat * nat * GC => if Nat.eqb (snd (fst t)) j then snd t · den_at Cs (fst (fst t)) else azero) ts).

  Lemma colsum_cons Cs j t ts : colsum Cs j (t :: ts) =
    (if Nat.eqb (snd (fst t)) j then snd t · den_at Cs (fst (fst t)) else azero) + colsum Cs j ts.
  Proof. reflexivity. Qed.
  Lemma colsum_app Cs j ts us : colsum Cs j (ts ++ us) == colsum Cs j ts + colsum Cs j us.
  Proof. unfold colsum. rewrite map_app. apply asum_app. Qed.
  Lemma colsum_scale Cs j z (ts : list (nat * nat * GC)) :
    colsum Cs j (map (fun t => (fst t, gmul z (snd t))) ts) == z · colsum Cs j ts.
  Proof.
    induction ts as [|[[r c] v] ts IH]; simpl.
    - unfold colsum; simpl. rewrite ascal_zero. reflexivity.
    - unfold colsum in *; simpl. rewrite IH, ascal_add_r. apply aadd_proper; [|reflexivity].
      destruct (Nat.eqb c j); [|rewrite ascal_zero; reflexivity]. rewrite ascal_ascal. reflexivity.
  Qed.
  Lemma colsum_none Cs j (ts : list (nat * nat * GC)) : (forall t, In t ts -> snd (fst t) <> j) -> colsum Cs j ts == azero.
  Proof.
    intros H. unfold colsum. apply asum_zero. intros t Ht. destruct (Nat.eqb_spec (snd (fst t)) j); [|reflexivity].
    exfalso; eapply H; eauto.
  Qed.
  Lemma colsum_extend Cs Ds j (ts : list (nat * nat * GC)) : (forall t, In t ts -> fst (fst t) < length Cs) ->
    colsum (Cs ++ Ds) j ts == colsum Cs j ts.
  Proof.
    intros H. unfold colsum. apply asum_ext. intros t Ht. destruct (Nat.eqb (snd (fst t)) j); [|reflexivity].
    unfold den_at. rewrite nth_error_app1 by auto. reflexivity.
  Qed.

  Lemma asum_single n k x : k < n ->
    asum (map (fun i => if Nat.eqb k i then x else (azero : A)) (seq 0 n)) == x.
  Proof.
    intros H. replace n with (k + (1 + (n - k - 1)))%nat by lia. rewrite seq_app, map_app, asum_app. simpl.
    rewrite Nat.eqb_refl.
    rewrite (asum_zero (fun i => if Nat.eqb k i then x else azero) (seq 0 k)), aadd_0_l.
    2:{ intros i Hi. apply in_seq in Hi. destruct (Nat.eqb_spec k i); [lia | reflexivity]. }
    rewrite (asum_zero (fun i => if Nat.eqb k i then x else azero)), aadd_0_r; [reflexivity|].
    intros i Hi. apply in_seq in Hi. destruct (Nat.eqb_spec k i); [lia | reflexivity].
  Qed.

  Lemma lincomb_seq (f : nat -> GC) Cs : forall k,
    lincomb g (combine (map f (seq k (length Cs))) Cs) == asum (map (fun i => f (k + i)%nat · den_at Cs i) (seq 0 (length Cs))).
  Proof.
    induction Cs as [|s Cs IH]; intros k; [reflexivity|]. simpl. rewrite lincomb_cons, IH, Nat.add_0_r.
    apply aadd_proper; [reflexivity|]. rewrite <- seq_shift, map_map. apply asum_ext. intros i _.
    replace (S k + i)%nat with (k + S i)%nat by lia. reflexivity.
  Qed.

  (** The entries of column [j] are the coefficients of the column sum. *)
  Lemma column_colsum rows cols ts j Cs : rows = length Cs -> (forall t, In t ts -> fst (fst t) < rows) ->
    lincomb g (combine (column (mkSM rows cols ts) j) Cs) == colsum Cs j ts.
  Proof.
    intros -> H. unfold column. cbn [sm_rows]. rewrite lincomb_seq. simpl.
    induction ts as [|[[r c] v] ts IH].
    - apply asum_zero. intros i _. unfold sm_entry; simpl. apply ascal_0.
    - rewrite colsum_cons. cbn [fst snd]. rewrite <- IH by (intros; apply H; simpl; auto). clear IH.
      transitivity (asum (map (fun i => (if Nat.eqb r i then (if Nat.eqb c j then v · den_at Cs r else azero) else azero) +
                     sm_entry (mkSM (length Cs) cols ts) i j · den_at Cs i) (seq 0 (length Cs)))).
      + apply asum_ext. intros i _. unfold sm_entry at 1. cbn [sm_trip map gsum fold_right fst snd].
        rewrite ascal_add_l. apply aadd_proper; [|reflexivity].
        destruct (Nat.eqb_spec r i) as [->|]; simpl; [|apply ascal_0].
        destruct (Nat.eqb c j); [reflexivity | apply ascal_0].
      + rewrite (asum_map_add (fun i => if Nat.eqb r i then if Nat.eqb c j then v · den_at Cs r else azero else azero)).
        apply aadd_proper; [|reflexivity]. apply asum_single. apply (H (r, c, v)). simpl; auto.
  Qed.

  (** The column sum of a matrix product. *)
  Lemma colsum_dot Cs j (ts us : list (nat * nat * GC)) :
    colsum Cs j (flat_map (fun t => flat_map (fun u =>
           if Nat.eqb (snd (fst t)) (fst (fst u))
           then [(fst (fst t), snd (fst u), gmul (snd t) (snd u))] else []) us) ts) ==
    asum (map (fun u : nat * nat * GC => if Nat.eqb (snd (fst u)) j then snd u · colsum Cs (fst (fst u)) ts else azero) us).
  Proof.
    induction ts as [|[[r c] v] ts IH]; simpl.
    - symmetry. apply asum_zero. intros u _. destruct (Nat.eqb _ j); [|reflexivity].
      unfold colsum; simpl. apply ascal_zero.
    - rewrite colsum_app, IH. clear IH.
      transitivity (asum (map (fun u : nat * nat * GC =>
         (if Nat.eqb (snd (fst u)) j then if Nat.eqb c (fst (fst u)) then gmul v (snd u) · den_at Cs r else azero else azero) +
         (if Nat.eqb (snd (fst u)) j then snd u · colsum Cs (fst (fst u)) ts else azero)) us)).
      + rewrite asum_map_add. apply aadd_proper; [|reflexivity].
        induction us as [|[[r' c'] w] us IH]; [reflexivity|]. simpl. rewrite colsum_app, IH. apply aadd_proper; [|reflexivity].
        unfold colsum. destruct (Nat.eqb c r'); simpl; [|destruct (Nat.eqb c' j); reflexivity].
        destruct (Nat.eqb c' j); apply aadd_0_r.
      + apply asum_ext. intros [[r' c'] w] _. simpl. destruct (Nat.eqb c' j); [|apply aadd_0_l].
        unfold colsum. simpl. rewrite ascal_add_r. apply aadd_proper; [|reflexivity].
        destruct (Nat.eqb c r'); [|rewrite ascal_zero; reflexivity]. rewrite ascal_ascal. apply ascal_eq. ring.
  Qed.
End Col.

(* -------------------------------------------------------- structure constants *)

(** Strings of [C]: canonical, distinct, each the result of an operation from a set [P]. *)
Definition ext_ok (ty : optype) (P : OS -> Prop) (C : Basis) : Prop :=
  basis_ok C /\ forall c, In c (b_strings C) -> string_ok ty c /\ canonical c /\ P c.

Lemma ext_ok_mono ty (P Q : OS -> Prop) C : (forall c, P c -> Q c) -> ext_ok ty P C -> ext_ok ty Q C.
Proof. intros H [H1 H2]. split; auto. intros c Hc. destruct (H2 c Hc) as (a & b & d). auto. Qed.

Lemma iadd_string_index ty P C c : ext_ok ty P C -> string_ok ty c -> canonical c -> P c ->
  ext_ok ty P (basis_iadd_string C c) /\ (exists D, b_strings (basis_iadd_string C c) = b_strings C ++ D) /\
  exists ic, basis_index (basis_iadd_string C c) c = Ok ic /\ nth_error (b_strings (basis_iadd_string C c)) ic = Some c.
Proof.
  intros [HC HP] Hs Hc Hpc. destruct (basis_iadd_string_ok C c HC) as [Hok Ha].
  assert (E : ext_ok ty P (basis_iadd_string C c)).
  { split; auto. intros d Hd. destruct (append_new_in _ _ _ Ha d Hd) as [|[->|[]]]; auto. }
  split; auto. split; [destruct (append_new_prefix _ _ _ Ha) as (D & HD); eauto|].
  destruct (append_new_right _ _ _ Ha c) as (d & Hd & K); [simpl; auto|].
  assert (d = c).
  { apply std_key; auto; apply canonical_std; auto. apply (proj2 E d Hd). }
  subst d. destruct (basis_index_in _ c Hok Hd) as (i & Hi & Hn). eauto.
Qed.

Section SC.
  Variables (ty : optype) (m : mode) (tol : Qc).
  Hypothesis Hty : ty <> Fermion.
  Hypothesis Htol : tol_ok tol.

  Definition from (As : list OS) (B c : OS) : Prop := exists S k, In S As /\ operation_opstring m S B = Ok (k, Some c).

  Lemma sc_inner_ok (P : OS -> Prop) B : string_ok ty B -> forall As i0 C data,
    (forall S, In S As -> string_ok ty S) -> (forall c, from As B c -> P c) -> ext_ok ty P C ->
    exists C' new, sc_inner m tol B i0 As C data = Ok (C', data ++ new) /\ ext_ok ty P C' /\
      (exists D, b_strings C' = b_strings C ++ D) /\
      (forall t, In t new -> fst (fst t) < basis_len C' /\ i0 <= snd (fst t) < i0 + length As) /\
      forall (A : StarAlg) (g : op -> Z -> A), rep ty g -> forall j S, nth_error As j = Some S ->
        colsum g (b_strings C') (i0 + j) new == exact m (den g S) (den g B).
  Proof.
    intros HB. induction As as [|S As IH]; intros i0 C data HAs HP HC.
    - exists C, []. rewrite app_nil_r. split; auto. split; auto. split; [exists []; rewrite app_nil_r; auto|].
      split; [intros t []|]. intros A g Hr [|j] S; discriminate.
    - assert (HS : string_ok ty S) by (apply HAs; simpl; auto).
      destruct (mode_spec ty m S B Hty HS HB) as (k & oc & R).
      pose proof (mr_run _ _ _ _ _ _ R) as Hrun. cbn [sc_inner]. rewrite Hrun. cbn [rbind].
      assert (HP' : forall c, from As B c -> P c) by (intros c (S' & k' & H1 & H2); apply HP; exists S', k'; simpl; auto).
      assert (HAs' : forall S, In S As -> string_ok ty S) by (intros; apply HAs; simpl; auto).
      destruct oc as [c|].
      + rewrite (mode_not_small _ _ _ _ _ _ _ R Htol).
        destruct (mr_some _ _ _ _ _ _ R c eq_refl) as (_ & Hc & Hcan & _).
        destruct (iadd_string_index ty P C c HC Hc Hcan) as (HC1 & (D1 & HD1) & ic & Hic & Hnth).
        { apply HP. exists S, k. simpl; auto. }
        rewrite Hic. cbn [rbind].
        destruct (IH (Datatypes.S i0) (basis_iadd_string C c) (data ++ [(ic, i0, k)]) HAs' HP' HC1) as (C' & new & He & HC' & (D & HD) & Hb & Hden).
        exists C', ((ic, i0, k) :: new). rewrite He, <- app_assoc. split; auto. split; auto.
        split; [exists (D1 ++ D); rewrite HD, HD1, app_assoc; auto|].
        assert (Hn' : nth_error (b_strings C') ic = Some c).
        { rewrite HD, nth_error_app1; auto. apply nth_error_Some. congruence. }
        split.
        * intros t [<-|Ht]; simpl.
          -- split; [|lia]. unfold basis_len. apply nth_error_Some. congruence.
          -- destruct (Hb t Ht). simpl in *. lia.
        * intros A g Hr [|j] S' HS'.
          -- injection HS' as <-. rewrite Nat.add_0_r. unfold colsum; cbn [map asum fold_right fst snd].
             rewrite Nat.eqb_refl. unfold den_at at 1. rewrite Hn', (mr_den _ _ _ _ _ _ R A g Hr).
             change (k · den g c + colsum g (b_strings C') i0 new == k · den g c).
             rewrite (colsum_none g _ i0 new); [apply aadd_0_r|]. intros t Ht. destruct (Hb t Ht). lia.
          -- unfold colsum; cbn [map asum fold_right fst snd]. destruct (Nat.eqb_spec i0 (i0 + Datatypes.S j)); [lia|].
             rewrite aadd_0_l. replace (i0 + Datatypes.S j)%nat with (Datatypes.S i0 + j)%nat by lia. apply Hden; auto.
      + destruct (IH (Datatypes.S i0) C data HAs' HP' HC) as (C' & new & He & HC' & HD & Hb & Hden).
        exists C', new. split; auto. split; auto. split; auto. split.
        * intros t Ht. destruct (Hb t Ht). simpl. lia.
        * intros A g Hr [|j] S' HS'.
          -- injection HS' as <-. rewrite Nat.add_0_r, (mr_den _ _ _ _ _ _ R A g Hr).
             apply colsum_none. intros t Ht. destruct (Hb t Ht). lia.
          -- replace (i0 + Datatypes.S j)%nat with (Datatypes.S i0 + j)%nat by lia. apply Hden; auto.
  Qed.

  (** Data collected for a string [B] of the second basis. *)
  Definition data_ok (As : list OS) (C : Basis) (B : OS) (ts : list (nat * nat * GC)) : Prop :=
    (forall t, In t ts -> fst (fst t) < basis_len C /\ snd (fst t) < length As) /\
    forall (A : StarAlg) (g : op -> Z -> A), rep ty g -> forall j S, nth_error As j = Some S ->
        colsum g (b_strings C) j ts == exact m (den g S) (den g B).

  Lemma data_ok_extend As C C' D B ts : b_strings C' = b_strings C ++ D -> data_ok As C B ts -> data_ok As C' B ts.
  Proof.
    intros E [H1 H2]. split.
    - intros t Ht. destruct (H1 t Ht). unfold basis_len in *. rewrite E, app_length. lia.
    - intros A g Hr j S HS. rewrite E, colsum_extend; auto. intros t Ht. apply H1; auto.
  Qed.

  Lemma sc_outer_ok (P : OS -> Prop) As : (forall S, In S As -> string_ok ty S) -> forall Bs C md,
    (forall B, In B Bs -> string_ok ty B) -> distinct_keys (map fst md ++ Bs) ->
    (forall B c, In B Bs -> from As B c -> P c) -> ext_ok ty P C ->
    (forall B ts, In (B, ts) md -> data_ok As C B ts) ->
    exists C' new, sc_outer m tol As Bs C md = Ok (C', md ++ new) /\ ext_ok ty P C' /\
      map fst new = Bs /\ forall B ts, In (B, ts) (md ++ new) -> data_ok As C' B ts.
  Proof.
    intros HAs. induction Bs as [|B Bs IH]; intros C md HBs Hd HP HC Hmd.
    - exists C, []. rewrite app_nil_r. auto.
    - cbn [sc_outer].
      destruct (sc_inner_ok P B (HBs B (or_introl eq_refl)) As 0 C [] HAs (fun c => HP B c (or_introl eq_refl)) HC)
        as (C1 & new & He & HC1 & (D & HD) & Hb & Hden).
      rewrite He. cbn [rbind app].
      assert (Hnone : dget os_key md B = None).
      { apply dget_not_in. intros k v Hin K. apply in_map with (f := fst) in Hin.
        apply distinct_app in Hd. destruct Hd as (_ & _ & Hd). apply (Hd k B); simpl; auto. }
      rewrite dset_none by auto.
      destruct (IH C1 (md ++ [(B, new)])) as (C2 & new2 & He2 & HC2 & Em & Hall).
      + intros; apply HBs; simpl; auto.
      + rewrite map_app, <- app_assoc. auto.
      + intros; eapply HP; eauto; simpl; auto.
      + auto.
      + intros B' ts Hin. apply in_app_or in Hin. destruct Hin as [Hin|[E|[]]].
        * eapply data_ok_extend; eauto.
        * injection E as <- <-. split; [intros t Ht; destruct (Hb t Ht); split; auto; lia|].
          intros A g Hr j S HS. apply (Hden A g Hr j S HS).
      + exists C2, ((B, new) :: new2). rewrite He2, <- app_assoc. split; auto. split; auto. split; [simpl; congruence|].
        intros B' ts. replace (md ++ (B, new) :: new2) with ((md ++ [(B, new)]) ++ new2) by (rewrite <- app_assoc; auto). auto.
  Qed.
End SC.

(** Result of [structure_constants]: one matrix per string of the second basis, and the
    extended basis. *)
Definition sc_result (ty : optype) (m : mode) (As : list OS) (C : Basis) (B : OS) (N : smat) : Prop :=
  sm_rows N = basis_len C /\ sm_cols N = length As /\ data_ok ty m As C B (sm_trip N).

Lemma structure_constants_ok ty m tol A B : ty <> Fermion -> tol_ok tol -> good_basis ty A -> good_basis ty B ->
  exists Ns C, structure_constants m tol A B = Ok (combine (b_strings B) Ns, C) /\
    length Ns = basis_len B /\
    ext_ok ty (fun c => exists S T k, In S (b_strings A) /\ In T (b_strings B) /\ operation_opstring m S T = Ok (k, Some c)) C /\
    forall b T N, nth_error (b_strings B) b = Some T -> nth_error Ns b = Some N -> sc_result ty m (b_strings A) C T N.
Proof.
  intros Hty Htol [HA SA] [HB SB]. apply built_ok in HA, HB.
  set (P := fun c => exists S T k, In S (b_strings A) /\ In T (b_strings B) /\ operation_opstring m S T = Ok (k, Some c)).
  destruct (sc_outer_ok ty m tol Hty Htol P (b_strings A) SA (b_strings B) basis_empty []) as (C & md & He & HC & Em & Hmd).
  - auto. - apply HB. - intros T c HT (S & k & HS & Hr). exists S, T, k; auto.
  - split; [apply basis_ok_empty | intros c []].
  - intros T ts [].
  - unfold structure_constants. rewrite He. cbn [rbind app] in *.
    set (mk := fun e : OS * list (nat * nat * GC) => mkSM (basis_len C) (basis_len A) (snd e)).
    assert (Hf : forall rest pre d, md = pre ++ rest -> d = map (fun e => (fst e, mk e)) pre ->
      rfold (fun d b => let! ts := of_option KeyError (dget os_key md b) in
               let! M := sm_make (basis_len C) (basis_len A) ts in Ok (dset os_key d b M)) (map fst rest) d
      = Ok (map (fun e => (fst e, mk e)) (pre ++ rest))).
    { assert (Hdist : distinct_keys (map fst md)) by (rewrite Em; apply HB).
      induction rest as [|[b ts] rest IH]; intros pre d E Ed.
      - rewrite app_nil_r. subst d. reflexivity.
      - cbn [map rfold fst].
        rewrite (dget_nth md (length pre) b ts Hdist) by (rewrite E, nth_error_app2, Nat.sub_diag by lia; auto).
        cbn [of_option rbind].
        destruct (Hmd b ts) as [Hb _]; [rewrite E; apply in_or_app; simpl; auto|].
        unfold sm_make. replace (forallb _ ts) with true.
        2:{ symmetry. apply forallb_forall. intros t Ht. destruct (Hb t Ht) as [H1 H2].
            apply andb_true_iff. split; apply Nat.ltb_lt; auto. }
        cbn [rbind]. rewrite dset_none.
        + rewrite (IH (pre ++ [(b, ts)])); [rewrite <- app_assoc; auto | rewrite <- app_assoc; auto |].
          rewrite map_app. subst d. reflexivity.
        + apply dget_not_in. intros k v Hin K. subst d. apply in_map_iff in Hin. destruct Hin as ([k' ts'] & Ek & Hin).
          simpl in Ek. injection Ek as <- <-. rewrite E, map_app in Hdist. apply distinct_app in Hdist.
          destruct Hdist as (_ & _ & Hd). apply (Hd k' b); simpl; auto. apply in_map with (f := fst) in Hin. auto. }
    rewrite <- Em. rewrite (Hf md [] []) by auto. cbn [rbind app].
    exists (map mk md), C. split; [|split; [|split]].
    + f_equal. f_equal. clear. induction md as [|e md IH]; simpl; congruence.
    + unfold basis_len. rewrite <- Em, !map_length. auto.
    + auto.
    + intros b T N HT HN. rewrite nth_error_map in HN. destruct (nth_error md b) as [[T' ts]|] eqn:Eb; [|discriminate].
      simpl in HN. injection HN as <-. rewrite nth_error_map, Eb in HT. simpl in HT. injection HT as <-.
      split; auto. split; auto. apply Hmd. eapply nth_error_In; eauto.
Qed.

Lemma sc_result_column ty m As C B N : sc_result ty m As C B N ->
  forall (Al : StarAlg) (g : op -> Z -> Al), rep ty g -> forall a S, nth_error As a = Some S ->
    exact m (den g S) (den g B) == lincomb g (combine (column N a) (b_strings C)).
Proof.
  intros (E1 & E2 & Hb & Hd) Al g Hr a S HS. destruct N as [r c ts]. simpl in *. subst.
  rewrite column_colsum; [symmetry; auto | reflexivity |]. intros t Ht. apply Hb; auto.
Qed.

Lemma structure_constants_proof ty m tol A B : ty <> Fermion -> (0 <= tol)%Qc -> (tol <= 1)%Qc -> good_basis ty A -> good_basis ty B ->
  exists Ns C, structure_constants m tol A B = Ok (combine (b_strings B) Ns, C) /\
    length Ns = basis_len B /\ canonical_basis ty C /\
    (forall c, In c (b_strings C) -> exists S T k, In S (b_strings A) /\ In T (b_strings B) /\ operation_opstring m S T = Ok (k, Some c)) /\
    forall a b S T N, nth_error (b_strings A) a = Some S -> nth_error (b_strings B) b = Some T -> nth_error Ns b = Some N ->
      sm_rows N = basis_len C /\ sm_cols N = basis_len A /\
      forall (Al : StarAlg) (g : op -> Z -> Al), rep ty g ->
        exact m (den g S) (den g T) == lincomb g (combine (column N a) (b_strings C)).
Proof.
  intros Hty H0 H1 HA HB. destruct (structure_constants_ok ty m tol A B Hty (conj H0 H1) HA HB) as (Ns & C & He & Hl & [HC HP] & HN).
  exists Ns, C. split; auto. split; auto. split; [|split].
  - split; [apply built_iff; auto|]. intros s Hs. destruct (HP s Hs) as (a & b & _); auto.
  - intros c Hc. apply HP; auto.
  - intros a b S T N HS HT HN'. pose proof (HN b T N HT HN') as R. split; [apply R|]. split; [apply R|].
    intros Al g Hr. eapply sc_result_column; eauto.
Qed.

(* -------------------------------------------------------- Liouvillian *)

Lemma exact_lincomb_r {A : StarAlg} (g : op -> Z -> A) m x ts :
  exact m x (lincomb g ts) == asum (map (fun t => fst t · exact m x (den g (snd t))) ts).
Proof.
  induction ts as [|[c s] ts IH]; [apply exact_0_r|].
  rewrite lincomb_cons, exact_add_r, exact_scal_r, IH. reflexivity.
Qed.

(** The accumulation loop of both Liouvillian functions. *)
Lemma liouvillian_loop ty m rows cols (F : OS -> res smat) (strs : list OS) (Cs : list OS) (x : forall A : StarAlg, (op -> Z -> A) -> nat -> A) :
  rows = length Cs ->
  forall ts, (forall t, In t ts -> exists N, F (snd t) = Ok N /\ sm_rows N = rows /\ sm_cols N = cols /\
      (forall e, In e (sm_trip N) -> fst (fst e) < rows /\ snd (fst e) < cols) /\
      forall (A : StarAlg) (g : op -> Z -> A), rep ty g -> forall j, j < cols ->
        colsum g Cs j (sm_trip N) == exact m (x A g j) (den g (snd t))) ->
  forall L0, sm_rows L0 = rows -> sm_cols L0 = cols -> (forall e, In e (sm_trip L0) -> fst (fst e) < rows /\ snd (fst e) < cols) ->
  exists L, rfold (fun L t => let! N := F (snd t) in sm_add L (sm_scale (fst t) N)) ts L0 = Ok L /\
    sm_rows L = rows /\ sm_cols L = cols /\ (forall e, In e (sm_trip L) -> fst (fst e) < rows /\ snd (fst e) < cols) /\
    forall (A : StarAlg) (g : op -> Z -> A), rep ty g -> forall j, j < cols ->
      colsum g Cs j (sm_trip L) == colsum g Cs j (sm_trip L0) + exact m (x A g j) (lincomb g ts).
Proof.
  intros Er. induction ts as [|[c T] ts IH]; intros HF L0 R0 C0 B0.
  - exists L0. split; auto. split; auto. split; auto. split; auto. intros A g Hr j Hj.
    unfold lincomb; simpl. rewrite exact_0_r, aadd_0_r. reflexivity.
  - destruct (HF (c, T) (or_introl eq_refl)) as (N & EN & RN & CN & BN & DN). cbn [fst snd] in *.
    cbn [rfold fst snd]. rewrite EN. cbn [rbind]. unfold sm_add. cbn [sm_scale sm_rows sm_cols sm_trip].
    rewrite R0, C0, RN, CN, !Nat.eqb_refl. cbn [andb rbind].
    destruct (IH (fun t H => HF t (or_intror H)) (mkSM rows cols (sm_trip L0 ++ map (fun t => (fst t, gmul c (snd t))) (sm_trip N))))
      as (L & EL & RL & CL & BL & DL); auto.
    { simpl. intros e He. apply in_app_or in He. destruct He as [He|He]; auto.
      apply in_map_iff in He. destruct He as (e' & <- & He'). simpl. auto. }
    exists L. split; auto. split; auto. split; auto. split; auto.
    intros A g Hr j Hj. rewrite (DL A g Hr j Hj). cbn [sm_trip]. rewrite colsum_app, colsum_scale, (DN A g Hr j Hj).
    rewrite lincomb_cons, exact_add_r, exact_scal_r, aadd_assoc. reflexivity.
Qed.

Lemma liouvillian_strings_proof ty m b o : ty <> Fermion -> good_basis ty b -> good_op ty o ->
  exists L C, liouvillian_matrix m (ABasis b) o = Ok (L, C) /\ canonical_basis ty C /\
    sm_rows L = basis_len C /\ sm_cols L = basis_len b /\ (forall e, In e (sm_trip L) -> fst (fst e) < sm_rows L /\ snd (fst e) < sm_cols L) /\
    forall a S, nth_error (b_strings b) a = Some S -> forall (Al : StarAlg) (g : op -> Z -> Al), rep ty g ->
      exact m (den g S) (lincomb g (op_terms o)) == lincomb g (combine (column L a) (b_strings C)).
Proof.
  intros Hty Hb Ho. pose proof (good_op_ok _ _ Ho) as OO.
  assert (Hob : good_basis ty (o_basis o)) by (split; [apply built_iff, OO | apply Ho]).
  destruct (structure_constants_ok ty m tol16 b (o_basis o) Hty tol16_ok Hb Hob) as (Ns & C & He & Hl & [HC HP] & HN).
  cbn [liouvillian_matrix]. unfold liouvillian_strings. rewrite He. cbn [rbind].
  destruct (liouvillian_loop ty m (basis_len C) (basis_len b) (fun T => of_option KeyError (dget os_key (combine (b_strings (o_basis o)) Ns) T))
     [] (b_strings C) (fun A g j => den_at g (b_strings b) j) eq_refl (op_terms o)) with (L0 := sm_zero (basis_len C) (basis_len b))
     as (L & EL & RL & CL & BL & DL); auto.
  - intros [c T] Ht. cbn [snd]. assert (HT : In T (b_strings (o_basis o))) by (eapply in_combine_r; eauto).
    apply In_nth_error in HT. destruct HT as (i & Hi).
    assert (Li : i < length Ns) by (rewrite Hl; apply nth_error_Some; congruence).
    destruct (nth_len Ns i Li) as (N & HNi). exists N.
    rewrite (dget_nth _ i T N).
    + pose proof (HN i T N Hi HNi) as (E1 & E2 & Hb1 & Hd). split; auto. split; auto. split; auto.
      split; [intros e Hin; apply Hb1; auto|].
      intros A g Hr j Hj. unfold den_at. destruct (nth_len (b_strings b) j Hj) as (S & HS). rewrite HS. apply Hd; auto.
    + rewrite map_fst_comb by (rewrite Hl; reflexivity). apply OO.
    + apply combine_nth_error; auto.
  - intros e [].
  - cbn beta in EL. rewrite EL. cbn [rbind].
    exists L, C. split; auto. split; [split; [apply built_iff; auto | intros s Hs; destruct (HP s Hs) as (? & ? & _); auto]|].
    split; auto. split; auto. split; [rewrite RL, CL; auto|].
    intros a S HS Al g Hr. destruct L as [r c ts]. simpl in RL, CL, BL, DL. subst r c.
    rewrite column_colsum; [|reflexivity | intros t Ht; apply BL; auto].
    rewrite (DL Al g Hr a) by (apply nth_error_Some; unfold basis_len; congruence).
    unfold den_at. rewrite HS. unfold colsum; simpl. rewrite aadd_0_l. reflexivity.
Qed.
