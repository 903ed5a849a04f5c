(** symmetry_matrix and invariant_operators. *)
From Coq Require Import List Arith Lia ZArith NArith Bool Setoid Morphisms Sorted Permutation QArith Qcanon Ring.
From Verif Require Import GC Exn S_Alg S_Den S_Basis S_Built S_OpAlg S_Transform S_Fock M_OpString M_Tools M_Algebra M_Basis M_OpAlg M_Transform
  L_Alg L_Module L_Basis L_Operator L_VSum L_Struct L_Sum L_ConvLin L_Conversion2 L_ConvMat L_Conversion2
  L_Trans1 L_Trans2 L_Trans3 L_Trans4 L_Trans5 L_Trans6.
Import ListNotations.
Local Open Scope nat_scope.

Definition cf (q : Operator) (u : OS) : GC := vsum (keyed u) (op_terms q).
Definition keptsum (u : OS) (ts : list (GC * OS)) : GC := gsum (map (fun t => if os_key (snd t) u then kept tol12 (fst t) else g0) ts).

(* -------------------------------------------------------------- the columns *)

Lemma sym_fold b j ts : basis_ok b -> forall acc, (forall t, In t acc -> fst (fst t) < basis_len b /\ snd (fst t) = j) ->
  exists acc', rfold (fun acc t =>
     if basis_mem b (snd t) then
       let! i := basis_index b (snd t) in
       Ok (if abs_gtb (fst t) tol12 then acc ++ [(i, j, fst t)] else acc)
     else Ok acc) ts acc = Ok acc' /\
    (forall t, In t acc' -> fst (fst t) < basis_len b /\ snd (fst t) = j) /\
    forall i u, nth_error (b_strings b) i = Some u -> entry acc' i j = gadd (entry acc i j) (keptsum u ts).
Proof.
  intros Hb. induction ts as [|[c s] ts IH]; intros acc Ha.
  - exists acc. split; [reflexivity|]. split; auto. intros. unfold keptsum. cbn. ring.
  - cbn [rfold fst snd]. destruct (basis_mem b s) eqn:Em.
    + apply (basis_ok_mem b s Hb) in Em. destruct Em as (t & Ht & K). apply In_nth_error in Ht. destruct Ht as (i0 & Hi0).
      assert (Ei : basis_index b s = Ok i0) by (apply basis_ok_index; eauto). rewrite Ei. cbn [rbind].
      destruct (IH (if abs_gtb c tol12 then acc ++ [(i0, j, c)] else acc)) as (acc' & E & B & F).
      { destruct (abs_gtb c tol12); auto. intros x Hx. apply in_app_or in Hx. destruct Hx as [Hx|[<-|[]]]; auto. cbn. split; auto. apply nth_error_Some. congruence. }
      exists acc'. split; auto. split; auto. intros i u Hi. rewrite (F i u Hi). unfold keptsum. cbn [map fst snd]. fold (keptsum u ts).
      change (gsum (?x :: ?l)) with (gadd x (gsum l)). fold (keptsum u ts).
      assert (X : entry (if abs_gtb c tol12 then acc ++ [(i0, j, c)] else acc) i j = gadd (entry acc i j) (if os_key s u then kept tol12 c else g0)).
      { assert (Y : Nat.eqb i0 i = os_key s u).
        { destruct (Nat.eqb_spec i0 i) as [<-|N].
          - rewrite Hi0 in Hi. injection Hi as <-. symmetry. apply os_key_spec, same_key_sym; auto.
          - symmetry. apply not_true_is_false. intros Q. apply os_key_spec in Q. apply N. apply (proj1 Hb i0 i t u); auto. eapply same_key_trans; eauto. }
        unfold kept. destruct (abs_gtb c tol12).
        - rewrite entry_app, entry_cons. cbn [fst snd]. rewrite Nat.eqb_refl, andb_true_r, Y. change (entry [] i j) with g0. destruct (os_key s u); ring.
        - destruct (os_key s u); ring. }
      rewrite X. ring.
    + destruct (IH acc Ha) as (acc' & E & B & F). exists acc'. split; auto. split; auto. intros i u Hi. rewrite (F i u Hi). unfold keptsum. cbn [map fst snd].
      change (gsum (?x :: ?l)) with (gadd x (gsum l)).
      destruct (os_key s u) eqn:K; [|ring]. exfalso. apply os_key_spec in K.
      assert (basis_mem b s = true) by (apply (basis_ok_mem b s Hb); exists u; split; [eapply nth_error_In; eauto | apply same_key_sym; auto]). congruence.
Qed.

Lemma sym_columns_ok b T l : basis_ok b -> (forall s, In s l -> exists o, T s = Ok o) -> forall j0,
  exists ts, sym_columns b T j0 l = Ok ts /\ (forall t, In t ts -> fst (fst t) < basis_len b /\ j0 <= snd (fst t) < j0 + length l) /\
    forall i u j s o, nth_error (b_strings b) i = Some u -> nth_error l j = Some s -> T s = Ok o -> entry ts i (j0 + j) = keptsum u (op_terms o).
Proof.
  intros Hb. induction l as [|s l IH]; intros HT j0.
  - exists []. split; [reflexivity|]. split; [intros t []|]. intros i u j s o _ Hj. destruct j; discriminate.
  - destruct (HT s (or_introl eq_refl)) as (o & Eo). destruct (sym_fold b j0 (op_terms o) Hb [] ltac:(intros t [])) as (ts & E & B & F).
    destruct (IH ltac:(intros; apply HT; right; auto) (S j0)) as (us & E' & B' & F').
    exists (ts ++ us). cbn [sym_columns]. unfold sym_column. rewrite Eo. cbn [rbind]. rewrite E. cbn [rbind]. rewrite E'. cbn [rbind]. split; auto. split.
    + intros t Ht. cbn [length]. apply in_app_or in Ht. destruct Ht as [Ht|Ht]; [destruct (B t Ht)|destruct (B' t Ht)]; lia.
    + intros i u j s' o' Hi Hj Eo'. rewrite entry_app. destruct j as [|j].
      * cbn in Hj. injection Hj as <-. rewrite Eo in Eo'. injection Eo' as <-. rewrite Nat.add_0_r, (F i u Hi).
        assert (Z : entry us i j0 = g0).
        { unfold entry. apply gsum_map_zero. intros x Hx. destruct (B' x Hx). destruct (Nat.eqb_spec (snd (fst x)) j0); [lia|]. rewrite andb_false_r. reflexivity. }
        rewrite Z. change (entry [] i j0) with g0. ring.
      * rewrite (entry_other j0 ts i (j0 + S j)); [|intros t Ht; apply B; auto | lia]. replace (j0 + S j) with (S j0 + j) by lia. rewrite (F' i u j s' o' Hi Hj Eo'). ring.
Qed.

Lemma keptsum_coeff o u c : op_ok o -> has_coeff (op_terms o) u c -> keptsum u (op_terms o) = kept tol12 c.
Proof.
  intros Ho. assert (D : distinct_keys (map snd (op_terms o))) by (rewrite (op_terms_snd o Ho); apply Ho).
  revert D c. induction (op_terms o) as [|[d s] ts IH]; intros D c H.
  - destruct H as [(t & [] & _)|[-> _]]. unfold kept. destruct (abs_gtb g0 tol12); reflexivity.
  - cbn [map snd] in D. apply distinct_cons in D. destruct D as [D N]. unfold keptsum. cbn [map fst snd]. change (gsum (?x :: ?l)) with (gadd x (gsum l)). fold (keptsum u ts).
    assert (Z : kept tol12 g0 = g0) by (unfold kept; destruct (abs_gtb g0 tol12); reflexivity).
    destruct (os_key s u) eqn:K.
    + apply os_key_spec in K. rewrite (IH D g0), Z.
      * destruct H as [(t & [E|Ht] & Kt)|[-> Nt]].
        -- injection E as -> ->. ring.
        -- exfalso. apply (N t); [apply (in_map snd) in Ht; auto|]. eapply same_key_trans; [exact K | apply same_key_sym; auto].
        -- exfalso. apply (Nt d s); auto. left; auto.
      * right. split; auto. intros e t Ht Kt. apply (N t); [apply (in_map snd) in Ht; auto|]. eapply same_key_trans; [exact K | apply same_key_sym; auto].
    + rewrite (IH D c); [ring|]. destruct H as [(t & [E|Ht] & Kt)|[-> Nt]].
      * injection E as -> ->. apply os_key_spec in Kt. congruence.
      * left. eauto.
      * right. split; auto. intros e t Ht. apply (Nt e t). right; auto.
Qed.

Theorem symmetry_matrix_columns ty b T : built b -> keeps_type ty T -> (forall s, In s (b_strings b) -> os_type s = ty /\ std s) ->
  ((exists M, symmetry_matrix b T = Ok M) <-> (forall s, In s (b_strings b) -> exists o, T s = Ok o)) /\
  forall M, symmetry_matrix b T = Ok M -> sm_rows M = basis_len b /\ sm_cols M = basis_len b /\
    forall i j u s o c, nth_error (b_strings b) i = Some u -> nth_error (b_strings b) j = Some s -> T s = Ok o -> has_coeff (op_terms o) u c ->
      sm_entry M i j = if abs_gtb c tol12 then c else g0.
Proof.
  intros Hb HT Hs. apply built_iff in Hb.
  assert (K : forall l j, (exists ts, sym_columns b T j l = Ok ts) -> forall s, In s l -> exists o, T s = Ok o).
  { induction l as [|s l IH]; intros j (ts & E) s' Hin; [destruct Hin|]. cbn [sym_columns] in E. unfold sym_column in E.
    destruct (T s) as [o|] eqn:Eo; [|discriminate]. cbn [rbind] in E. destruct (rfold _ _ _) as [a|] in E; [|discriminate]. cbn [rbind] in E.
    destruct (sym_columns b T (S j) l) as [us|] eqn:Eu; [|discriminate]. destruct Hin as [<-|Hin]; eauto. }
  assert (Y : (forall s, In s (b_strings b) -> exists o, T s = Ok o) -> exists M, symmetry_matrix b T = Ok M /\ sm_rows M = basis_len b /\ sm_cols M = basis_len b /\
    forall i j u s o c, nth_error (b_strings b) i = Some u -> nth_error (b_strings b) j = Some s -> T s = Ok o -> has_coeff (op_terms o) u c ->
      sm_entry M i j = if abs_gtb c tol12 then c else g0).
  { intros H. destruct (sym_columns_ok b T (b_strings b) Hb H 0) as (ts & E & B & F). unfold symmetry_matrix. rewrite E. cbn [rbind]. unfold sm_make.
    rewrite (proj2 (forallb_forall _ _)).
    - eexists. split; [reflexivity|]. split; auto. split; auto. intros i j u s o c Hi Hj Eo Hc. rewrite sm_entry_entry. cbn [sm_trip].
      pose proof (F i u j s o Hi Hj Eo) as G. cbn in G. rewrite G. destruct (Hs s (nth_error_In _ _ Hj)) as [S1 S2].
      destruct (HT s o S1 S2 Eo) as [P _]. rewrite (keptsum_coeff o u c (proper_ok _ P) Hc). reflexivity.
    - intros t Ht. destruct (B t Ht) as [B1 B2]. apply andb_true_iff. split; apply Nat.ltb_lt; unfold basis_len in *; lia. }
  split.
  - split; [|intros H; destruct (Y H) as (M & E & _); eauto]. intros (M & E). apply (K _ 0). unfold symmetry_matrix in E.
    destruct (sym_columns b T 0 (b_strings b)) as [ts|]; [eauto | discriminate].
  - intros M E. destruct Y as (M' & E' & R).
    + apply (K _ 0). unfold symmetry_matrix in E. destruct (sym_columns b T 0 (b_strings b)) as [ts|]; [eauto | discriminate].
    + rewrite E in E'. injection E' as <-. exact R.
Qed.

(* ------------------------------------------------------------ inner products *)

Lemma nth_error_ext {X} (l m : list X) : (forall i, nth_error l i = nth_error m i) -> l = m.
Proof.
  revert m. induction l as [|x l IH]; intros [|y m] E; auto.
  - specialize (E 0). discriminate. - specialize (E 0). discriminate.
  - pose proof (E 0) as E0. injection E0 as ->. f_equal. apply IH. intros i. apply (E (S i)).
Qed.
Lemma sg_list {X} (F : X -> GC) l : gsum (map F l) = sg (length l) (fun j => match nth_error l j with Some x => F x | None => g0 end).
Proof.
  unfold sg. induction l as [|x l IH]; [reflexivity|]. cbn [map length seq nth_error]. change (gsum (?y :: ?m)) with (gadd y (gsum m)).
  rewrite IH, <- seq_shift, map_map. reflexivity.
Qed.
Lemma vsum_gsum (F : OS -> gc_alg) ts : vsum F ts = gsum (map (fun t => gmul (fst t) (F (snd t))) ts).
Proof. reflexivity. Qed.
Lemma keyed_cong u u' s : same_key u u' -> keyed u s = keyed u' s.
Proof.
  intros K. unfold keyed. destruct (os_key s u) eqn:E, (os_key s u') eqn:F; auto.
  - apply os_key_spec in E. assert (os_key s u' = true) by (apply os_key_spec; eapply same_key_trans; eauto). congruence.
  - apply os_key_spec in F. assert (os_key s u = true) by (apply os_key_spec; eapply same_key_trans; [eauto | apply same_key_sym; auto]). congruence.
Qed.
Lemma cf_cong q u u' : same_key u u' -> cf q u = cf q u'.
Proof. intros K. unfold cf. rewrite !vsum_gsum. apply gsum_map_ext. intros t _. rewrite (keyed_cong u u') by auto. reflexivity. Qed.
Lemma cf_term q c s : op_ok q -> In (c, s) (op_terms q) -> cf q s = c.
Proof. intros Hq H. symmetry. apply has_coeff_keyed; auto. left. exists s. split; auto. apply same_key_refl. Qed.

Lemma pair_sum q L (G : OS -> GC) : distinct_keys L -> (forall s, In s (map snd (op_terms q)) -> exists u, In u L /\ same_key u s) ->
  (forall u u', same_key u u' -> G u = G u') ->
  gsum (map (fun u => gmul (gconj (cf q u)) (G u)) L) = gsum (map (fun t => gmul (gconj (fst t)) (G (snd t))) (op_terms q)).
Proof.
  intros D Hc HG.
  transitivity (gsum (map (fun u => gsum (map (fun t => gmul (gmul (gconj (fst t)) (if os_key (snd t) u then g1 else g0)) (G u)) (op_terms q))) L)).
  - apply gsum_map_ext. intros u _. unfold cf. rewrite vsum_gsum, <- gsum_map_conj.
    transitivity (gmul (G u) (gsum (map (fun x => gconj (gmul (fst x) (keyed u (snd x)))) (op_terms q)))); [ring|].
    rewrite <- gsum_map_mul. apply gsum_map_ext. intros t _. unfold keyed. rewrite gconj_mul. destruct (os_key (snd t) u); rewrite ?gconj_0; try (replace (gconj g1) with g1 by (apply GC_ext; apply Qc_is_canon; reflexivity)); ring.
  - rewrite gsum_swap. apply gsum_map_ext. intros t Ht. destruct (Hc (snd t) (in_map snd _ _ Ht)) as (u0 & Hu0 & K0).
    apply In_nth_error in Hu0. destruct Hu0 as (i0 & Hi0).
    rewrite sg_list. rewrite (sg_single _ i0).
    + rewrite Hi0. rewrite (proj2 (os_key_spec (snd t) u0)) by (apply same_key_sym; auto). rewrite (HG u0 (snd t) K0). ring.
    + apply nth_error_Some. congruence.
    + intros i _ N. destruct (nth_error L i) as [u|] eqn:Ei; auto. destruct (os_key (snd t) u) eqn:K; [|ring].
      exfalso. apply os_key_spec in K. apply N. apply (D i i0 u u0); auto. eapply same_key_trans; apply same_key_sym; [exact K | exact K0].
Qed.

Lemma norm2_gc c : gmul (gconj c) c = gq (norm2 c).
Proof. apply GC_ext; unfold gmul, gconj, gq, norm2; cbn; ring. Qed.
Lemma gq_add x y : gq (x + y) = gadd (gq x) (gq y).
Proof. apply GC_ext; unfold gadd, gq; cbn; ring. Qed.
Lemma gq_mul x y : gq (x * y) = gmul (gq x) (gq y).
Proof. apply GC_ext; unfold gmul, gq; cbn; ring. Qed.
Lemma gq_inj x y : gq x = gq y -> x = y.
Proof. intros H. injection H; auto. Qed.
Lemma norm_terms q : op_ok q -> gq (op_norm2 q) = gsum (map (fun t => gmul (gconj (fst t)) (fst t)) (op_terms q)).
Proof.
  intros Hq. unfold op_norm2. rewrite <- (op_terms_fst q Hq). induction (op_terms q) as [|t ts IH]; cbn [map fold_right].
  - reflexivity.
  - change (gsum (?x :: ?l)) with (gadd x (gsum l)). rewrite gq_add, IH, norm2_gc. reflexivity.
Qed.
Lemma norm_zero q u : op_ok q -> op_norm2 q = 0%Qc -> cf q u = g0.
Proof.
  intros Hq H.
  assert (Z : forall t, In t (op_terms q) -> fst t = g0).
  { pose proof (norm_terms q Hq) as E. rewrite H in E. rewrite sg_list in E.
    intros t Ht. apply In_nth_error in Ht. destruct Ht as (i & Hi).
    pose proof (sg_sq_zero (length (op_terms q)) (fun j => match nth_error (op_terms q) j with Some x => fst x | None => g0 end)) as S.
    assert (Hl : i < length (op_terms q)) by (apply nth_error_Some; congruence).
    specialize (S ltac:(etransitivity; [|symmetry; exact E]; apply sg_ext; intros j _; destruct (nth_error (op_terms q) j); [reflexivity | rewrite gconj_0; ring]) i Hl).
    cbn beta in S. rewrite Hi in S. exact S. }
  unfold cf. rewrite vsum_gsum. apply gsum_map_zero. intros t Ht. rewrite (Z t Ht). generalize (keyed u (snd t) : GC). intros x. cbn. ring.
Qed.

(* ------------------------------------------------------------ soundness *)

Section Inv.
  Context (ty : optype) (T : rule) (o : Operator) (M H : smat).
  Hypothesis Hsh : keeps_type ty T.
  Hypothesis Po : proper o.
  Hypothesis To : o_type o = ty.
  Hypothesis Hm : monomial_on T (b_strings (o_basis o)).
  Hypothesis EM : symmetry_matrix (o_basis o) T = Ok M.
  Hypothesis EH : hermitian_part M = Ok H.
  Let n := length (b_strings (o_basis o)).
  Let v := o_coeffs o.
  Let Hok : op_ok o := proper_ok _ Po.

  Lemma o_strings s : In s (b_strings (o_basis o)) -> os_type s = ty /\ std s.
  Proof. intros Hs. pose proof Po as (_ & _ & P). rewrite <- To. auto. Qed.
  Lemma vlen : length v = n.
  Proof. apply Po. Qed.
  Lemma M_shape : sm_rows M = n /\ sm_cols M = n.
  Proof. destruct (symmetry_matrix_columns ty (o_basis o) T ltac:(apply Po) Hsh o_strings) as [_ X]. destruct (X M EM) as (A & B & _). auto. Qed.
  Lemma M_entry i j u s k t : nth_error (b_strings (o_basis o)) i = Some u -> nth_error (b_strings (o_basis o)) j = Some s -> one_term (T s) k t ->
    sm_entry M i j = gmul k (keyed u t).
  Proof.
    intros Hi Hj Ht. destruct (symmetry_matrix_columns ty (o_basis o) T ltac:(apply Po) Hsh o_strings) as [_ X]. destruct (X M EM) as (_ & _ & F).
    pose proof Ht as (q & Eq & _ & Eqt). destruct (proj1 Hm s (nth_error_In _ _ Hj)) as (k' & t' & Ht' & U). destruct (one_term_fun _ _ _ _ _ Ht Ht') as [<- <-].
    rewrite (F i j u s q (gmul k (keyed u t)) Hi Hj Eq).
    - unfold keyed. destruct U as [->| ->]; destruct (os_key t u); vm_compute; reflexivity.
    - rewrite Eqt. unfold keyed. destruct (os_key t u) eqn:K.
      + left. exists t. split; [left; f_equal; ring | apply os_key_spec; auto].
      + right. split; [ring|]. intros d x [E|[]] Q. injection E as <- <-. apply os_key_spec in Q. congruence.
  Qed.
  Lemma strings_nth j : j < n -> exists s, nth_error (b_strings (o_basis o)) j = Some s /\ nth_error (op_terms o) j = Some (vat v j, s).
  Proof.
    intros Hj. destruct (nth_error (b_strings (o_basis o)) j) as [s|] eqn:E; [|apply nth_error_None in E; unfold n in Hj; lia].
    exists s. split; auto. apply op_terms_nth. split; auto. unfold vat, v. rewrite (nth_error_nth' _ g0); auto. rewrite (proj1 (proj2 Po)). exact Hj.
  Qed.
  Lemma terms_len : length (op_terms o) = n.
  Proof. rewrite <- (map_length snd), (op_terms_snd o Hok). reflexivity. Qed.

  (** The image of o. *)
  Lemma image_op : exists r, apply T (TOperator o) = Ok r /\ proper r /\ o_type r = ty /\ op_norm2 r = op_norm2 o /\
    (forall i s k t, nth_error (b_strings (o_basis o)) i = Some s -> one_term (T s) k t -> cf r t = gmul (vat v i) k) /\
    (forall i u, nth_error (b_strings (o_basis o)) i = Some u -> cf r u = sg n (fun j => gmul (sm_entry M i j) (vat v j))).
  Proof.
    destruct (apply_monomial ty T o Hsh Po To (proj1 Hm) (proj2 Hm)) as (r & Er & Pr & Tr & Htt). exists r. split; auto. split; auto. split; auto.
    split; [apply (term_norm T); auto using proper_ok|]. split.
    - intros i s k t Hi Ht. assert (Hl : i < n) by (apply nth_error_Some; congruence).
      destruct (strings_nth i Hl) as (s' & E1 & E2). rewrite Hi in E1. injection E1 as <-.
      pose proof (proj1 (Forall2_nth _ _ _) Htt) as (HL & HN).
      destruct (nth_error (op_terms r) i) as [[c t']|] eqn:Er'; [|apply nth_error_None in Er'; rewrite <- HL, terms_len in Er'; lia].
      destruct (HN i _ _ E2 Er') as (k' & A1 & _ & A2). cbn [fst snd] in *. destruct (one_term_fun _ _ _ _ _ A1 Ht) as [<- <-].
      rewrite (cf_term r c t' (proper_ok _ Pr)); auto. eapply nth_error_In; eauto.
    - intros i u Hi. destruct (apply_vsum ty T Hsh o Po To) as [_ X]. destruct (X r Er) as (_ & _ & F). unfold cf.
      rewrite (F gc_alg (keyed u) : _ = _), vsum_gsum, sg_list, terms_len. apply sg_ext. intros j Hj. destruct (strings_nth j Hj) as (s & E1 & E2). rewrite E2. cbn [fst snd].
      destruct (proj1 Hm s (nth_error_In _ _ E1)) as (k & t & Ht & _). rewrite (M_entry i j u s k t Hi E1 Ht).
      destruct Ht as (q & Eq & _ & Eqt). unfold TF. rewrite Eq, Eqt, vsum_cons. change (vsum (keyed u) []) with g0. cbn [gc_alg ascal aadd car].
      generalize (keyed u t : GC). intros x. ring.
  Qed.

  Lemma H_shape : sm_rows H = n /\ sm_cols H = n.
  Proof.
    unfold hermitian_part, sm_add in EH. cbn [sm_adj sm_rows sm_cols] in EH. destruct M_shape as [A B]. destruct (_ && _); [|discriminate].
    cbn in EH. injection EH as <-. cbn. auto.
  Qed.
  Lemma H_entry i j : sm_entry H i j = gmul half (gadd (sm_entry M i j) (gconj (sm_entry M j i))).
  Proof.
    unfold hermitian_part, sm_add in EH. destruct (_ && _); [|discriminate]. cbn [rbind] in EH. injection EH as <-.
    rewrite !sm_entry_entry. unfold sm_scale. cbn [sm_trip]. rewrite entry_scale, entry_app. unfold sm_adj. cbn [sm_trip]. rewrite entry_adj. reflexivity.
  Qed.
  Lemma eigen_iff lam : eigenpair H lam v <->
    forall i, i < n -> gmul half (gadd (sg n (fun j => gmul (sm_entry M i j) (vat v j))) (sg n (fun j => gmul (gconj (sm_entry M j i)) (vat v j)))) = gmul (gq lam) (vat v i).
  Proof.
    destruct H_shape as [A B].
    assert (S : forall i, i < n -> nth_error (matvec H v) i = Some (gmul half (gadd (sg n (fun j => gmul (sm_entry M i j) (vat v j))) (sg n (fun j => gmul (gconj (sm_entry M j i)) (vat v j)))))).
    { intros i Hi. rewrite matvec_nth; [|rewrite B; apply vlen | lia]. f_equal. rewrite B, <- sg_add, <- sg_mul. apply sg_ext. intros j Hj. rewrite H_entry. ring. }
    assert (Q : forall i, i < n -> nth_error (map (gmul (gq lam)) v) i = Some (gmul (gq lam) (vat v i))).
    { intros i Hi. rewrite nth_error_map. unfold vat. rewrite (nth_error_nth' v g0); [reflexivity|]. rewrite vlen. exact Hi. }
    split.
    - intros [_ E] i Hi. specialize (S i Hi). rewrite E, (Q i Hi) in S. congruence.
    - intros E. split; [rewrite B; apply vlen|]. apply nth_error_ext. intros i. destruct (Nat.lt_ge_cases i n) as [Hi|Hi].
      + rewrite (S i Hi), (Q i Hi), (E i Hi). reflexivity.
      + rewrite !(proj2 (nth_error_None _ _)); auto; [rewrite map_length, vlen; auto | rewrite matvec_length; lia].
  Qed.

  (** |T(O) - sign O|^2 = 2 (1 - sign lambda) |O|^2. *)
  Theorem deviation (sign : Qc) lam : (sign * sign = 1)%Qc -> eigenpair H lam v ->
    exists r m d, apply T (TOperator o) = Ok r /\ op_scale (gq sign) o = Ok m /\ op_sub r m = Ok d /\
      op_norm2 d = ((1 + 1) * (1 - sign * lam) * op_norm2 o)%Qc /\
      (op_norm2 d = 0%Qc -> same_coeffs r m).
  Proof.
    intros Hsg He. destruct image_op as (r & Er & Pr & Tr & Nr & _ & Fr).
    destruct (proper_scale (gq sign) o Po) as (m & Em & Pm & Tm & Fm).
    destruct (op_sub_ok r m (proper_ok _ Pr) (proper_ok _ Pm) ltac:(congruence)) as (d & Ed & _ & Hd & Td & Ad & Kd).
    exists r, m, d. split; auto. split; auto. split; auto.
    assert (Cm : forall u, cf m u = gmul (gq sign) (cf o u)).
    { intros u. unfold cf. rewrite Fm, (vsum_scal (keyed u) (gq sign) (op_terms o) : _ = _). reflexivity. }
    assert (Cd : forall u, cf d u = gsub (cf r u) (gmul (gq sign) (cf o u))).
    { intros u. symmetry. rewrite <- Cm. apply has_coeff_keyed; auto. apply Kd; apply keyed_coeff; auto using proper_ok. }
    set (L := b_strings (o_basis d)).
    assert (DL : distinct_keys L) by apply Hd.
    assert (Lr : forall s, In s (map snd (op_terms r)) -> exists u, In u L /\ same_key u s).
    { rewrite (op_terms_snd r (proper_ok _ Pr)). intros s Hs. exists s. split; [|apply same_key_refl]. apply (append_new_left _ _ _ Ad); auto. }
    assert (Lo : forall s, In s (map snd (op_terms o)) -> exists u, In u L /\ same_key u s).
    { intros s Hs. apply (append_new_right _ _ _ Ad). rewrite <- (op_terms_snd m (proper_ok _ Pm)), Fm, map_map. exact Hs. }
    set (X := gsum (map (fun u => gmul (gconj (cf o u)) (cf r u)) L)).
    set (N := gq (op_norm2 o)).
    assert (EN : forall q, op_ok q -> (forall s, In s (map snd (op_terms q)) -> exists u, In u L /\ same_key u s) -> gsum (map (fun u => gmul (gconj (cf q u)) (cf q u)) L) = gq (op_norm2 q)).
    { intros q Hq Hc. rewrite (pair_sum q L (cf q) DL Hc (cf_cong q)), (norm_terms q Hq). apply gsum_map_ext. intros [c s] Ht. cbn [fst snd]. rewrite (cf_term q c s Hq Ht). reflexivity. }
    assert (EX : X = sg n (fun i => gmul (gconj (vat v i)) (sg n (fun j => gmul (sm_entry M i j) (vat v j))))).
    { unfold X. rewrite (pair_sum o L (cf r) DL Lo (cf_cong r)), sg_list, terms_len. apply sg_ext. intros i Hi. destruct (strings_nth i Hi) as (s & E1 & E2). rewrite E2. cbn [fst snd].
      rewrite (Fr i s E1). reflexivity. }
    assert (EXc : gconj X = sg n (fun i => gmul (gconj (vat v i)) (sg n (fun j => gmul (gconj (sm_entry M j i)) (vat v j))))).
    { rewrite EX, <- sg_conj.
      transitivity (sg n (fun i => sg n (fun j => gmul (vat v i) (gmul (gconj (sm_entry M i j)) (gconj (vat v j)))))).
      - apply sg_ext. intros i Hi. rewrite gconj_mul, gconj_conj, <- sg_conj, <- sg_mul. apply sg_ext. intros j Hj. rewrite gconj_mul. reflexivity.
      - rewrite sg_swap. apply sg_ext. intros i Hi. rewrite <- sg_mul. apply sg_ext. intros j Hj. ring. }
    assert (ENo : N = sg n (fun i => gmul (gconj (vat v i)) (vat v i))).
    { unfold N. rewrite (norm_terms o Hok), sg_list, terms_len. apply sg_ext. intros i Hi. destruct (strings_nth i Hi) as (s & E1 & E2). rewrite E2. reflexivity. }
    assert (E1 : gmul half (gadd X (gconj X)) = gmul (gq lam) N).
    { rewrite EXc, EX, ENo, <- sg_add, <- !sg_mul. apply sg_ext. intros i Hi. pose proof (proj1 (eigen_iff lam) He i Hi) as Q.
      transitivity (gmul (gconj (vat v i)) (gmul half (gadd (sg n (fun j => gmul (sm_entry M i j) (vat v j))) (sg n (fun j => gmul (gconj (sm_entry M j i)) (vat v j)))))); [ring|].
      rewrite Q. ring. }
    assert (EY : gsum (map (fun u => gmul (gconj (cf r u)) (cf o u)) L) = gconj X).
    { unfold X. rewrite <- gsum_map_conj. apply gsum_map_ext. intros u _. rewrite gconj_mul, gconj_conj. ring. }
    assert (Cs : gconj (gq sign) = gq sign) by (apply GC_ext; unfold gconj, gq; cbn; ring).
    split.
    - apply gq_inj. rewrite <- (EN d Hd); [|rewrite (op_terms_snd d Hd); intros s Hs; exists s; split; [exact Hs | apply same_key_refl]].
      transitivity (gadd (gadd (gq (op_norm2 r)) (gmul (gopp (gq sign)) (gadd X (gconj X)))) (gmul (gmul (gq sign) (gq sign)) N)).
      + unfold N. rewrite <- (EN r (proper_ok _ Pr) Lr), <- (EN o Hok Lo). rewrite <- EY. unfold X. rewrite <- gsum_map_add, <- gsum_map_mul, <- gsum_map_mul, <- !gsum_map_add.
        apply gsum_map_ext. intros u _. rewrite Cd. rewrite gconj_sub, gconj_mul, Cs. ring.
      + rewrite Nr. fold N. transitivity (gadd (gadd N (gmul (gopp (gq sign)) (gmul g2 (gmul half (gadd X (gconj X)))))) (gmul (gmul (gq sign) (gq sign)) N)).
        * assert (g2 = gdiv g1 half \/ gmul g2 half = g1) as [_|Q] by (right; apply GC_ext; apply Qc_is_canon; reflexivity).
          -- f_equal. f_equal. f_equal. transitivity (gmul (gmul g2 half) (gadd X (gconj X))); [|ring]. replace (gmul g2 half) with g1 by (apply GC_ext; apply Qc_is_canon; reflexivity). ring.
          -- f_equal. f_equal. f_equal. transitivity (gmul (gmul g2 half) (gadd X (gconj X))); [rewrite Q; ring | ring].
        * rewrite E1. unfold N. rewrite <- !gq_mul, Hsg. replace ((1 + 1) * (1 - sign * lam) * op_norm2 o)%Qc with (op_norm2 o + - (sign) * ((1 + 1) * (lam * op_norm2 o)) + 1 * op_norm2 o)%Qc by ring.
          rewrite !gq_add, !gq_mul. replace (gq 1) with g1 by reflexivity. replace (gq (- sign)) with (gopp (gq sign)) by (apply GC_ext; unfold gopp, gq; cbn; ring).
          replace (gq (1 + 1)) with g2 by (apply GC_ext; apply Qc_is_canon; reflexivity). rewrite ?gq_mul. ring.
    - intros Z u c. rewrite (has_coeff_keyed r u c (proper_ok _ Pr)), (has_coeff_keyed m u c (proper_ok _ Pm)). fold (cf r u). fold (cf m u). rewrite Cm.
      assert (E : cf r u = gmul (gq sign) (cf o u)).
      { pose proof (norm_zero d u Hd Z) as Q. rewrite Cd in Q. transitivity (gadd (gsub (cf r u) (gmul (gq sign) (cf o u))) (gmul (gq sign) (cf o u))); [ring|]. rewrite Q. ring. }
      rewrite E. reflexivity.
  Qed.

  Theorem invariant_iff (sign : Qc) : (sign * sign = 1)%Qc ->
    exists r m, apply T (TOperator o) = Ok r /\ op_scale (gq sign) o = Ok m /\ (eigenpair H sign v <-> same_coeffs r m).
  Proof.
    intros Hsg. destruct image_op as (r & Er & Pr & Tr & Nr & Gr & Fr). destruct (proper_scale (gq sign) o Po) as (m & Em & Pm & Tm & Fm).
    exists r, m. split; auto. split; auto. split.
    - intros He. destruct (deviation sign sign Hsg He) as (r' & m' & d & E1 & E2 & _ & E3 & E4). rewrite Er in E1. injection E1 as <-. rewrite Em in E2. injection E2 as <-.
      apply E4. rewrite E3, Hsg. ring.
    - intros S. apply eigen_iff. intros i Hi.
      assert (Cr : forall u, cf r u = gmul (gq sign) (cf o u)).
      { intros u. transitivity (cf m u); [|unfold cf; rewrite Fm; exact (vsum_scal (keyed u) (gq sign) (op_terms o))].
        apply (has_coeff_keyed m u (cf r u) (proper_ok _ Pm)). apply S. apply has_coeff_keyed; auto using proper_ok. }
      destruct (strings_nth i Hi) as (s & E1 & E2).
      assert (Co : cf o s = vat v i) by (apply cf_term; auto; eapply nth_error_In; eauto).
      rewrite <- (Fr i s E1), Cr, Co.
      destruct (proj1 Hm s (nth_error_In _ _ E1)) as (k & t & Ht & U).
      assert (Q : sg n (fun j => gmul (gconj (sm_entry M j i)) (vat v j)) = gmul (gconj k) (cf o t)).
      { unfold cf. rewrite vsum_gsum, sg_list, terms_len, <- sg_mul. apply sg_ext. intros j Hj. destruct (strings_nth j Hj) as (s' & F1 & F2). rewrite F2. cbn [fst snd].
        rewrite (M_entry j i s' s k t F1 E1 Ht). unfold keyed. rewrite (os_key_sym s' t). rewrite gconj_mul. destruct (os_key t s'); rewrite ?gconj_0; try (replace (gconj g1) with g1 by (apply GC_ext; apply Qc_is_canon; reflexivity)); ring. }
      rewrite Q. pose proof (Gr i s k t E1 Ht) as W. rewrite Cr in W.
      assert (W' : gmul (gconj k) (cf o t) = gmul (gq sign) (vat v i)).
      { transitivity (gmul (gq (sign * sign)) (gmul (gconj k) (cf o t))); [rewrite Hsg; change (gq 1) with g1; ring|]. rewrite gq_mul.
        transitivity (gmul (gq sign) (gmul (gconj k) (gmul (gq sign) (cf o t)))); [ring|]. rewrite W.
        destruct U as [->| ->]; unfold gmul, gconj, g1, gm1, gopp, gq; apply GC_ext; cbn; ring. }
      rewrite W'. transitivity (gmul (gmul half g2) (gmul (gq sign) (vat v i))); [|replace (gmul half g2) with g1 by (apply GC_ext; apply Qc_is_canon; reflexivity); ring].
      replace g2 with (gadd g1 g1) by (apply GC_ext; apply Qc_is_canon; reflexivity). ring.
  Qed.
End Inv.
