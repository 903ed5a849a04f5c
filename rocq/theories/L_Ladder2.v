(** Proofs about the ladder operator functions: the matrix that _ladder_operators diagonalises. *)
From Coq Require Import String List ZArith Bool Arith Lia Reals QArith Qreals Qcanon Lra Setoid Morphisms Sorted.
From Coquelicot Require Import Complex.
From Verif Require Import GC Exn S_Alg M_OpString M_Tools M_Algebra M_Basis M_OpAlg M_LinAlg M_Core M_Greedy M_Ladder
  S_Den S_Basis S_Built S_OpAlg S_RScal S_CFock S_CScal S_LinAlg S_Core S_Transform S_Modes
  L_Alg L_StrAlg L_StrOp L_Indep L_PropStr L_Basis L_Operator L_PropBasis L_OpAlg L_Struct L_Commutant L_Conversion L_CScal L_CFock L_LinAlg L_Inter L_Herm L_Core L_Commuting L_Invariant L_Invariant2 L_Cumulative L_Cumul2 L_Explore L_PartIso L_Modes2 L_Ladder.
Import ListNotations.
Local Open Scope nat_scope.
Local Open Scope alg_scope.

Lemma dedup ty (l : list OS) : (forall s, In s l -> string_ok ty s) -> exists U, NoDup U /\ forall s, In s U <-> In s l.
Proof.
  induction l as [|s l IH]; intros H; [exists []; split; [constructor | tauto]|]. destruct IH as (U & N & I); [intros; apply H; right; auto|].
  destruct (existsb (os_key s) U) eqn:E.
  - exists U. split; auto. intros t. rewrite I. split; [right; auto|]. intros [<-|Ht]; auto. apply existsb_exists in E. destruct E as (u & Hu & K). apply I in Hu.
    apply (key_eq ty) in K; [subst; auto | apply H; left; auto | apply H; right; auto].
  - exists (s :: U). split; [constructor; auto; intros Hs | intros t; cbn; rewrite I; tauto]. apply not_true_iff_false in E. apply E. apply existsb_exists. exists s. split; auto. apply os_key_refl.
Qed.

Section Unique.
  Context {A : StarAlg} (S : RScal A) (ty : optype) (g : op -> Z -> A).
  Hypotheses (Hr : rep ty g) (Hn : ~ (@aone A == azero)).
Lemma tcoef_null ts t : (forall x, In x ts -> string_ok ty (snd x) /\ canonical (snd x)) -> string_ok ty t ->
  clincomb S g ts == azero -> tcoef ts t = RtoC 0.
Proof.
  intros Hts Ht E. destruct (dedup ty (map snd ts)) as (U & N & I).
  { intros s Hs. apply in_map_iff in Hs. destruct Hs as (x & <- & Hx). apply Hts; auto. }
  assert (OU : forall s, In s U -> string_ok ty s /\ canonical s).
  { intros s Hs. apply I in Hs. apply in_map_iff in Hs. destruct Hs as (x & <- & Hx). apply Hts; auto. }
  assert (IU : forall x, In x ts -> In (snd x) U) by (intros x Hx; apply I, in_map; auto).
  assert (X : clincomb S g (combine (coords U ts) U) == azero).
  { rewrite <- E. apply (hval_coords ty U N (fun s H => proj1 (OU s H)) S (den g)). exact IU. }
  destruct (existsb (os_key t) U) eqn:K.
  - apply existsb_exists in K. destruct K as (u & Hu & K). apply (key_eq ty) in K; [subst u | auto | apply OU; auto].
    apply (cstrings_independent S ty g Hr Hn (combine (coords U ts) U)) with (s := t); auto.
    + intros [c s] Hs. apply in_combine_r in Hs. cbn [snd]. destruct (OU s Hs) as [H1 [H2 _]]. auto.
    + rewrite <- map_map with (f := snd) (g := body), combine_snd by apply map_length. eapply canonical_NoDup_body; eauto.
    + apply In_nth_error in Hu. destruct Hu as (i & Hi). eapply nth_error_In. apply combine_nth_error; [|exact Hi]. unfold coords. rewrite nth_error_map, Hi. reflexivity.
  - apply tcoef_zero. intros x Hx _. apply not_true_is_false. intros K2. apply (key_eq ty) in K2; [|apply Hts; auto | auto]. apply not_true_iff_false in K. apply K.
    apply existsb_exists. exists t. split; [rewrite <- K2; auto | apply os_key_refl].
Qed.
Lemma tcoef_unique ts us t : (forall x, In x ts -> string_ok ty (snd x) /\ canonical (snd x)) -> (forall x, In x us -> string_ok ty (snd x) /\ canonical (snd x)) ->
  string_ok ty t -> clincomb S g ts == clincomb S g us -> tcoef ts t = tcoef us t.
Proof.
  intros H1 H2 Ht E. set (nus := map (fun x => (RtoC (-1) * fst x, snd x)%C) us).
  assert (T : tcoef nus t = (- tcoef us t)%C).
  { unfold nus. clear - us S g. induction us as [|[c s] us IH]; [cbn; apply C_eq; cbn; ring|]. cbn [map]. rewrite !tcoef_cons, IH. cbn [fst snd]. destruct (os_key s t); apply C_eq; cbn; ring. }
  assert (M : clincomb S g nus == gm1 · clincomb S g us).
  { unfold nus. clear - us S g. induction us as [|[c s] us IH]; [unfold clincomb; cbn [map asum fold_right]; rewrite ascal_zero; reflexivity|]. cbn [map]. rewrite !clin_cons, IH, ascal_add_r, <- cs_cs. cbn [fst snd].
    apply aadd_proper; [|reflexivity]. rewrite <- emb_gm1, cs_emb. reflexivity. }
  assert (Z : tcoef (ts ++ nus) t = RtoC 0).
  { apply tcoef_null; auto.
    - intros x Hx. apply in_app_or in Hx. destruct Hx as [Hx|Hx]; auto. apply in_map_iff in Hx. destruct Hx as (y & <- & Hy). cbn [snd]. auto.
    - rewrite clin_app, M, E. rewrite <- (ascal_1 _ (clincomb _ _ us)) at 1. rewrite <- ascal_add_l. rewrite <- (ascal_0 _ (clincomb S g us)). apply ascal_eq. unfold gm1. ring. }
  rewrite tcoef_app, T in Z. replace (tcoef ts t) with (tcoef ts t + - tcoef us t + tcoef us t)%C by ring. rewrite Z. ring.
Qed.

End Unique.

Section Matrix.
  Variables (ty : optype) (b : Basis) (o : Operator) (L : smat) (C : Basis).
  Hypotheses (Hty : ty <> Fermion) (Hb : good_basis ty b) (Ho : good_op ty o) (HL : liouvillian_matrix MCommutator (ABasis b) o = Ok (L, C)).
  Lemma op_terms_ok p : In p (op_terms o) -> string_ok ty (snd p).
  Proof. destruct p as [c s]. intros H. apply in_combine_r in H. apply Ho. auto. Qed.
  Lemma ext_entries : canonical_basis ty C /\ sm_rows L = basis_len C /\ sm_cols L = basis_len b /\
    forall a i s t, nth_error (b_strings b) a = Some s -> nth_error (b_strings C) i = Some t -> to_C (sm_entry L i a) = ecoef o t s.
  Proof.
    destruct (liouvillian_strings_proof ty MCommutator b o Hty Hb Ho) as (L' & C' & HL' & HC & RL & CL & _ & D). rewrite HL in HL'. injection HL' as <- <-.
    split; auto. split; auto. split; auto. intros a i s t Ha Hi. rewrite <- tcoef_terms.
    assert (Os : string_ok ty s) by (apply Hb; eapply nth_error_In; eauto).
    rewrite <- (tcoef_unique cfock_real ty cgen (some_rep ty Hty) cfock_nontrivial (combine (map to_C (column L a)) (b_strings C)) (comm_terms o s) t).
    - assert (N : NoDup (b_strings C)) by (apply built_nodup, HC). rewrite (tcoef_nth ty _ N (fun s H => proj1 (proj2 HC s H)) _ i t Hi).
      unfold column. rewrite map_map. assert (Li : i < sm_rows L) by (rewrite RL; apply nth_error_Some; unfold basis_len; congruence).
      rewrite (nth_indep _ _ (to_C (sm_entry L i a))) by (rewrite map_length, seq_length; auto). rewrite (map_nth (fun i => to_C (sm_entry L i a)) (seq 0 (sm_rows L)) i i), seq_nth by auto. reflexivity.
    - intros [c u] Hu. apply in_combine_r in Hu. cbn [snd]. apply HC; auto.
    - apply comm_terms_ok; auto. apply op_terms_ok.
    - apply HC. eapply nth_error_In; eauto.
    - rewrite (comm_terms_meaning ty o Hty op_terms_ok cfock_real cgen s (some_rep ty Hty) Os), (D a s Ha _ cgen (some_rep ty Hty)).
      replace (map to_C (column L a)) with (map emb (column L a)) by (apply map_ext; intros; symmetry; apply to_C_emb). apply clin_emb.
  Qed.
  Lemma ext_origin t : In t (b_strings C) -> exists s c k, In s (b_strings b) /\ In c (b_strings (o_basis o)) /\ commutator s c = Ok (k, Some t).
  Proof.
    pose proof (good_op_ok _ _ Ho) as OO.
    assert (Hob : good_basis ty (o_basis o)) by (split; [apply built_iff, OO | apply Ho]).
    destruct (structure_constants_ok ty MCommutator tol16 b (o_basis o) Hty tol16_ok Hb Hob) as (Ns & C' & He & Hl & [HC HP] & HN).
    pose proof HL as H. cbn [liouvillian_matrix] in H. unfold liouvillian_strings in H. rewrite He in H. cbn [rbind] in H.
    match type of H with context [rfold ?f ?l ?x] => destruct (rfold f l x) as [L'|] end; [|discriminate]. cbn [rbind] in H. injection H as _ <-.
    intros Ht. destruct (HP t Ht) as (_ & _ & S & T & k & H1 & H2 & H3). exists S, T, k. auto.
  Qed.
End Matrix.
