(** Linear combinations of canonical strings determine their coefficients. *)
From Coq Require Import String List ZArith Bool Arith Lia Sorted QArith Qcanon.
From Verif Require Import GC Exn S_Alg S_Den S_Basis S_Built S_OpAlg M_OpString M_Algebra M_Basis M_OpAlg
  L_Alg L_StrAlg L_StrOp L_Indep L_PropStr L_Basis L_Operator L_Heap L_PropBasis L_OpAlg L_Struct L_Commutant.
Import ListNotations.
Local Open Scope alg_scope.

Definition cf (ts : list (GC * OS)) (e : OS) : GC :=
  match find (fun t => os_key (snd t) e) ts with Some t => fst t | None => g0 end.

Lemma cf_none ts e : (forall t, In t ts -> ~ same_key (snd t) e) -> cf ts e = g0.
Proof.
  intros H. unfold cf. destruct (find _ ts) as [t|] eqn:F; auto. exfalso. apply find_some in F. destruct F as [F1 F2]. apply (H t F1). apply os_key_spec; auto.
Qed.
Lemma cf_has ts e : has_coeff ts e (cf ts e).
Proof.
  unfold cf. destruct (find _ ts) as [[c t]|] eqn:F.
  - left. apply find_some in F. destruct F as [F1 F2]. exists t. split; auto. apply os_key_spec; auto.
  - right. split; auto. intros d t Hin K. apply (find_none _ _ F) in Hin. cbn [snd] in Hin. apply os_key_spec in K. congruence.
Qed.
Lemma has_cf ts e c : distinct_keys (map snd ts) -> has_coeff ts e c -> c = cf ts e.
Proof.
  induction ts as [|[d s] ts IH]; intros Hd [(t & Hin & K)|(-> & H)].
  - destruct Hin.
  - reflexivity.
  - unfold cf. cbn [find snd]. cbn [map snd] in Hd. change (s :: map snd ts) with ([s] ++ map snd ts) in Hd. apply distinct_app in Hd. destruct Hd as (_ & H1 & H2).
    destruct Hin as [E|Hin].
    + injection E as -> ->. apply os_key_spec in K. rewrite K. reflexivity.
    + destruct (os_key s e) eqn:Ks.
      * exfalso. apply (H2 s t); [left; auto | change t with (snd (c, t)); apply in_map; auto|].
        apply os_key_spec in Ks. eapply same_key_trans; [exact Ks | apply same_key_sym; auto].
      * apply IH; auto. left. eauto.
  - symmetry. apply cf_none. intros [d' t] Ht. apply (H d' t Ht).
Qed.

Section Over.
  Context {A : StarAlg} (g : op -> Z -> A).

  Lemma asum_pick (R : list OS) s x : (forall e, In e R -> std e) -> std s -> NoDup R -> In s R ->
    asum (map (fun e => if os_key s e then x else (azero : A)) R) == x.
  Proof.
    induction R as [|e R IH]; intros Hs S Hn Hin; [destruct Hin|]. inversion Hn as [|? ? N1 N2]; subst. cbn [map asum fold_right].
    destruct Hin as [->|Hin].
    - rewrite os_key_refl. rewrite <- (aadd_0_r x) at 2. apply aadd_proper; [reflexivity|]. apply asum_zero. intros e He.
      destruct (os_key s e) eqn:K; [|reflexivity]. exfalso. apply os_key_spec in K. apply std_key in K; auto; [subst; auto | apply Hs; right; auto].
    - destruct (os_key s e) eqn:K.
      + exfalso. apply os_key_spec in K. apply std_key in K; auto; [subst; auto | apply Hs; left; auto].
      + rewrite aadd_0_l. apply IH; auto. intros e' He'. apply Hs; right; auto.
  Qed.
  Lemma lincomb_over ts R : (forall e, In e R -> std e) -> NoDup R -> NoDup (map snd ts) -> (forall t, In t ts -> In (snd t) R) ->
    lincomb g ts == asum (map (fun e => cf ts e · den g e) R).
  Proof.
    intros Hs Hn. induction ts as [|[c s] ts IH]; intros Hd Hin.
    - symmetry. apply asum_zero. intros e _. apply ascal_0.
    - cbn [map snd] in Hd. inversion Hd as [|? ? D1 D2]; subst.
      rewrite lincomb_cons, (IH D2) by (intros t Ht; apply Hin; right; auto).
      assert (Ss : In s R) by (apply (Hin (c, s)); left; auto).
      rewrite <- (asum_pick R s (c · den g s)) at 1; auto. rewrite <- asum_map_add. apply asum_ext. intros e He.
      unfold cf at 2. cbn [find snd]. destruct (os_key s e) eqn:K.
      + cbn [fst]. apply os_key_spec in K. apply std_key in K; auto. subst e. rewrite (cf_none ts s), ascal_0, aadd_0_r; [reflexivity|].
        intros t Ht K. apply D1. apply std_key in K; [subst s; apply in_map; auto | apply Hs, Hin; right; auto | auto].
      + apply aadd_0_l.
  Qed.
End Over.

Definition canonical_terms (ty : optype) (ts : list (GC * OS)) : Prop :=
  NoDup (map snd ts) /\ forall t, In t ts -> string_ok ty (snd t) /\ canonical (snd t).

Theorem terms_unique ty {A : StarAlg} (g : op -> Z -> A) ts us : rep ty g -> ~ (@aone A == azero) ->
  canonical_terms ty ts -> canonical_terms ty us -> lincomb g ts == lincomb g us ->
  forall e c, has_coeff ts e c <-> has_coeff us e c.
Proof.
  intros Hr Hnt [Nt Ht] [Nu Hu] E.
  assert (St : forall e, In e (map snd ts) -> string_ok ty e /\ canonical e) by (intros e He; apply in_map_iff in He; destruct He as (t & <- & Hin); auto).
  assert (Su : forall e, In e (map snd us) -> string_ok ty e /\ canonical e) by (intros e He; apply in_map_iff in He; destruct He as (t & <- & Hin); auto).
  set (R := (map snd ts ++ filter (fun e => negb (existsb (fun s => os_key s e) (map snd ts))) (map snd us))%list).
  assert (SR : forall e, In e R -> string_ok ty e /\ canonical e).
  { intros e He. apply in_app_or in He. destruct He as [He|He]; auto. apply filter_In in He. apply Su, He. }
  assert (SRs : forall e, In e R -> std e) by (intros e He; apply canonical_std, SR; auto).
  assert (NR : NoDup R).
  { assert (G : forall (a b : list OS), (forall e, In e a -> In e b -> False) -> NoDup b -> NoDup a -> NoDup (a ++ b)).
    { induction a as [|x a IH]; intros b K Hb Ha; auto. inversion Ha; subst. cbn [app]. constructor.
      - intros H. apply in_app_or in H. destruct H as [H|H]; auto. apply (K x); auto. left; auto.
      - apply IH; auto. intros e He. apply K; right; auto. }
    apply G; auto; [|apply NoDup_filter; auto]. intros e H1 H2. apply filter_In in H2. destruct H2 as [_ H2]. apply negb_true_iff in H2.
    assert (X : existsb (fun s => os_key s e) (map snd ts) = true) by (apply existsb_exists; exists e; split; auto; apply os_key_refl). congruence. }
  assert (It : forall t, In t ts -> In (snd t) R) by (intros t Hin; apply in_or_app; left; apply in_map; auto).
  assert (Iu : forall t, In t us -> In (snd t) R).
  { intros t Hin. apply in_or_app. destruct (existsb (fun s => os_key s (snd t)) (map snd ts)) eqn:X.
    - left. apply existsb_exists in X. destruct X as (s & Hs & K). apply os_key_spec, std_key in K; [subst; auto | apply canonical_std, St; auto | apply canonical_std, Hu; auto].
    - right. apply filter_In. rewrite X. split; auto. apply in_map; auto. }
  assert (K : forall e, In e R -> cf ts e = cf us e).
  { intros e He. assert (Z : gsub (cf ts e) (cf us e) = g0).
    { apply (strings_independent ty g Hr (map (fun e => (gsub (cf ts e) (cf us e), e)) R) Hnt) with (s := e).
      - intros t Hin. apply in_map_iff in Hin. destruct Hin as (e' & <- & He'). cbn [snd]. split; apply SR; auto.
      - rewrite map_map. cbn [snd]. eapply canonical_NoDup_body; eauto.
      - change (lincomb g (map (fun e => (gsub (cf ts e) (cf us e), e)) R) == azero). unfold lincomb. rewrite map_map. cbn [fst snd].
        transitivity (asum (map (fun e => cf ts e · den g e + gm1 · (cf us e · den g e)) R)).
        + apply asum_ext. intros x _. rewrite ascal_ascal, <- ascal_add_l. apply ascal_eq. unfold gsub, gm1. apply GC_ext; cbn; ring.
        + rewrite asum_map_add. rewrite <- (map_map (fun e => cf us e · den g e) (fun x => gm1 · x)), <- asum_scal, <- !lincomb_over by auto. rewrite E. apply (asub_self (lincomb g us)).
      - apply in_map_iff. exists e. auto. }
    replace (cf ts e) with (gadd (gsub (cf ts e) (cf us e)) (cf us e)) by (unfold gsub; apply GC_ext; cbn; ring). rewrite Z. apply GC_ext; cbn; ring. }
  assert (KA : forall e, cf ts e = cf us e).
  { intros e. destruct (existsb (fun s => os_key s e) R) eqn:X.
    - apply existsb_exists in X. destruct X as (s & Hs & Ks). assert (Kc : forall l, cf l e = cf l s).
      { intros l. unfold cf. replace (find (fun t : GC * OS => os_key (snd t) e) l) with (find (fun t : GC * OS => os_key (snd t) s) l); auto.
        induction l as [|t l IH]; auto. cbn [find]. replace (os_key (snd t) e) with (os_key (snd t) s); [rewrite IH; auto|].
        apply os_key_spec in Ks. apply eq_true_iff_eq. rewrite !os_key_spec. split; intros Y; eapply same_key_trans; eauto using same_key_sym. }
      rewrite !Kc. auto.
    - rewrite !cf_none; auto; intros t Hin Kt; apply Bool.not_true_iff_false in X; apply X; apply existsb_exists; exists (snd t); split; auto; apply os_key_spec; auto. }
  assert (Dk : forall l, NoDup (map snd l) -> (forall t : GC * OS, In t l -> string_ok ty (snd t) /\ canonical (snd t)) -> distinct_keys (map snd l)).
  { intros l Hn Hc. apply std_distinct; auto. intros s Hs. apply in_map_iff in Hs. destruct Hs as (t & <- & Hin). apply canonical_std, Hc; auto. }
  intros e c. split; intros Hh.
  - rewrite (has_cf ts e c (Dk ts Nt Ht) Hh), KA. apply cf_has.
  - rewrite (has_cf us e c (Dk us Nu Hu) Hh), <- KA. apply cf_has.
Qed.
