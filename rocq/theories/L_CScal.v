(** Complex coefficients: arithmetic and linear independence of operator strings. *)
From Coq Require Import List ZArith Bool Arith Lia Sorted Setoid Morphisms Reals QArith Qreals Qcanon Lra.
From Coquelicot Require Import Complex.
From Verif Require Import GC Exn M_OpString M_Tools M_Algebra M_Basis S_Alg S_Den S_Basis S_Built S_OpAlg S_RScal S_CFock S_CScal
  L_Alg L_Sort L_StrAlg L_StrOp L_Indep L_Operator L_Basis L_PropBasis L_Struct L_Commutant.
Import ListNotations.
Local Open Scope nat_scope.
Local Open Scope alg_scope.

Section CScal.
  Context {A : StarAlg} (S : RScal A).
  Global Instance cs_proper z : Proper (aeq ==> aeq) (cs S z).
  Proof. intros x y H. unfold cs. rewrite H. reflexivity. Qed.
  Lemma rs_gscal r z x : rs S r (z · x) == z · rs S r x.
  Proof.
    assert (E : z · x == (z · aone) * x) by (rewrite ascal_mul_l, amul_1_l; reflexivity).
    rewrite E, <- rs_mul_r, ascal_mul_l, amul_1_l. reflexivity.
  Qed.
  Lemma rs_0 x : rs S 0%R x == azero.
  Proof. rewrite <- qr_0. unfold qr. rewrite rs_rational. apply ascal_0. Qed.
  Lemma rs_opp r x : rs S (- r)%R x == gm1 · rs S r x.
  Proof.
    replace (- r)%R with (qr (- (1))%Qc * r)%R by (rewrite qr_opp, qr_1; ring).
    rewrite <- rs_rs. unfold qr. rewrite rs_rational. apply ascal_eq. apply GC_ext; reflexivity.
  Qed.
  Lemma cs_emb z x : cs S (emb z) x == z · x.
  Proof.
    unfold cs, emb. cbn [fst snd]. unfold qr. rewrite !rs_rational, ascal_ascal, <- ascal_add_l. apply ascal_eq.
    apply GC_ext; cbn; ring.
  Qed.
  Lemma cs_0 x : cs S (RtoC 0) x == azero.
  Proof. rewrite <- emb_0, cs_emb. apply ascal_0. Qed.
  Lemma cs_1 x : cs S (RtoC 1) x == x.
  Proof. rewrite <- emb_1, cs_emb. apply ascal_1. Qed.
  Lemma cs_add_l a b x : cs S (a + b)%C x == cs S a x + cs S b x.
  Proof.
    unfold cs. cbn [fst snd Cplus]. rewrite !rs_add_l, ascal_add_r.
    set (p := rs S (fst a) x). set (q := rs S (fst b) x). set (r := gi · _). set (t := gi · _).
    rewrite <- !aadd_assoc. apply aadd_proper; [reflexivity|]. rewrite !aadd_assoc. apply aadd_proper; [apply aadd_comm | reflexivity].
  Qed.
  Lemma cs_add_r a x y : cs S a (x + y) == cs S a x + cs S a y.
  Proof.
    unfold cs. rewrite !rs_add_r, ascal_add_r.
    set (p := rs S (fst a) x). set (q := rs S (fst a) y). set (r := gi · _). set (t := gi · _).
    rewrite <- !aadd_assoc. apply aadd_proper; [reflexivity|]. rewrite !aadd_assoc. apply aadd_proper; [apply aadd_comm | reflexivity].
  Qed.
  Lemma cs_mul_l a x y : cs S a x * y == cs S a (x * y).
  Proof. unfold cs. rewrite amul_add_l, ascal_mul_l, !rs_mul_l. reflexivity. Qed.
  Lemma cs_mul_r a x y : x * cs S a y == cs S a (x * y).
  Proof. unfold cs. rewrite amul_add_r, ascal_mul_r, !rs_mul_r. reflexivity. Qed.
  Lemma cs_gscal a z x : cs S a (z · x) == z · cs S a x.
  Proof. unfold cs. rewrite !rs_gscal, ascal_add_r. rewrite !ascal_ascal. replace (gmul gi z) with (gmul z gi) by ring. reflexivity. Qed.
  Lemma rs_cs r z x : rs S r (cs S z x) == cs S (RtoC r * z)%C x.
  Proof.
    unfold cs. rewrite rs_add_r, rs_gscal, !rs_rs. cbn [fst snd Cmult RtoC].
    replace (r * fst z - 0 * snd z)%R with (r * fst z)%R by ring. replace (r * snd z + 0 * fst z)%R with (r * snd z)%R by ring. reflexivity.
  Qed.
  Lemma gi_cs z x : gi · cs S z x == cs S (Ci * z)%C x.
  Proof.
    unfold cs. rewrite ascal_add_r, ascal_ascal. cbn [fst snd Cmult Ci].
    replace (0 * fst z - 1 * snd z)%R with (- snd z)%R by ring. replace (0 * snd z + 1 * fst z)%R with (fst z) by ring.
    rewrite rs_opp. replace (gmul gi gi) with gm1 by (apply GC_ext; reflexivity). apply aadd_comm.
  Qed.
  Lemma cs_cs a b x : cs S a (cs S b x) == cs S (a * b)%C x.
  Proof.
    change (cs S a (cs S b x)) with (rs S (fst a) (cs S b x) + gi · rs S (snd a) (cs S b x)).
    rewrite !rs_cs, gi_cs, <- cs_add_l.
    replace (RtoC (fst a) * b + Ci * (RtoC (snd a) * b))%C with (a * b)%C; [reflexivity|].
    apply C_eq; cbn; ring.
  Qed.
  Lemma cs_zero a : cs S a azero == azero.
  Proof. rewrite <- (ascal_0 _ (azero (s:=A))) at 1. rewrite cs_gscal. apply ascal_0. Qed.
  Lemma cs_cancel a x : a <> RtoC 0 -> cs S a x == azero -> x == azero.
  Proof.
    intros Ha H. rewrite <- (cs_1 x). replace (RtoC 1) with (/ a * a)%C by (field; auto).
    rewrite <- cs_cs, H. apply cs_zero.
  Qed.
  Lemma cs_asum a l : cs S a (asum l) == asum (map (cs S a) l).
  Proof. induction l as [|x l IH]; simpl; [apply cs_zero|]. rewrite cs_add_r, IH. reflexivity. Qed.
End CScal.

Section CIndep.
  Context {A : StarAlg} (S : RScal A) (ty : optype) (g : op -> Z -> A).
  Hypothesis Hrep : rep ty g.
  Hypothesis Hnt : ~ (@aone A == azero).
  Notation clin := (clincomb S g).

  Lemma clin_cons c s ts : clin ((c, s) :: ts) = cs S c (den g s) + clin ts.
  Proof. reflexivity. Qed.
  Lemma clin_app ts us : clin (ts ++ us) == clin ts + clin us.
  Proof. unfold clincomb. rewrite map_app. apply asum_app. Qed.

  Lemma clin_conj o l ts : is_op_of ty o = true -> (forall t, In t ts -> string_ok ty (snd t)) ->
    clin ts + g o l * clin ts * g o l ==
    clin (map (fun t => (emb (gadd g1 (gsgn (csign ty o l (letters (snd t))))) * fst t, snd t)%C) ts).
  Proof.
    intros Ho. induction ts as [|[c s] ts IH]; intros Hv.
    - unfold clincomb; simpl. rewrite amul_0_r, amul_0_l, aadd_0_l. reflexivity.
    - cbn [map]. rewrite !clin_cons. cbn [fst snd]. rewrite <- IH by (intros; apply Hv; right; auto).
      rewrite amul_add_r, amul_add_l, cs_mul_r, cs_mul_l, (conj_letter ty g Hrep) by (auto; apply (Hv (c, s)); left; auto).
      rewrite <- cs_cs, cs_emb, ascal_add_l, ascal_1, cs_gscal.
      set (u := cs S c (den g s)). set (v := gsgn _ · u). set (x := clin ts). set (y := g o l * x * g o l).
      rewrite <- !aadd_assoc. assert (x + (v + y) == v + (x + y)).
      { rewrite !aadd_assoc. rewrite (aadd_comm _ x v). reflexivity. }
      rewrite H. reflexivity.
  Qed.

  Lemma cindep_identity v ts :
    (forall t, In t ts -> string_ok ty (snd t) /\ os_ops (snd t) <> []) ->
    cs S v aone + clin ts == azero -> v = RtoC 0.
  Proof.
    remember (length ts) as n eqn:En. revert v ts En.
    induction n as [|n IH]; intros v ts En Hv H.
    - destruct ts; [|discriminate]. unfold clincomb in H; simpl in H. rewrite aadd_0_r in H.
      destruct (Ceq_dec v (RtoC 0)) as [E|E]; auto. exfalso. apply Hnt.
      apply (cs_cancel S v); auto.
    - destruct ts as [|[c s] ts]; [discriminate|]. injection En as En.
      destruct (Hv (c, s) (or_introl eq_refl)) as [Hs Hne]. simpl in Hs, Hne.
      destruct (anticommuting_letter ty s (rep_not_fermion ty g Hrep) Hs Hne) as (o & l & Ho & Hc).
      assert (H2 : cs S (RtoC 2 * v)%C aone + clin (map (fun t => (emb (gadd g1 (gsgn (csign ty o l (letters (snd t))))) * fst t, snd t)%C) ts) == azero).
      { assert (Hts : forall t, In t ((c, s) :: ts) -> string_ok ty (snd t)) by (intros t Ht; apply (Hv t Ht)).
        pose proof (clin_conj o l _ Ho Hts) as Hl. cbn [map] in Hl. rewrite !clin_cons in Hl. cbn [fst snd] in Hl.
        rewrite Hc in Hl. replace (gadd g1 (gsgn true)) with g0 in Hl by (unfold gsgn, gm1; ring).
        rewrite emb_0, Cmult_0_l, cs_0, aadd_0_l in Hl. rewrite <- Hl.
        rewrite clin_cons in H.
        assert (E : cs S c (den g s) + clin ts == cs S (- v)%C aone).
        { apply (aadd_cancel_r _ _ (cs S v aone)). rewrite aadd_comm, H, <- cs_add_l.
          replace (- v + v)%C with (RtoC 0) by ring. rewrite cs_0. reflexivity. }
        rewrite E, cs_mul_r, cs_mul_l, amul_1_r, (rep_sq ty g Hrep o l Ho), <- !cs_add_l.
        replace (RtoC 2 * v + (- v + - v))%C with (RtoC 0).
        - apply cs_0.
        - apply C_eq; cbn; ring. }
      apply IH in H2.
      + destruct (Ceq_dec v (RtoC 0)) as [E|E]; auto. exfalso. revert H2. apply Cmult_neq_0; auto.
        intros E2. apply RtoC_inj in E2. lra.
      + rewrite map_length. auto.
      + intros t Ht. apply in_map_iff in Ht. destruct Ht as (t' & <- & Ht). simpl. apply Hv. right; auto.
  Qed.

  Theorem cstrings_independent ts :
    (forall t, In t ts -> string_ok ty (snd t) /\ StronglySorted Z.lt (os_labels (snd t))) ->
    NoDup (map (fun t => body (snd t)) ts) ->
    clin ts == azero -> forall c s, In (c, s) ts -> c = RtoC 0.
  Proof.
    intros Hv Hnd H c s Hin.
    apply in_split in Hin. destruct Hin as (l1 & l2 & ->).
    destruct (Hv (c, s)) as [Hs Ss]; [apply in_or_app; right; left; auto|]. simpl in Hs, Ss.
    assert (Hv' : forall t, In t (l1 ++ l2) -> string_ok ty (snd t) /\ StronglySorted Z.lt (os_labels (snd t)) /\ body (snd t) <> body s).
    { intros t Ht. assert (Ht' : In t (l1 ++ (c, s) :: l2)) by (apply in_app_or in Ht; apply in_or_app; simpl; tauto).
      destruct (Hv t Ht') as [? ?]. split; auto. split; auto. intros E.
      rewrite map_app in Hnd. cbn [map snd] in Hnd. apply NoDup_remove_2 in Hnd. apply Hnd.
      rewrite <- map_app, <- E. apply in_map_iff. exists t; auto. }
    assert (H' : cs S c (den g s) + clin (l1 ++ l2) == azero).
    { rewrite <- H, !clin_app, clin_cons, !aadd_assoc. rewrite (aadd_comm _ (clin l1) (cs S c (den g s))). reflexivity. }
    assert (K : forall ts', (forall t, In t ts' -> string_ok ty (snd t) /\ StronglySorted Z.lt (os_labels (snd t)) /\ body (snd t) <> body s) ->
       exists us, (forall t, In t us -> string_ok ty (snd t) /\ os_ops (snd t) <> []) /\ clin ts' * den g s == clin us).
    { clear H' Hv' H Hv Hnd. induction ts' as [|[d t] ts' IH]; intros Hv.
      - exists []. split; [simpl; tauto|]. unfold clincomb; simpl. apply amul_0_l.
      - destruct IH as (us & Hu & Eu); [intros; apply Hv; right; auto|].
        destruct (Hv (d, t) (or_introl eq_refl)) as (Ht & St & Hb). simpl in Ht, St, Hb.
        destruct (operation_spec ty t s (rep_not_fermion ty g Hrep) Ht Hs) as (k & e & D & R).
        exists ((d * emb k, D)%C :: us). split.
        + intros x [<-|Hx]; auto. split; [apply R|]. simpl. intros E. apply Hb.
          apply (body_letters ty); auto. apply (or_id _ _ _ _ _ _ R E).
        + rewrite !clin_cons, amul_add_l, Eu, cs_mul_l, (or_st _ _ _ _ _ _ R A g Hrep), <- cs_cs, cs_emb. reflexivity. }
    destruct (K _ Hv') as (us & Hu & Eu).
    apply (cindep_identity c us); auto.
    rewrite <- Eu, <- (den_sq ty g Hrep s Hs), <- cs_mul_l, <- amul_add_l, H'. apply amul_0_l.
  Qed.

  Lemma ccanonical_zero C v : canonical_basis ty C -> length v = basis_len C ->
    (clin (combine v (b_strings C)) == azero <-> v = repeat (RtoC 0) (basis_len C)).
  Proof.
    intros [HC HS] Hl. apply built_ok in HC. split.
    - intros H. apply nth_ext with (d := RtoC 0) (d' := RtoC 0); [rewrite repeat_length; auto|].
      intros i Hi. rewrite nth_repeat. rewrite Hl in Hi.
      destruct (nth_len (b_strings C) i Hi) as (s & Hs). destruct (nth_len v i) as (c & Hc); [rewrite Hl; auto|].
      rewrite (nth_error_nth _ _ _ Hc).
      apply (cstrings_independent (combine v (b_strings C))) with (s := s); auto.
      + intros [c' s'] Ht. apply in_combine_r in Ht. simpl. destruct (HS s' Ht) as [H1 [H2 _]]. auto.
      + rewrite <- map_map with (f := snd) (g := body), (map_snd_combine v (b_strings C)) by (rewrite Hl; reflexivity).
        eapply canonical_NoDup_body; eauto. apply distinct_NoDup, HC.
      + eapply nth_error_In. apply combine_nth_error; eauto.
    - intros ->. clear. generalize (b_strings C). generalize (basis_len C). induction n as [|n IH]; intros [|s l]; simpl; try reflexivity.
      rewrite clin_cons, IH, cs_0. apply aadd_0_l.
  Qed.
End CIndep.
