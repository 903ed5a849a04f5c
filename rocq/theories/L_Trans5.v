(** Monomial transformations of Operators, products of rules, permutations. *)
From Coq Require Import List Arith Lia ZArith Bool Setoid Morphisms Sorted Permutation Qcanon Ring.
From Verif Require Import GC Exn S_Alg S_Den S_Basis S_Built S_Transform S_Fock M_OpString M_Tools M_Algebra M_Basis M_Transform
  L_Alg L_Module L_StrAlg L_StrOp L_Fock L_Basis L_Operator L_VSum L_Struct L_PropStr L_JW2 L_Conversion L_ConvLin L_Conversion2 L_Conversion3 L_ConvOrd L_Perm
  L_Trans1 L_Trans2 L_Trans3 L_Trans4.
Import ListNotations.
Local Open Scope nat_scope.
Local Open Scope alg_scope.

(* ------------------------------------------------------- multiplicative maps *)

Lemma mm_zero {A : StarAlg} conj (f : A -> A) : mult_map conj f -> f azero == azero.
Proof.
  intros [E _ _ _ S]. rewrite (E azero (g0 · azero)) by (symmetry; apply ascal_zero). rewrite S.
  replace (if conj then gconj g0 else g0) with g0 by (destruct conj; [symmetry; apply gconj_0 | auto]). apply ascal_0.
Qed.
Lemma mult_image {A : StarAlg} conj (f : A -> A) (g h : op -> Z -> A) s : mult_map conj f ->
  (forall o l, In (o, l) (letters s) -> f (g o l) == h o l) -> f (den g s) == image conj h s.
Proof.
  intros [E Ad Mu On Sc] H. unfold den, image. rewrite Sc. apply ascal_proper.
  assert (X : forall w, (forall o l, In (o, l) w -> f (g o l) == h o l) ->
    f (aprod (map (fun p => g (fst p) (snd p)) w)) == aprod (map (fun p => h (fst p) (snd p)) w)).
  { induction w as [|[o l] w IH]; intros Hw; cbn [map fst snd].
    - exact On.
    - rewrite !aprod_cons, Mu, IH by (intros; apply Hw; right; auto). rewrite (Hw o l) by (left; auto). reflexivity. }
  apply X. exact H.
Qed.

(* ------------------------------------------------------------ adding terms *)

Lemma combine_app_eq {T U} (a a' : list T) (b b' : list U) : length a = length b -> combine (a ++ a') (b ++ b') = combine a b ++ combine a' b'.
Proof. revert b. induction a as [|x a IH]; intros [|y b] H; cbn in *; try discriminate; auto. f_equal. apply IH. lia. Qed.
Lemma add_new acc c t m : op_ok acc -> op_ok m -> op_terms m = [(c, t)] -> o_type acc = o_type m ->
  (forall s, In s (b_strings (o_basis acc)) -> ~ same_key s t) ->
  exists r, op_iadd acc m = Ok r /\ op_ok r /\ o_type r = o_type acc /\ op_terms r = op_terms acc ++ [(c, t)].
Proof.
  intros Ha Hm Em Ht N. destruct (op_iadd_ok acc m Ha Hm Ht) as (r & Er & (Hr & Tr & Hap & Hsum)).
  exists r. split; auto. split; auto. split; auto.
  assert (Bm : b_strings (o_basis m) = [t]) by (rewrite <- (op_terms_snd m Hm), Em; reflexivity).
  assert (Cm : o_coeffs m = [c]) by (rewrite <- (op_terms_fst m Hm), Em; reflexivity).
  assert (Br : b_strings (o_basis r) = b_strings (o_basis acc) ++ [t]).
  { rewrite Bm in Hap. eapply append_new_fun; [exact Hap|]. apply an_take; [|constructor]. intros (s & Hs & K). apply (N s Hs K). }
  assert (Da : distinct_keys (b_strings (o_basis acc) ++ [t])) by (rewrite <- Br; apply Hr).
  destruct (op_new_ok (o_coeffs acc ++ [c]) (b_strings (o_basis acc) ++ [t]) None) as (q & Eq & Hq & Cq & Bq & _); auto.
  { rewrite !app_length. destruct Ha as (_ & -> & _). reflexivity. }
  { left. destruct (b_strings (o_basis acc)); discriminate. }
  assert (E : o_coeffs q = o_coeffs r).
  { apply terms_ext; auto; [congruence|]. intros u d Hd.
    destruct (has_coeff_total acc u Ha) as (a & Hau). destruct (has_coeff_total m u Hm) as (b & Hbu).
    assert (Eqt : op_terms q = op_terms acc ++ [(c, t)]).
    { unfold op_terms. rewrite Cq, Bq. rewrite combine_app_eq; auto. apply Ha. }
    assert (X : d = gadd a b).
    { apply (has_coeff_fun q u); auto. rewrite Eqt. rewrite Em in Hbu. destruct (single_coeff _ _ _ _ Hbu) as [[K ->]|[K ->]].
      - left. exists t. split; auto. apply in_or_app. right. left. f_equal.
        destruct Hau as [(t' & Hin & K')|[-> _]]; [|ring]. exfalso. apply (N t').
        + rewrite <- (op_terms_snd acc Ha). apply (in_map snd) in Hin. auto.
        + eapply same_key_trans; eauto. apply same_key_sym; auto.
      - replace (gadd a g0) with a by ring. destruct Hau as [(t' & Hin & K')|[-> N']].
        + left. exists t'. split; auto. apply in_or_app; auto.
        + right. split; auto. intros e t' Hin. apply in_app_or in Hin. destruct Hin as [Hin|[Hin|[]]]; [eauto|]. injection Hin as <- <-; auto. }
    subst d. apply Hsum; auto. }
  unfold op_terms at 1. rewrite <- E, Br, Cq. unfold op_terms. rewrite combine_app_eq; auto. apply Ha.
Qed.

Lemma one_term_inv ty T s n k t : keeps_type ty T -> os_type s = ty -> std s -> T s = Ok n -> one_term (T s) k t ->
  proper n /\ o_type n = ty /\ op_terms n = [(k, t)] /\ os_type t = ty /\ std t.
Proof.
  intros Hsh Hs Hst En (o & Eo & To & Ht). rewrite En in Eo. injection Eo as <-. destruct (Hsh s n Hs Hst En) as [Pn Tn].
  pose proof (proper_ready ty n Pn Tn (k, t)) as R. rewrite Ht in R. destruct (R (or_introl eq_refl)) as [R1 R2].
  split; auto.
Qed.

Lemma monomial_fold ty T ts us : keeps_type ty T -> forall acc, proper acc -> o_type acc = ty -> ready ty ts ->
  Forall2 (fun t u => exists k, one_term (T (snd t)) k (snd u) /\ fst u = gmul (fst t) k) ts us ->
  distinct_keys (b_strings (o_basis acc) ++ map snd us) ->
  exists r, rfold (apply_step T) ts acc = Ok r /\ proper r /\ o_type r = ty /\ op_terms r = op_terms acc ++ us.
Proof.
  intros Hsh acc Ha Ta Hr H. revert acc Ha Ta Hr. induction H as [|[x s] [y t] ts us (k & Hk & Ey) H IH]; intros acc Ha Ta Hr D.
  - exists acc. rewrite app_nil_r. auto.
  - destruct (Hr (x, s) (or_introl eq_refl)) as [R1 R2]. cbn [fst snd] in *. pose proof Hk as (n & En & _).
    destruct (one_term_inv ty T s n k t Hsh R1 R2 En Hk) as (Pn & Tn & Et & Tt & St).
    destruct (proper_scale x n Pn) as (m & Em & Pm & Tm & Em'). rewrite Et in Em'. cbn [map fst snd] in Em'.
    destruct (add_new acc (gmul k x) t m) as (r & Er & Hr' & Tr & Er'); auto using proper_ok; [congruence| |].
    { intros u Hu K. apply distinct_app in D. destruct D as (_ & _ & N). apply (N u t); auto. left; auto. }
    destruct (proper_add acc m r Ha Pm) as (Pr & _ & _ & _); auto; [congruence|].
    assert (Ey' : gmul k x = y) by (rewrite Ey; ring). rewrite Ey' in Er'.
    destruct (IH r Pr) as (r' & Er2 & Pr' & Tr' & E2); [congruence | intros u Hu; apply Hr; right; auto | |].
    { rewrite <- (op_terms_snd r Hr'), Er', map_app, (op_terms_snd acc (proper_ok _ Ha)), <- app_assoc. exact D. }
    exists r'. cbn [rfold]. assert (Es : apply_step T acc (x, s) = Ok r).
    { unfold apply_step. cbn [fst snd]. rewrite En. cbn [rbind]. rewrite Em. cbn [rbind]. exact Er. }
    rewrite Es. cbn [rbind]. split; auto. split; auto. split; auto. rewrite E2, Er', <- app_assoc. reflexivity.
Qed.

Definition norm2_sum (cs : list GC) : Qc := fold_right (fun c a => (norm2 c + a)%Qc) 0%Qc cs.

Theorem apply_monomial ty T o : keeps_type ty T -> proper o -> o_type o = ty ->
  (forall s, In s (b_strings (o_basis o)) -> exists k t, one_term (T s) k t /\ (k = g1 \/ k = gm1)) ->
  (forall s s' k k' t t', In s (b_strings (o_basis o)) -> In s' (b_strings (o_basis o)) -> one_term (T s) k t -> one_term (T s') k' t' -> same_key t t' -> s = s') ->
  exists r, apply T (TOperator o) = Ok r /\ proper r /\ o_type r = ty /\ term_by_term T o r.
Proof.
  intros Hsh Ho Ht Hm Hinj. destruct (proper_empty ty) as (z & Ez & Hz & Tz & Nz).
  assert (Hin : forall t, In t (op_terms o) -> In (snd t) (b_strings (o_basis o))).
  { intros t H. rewrite <- (op_terms_snd o (proper_ok _ Ho)). apply in_map; auto. }
  assert (U : forall ts, (forall t, In t ts -> In (snd t) (b_strings (o_basis o))) ->
    exists us, Forall2 (fun t u => exists k, one_term (T (snd t)) k (snd u) /\ (k = g1 \/ k = gm1) /\ fst u = gmul (fst t) k) ts us).
  { induction ts as [|[x s] ts IH]; intros Hts; [exists []; constructor|]. destruct IH as (us & Hus); [intros; apply Hts; right; auto|].
    destruct (Hm s (Hts (x, s) (or_introl eq_refl))) as (k & t & Hk & Uk). exists ((gmul x k, t) :: us). constructor; auto. exists k. auto. }
  destruct (U (op_terms o) Hin) as (us & Hus).
  assert (Hus' : Forall2 (fun t u => exists k, one_term (T (snd t)) k (snd u) /\ fst u = gmul (fst t) k) (op_terms o) us).
  { clear - Hus. induction Hus as [|t u ts us (k & a & b & c)]; constructor; auto. exists k; auto. }
  assert (Bz : b_strings (o_basis z) = []) by (rewrite <- (op_terms_snd z (proper_ok _ Hz)), Nz; reflexivity).
  destruct (monomial_fold ty T (op_terms o) us Hsh z Hz Tz (proper_ready ty o Ho Ht) Hus') as (r & Er & Pr & Tr & E).
  { rewrite Bz. cbn [app]. intros i j a b Hi Hj K. rewrite nth_error_map in Hi, Hj.
    destruct (nth_error us i) as [u|] eqn:Ei; [|discriminate]. destruct (nth_error us j) as [v|] eqn:Ej; [|discriminate].
    cbn in Hi, Hj. injection Hi as <-. injection Hj as <-.
    pose proof (proj1 (Forall2_nth _ _ _) Hus) as (HL & HN).
    destruct (nth_len (op_terms o) i) as (ti & Hti). { rewrite HL. apply nth_error_Some. congruence. }
    destruct (nth_len (op_terms o) j) as (tj & Htj). { rewrite HL. apply nth_error_Some. congruence. }
    destruct (HN i ti u Hti Ei) as (ki & A1 & _). destruct (HN j tj v Htj Ej) as (kj & A2 & _).
    assert (Es : snd ti = snd tj).
    { eapply Hinj; [apply Hin; eapply nth_error_In; eauto | apply Hin; eapply nth_error_In; eauto | exact A1 | exact A2 | exact K]. }
    destruct ti as [ci si], tj as [cj sj]. apply op_terms_nth in Hti, Htj. cbn [snd] in Es. subst sj.
    destruct (proper_ok _ Ho) as (Hb & _). apply (proj1 Hb i j si si); try tauto. apply same_key_refl. }
  exists r. cbn [apply]. unfold apply_operator. rewrite Ht, Ez. cbn [rbind]. split; auto. split; auto. split; auto.
  unfold term_by_term. rewrite E, Nz. exact Hus.
Qed.

(** The squared norm is unchanged. *)
Lemma norm2_unit c k : k = g1 \/ k = gm1 -> norm2 (gmul c k) = norm2 c.
Proof. intros [->| ->]; unfold norm2, gmul, gm1, g1, gopp; cbn; ring. Qed.
Lemma term_norm T o r : op_ok o -> op_ok r -> term_by_term T o r -> op_norm2 r = op_norm2 o.
Proof.
  intros Ho Hr H. unfold op_norm2. rewrite <- (op_terms_fst o Ho), <- (op_terms_fst r Hr).
  unfold term_by_term in H. induction H as [|t u ts us (k & _ & Uk & E) H IH]; cbn; auto. rewrite E, norm2_unit by auto. f_equal. exact IH.
Qed.

(* ------------------------------------------------------------- products *)

Lemma tmul_one ty C D s k1 t1 k2 t2 : keeps_type ty C -> keeps_type ty D -> os_type s = ty -> std s ->
  one_term (C s) k1 t1 -> one_term (D t1) k2 t2 -> (k1 = g1 \/ k1 = gm1) -> (k2 = g1 \/ k2 = gm1) ->
  one_term (tmul D C s) (gmul k1 k2) t2.
Proof.
  intros HC HD Hs Hst H1 H2 U1 U2. pose proof H1 as (oC & EC & _). pose proof H2 as (oD & ED & _).
  destruct (one_term_inv ty C s oC k1 t1 HC Hs Hst EC H1) as (PC & TC & ET1 & Tt1 & St1).
  destruct (one_term_inv ty D t1 oD k2 t2 HD Tt1 St1 ED H2) as (PD & TD & ET2 & Tt2 & St2).
  destruct (proper_empty ty) as (z & Ez & Hz & Tz & Nz).
  assert (Bz : b_strings (o_basis z) = []) by (rewrite <- (op_terms_snd z (proper_ok _ Hz)), Nz; reflexivity).
  destruct (single_new (gmul k1 k2) t2) as (n & En & Hn & Tn & HnT).
  destruct (add_new z (gmul k1 k2) t2 n) as (r & Er & Hr & Tr & ErT); auto using proper_ok; [congruence | rewrite Bz; intros u [] |].
  exists r. unfold tmul, product_rule. rewrite Hs, Ez. cbn [rbind]. rewrite EC. cbn [rbind]. rewrite ET1. cbn [rfold]. unfold product_outer. cbn [fst snd].
  rewrite ED. cbn [rbind]. rewrite ET2. cbn [rfold]. unfold product_inner. cbn [fst snd].
  assert (Eb : abs_gtb (gmul k1 k2) tol12 = true) by (destruct U1 as [->| ->], U2 as [->| ->]; vm_compute; reflexivity).
  rewrite Eb, En. cbn [rbind]. rewrite Er. cbn [rbind]. split; auto. split; [congruence|]. rewrite ErT, Nz. reflexivity.
Qed.

(* ------------------------------------------------------------- the rules keep the type *)

Lemma pref_std (p : pref) : p = p_one \/ p = p_j -> std_pref p.
Proof. intros [->| ->]; unfold std_pref; cbn; auto. Qed.
Lemma canonical_std s : canonical s -> std s.
Proof. intros [_ H]. apply pref_std; auto. Qed.
Lemma new_keeps k s n ty : os_type s = ty -> std s -> op_new [k] [s] None = Ok n -> proper n /\ o_type n = ty.
Proof. intros Hs Hst E. destruct (proper_single k s n Hst E) as (P & T & _). split; auto. congruence. Qed.
Lemma time_reversal_keeps ty : keeps_type ty time_reversal.
Proof.
  intros s n Hs Hst. unfold time_reversal, time_reversal_rule. destruct (os_type s) eqn:E; [| |discriminate].
  - apply new_keeps; congruence.
  - destruct (count_ops _) as [[[a b] d]|e]; cbn [rbind]; [|discriminate]. apply new_keeps; congruence.
Qed.
Lemma particle_hole_keeps ty : keeps_type ty particle_hole.
Proof.
  intros s n Hs Hst. unfold particle_hole, particle_hole_rule. destruct (os_type s) eqn:E; [discriminate| |discriminate].
  destruct (count_ops _) as [[[a b] d]|e]; cbn [rbind]; [|discriminate]. apply new_keeps; congruence.
Qed.
Lemma sz_keeps ty dn : keeps_type ty (sz_rule dn).
Proof.
  intros s n Hs Hst. unfold sz_rule. destruct (os_type s) eqn:E; [discriminate| |discriminate].
  destruct (count_down _ _ _) as [m|e]; cbn [rbind]; [|discriminate]. apply new_keeps; congruence.
Qed.
Lemma os_new_std ops labs ty t : ty <> Fermion -> os_new ops labs ty = Ok t -> std t.
Proof.
  intros Hty. unfold os_new, os_make. destruct ty; [| |congruence].
  - intros H. unfold std. repeat match goal with H : (if ?b then _ else _) = Ok _ |- _ => destruct b; try discriminate end.
    injection H as <-. apply pref_std; auto.
  - intros H. unfold std. repeat match goal with H : (if ?b then _ else _) = Ok _ |- _ => destruct b; try discriminate end;
    injection H as <-; cbn [os_pref]; apply pref_std; unfold majorana_pref; destruct (Nat.odd _); auto.
Qed.
Lemma permutation_keeps ty perm : keeps_type ty (permutation_rule perm).
Proof.
  intros s n Hs Hst. unfold permutation_rule. destruct (os_type s) eqn:E; [| |discriminate].
  - destruct (rmap _ _) as [news|e]; cbn [rbind]; [|discriminate]. destruct (rmap _ _) as [nops|e]; cbn [rbind]; [|discriminate].
    destruct (os_new _ _ _) as [t|e] eqn:Et; cbn [rbind]; [|discriminate]. apply new_keeps.
    + rewrite (os_new_type _ _ _ _ Et). auto.
    + apply (os_new_std _ _ Pauli _ ltac:(discriminate) Et).
  - destruct (rmap _ _) as [news|e]; cbn [rbind]; [|discriminate]. destruct (rmap _ _) as [nops|e]; cbn [rbind]; [|discriminate].
    destruct (os_new _ _ _) as [t|e] eqn:Et; cbn [rbind]; [|discriminate]. apply new_keeps.
    + rewrite (os_new_type _ _ _ _ Et). auto.
    + apply (os_new_std _ _ Majorana _ ltac:(discriminate) Et).
Qed.
