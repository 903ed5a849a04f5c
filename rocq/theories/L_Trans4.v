(** Transformations of Operators. *)
From Coq Require Import List Arith Lia ZArith Bool Setoid Morphisms Sorted Permutation Qcanon Ring.
From Verif Require Import GC Exn S_Alg S_Den S_Basis S_Built S_Transform S_Fock M_OpString M_Tools M_Algebra M_Basis M_Transform
  L_Alg L_Module L_StrAlg L_StrOp L_Fock L_Basis L_Operator L_VSum L_Struct L_PropStr L_Conversion L_ConvLin L_Conversion2 L_Conversion3 L_ConvOrd L_Trans1 L_Trans2.
Import ListNotations.
Local Open Scope nat_scope.
Local Open Scope alg_scope.

(** The complex numbers as an algebra. *)
Definition gc_alg : StarAlg.
Proof.
  refine (mkStarAlg GC eq g0 g1 gadd gmul gmul gconj eq_equivalence _ _ _ _ _ _ _ _ _ _ _ _ _ _ _ _ _ _ _ gconj_conj gconj_add _ _).
  all: try (unfold Proper, respectful; intros; subst; reflexivity).
  all: intros; rewrite ?gconj_mul; ring.
Defined.
Definition keyed (u s : OS) : gc_alg := if os_key s u then g1 else g0.

Lemma os_key_same s t : os_key s t = true <-> same_key s t.
Proof. apply os_key_spec. Qed.

Lemma keyed_coeff o u : op_ok o -> has_coeff (op_terms o) u (vsum (keyed u) (op_terms o)).
Proof.
  intros Ho. assert (D : distinct_keys (map snd (op_terms o))) by (rewrite (op_terms_snd o Ho); apply Ho).
  revert D. induction (op_terms o) as [|[c s] ts IH]; intros D.
  - right. split; auto.
  - cbn [map snd] in D. apply distinct_cons in D. destruct D as [D N]. specialize (IH D). rewrite vsum_cons. unfold keyed at 1.
    cbn [gc_alg ascal aadd car].
    destruct (os_key s u) eqn:E.
    + apply os_key_spec in E. left. exists s. split; auto. left. f_equal.
      destruct IH as [(t & Ht & K)|[Z _]].
      * exfalso. apply (N t); [apply (in_map snd) in Ht; auto|]. eapply same_key_trans; eauto. apply same_key_sym; auto.
      * rewrite Z. ring.
    + assert (NK : ~ same_key s u) by (intros K; apply os_key_spec in K; congruence).
      replace (gadd (gmul c g0) (vsum (keyed u) ts)) with (vsum (keyed u) ts : GC) by (generalize (vsum (keyed u) ts : GC); intros; ring).
      destruct IH as [(t & Ht & K)|[-> N']].
      * left. exists t. split; auto. right; auto.
      * right. split; auto. intros d t [E1|Ht]; [injection E1 as <- <-; auto|eauto].
Qed.
Lemma has_coeff_keyed o u c : op_ok o -> (has_coeff (op_terms o) u c <-> c = vsum (keyed u) (op_terms o)).
Proof.
  intros Ho. split; [intros H; apply (has_coeff_fun o u c _ Ho H); apply keyed_coeff; auto | intros ->; apply keyed_coeff; auto].
Qed.
Lemma vsum_ext {A : StarAlg} (F G : OS -> A) ts : (forall t, In t ts -> F (snd t) == G (snd t)) -> vsum F ts == vsum G ts.
Proof. intros H. unfold vsum. apply asum_ext. intros t Ht. rewrite (H t Ht). reflexivity. Qed.

Lemma proper_iff o : proper o <-> op_ok o /\ op_std o /\ (forall s, In s (b_strings (o_basis o)) -> os_type s = o_type o).
Proof.
  unfold proper, op_ok, op_std. rewrite built_iff. split.
  - intros (H1 & H2 & H3). split; [split; auto; split; auto|].
    + intros s r E. symmetry. apply H3. rewrite E. left; auto.
    + split; intros; apply H3; auto.
  - intros ((H1 & H2 & H3) & H4 & H5). split; auto. 
Qed.
Lemma proper_ok o : proper o -> op_ok o.
Proof. intros H. apply proper_iff in H. tauto. Qed.

Definition TF (T : rule) (s : OS) : list (GC * OS) := match T s with Ok n => op_terms n | Err _ => [] end.

Lemma proper_empty ty : exists z, op_new [] [] (Some ty) = Ok z /\ proper z /\ o_type z = ty /\ op_terms z = [].
Proof.
  destruct (op_empty ty) as (z & Ez & Hz & Tz & Nz). exists z. split; auto. split; [|auto].
  assert (Bz : b_strings (o_basis z) = []) by (rewrite <- (op_terms_snd z Hz), Nz; reflexivity).
  apply proper_iff. split; auto. split; intros s Hs; rewrite Bz in Hs; destruct Hs.
Qed.
Lemma proper_add o m r : proper o -> proper m -> o_type o = o_type m -> op_iadd o m = Ok r ->
  proper r /\ o_type r = o_type o /\ append_new (b_strings (o_basis o)) (b_strings (o_basis m)) (b_strings (o_basis r)) /\
  forall (A : StarAlg) (F : OS -> A), vsum F (op_terms r) == vsum F (op_terms o) + vsum F (op_terms m).
Proof.
  intros Ho Hm E Er. apply proper_iff in Ho, Hm. destruct Ho as (O1 & O2 & O3), Hm as (M1 & M2 & M3).
  destruct (op_iadd_ok o m O1 M1 E) as (r' & Er' & (R1 & R2 & R3 & R4)). rewrite Er in Er'. injection Er' as <-.
  split; [|split; auto; split; auto].
  - apply proper_iff. split; auto. split; intros s Hs; destruct (append_new_in _ _ _ R3 s Hs) as [H|H]; auto; rewrite R2; auto. rewrite E. auto.
  - intros A F. apply op_add_vsum; auto.
Qed.
Lemma proper_scale z o : proper o -> exists m, op_scale z o = Ok m /\ proper m /\ o_type m = o_type o /\
  op_terms m = map (fun t => (gmul (fst t) z, snd t)) (op_terms o).
Proof.
  intros Ho. apply proper_iff in Ho. destruct Ho as (O1 & O2 & O3).
  destruct (op_scale_ok z o O1) as (m & Em & Hm & Tm & Bm & Cm & Hc). exists m. split; auto. split; [|split; auto].
  - apply proper_iff. split; auto. unfold op_std. rewrite Bm. split; auto. intros. rewrite Tm. auto.
  - apply (scaled_terms z o m Bm Cm).
Qed.
Lemma proper_single k s n : std s -> op_new [k] [s] None = Ok n -> proper n /\ o_type n = os_type s /\ op_terms n = [(k, s)].
Proof.
  intros Hs E. destruct (single_new k s) as (o & E' & Ho & Ht & HT). rewrite E in E'. injection E' as <-.
  split; auto. apply proper_iff. split; auto.
  assert (B : b_strings (o_basis n) = [s]) by (rewrite <- (op_terms_snd n Ho), HT; reflexivity).
  split; intros t Hin; rewrite B in Hin; destruct Hin as [<-|[]]; auto.
Qed.

Section Lin.
  Variables (ty : optype) (T : rule).
  Hypothesis Hsh : keeps_type ty T.

  Lemma apply_step_ok acc x s n : proper acc -> o_type acc = ty -> os_type s = ty -> std s -> T s = Ok n ->
    exists r, apply_step T acc (x, s) = Ok r /\ proper r /\ o_type r = ty /\
      append_new (b_strings (o_basis acc)) (map snd (op_terms n)) (b_strings (o_basis r)) /\
      forall (A : StarAlg) (F : OS -> A), vsum F (op_terms r) == vsum F (op_terms acc) + x · vsum F (op_terms n).
  Proof.
    intros Ha Ta Hs Hst E. destruct (Hsh s n Hs Hst E) as [Hn Tn].
    destruct (proper_scale x n Hn) as (m & Em & Hm & Tm & Em').
    destruct (op_iadd_ok acc m (proper_ok _ Ha) (proper_ok _ Hm)) as (r & Er & _); [congruence|].
    destruct (proper_add acc m r Ha Hm) as (Hr & Tr & Hap & V); auto; [congruence|].
    exists r. unfold apply_step. cbn [fst snd]. rewrite E. cbn [rbind]. rewrite Em. cbn [rbind]. split; auto. split; auto. split; [congruence|].
    split.
    - rewrite <- (op_terms_snd m (proper_ok _ Hm)), Em', map_map in Hap. exact Hap.
    - intros A F. rewrite V, Em', vsum_scal. reflexivity.
  Qed.
  Definition ready (ts : list (GC * OS)) : Prop := forall t, In t ts -> os_type (snd t) = ty /\ std (snd t).
  Lemma apply_fold_ok ts : forall acc, proper acc -> o_type acc = ty -> ready ts ->
    (forall t, In t ts -> exists n, T (snd t) = Ok n) ->
    exists r, rfold (apply_step T) ts acc = Ok r /\ proper r /\ o_type r = ty /\
      forall (A : StarAlg) (F : OS -> A), vsum F (op_terms r) == vsum F (op_terms acc) + vsum (fun s => vsum F (TF T s)) ts.
  Proof.
    induction ts as [|[x s] ts IH]; intros acc Ha Ta Hr Hall.
    - exists acc. split; auto. split; auto. split; auto. intros A F. unfold vsum at 3. cbn. symmetry. apply aadd_0_r.
    - destruct (Hall (x, s) (or_introl eq_refl)) as (n & En). destruct (Hr (x, s) (or_introl eq_refl)) as [R1 R2]. cbn [snd] in *.
      destruct (apply_step_ok acc x s n Ha Ta R1 R2 En) as (r & Er & Pr & Tr & _ & V).
      destruct (IH r Pr Tr) as (r' & Er' & Pr' & Tr' & V'); [intros t Ht; apply Hr; right; auto | intros t Ht; apply Hall; right; auto |].
      exists r'. cbn [rfold]. rewrite Er. cbn [rbind]. split; auto. split; auto. split; auto.
      intros A F. rewrite V', V, vsum_cons. unfold TF at 2. rewrite En. symmetry. apply aadd_assoc.
  Qed.
  Lemma apply_fold_inv ts : forall acc r, proper acc -> o_type acc = ty -> ready ts -> rfold (apply_step T) ts acc = Ok r ->
    forall t, In t ts -> exists n, T (snd t) = Ok n.
  Proof.
    induction ts as [|[x s] ts IH]; intros acc r Ha Ta Hr E t; [intros []|].
    destruct (Hr (x, s) (or_introl eq_refl)) as [R1 R2]. cbn [snd rfold] in *. destruct (T s) as [n|e] eqn:En.
    - destruct (apply_step_ok acc x s n Ha Ta R1 R2 En) as (r1 & Er & Pr & Tr & _).
      rewrite Er in E. cbn [rbind] in E. intros [<-|Hin]; [exists n; auto|]. apply (IH r1 r Pr Tr); auto. intros u Hu. apply Hr; right; auto.
    - replace (apply_step T acc (x, s)) with (@Err Operator e) in E; [discriminate|].
      unfold apply_step. cbn [snd]. rewrite En. reflexivity.
  Qed.
  Lemma apply_fold_err ts1 x s ts2 e : forall acc, proper acc -> o_type acc = ty -> ready ts1 ->
    (forall t, In t ts1 -> exists n, T (snd t) = Ok n) -> T s = Err e ->
    rfold (apply_step T) (ts1 ++ (x, s) :: ts2) acc = Err e.
  Proof.
    induction ts1 as [|[y t] ts1 IH]; intros acc Ha Ta Hr Hall E.
    - cbn [app rfold]. replace (apply_step T acc (x, s)) with (@Err Operator e); [reflexivity|].
      unfold apply_step. cbn [snd]. rewrite E. reflexivity.
    - destruct (Hall (y, t) (or_introl eq_refl)) as (n & En). destruct (Hr (y, t) (or_introl eq_refl)) as [R1 R2]. cbn [snd] in *.
      destruct (apply_step_ok acc y t n Ha Ta R1 R2 En) as (r1 & Er & Pr & Tr & _).
      cbn [app rfold]. rewrite Er. cbn [rbind]. apply IH; auto; [intros u Hu; apply Hr; right; auto | intros; apply Hall; right; auto].
  Qed.
  Lemma proper_ready o : proper o -> o_type o = ty -> ready (op_terms o).
  Proof.
    intros Ho Ht t Hin. apply proper_iff in Ho. destruct Ho as (O1 & O2 & O3).
    assert (In (snd t) (b_strings (o_basis o))) by (rewrite <- (op_terms_snd o O1); apply in_map; auto). split; [rewrite <- Ht|]; auto.
  Qed.

  Lemma apply_vsum o : proper o -> o_type o = ty ->
    ((exists r, apply T (TOperator o) = Ok r) <-> (forall t, In t (op_terms o) -> exists n, T (snd t) = Ok n)) /\
    (forall r, apply T (TOperator o) = Ok r -> proper r /\ o_type r = ty /\
       forall (A : StarAlg) (F : OS -> A), vsum F (op_terms r) == vsum (fun s => vsum F (TF T s)) (op_terms o)).
  Proof.
    intros Ho Ht. destruct (proper_empty ty) as (z & Ez & Hz & Tz & Nz). cbn [apply]. unfold apply_operator. rewrite Ht, Ez. cbn [rbind].
    pose proof (proper_ready o Ho Ht) as R. split; [split|].
    - intros (r & Er). apply (apply_fold_inv (op_terms o) z r); auto.
    - intros H. destruct (apply_fold_ok (op_terms o) z Hz Tz R H) as (r & Er & _). exists r; auto.
    - intros r Er. pose proof (apply_fold_inv (op_terms o) z r Hz Tz R Er) as Hall.
      destruct (apply_fold_ok (op_terms o) z Hz Tz R Hall) as (r' & Er' & Hr' & Tr' & V).
      rewrite Er in Er'. injection Er' as <-. split; auto. split; auto. intros A F. rewrite V, Nz. unfold vsum at 1. cbn. apply aadd_0_l.
  Qed.
  Lemma combined_vsum u ts : ready ts -> (forall t, In t ts -> exists n, T (snd t) = Ok n) ->
    forall c, combined_rule T u ts c <-> c = vsum (fun s => vsum (keyed u) (TF T s)) ts.
  Proof.
    induction ts as [|[x s] ts IH]; intros Hr Hall c.
    - split; [intros H; inversion H; reflexivity | intros ->; constructor].
    - destruct (Hall (x, s) (or_introl eq_refl)) as (n & En). destruct (Hr (x, s) (or_introl eq_refl)) as [R1 R2]. cbn [snd] in *.
      destruct (Hsh s n R1 R2 En) as [Hn Tn]. apply proper_ok in Hn.
      assert (IH' := IH (fun t Ht => Hr t (or_intror Ht)) (fun t Ht => Hall t (or_intror Ht))).
      rewrite vsum_cons. unfold TF at 1. rewrite En. cbn [gc_alg ascal aadd car]. split.
      + intros H. inversion H as [|x' s' ts' o' c' d' Eo Hc Hd]; subst. rewrite En in Eo. injection Eo as <-.
        apply (has_coeff_keyed n u _ Hn) in Hc. apply IH' in Hd. subst. reflexivity.
      + intros ->. econstructor; [exact En | apply (has_coeff_keyed n u _ Hn); reflexivity | apply IH'; reflexivity].
  Qed.
  Theorem apply_linear o : proper o -> o_type o = ty ->
    ((exists r, apply T (TOperator o) = Ok r) <-> (forall t, In t (op_terms o) -> exists n, T (snd t) = Ok n)) /\
    (forall r, apply T (TOperator o) = Ok r -> proper r /\ o_type r = ty /\
       forall u c, has_coeff (op_terms r) u c <-> combined_rule T u (op_terms o) c).
  Proof.
    intros Ho Ht. destruct (apply_vsum o Ho Ht) as [H1 H2]. split; auto. intros r Er. destruct (H2 r Er) as (Hr & Tr & V).
    split; auto. split; auto. intros u c. rewrite (has_coeff_keyed r u c (proper_ok _ Hr)), (combined_vsum u (op_terms o)).
    - rewrite (V gc_alg (keyed u) : _ = _). reflexivity.
    - apply proper_ready; auto.
    - apply H1. exists r; auto.
  Qed.
  Theorem apply_error o ts1 x s ts2 e : proper o -> o_type o = ty -> op_terms o = ts1 ++ (x, s) :: ts2 ->
    (forall t, In t ts1 -> exists n, T (snd t) = Ok n) -> T s = Err e -> apply T (TOperator o) = Err e.
  Proof.
    intros Ho Ht E Hall He. destruct (proper_empty ty) as (z & Ez & Hz & Tz & Nz). cbn [apply]. unfold apply_operator. rewrite Ht, Ez. cbn [rbind].
    pose proof (proper_ready o Ho Ht) as R. rewrite E in R |- *. apply apply_fold_err; auto. intros t Hin. apply R. apply in_or_app; auto.
  Qed.
End Lin.

(* ------------------------------------------------------------- products *)

Definition no_loss (C D : rule) (s : OS) : Prop := forall oC oD t u, C s = Ok oC -> In t (op_terms oC) -> D (snd t) = Ok oD ->
  In u (op_terms oD) -> gmul (fst t) (fst u) = g0 \/ abs_gtb (gmul (fst t) (fst u)) tol12 = true.

Section Prod.
  Variables (ty : optype) (C D : rule).
  Hypothesis HC : keeps_type ty C.
  Hypothesis HD : keeps_type ty D.

  Lemma inner_fold cC us : forall acc, proper acc -> o_type acc = ty -> (forall u, In u us -> os_type (snd u) = ty /\ std (snd u)) ->
    exists r, rfold (product_inner cC) us acc = Ok r /\ proper r /\ o_type r = ty /\
      ((forall u, In u us -> gmul cC (fst u) = g0 \/ abs_gtb (gmul cC (fst u)) tol12 = true) ->
       forall (A : StarAlg) (F : OS -> A), vsum F (op_terms r) == vsum F (op_terms acc) + cC · vsum F us).
  Proof.
    induction us as [|[x s] us IH]; intros acc Ha Ta Hr.
    - exists acc. split; auto. split; auto. split; auto. intros _ A F. unfold vsum at 3. cbn. rewrite ascal_zero. symmetry. apply aadd_0_r.
    - destruct (Hr (x, s) (or_introl eq_refl)) as [R1 R2]. cbn [rfold]. cbn [fst snd] in *.
      destruct (abs_gtb (gmul cC x) tol12) eqn:Eb.
      + destruct (single_new (gmul cC x) s) as (n & En & _). destruct (proper_single _ _ _ R2 En) as (Pn & Tn & Hn).
        destruct (op_iadd_ok acc n (proper_ok _ Ha) (proper_ok _ Pn)) as (r & Er & _); [congruence|].
        destruct (proper_add acc n r Ha Pn) as (Pr & Tr & _ & V); auto; [congruence|].
        destruct (IH r Pr) as (r' & Er' & Pr' & Tr' & V'); [congruence | intros; apply Hr; right; auto|].
        assert (Ei : product_inner cC acc (x, s) = Ok r) by (unfold product_inner; cbn [fst snd]; rewrite Eb, En; cbn [rbind]; exact Er).
        exists r'. rewrite Ei. cbn [rbind]. split; auto. split; auto. split; auto.
        intros Hl A F. rewrite (V' (fun u Hu => Hl u (or_intror Hu)) A F), V, Hn, !vsum_cons, ascal_add_r, ascal_ascal.
        change (vsum F []) with (azero : A). rewrite aadd_0_r. symmetry. apply aadd_assoc.
      + destruct (IH acc Ha Ta) as (r' & Er' & Pr' & Tr' & V'); [intros; apply Hr; right; auto|].
        assert (Ei : product_inner cC acc (x, s) = Ok acc) by (unfold product_inner; cbn [fst snd]; rewrite Eb; reflexivity).
        exists r'. rewrite Ei. cbn [rbind]. split; auto. split; auto. split; auto.
        intros Hl A F. destruct (Hl (x, s) (or_introl eq_refl)) as [Z|Z]; cbn [fst] in Z; [|congruence].
        rewrite (V' (fun u Hu => Hl u (or_intror Hu)) A F), vsum_cons, ascal_add_r, ascal_ascal, Z, ascal_0, aadd_0_l. reflexivity.
  Qed.
  Lemma outer_fold ts : forall acc, proper acc -> o_type acc = ty -> (forall t, In t ts -> os_type (snd t) = ty /\ std (snd t)) ->
    (forall t, In t ts -> exists n, D (snd t) = Ok n) ->
    exists r, rfold (product_outer D) ts acc = Ok r /\ proper r /\ o_type r = ty /\
      ((forall t u n, In t ts -> D (snd t) = Ok n -> In u (op_terms n) -> gmul (fst t) (fst u) = g0 \/ abs_gtb (gmul (fst t) (fst u)) tol12 = true) ->
       forall (A : StarAlg) (F : OS -> A), vsum F (op_terms r) == vsum F (op_terms acc) + vsum (fun s => vsum F (TF D s)) ts).
  Proof.
    induction ts as [|[x s] ts IH]; intros acc Ha Ta Hr Hall.
    - exists acc. split; auto. split; auto. split; auto. intros _ A F. unfold vsum at 3. cbn. symmetry. apply aadd_0_r.
    - destruct (Hall (x, s) (or_introl eq_refl)) as (n & En). destruct (Hr (x, s) (or_introl eq_refl)) as [R1 R2]. cbn [snd] in *.
      destruct (HD s n R1 R2 En) as [Pn Tn].
      destruct (inner_fold x (op_terms n) acc Ha Ta) as (r & Er & Pr & Tr & V).
      { intros u Hu. apply (proper_ready ty n Pn Tn u Hu). }
      destruct (IH r Pr Tr) as (r' & Er' & Pr' & Tr' & V'); [intros; apply Hr; right; auto | intros; apply Hall; right; auto|].
      assert (Ei : product_outer D acc (x, s) = Ok r) by (unfold product_outer; cbn [fst snd]; rewrite En; cbn [rbind]; exact Er).
      exists r'. cbn [rfold]. rewrite Ei. cbn [rbind].
      split; auto. split; auto. split; auto. intros Hl A F. rewrite V'; [|intros t u m Ht; apply Hl; right; auto].
      rewrite V; [|intros u Hu; apply (Hl (x, s) u n); auto; left; auto].
      rewrite vsum_cons. unfold TF at 2. rewrite En. symmetry. apply aadd_assoc.
  Qed.
  Lemma outer_inv ts : forall acc r, rfold (product_outer D) ts acc = Ok r -> proper acc -> o_type acc = ty ->
    (forall t, In t ts -> os_type (snd t) = ty /\ std (snd t)) -> forall t, In t ts -> exists n, D (snd t) = Ok n.
  Proof.
    induction ts as [|[x s] ts IH]; intros acc r E Ha Ta Hr t; [intros []|].
    destruct (Hr (x, s) (or_introl eq_refl)) as [R1 R2]. cbn [rfold] in E. cbn [fst snd] in *.
    destruct (D s) as [n|e] eqn:En.
    2:{ assert (Ei : product_outer D acc (x, s) = Err e) by (unfold product_outer; cbn [fst snd]; rewrite En; reflexivity). rewrite Ei in E. discriminate. }
    destruct (HD s n R1 R2 En) as [Pn Tn].
    destruct (inner_fold x (op_terms n) acc Ha Ta) as (r1 & Er & Pr & Tr & _).
    { intros u Hu. apply (proper_ready ty n Pn Tn u Hu). }
    assert (Ei : product_outer D acc (x, s) = Ok r1) by (unfold product_outer; cbn [fst snd]; rewrite En; cbn [rbind]; exact Er).
    rewrite Ei in E. cbn [rbind] in E. intros [<-|Hin]; [exists n; auto|].
    apply (IH r1 r); auto. intros u Hu. apply Hr; right; auto.
  Qed.

  Lemma tmul_keeps : keeps_type ty (tmul D C).
  Proof.
    intros s n Hs Hst. unfold tmul, product_rule. destruct (proper_empty (os_type s)) as (z & Ez & Hz & Tz & Nz). rewrite Ez. cbn [rbind].
    destruct (C s) as [oC|e] eqn:EC; cbn [rbind]; [|discriminate]. destruct (HC s oC Hs Hst EC) as [PC TC]. intros E.
    assert (Tz' : o_type z = ty) by congruence.
    pose proof (proper_ready ty oC PC TC) as R.
    destruct (outer_fold (op_terms oC) z Hz Tz' R (outer_inv _ _ _ E Hz Tz' R)) as (r & Er & Pr & Tr & _).
    rewrite E in Er. injection Er as <-. auto.
  Qed.
  Lemma tmul_spec s : os_type s = ty -> std s ->
    ((exists n, tmul D C s = Ok n) <-> exists oC, C s = Ok oC /\ forall t, In t (op_terms oC) -> exists oD, D (snd t) = Ok oD) /\
    (no_loss C D s -> forall n oC, tmul D C s = Ok n -> C s = Ok oC ->
       forall (A : StarAlg) (F : OS -> A), vsum F (op_terms n) == vsum (fun s => vsum F (TF D s)) (op_terms oC)).
  Proof.
    intros Hs Hst. unfold tmul, product_rule. destruct (proper_empty (os_type s)) as (z & Ez & Hz & Tz & Nz). rewrite Ez. cbn [rbind].
    assert (Tz' : o_type z = ty) by congruence. split; [split|].
    - intros (n & E). destruct (C s) as [oC|e] eqn:EC; cbn [rbind] in E; [|discriminate]. exists oC. split; auto.
      destruct (HC s oC Hs Hst EC) as [PC TC]. apply (outer_inv _ _ _ E Hz Tz' (proper_ready ty oC PC TC)).
    - intros (oC & EC & H). rewrite EC. cbn [rbind]. destruct (HC s oC Hs Hst EC) as [PC TC].
      destruct (outer_fold (op_terms oC) z Hz Tz' (proper_ready ty oC PC TC) H) as (r & Er & _). exists r; auto.
    - intros Hl n oC E EC A F. rewrite EC in E. cbn [rbind] in E. destruct (HC s oC Hs Hst EC) as [PC TC].
      pose proof (proper_ready ty oC PC TC) as R.
      destruct (outer_fold (op_terms oC) z Hz Tz' R (outer_inv _ _ _ E Hz Tz' R)) as (r & Er & _ & _ & V).
      rewrite E in Er. injection Er as <-. rewrite V; [rewrite Nz; unfold vsum at 1; cbn; apply aadd_0_l|].
      intros t u m Ht Em Hu. apply (Hl oC m t u); auto.
  Qed.

  Lemma same_coeffs_vsum o r : op_ok o -> op_ok r -> (forall F : OS -> gc_alg, vsum F (op_terms o) = vsum F (op_terms r)) -> same_coeffs o r.
  Proof. intros Ho Hr H u c. rewrite (has_coeff_keyed o u c Ho), (has_coeff_keyed r u c Hr), H. reflexivity. Qed.

  (** [(D * C) (s) = D (C s)]. *)
  Theorem tmul_string s : os_type s = ty -> std s -> no_loss C D s ->
    (forall oC r, C s = Ok oC -> apply D (TOperator oC) = Ok r -> exists n, tmul D C s = Ok n /\ same_coeffs n r) /\
    (forall n, tmul D C s = Ok n -> exists oC r, C s = Ok oC /\ apply D (TOperator oC) = Ok r /\ same_coeffs n r).
  Proof.
    intros Hs Hst Hl. destruct (tmul_spec s Hs Hst) as [H1 H2]. split.
    - intros oC r EC Er. destruct (HC s oC Hs Hst EC) as [PC TC]. destruct (apply_vsum ty D HD oC PC TC) as [A1 A2].
      destruct (proj2 H1) as (n & En). { exists oC. split; auto. apply A1. exists r; auto. }
      exists n. split; auto. destruct (tmul_keeps s n Hs Hst En) as [Pn _]. destruct (A2 r Er) as (Pr & _ & V).
      apply same_coeffs_vsum; auto using proper_ok. intros F. rewrite (H2 Hl n oC En EC gc_alg F : _ = _), (V gc_alg F : _ = _). reflexivity.
    - intros n En. destruct (proj1 H1) as (oC & EC & HDs); [exists n; auto|]. destruct (HC s oC Hs Hst EC) as [PC TC].
      destruct (apply_vsum ty D HD oC PC TC) as [A1 A2]. destruct (proj2 A1 HDs) as (r & Er). exists oC, r. split; auto. split; auto.
      destruct (tmul_keeps s n Hs Hst En) as [Pn _]. destruct (A2 r Er) as (Pr & _ & V).
      apply same_coeffs_vsum; auto using proper_ok. intros F. rewrite (H2 Hl n oC En EC gc_alg F : _ = _), (V gc_alg F : _ = _). reflexivity.
  Qed.
  (** The same on Operators. *)
  Theorem tmul_operator o n : proper o -> o_type o = ty -> (forall s, In s (b_strings (o_basis o)) -> no_loss C D s) ->
    apply (tmul D C) (TOperator o) = Ok n ->
    (forall oC r, apply C (TOperator o) = Ok oC -> apply D (TOperator oC) = Ok r -> same_coeffs n r).
  Proof.
    intros Ho Ht Hl En oC r EC Er.
    destruct (apply_vsum ty (tmul D C) tmul_keeps o Ho Ht) as [A1 A2]. destruct (A2 n En) as (Pn & _ & Vn).
    pose proof (proj1 A1 (ex_intro _ n En)) as Hall.
    destruct (apply_vsum ty C HC o Ho Ht) as [_ C2]. destruct (C2 oC EC) as (PC & TC & VC).
    destruct (apply_vsum ty D HD oC PC TC) as [_ D2]. destruct (D2 r Er) as (Pr & _ & Vr).
    apply same_coeffs_vsum; auto using proper_ok. intros F.
    rewrite (Vn gc_alg F : _ = _), (Vr gc_alg F : _ = _), (VC gc_alg _ : _ = _).
    apply (@vsum_ext gc_alg). intros t Hin. pose proof (proper_ready ty o Ho Ht t Hin) as [R1 R2].
    destruct (Hall t Hin) as (m & Em). destruct (tmul_spec (snd t) R1 R2) as [H1 H2].
    destruct (proj1 H1 (ex_intro _ m Em)) as (o' & Eo & _).
    assert (X1 : TF (tmul D C) (snd t) = op_terms m) by (unfold TF; rewrite Em; reflexivity).
    assert (X2 : TF C (snd t) = op_terms o') by (unfold TF; rewrite Eo; reflexivity).
    rewrite X1, X2. apply H2; auto. apply Hl.
    rewrite <- (op_terms_snd o (proper_ok _ Ho)). apply in_map; auto.
  Qed.
End Prod.
