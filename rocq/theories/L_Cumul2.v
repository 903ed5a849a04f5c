(** Operators built by the cumulative mode. *)
From Coq Require Import List ZArith Bool Arith Lia Reals Qcanon Lra Setoid Morphisms.
From Coquelicot Require Import Complex.
From Verif Require Import GC Exn S_Alg M_OpString M_Algebra M_Basis M_Transform M_LinAlg M_Core S_Den S_Basis S_Built S_OpAlg S_RScal S_CScal S_LinAlg S_Core S_Invariant S_Sparsify S_Generate S_Cumulative
  L_PropStr L_Alg L_Basis L_Operator L_PropBasis L_Commutant L_Conversion L_CScal L_LinAlg L_Inter L_Herm L_Core L_Commuting L_PartIso L_Invariant L_Sparsify L_Generate L_Generate2 L_LU L_Dim L_Cumulative.
Import ListNotations.
Local Open Scope nat_scope.

Lemma ok_distinct ty l : NoDup l -> (forall s, In s l -> string_ok ty s) -> distinct_keys l.
Proof.
  intros Hn Ho i j s t Hi Hj K. assert (s = t) by (apply (key_string_ok ty); auto; apply Ho; eapply nth_error_In; eauto). subst t.
  rewrite NoDup_nth_error in Hn. apply Hn; [apply nth_error_Some; congruence | congruence].
Qed.
Lemma built_nodup b : built b -> NoDup (b_strings b).
Proof. intros H. apply built_ok in H. apply distinct_NoDup, H. Qed.
Lemma combine_fst {X Y} (l : list X) : forall (k : list Y), length l = length k -> map fst (combine l k) = l.
Proof. induction l as [|x l IH]; intros [|y k] H; simpl in *; try discriminate; auto. f_equal; auto. Qed.
Lemma combine_snd {X Y} (l : list X) : forall (k : list Y), length l = length k -> map snd (combine l k) = k.
Proof. induction l as [|x l IH]; intros [|y k] H; simpl in *; try discriminate; auto. f_equal; auto. Qed.
Lemma combine_map_pair {X Y} (l : list (X * Y)) : combine (map fst l) (map snd l) = l.
Proof. induction l as [|[x y] l IH]; simpl; f_equal; auto. Qed.

Section Ops.
  Variables (ty : optype).
  Lemma cop_new_ok cs l t0 : NoDup l -> (forall s, In s l -> string_ok ty s) -> length cs = length l -> (l = [] -> t0 = Some ty) ->
    exists o, cop_new cs l t0 = Ok o /\ good_cop ty o /\ c_coeffs o = cs /\ b_strings (c_basis o) = l.
  Proof.
    intros Hn Ho Lc H0. unfold cop_new. destruct (proj1 (basis_new_spec l) (ok_distinct ty l Hn Ho)) as (b & Eb & Es & _). rewrite Eb. cbn [rbind]. rewrite Es.
    assert (Bb : built b) by (eapply built_new; eauto). destruct l as [|s l].
    - rewrite H0 by auto. exists (mkCOp cs b ty). split; [reflexivity|]. unfold good_cop. cbn [c_coeffs c_basis c_type]. rewrite Es. split; [|auto]. split; auto.
    - eexists. split; [reflexivity|]. unfold good_cop. simpl. rewrite Es. split; [|auto]. split; auto. split; auto. split; auto.
      apply (Ho s (or_introl eq_refl)).
  Qed.
  Lemma cop_scale_ok z o : good_cop ty o -> exists p, cop_scale z o = Ok p /\ good_cop ty p /\ b_strings (c_basis p) = b_strings (c_basis o) /\
    forall s, tcoef (c_terms p) s = Cmult z (tcoef (c_terms o) s).
  Proof.
    intros (Hb & Hl & Ht & Hs). unfold cop_scale. destruct (cop_new_ok (map (fun c => Cmult c z) (c_coeffs o)) (b_strings (c_basis o)) (Some (c_type o))) as (p & Ep & Gp & Cp & Sp).
    - apply built_nodup; auto.
    - auto.
    - rewrite map_length. auto.
    - congruence.
    - exists p. split; auto. split; auto. split; auto. intros s. unfold c_terms. rewrite Cp, Sp. apply tcoef_scale.
  Qed.
  Lemma tcoef_outside o s : good_cop ty o -> string_ok ty s -> ~ In s (b_strings (c_basis o)) -> tcoef (c_terms o) s = RtoC 0.
  Proof.
    intros (Hb & Hl & Ht & Hs) Hok Hn. apply tcoef_zero. intros [c t] Hin _. apply in_combine_r in Hin. simpl. apply not_true_is_false. intros E.
    apply (key_eq ty) in E; auto. subst. auto.
  Qed.
  Lemma cop_iadd_ok o p : good_cop ty o -> good_cop ty p -> exists q, cop_iadd o p = Ok q /\ good_cop ty q /\
    (forall s, In s (b_strings (c_basis q)) -> In s (b_strings (c_basis o)) \/ In s (b_strings (c_basis p))) /\
    forall s, string_ok ty s -> tcoef (c_terms q) s = (tcoef (c_terms o) s + tcoef (c_terms p) s)%C.
  Proof.
    intros Go Gp. pose proof Go as (Bo & Lo & To & So). pose proof Gp as (Bp & Lp & Tp & Sp). unfold cop_iadd. rewrite To, Tp, optype_eqb_refl.
    destruct (basis_iadd_ok (c_basis o) (c_basis p) (built_ok _ Bo)) as [Ob Ab]. set (b' := basis_iadd (c_basis o) (c_basis p)) in *.
    assert (Sb : forall s, In s (b_strings b') -> string_ok ty s) by (intros s Hs; destruct (append_new_in _ _ _ Ab s Hs); auto).
    assert (Ip : forall s, In s (b_strings (c_basis p)) -> In s (b_strings b')).
    { intros s Hs. destruct (append_new_right _ _ _ Ab s Hs) as (t & Ht & K). assert (t = s) by (apply (key_string_ok ty); auto). subst. auto. }
    assert (Bn : NoDup (b_strings b')) by (apply distinct_NoDup, Ob).
    assert (R : forall us, (forall t, In t us -> In (snd t) (b_strings b')) -> exists ts, rmap (fun t : C * OS => let! i := basis_index b' (snd t) in Ok (i, fst t)) us = Ok ts /\
      forall i s, nth_error (b_strings b') i = Some s -> csum (map (fun q => if Nat.eqb (fst q) i then snd q else RtoC 0) ts) = tcoef us s).
    { induction us as [|[c t] us IH]; intros Hu; [exists []; split; auto|]. destruct IH as (ts & Et & Vt); [intros; apply Hu; right; auto|].
      destruct (basis_index_in b' t Ob (Hu _ (or_introl eq_refl))) as (j & Ej & Nj). cbn [rmap snd fst]. rewrite Ej. cbn [rbind]. rewrite Et. cbn [rbind].
      eexists. split; [reflexivity|]. intros i s Hi. rewrite tcoef_cons. cbn [map fst snd]. unfold csum in *. cbn [fold_right]. rewrite (Vt i s Hi). f_equal.
      destruct (Nat.eqb_spec j i) as [->|N].
      - rewrite Hi in Nj. injection Nj as ->. rewrite (proj2 (key_eq ty t t (Sb t ltac:(eapply nth_error_In; eauto)) (Sb t ltac:(eapply nth_error_In; eauto))) eq_refl). auto.
      - replace (os_key t s) with false; auto. symmetry. apply not_true_is_false. intros E. apply (key_eq ty) in E; [|apply Sb; eapply nth_error_In; eauto..]. subst t.
        apply N. rewrite NoDup_nth_error in Bn. apply Bn; [apply nth_error_Some; congruence | congruence]. }
    destruct (R (c_terms p)) as (ts & Et & Vt); [intros [c s] Hs; apply in_combine_r in Hs; auto|]. rewrite Et. cbn [rbind].
    eexists. split; [reflexivity|]. set (F := fun i => (nth i (c_coeffs o) (RtoC 0) + csum (map (fun q : nat * C => if Nat.eqb (fst q) i then snd q else RtoC 0) ts))%C).
    assert (G : good_cop ty (mkCOp (map F (seq 0 (basis_len b'))) b' ty)).
    { split; [apply built_iadd; auto|]. split; [cbn [c_coeffs c_basis]; rewrite map_length, seq_length; reflexivity|]. split; auto. }
    split; [exact G|]. cbn [c_basis]. split; [intros s Hs; apply (append_new_in _ _ _ Ab); auto|]. intros s Hs.
    assert (Dec : In s (b_strings b') \/ ~ In s (b_strings b')).
    { destruct (existsb (os_key s) (b_strings b')) eqn:Ex.
      - left. apply existsb_exists in Ex. destruct Ex as (t & Ht & K). apply (key_eq ty) in K; auto. subst. auto.
      - right. intros Hin. apply not_true_iff_false in Ex. apply Ex. apply existsb_exists. exists s. split; auto. apply (key_eq ty); auto. }
    destruct Dec as [Hin|Hin].
    - apply In_nth_error in Hin. destruct Hin as (i & Hi). unfold c_terms. cbn [c_coeffs c_basis].
      rewrite (tcoef_nth ty _ Bn Sb _ i s Hi). assert (Li : i < basis_len b') by (unfold basis_len; apply nth_error_Some; congruence).
      rewrite (nth_indep _ _ (F 0)), map_nth, seq_nth by (rewrite ?map_length, ?seq_length; auto). cbn [Nat.add]. unfold F. rewrite (Vt i s Hi). f_equal.
      destruct (append_new_prefix _ _ _ Ab) as (k & Ek). destruct (Nat.lt_ge_cases i (length (b_strings (c_basis o)))) as [L|L].
      + rewrite Ek, nth_error_app1 in Hi by auto. symmetry. apply (tcoef_nth ty); auto. apply built_nodup; auto.
      + rewrite nth_overflow by lia. symmetry. apply tcoef_outside; auto. intros Hx. apply In_nth_error in Hx. destruct Hx as (j & Hj).
        assert (Lj : j < length (b_strings (c_basis o))) by (apply nth_error_Some; congruence).
        assert (j = i); [|lia]. rewrite NoDup_nth_error in Bn. apply Bn; [rewrite Ek, app_length; lia|]. rewrite Hi, Ek, nth_error_app1 by auto. auto.
    - rewrite (tcoef_outside _ s G Hs Hin), (tcoef_outside o s), (tcoef_outside p s); auto; [ring|]. intros Hx. apply Hin. eapply append_new_left; eauto.
  Qed.
End Ops.

Section Coords2.
  Variables (ty : optype) (U : list OS).
  Hypotheses (Hnd : NoDup U) (Hok : forall s, In s U -> string_ok ty s).
  Let m := length U.
  Notation co o := (coords U (c_terms o)).
  Definition inU (o : COp) : Prop := good_cop ty o /\ forall s, In s (b_strings (c_basis o)) -> In s U.

  Lemma inner_ind c t (f : OS -> C) : In t U -> inner (ind c t U) (map f U) = (Cconj c * f t)%C.
  Proof.
    clear m. revert Hnd Hok. induction U as [|s l IH]; intros Hn Ho Hin; [destruct Hin|]. inversion Hn; subst.
    assert (Hs : string_ok ty s) by (apply Ho; left; auto). assert (Ht : string_ok ty t) by (apply Ho; auto). unfold ind in *. cbn [map inner].
    destruct Hin as [->|Hin].
    - rewrite (proj2 (key_eq ty t t Ht Ht) eq_refl). fold (ind c t l). rewrite (ind_nil ty c t l) by (auto; intros; apply Ho; right; auto).
      rewrite inner_zero_l. ring.
    - rewrite IH; auto; [|intros; apply Ho; right; auto]. replace (os_key t s) with false; [rewrite Cconj_R; ring|].
      symmetry. apply not_true_is_false. intros E. apply (key_eq ty) in E; auto. subst. auto.
  Qed.
  Lemma inner_coords ts us : (forall t, In t ts -> In (snd t) U) -> inner (coords U ts) (coords U us) = csum (map (fun t => Cconj (fst t) * tcoef us (snd t))%C ts).
  Proof.
    induction ts as [|t ts IH]; intros H; [rewrite coords_nil; apply inner_zero_l|]. rewrite coords_cons, (inner_add_l m).
    - unfold csum in *. cbn [map fold_right]. rewrite IH by (intros; apply H; right; auto). f_equal. apply (inner_ind (fst t) (snd t)). apply H; left; auto.
    - apply map_length.
    - apply coords_length.
    - apply coords_length.
  Qed.
  Lemma terms_inU o : inU o -> forall t, In t (c_terms o) -> In (snd t) U.
  Proof. intros [_ H] [c s] Ht. apply in_combine_r in Ht. auto. Qed.
  Lemma cop_inner_coords o p : inU o -> inU p -> cop_inner o p = inner (co o) (co p).
  Proof.
    intros Ho Hp. rewrite inner_coords by (apply terms_inU; auto). unfold cop_inner. change (fold_right Cplus (RtoC 0)) with csum at 1. apply csum_ext. intros t Ht.
    unfold tcoef. change (fold_right Cplus (RtoC 0)) with csum. rewrite csum_mul. apply csum_ext. intros u Hu.
    assert (St : string_ok ty (snd t)) by (apply Hok; apply (terms_inU o); auto). assert (Su : string_ok ty (snd u)) by (apply Hok, (terms_inU p); auto).
    assert (E : os_key (snd t) (snd u) = os_key (snd u) (snd t)).
    { destruct (os_key (snd t) (snd u)) eqn:E1.
      - apply (key_eq ty) in E1; auto. rewrite E1. symmetry. apply (key_eq ty); auto.
      - symmetry. apply not_true_is_false. intros E2. apply (key_eq ty) in E2; auto. rewrite E2, (proj2 (key_eq ty _ _ St St) eq_refl) in E1. discriminate. }
    rewrite E. destruct (os_key (snd u) (snd t)); ring.
  Qed.
  Lemma coeffs_norm o : inU o -> inner (c_coeffs o) (c_coeffs o) = inner (co o) (co o).
  Proof.
    intros Ho. rewrite inner_coords by (apply terms_inU; auto). destruct Ho as [(Hb & Hl & _ & Hs) _].
    rewrite (csum_ext _ _ (fun t => Cconj (fst t) * fst t)%C).
    - unfold c_terms. revert Hl. generalize (c_coeffs o), (b_strings (c_basis o)). clear. intros l. unfold csum. induction l as [|c l IH]; intros [|s k] H; try discriminate; auto.
      cbn [combine map fold_right inner fst snd]. rewrite <- IH; auto.
    - intros [c s] Ht. f_equal. cbn [fst snd]. unfold c_terms in *. apply In_nth_error in Ht. destruct Ht as (i & Hi).
      assert (Hi2 : nth_error (b_strings (c_basis o)) i = Some s /\ nth_error (c_coeffs o) i = Some c).
      { clear - Hi Hl. revert i Hi Hl. generalize (c_coeffs o), (b_strings (c_basis o)). intros l. induction l as [|x l IH]; intros [|y k] [|i] Hi H; try discriminate.
        - injection Hi as -> ->. auto.
        - apply (IH k i); auto. }
      destruct Hi2 as [H1 H2]. rewrite (tcoef_nth ty _ (built_nodup _ Hb) Hs _ i s H1). apply nth_error_nth. auto.
  Qed.

  (** The conversion of one vector. *)
  Definition exact_entries (tol : R) (v : vec) : Prop := forall z, In z v -> z = RtoC 0 \/ (tol < Cmod z)%R.
  Lemma large_false tol z : (z = RtoC 0 \/ (tol < Cmod z)%R) -> large tol z = false -> z = RtoC 0.
  Proof. intros [->|H] E; auto. unfold large, lt_dec in E. destruct (Rlt_dec tol (Cmod z)); [discriminate | contradiction]. Qed.

  Lemma to_operator_basis b tol v : good_basis ty b -> b_strings b = U -> length v = m -> v <> vzero m -> exact_entries tol v ->
    exists o, to_operator (CBasis b) tol v = Ok (Some o) /\ inU o /\ co o = v.
  Proof.
    intros [Hb Hs] EU Lv Nv Ev. unfold to_operator. rewrite EU. set (ts := filter (fun t => large tol (fst t)) (combine v U)).
    assert (Sub : forall s, In s (map snd ts) -> In s U).
    { intros s H. apply in_map_iff in H. destruct H as ([c t] & <- & H). apply filter_In in H. destruct H as [H _]. apply in_combine_r in H. auto. }
    assert (Cts : coords U ts = v).
    { transitivity (coords U (combine v U)); [|apply (coords_self ty); auto]. apply coords_ext. intros s Hin. unfold ts. apply tcoef_filter. intros [c t] Ht Hf. cbn [fst] in *.
      apply (large_false tol); auto. apply Ev. eapply in_combine_l; eauto. }
    destruct (cop_new_ok ty (map fst ts) (map snd ts) None) as (o & Eo & Go & Co & So).
    - unfold ts. clear - Hnd. revert v. induction U as [|s l IH]; intros [|z v]; simpl; try constructor. inversion Hnd; subst.
      destruct (large tol z); simpl; auto. constructor; auto. intros Hin. apply H1. apply in_map_iff in Hin. destruct Hin as ([c t] & <- & H). apply filter_In in H. destruct H as [H _]. apply in_combine_r in H. auto.
    - intros s H. apply Hok. auto.
    - rewrite !map_length. auto.
    - intros E. exfalso. apply Nv. rewrite <- Cts. destruct ts as [|? ?]; [apply coords_nil | discriminate].
    - rewrite Eo. cbn [rbind]. exists o. split; auto. split; [split; auto; intros s Hs'; apply Sub; rewrite <- So; auto|].
      unfold c_terms. rewrite Co, So, combine_map_pair. auto.
  Qed.

  Lemma tcoef_vscale z : forall cs strs s, tcoef (combine (vscale z cs) strs) s = Cmult z (tcoef (combine cs strs) s).
  Proof.
    intros cs strs s. rewrite <- tcoef_scale. f_equal. f_equal. unfold vscale. apply map_ext. intros; ring.
  Qed.
  Lemma coords_add ts us ws : (forall s, string_ok ty s -> tcoef ts s = (tcoef us s + tcoef ws s)%C) -> coords U ts = vadd (coords U us) (coords U ws).
  Proof.
    intros H. unfold coords. clear Hnd m. revert Hok. induction U as [|s l IH]; intros Ho; auto. cbn [map]. rewrite H by (apply Ho; left; auto). unfold vadd in *. cbn [zip_with].
    rewrite IH; auto. intros; apply Ho; right; auto.
  Qed.
  Lemma coords_scaled ts us z : (forall s, tcoef ts s = Cmult z (tcoef us s)) -> coords U ts = vscale z (coords U us).
  Proof. intros H. unfold coords, vscale. rewrite map_map. apply map_ext. auto. Qed.

  Lemma to_operator_ops l tol v : l <> [] -> (forall o, In o l -> inU o) -> length v = length l -> exact_entries tol v ->
    mat_vec m (map (fun o => co o) l) v <> vzero m ->
    exists o k, to_operator (COps l) tol v = Ok (Some o) /\ inU o /\ inner (co o) (co o) = RtoC 1 /\ k <> RtoC 0 /\
      co o = vscale k (mat_vec m (map (fun o => co o) l) v).
  Proof.
    intros Nl Hl Lv Ev Nz. destruct l as [|o0 l0]; [exfalso; apply Nl; auto|]. unfold to_operator. set (l := o0 :: l0) in *.
    assert (T0 : c_type o0 = ty) by apply (Hl o0 (or_introl eq_refl)).
    destruct (cop_new_ok ty [] [] (Some (c_type o0))) as (z0 & E0 & G0 & C0 & S0); [constructor | intros s [] | auto | congruence|].
    rewrite E0. cbn [rbind].
    assert (Fold : forall l v acc, (forall o, In o l -> inU o) -> exact_entries tol v -> inU acc -> length v = length l ->
      exists s, rfold (fun acc p => if large tol (fst p) then let! t := cop_scale (fst p) (snd p) in cop_iadd acc t else Ok acc) (combine v l) acc = Ok s /\ inU s /\
        co s = vadd (co acc) (mat_vec m (map (fun o => co o) l) v)).
    { clear - Hok. induction l as [|o l IH]; intros [|c v] acc Hl Ev Ha Lv; try discriminate.
      - exists acc. split; auto. split; auto. symmetry. apply vadd_0r. apply coords_length.
      - cbn [combine rfold fst snd map mat_vec]. destruct (Hl o (or_introl eq_refl)) as [Go Uo].
        assert (Vl : vectors m (map (fun o => co o) l)) by (intros x Hx; apply in_map_iff in Hx; destruct Hx as (p & <- & _); apply coords_length).
        destruct (large tol c) eqn:EL.
        + destruct (cop_scale_ok ty c o Go) as (p & Ep & Gp & Sp & Cp). rewrite Ep. cbn [rbind]. destruct Ha as [Ga Ua].
          destruct (cop_iadd_ok ty acc p Ga Gp) as (q & Eq & Gq & Sq & Cq). rewrite Eq. cbn [rbind].
          destruct (IH v q) as (s & Es & Us & Cs); auto; [intros; apply Hl; right; auto | intros z Hz; apply Ev; right; auto | split; auto; intros t Ht; destruct (Sq t Ht) as [X|X]; auto; rewrite Sp in X; auto|].
          exists s. split; [exact Es|]. split; auto. rewrite Cs, (coords_add _ _ _ Cq), (coords_scaled _ _ _ Cp). apply vadd_assoc.
        + cbn [rbind]. destruct (IH v acc) as (s & Es & Us & Cs); auto; [intros; apply Hl; right; auto | intros z Hz; apply Ev; right; auto|].
          exists s. split; [exact Es|]. split; auto. rewrite Cs. f_equal. rewrite (large_false tol c) by (auto; apply Ev; left; auto).
          rewrite vscale_0, coords_length. symmetry. apply (vadd_0l m). apply mat_vec_length; auto. }
    assert (U0 : inU z0) by (split; auto; rewrite S0; intros s []).
    destruct (Fold l v z0 Hl Ev U0 Lv) as (s & Es & Us & Cs). rewrite Es. cbn [rbind].
    assert (Z0 : co z0 = vzero m) by (unfold c_terms; rewrite C0; apply coords_nil).
    assert (Vl : vectors m (map (fun o => co o) l)) by (intros x Hx; apply in_map_iff in Hx; destruct Hx as (p & <- & _); apply coords_length).
    rewrite Z0, (vadd_0l m) in Cs by (apply mat_vec_length; auto). rewrite <- Cs in Nz |- *.
    assert (N1 : c_coeffs s <> vzero (length (c_coeffs s))).
    { intros E. apply Nz. pose proof (coeffs_norm s Us) as H. rewrite E, inner_zero_l in H. symmetry in H. rewrite inner_self in H. apply RtoC_inj in H. apply sqsum_zero in H.
      rewrite coords_length in H. exact H. }
    unfold cop_normalize. destruct (c_coeffs s) as [|c1 cr] eqn:Ec; [exfalso; apply N1; reflexivity|]. rewrite <- Ec in N1 |- *.
    destruct (unit_vec_ok (c_coeffs s) N1) as (u & Eu & Lu & Iu & U1 & _). rewrite Eu. eexists _, (RtoC (/ vnorm (c_coeffs s))). split; [reflexivity|].
    assert (G : inU (mkCOp u (c_basis s) (c_type s))).
    { destruct Us as [(B & L & T & Q) W]. split; [|exact W]. split; auto. split; [cbn [c_coeffs c_basis]; unfold vec in *; congruence|]. auto. }
    split; auto. split; [rewrite <- coeffs_norm by auto; exact Iu|]. split.
    - intros E. apply RtoC_inj in E. assert (X := vnorm_zero (c_coeffs s)). destruct (Req_dec (vnorm (c_coeffs s)) 0); [auto|]. apply (Rinv_neq_0_compat _ H). auto.
    - apply coords_scaled. intros t. unfold c_terms. cbn [c_coeffs c_basis]. rewrite U1. apply tcoef_vscale.
  Qed.
End Coords2.
