(** Projections, padding, and coordinates for generate_lie_algebra of a list of Operators. *)
From Coq Require Import List ZArith Bool Arith Lia Setoid Morphisms Reals QArith Qreals Qcanon Lra.
From Coquelicot Require Import Complex.
From Verif Require Import GC Exn M_OpString M_Tools M_Algebra M_Basis M_OpAlg M_Transform M_LinAlg M_Core M_Greedy M_LieOps
  S_Alg S_Den S_Basis S_Built S_OpAlg S_RScal S_CFock S_CScal S_LinAlg S_Core S_Invariant S_Sparsify S_Generate S_Cumulative S_LieOps
  L_Alg L_Sort L_StrAlg L_StrOp L_Indep L_PropStr L_Operator L_Basis L_Heap L_PropBasis L_OpAlg L_Sum L_Struct L_Commutant L_CScal L_LinAlg L_Inter L_Core L_Commuting L_PartIso L_Invariant L_Generate2 L_Dim L_Cumulative L_Cumul2 L_Cumul3 L_Cumul4.
Import ListNotations.
Local Open Scope nat_scope.
Local Open Scope C_scope.

(* -------------------------------------------------------------- projection *)

Lemma projected_length n vs w : vectors n vs -> length (projected n vs w) = n.
Proof.
  induction vs as [|v vs IH]; intros H; simpl; [apply vzero_length|]. apply vadd_length; [rewrite vscale_length; apply H; left; auto|].
  apply IH. intros u Hu. apply H. right; auto.
Qed.
Lemma projected_span n vs w : vectors n vs -> span n vs (projected n vs w).
Proof.
  intros H. assert (G : forall us, incl us vs -> span n vs (projected n us w)).
  { induction us as [|v us IH]; intros Hi; simpl; [apply span_zero|]. apply (span_add n vs (vdot v w) v); [apply Hi; left; auto|]. apply IH. intros u Hu. apply Hi. right; auto. }
  apply G. apply incl_refl.
Qed.
Lemma inner_projected n vs w u : vectors n vs -> length u = n ->
  inner u (projected n vs w) = fold_right (fun v acc => inner v w * inner u v + acc) (RtoC 0) vs.
Proof.
  intros H L. induction vs as [|v vs IH]; simpl; [apply inner_zero_r|].
  rewrite (inner_add_r n), IH, inner_scale_r, vdot_inner; auto.
  - intros x Hx; apply H; right; auto.
  - rewrite vscale_length; apply H; left; auto.
  - apply projected_length. intros x Hx; apply H; right; auto.
Qed.
Lemma projected_orth n vs w u : vectors n vs -> orthonormal vs -> length w = n -> In u vs -> inner u (projected n vs w) = inner u w.
Proof.
  intros H O L Hu. rewrite (inner_projected n) by (auto; apply H; auto). clear L. revert O Hu. induction vs as [|v vs IH]; intros O Hu; [destruct Hu|].
  destruct O as [O1 O2].
  assert (Z : forall x, (forall y, In y vs -> inner x y = RtoC 0) -> fold_right (fun v acc => inner v w * inner x v + acc) (RtoC 0) vs = RtoC 0).
  { intros x Hx. clear - Hx. induction vs as [|y vs IH]; simpl; auto. rewrite (Hx y), IH by (intros; try apply Hx; simpl; auto). ring. }
  simpl. destruct Hu as [->|Hu].
  - rewrite (O1 u) by (left; auto). rewrite Z; [ring|]. intros y Hy. apply In_nth_error in Hy. destruct Hy as (j & Hj). apply (O2 0 (Datatypes.S j) u y); auto.
  - rewrite IH; auto.
    + apply In_nth_error in Hu. destruct Hu as (i & Hi). rewrite (O2 (Datatypes.S i) 0 u v); auto. ring.
    + intros x Hx. apply H. right; auto.
    + split; [intros x Hx; apply O1; right; auto|]. intros i j x y Hi Hj N. apply (O2 (Datatypes.S i) (Datatypes.S j)); auto.
Qed.
Lemma span_orth n vs r x : vectors n vs -> length r = n -> (forall v, In v vs -> inner v r = RtoC 0) -> span n vs x -> inner x r = RtoC 0.
Proof.
  intros V L H. induction 1 as [|c v u Hv Hu IH]; [apply inner_zero_l|].
  change (inner (vadd (vscale c v) u) r = RtoC 0). rewrite (inner_add_l n), inner_scale_l, (H v Hv), IH; auto; [ring | rewrite vscale_length; auto |].
  apply (span_length n vs); auto.
Qed.
Section Residual.
  Variables (n : nat) (vs : list vec) (w : vec).
  Hypotheses (V : vectors n vs) (O : orthonormal vs) (L : length w = n).
  Let p := projected n vs w.
  Let r := vsub w p.
  Lemma res_length : length r = n.
  Proof. apply vsub_length; auto. apply projected_length; auto. Qed.
  Lemma res_orth v : In v vs -> inner v r = RtoC 0.
  Proof.
    intros H. unfold r. rewrite (inner_sub_r n); auto; [|apply projected_length; auto]. unfold p. rewrite (projected_orth n) by auto. ring.
  Qed.
  Lemma res_norm : inner w w = RtoC 1 -> inner w p - RtoC 1 = - RtoC (sqsum r).
  Proof.
    intros E. rewrite <- inner_self. assert (Lp : length p = n) by (apply projected_length; auto).
    unfold r at 1. rewrite (inner_sub_l n) by (auto using res_length).
    rewrite (span_orth n vs r p V res_length res_orth (projected_span n vs w V)). unfold r. rewrite (inner_sub_r n) by auto. rewrite E. ring.
  Qed.
  Lemma res_sum : vadd r p = w.
  Proof. apply vsub_add. rewrite L. symmetry. apply projected_length; auto. Qed.
  Lemma res_zero : span n vs w -> r = vzero n.
  Proof.
    intros H. rewrite <- res_length. apply sqsum_zero. apply RtoC_inj. rewrite <- inner_self. apply (span_orth n vs); auto using res_length, res_orth.
    unfold r. apply (span_minus n vs V); auto. apply projected_span; auto.
  Qed.
End Residual.

Lemma orthonormal_bound n vs : vectors n vs -> orthonormal vs -> length vs <= n.
Proof.
  intros V O. rewrite <- (units_length n). apply (span_dimension n vs (units n)); auto; [apply units_vectors | apply orthonormal_independent; auto|].
  intros v Hv. rewrite <- (mat_vec_units n v) by auto. apply mat_vec_span, units_vectors.
Qed.
Lemma injective_independent n vs : vectors n vs -> injective n vs -> independent n vs.
Proof.
  intros V I l1 v l2 -> Hs.
  assert (V1 : vectors n l1) by (intros x Hx; apply V, in_or_app; auto).
  assert (V2 : vectors n (v :: l2)) by (intros x Hx; apply V, in_or_app; auto).
  assert (Lv : length v = n) by (apply V2; left; auto).
  destruct (span_mat_vec n l1 V1 v Hs) as (x & Lx & E).
  assert (Z : x ++ RtoC (-1) :: vzero (length l2) = vzero (length (l1 ++ v :: l2))).
  { apply I; [rewrite !app_length; simpl; rewrite vzero_length; unfold vec in *; lia|].
    rewrite (mat_vec_app n) by auto. simpl. rewrite mat_vec_zero by (intros y Hy; apply V2; right; auto). rewrite <- E.
    rewrite (vadd_0r n) by (rewrite vscale_length; auto). rewrite <- (vscale_one v) at 1. rewrite <- vscale_plus, <- RtoC_plus.
    replace (1 + -1)%R with 0%R by ring. rewrite vscale_0, Lv. reflexivity. }
  assert (C : nth (length x) (x ++ RtoC (-1) :: vzero (length l2)) (RtoC 0) = RtoC (-1)) by apply nth_middle.
  rewrite Z in C. unfold vzero in C. rewrite nth_repeat in C. apply RtoC_inj in C. lra.
Qed.
Lemma independent_snoc n vs v : independent n vs -> ~ span n vs v -> independent n (vs ++ [v]).
Proof.
  intros I N l1 u l2 E. destruct l2 as [|y l2 _] using rev_ind.
  - apply app_inj_tail in E. destruct E as [<- <-]. auto.
  - replace (l1 ++ u :: l2 ++ [y]) with ((l1 ++ u :: l2) ++ [y]) in E by (rewrite <- app_assoc; reflexivity).
    apply app_inj_tail in E. destruct E as [E _]. apply (I l1 u l2). auto.
Qed.

(* ----------------------------------------------------------------- padding *)

Section Pad.
  Variables (n k : nat).
  Lemma pad_length v : length v = n -> length (pad k v) = (n + k)%nat.
  Proof. intros L. unfold pad. rewrite app_length, vzero_length. auto. Qed.
  Lemma pad_vectors vs : vectors n vs -> vectors (n + k)%nat (map (pad k) vs).
  Proof. intros V x Hx. apply in_map_iff in Hx. destruct Hx as (v & <- & Hv). apply pad_length. auto. Qed.
  Lemma pad_inner u : forall v, length u = length v -> inner (pad k u) (pad k v) = inner u v.
  Proof.
    unfold pad. induction u as [|x u IH]; intros [|y v] L; try discriminate.
    - simpl. apply inner_zero_l.
    - simpl. f_equal. apply IH. simpl in L. lia.
  Qed.
  Lemma pad_orthonormal vs : vectors n vs -> orthonormal vs -> orthonormal (map (pad k) vs).
  Proof.
    intros V [O1 O2]. split.
    - intros x Hx. apply in_map_iff in Hx. destruct Hx as (v & <- & Hv). rewrite pad_inner by auto. auto.
    - intros i j x y Hi Hj N. rewrite nth_error_map in Hi, Hj. unfold vec in *. destruct (nth_error vs i) as [v|] eqn:Ei; [|discriminate]. destruct (nth_error vs j) as [w|] eqn:Ej; [|discriminate].
      injection Hi as <-. injection Hj as <-. rewrite pad_inner; [eapply O2; eauto|]. rewrite !V; auto; eapply nth_error_In; eauto.
  Qed.
  Lemma pad_add u : forall v, length u = length v -> pad k (vadd u v) = vadd (pad k u) (pad k v).
  Proof.
    unfold pad. induction u as [|x u IH]; intros [|y v] L; try discriminate.
    - simpl. symmetry. apply vadd_vzero.
    - simpl. unfold vadd in *. simpl. f_equal. apply IH. simpl in L. lia.
  Qed.
  Lemma pad_scale c v : pad k (vscale c v) = vscale c (pad k v).
  Proof. unfold pad. unfold vscale at 2. rewrite map_app. f_equal. symmetry. apply vscale_zero. Qed.
  Lemma pad_span vs x : vectors n vs -> (span (n + k)%nat (map (pad k) vs) x <-> exists u, x = pad k u /\ span n vs u).
  Proof.
    intros V. split.
    - induction 1 as [|c v u Hv Hu (u' & -> & IH)].
      + exists (vzero n). split; [unfold pad; apply repeat_app | apply span_zero].
      + apply in_map_iff in Hv. destruct Hv as (w & <- & Hw). exists (vadd (vscale c w) u'). split.
        * rewrite pad_add, pad_scale; auto. rewrite vscale_length, (V w Hw), (span_length n vs V u' IH). reflexivity.
        * apply (span_add n vs c w); auto.
    - intros (u & -> & Hu). induction Hu as [|c v u Hv Hu IH].
      + unfold pad, vzero. rewrite <- repeat_app. apply span_zero.
      + change (span (n + k)%nat (map (pad k) vs) (pad k (vadd (vscale c v) u))). rewrite pad_add, pad_scale.
        * apply (span_add (n + k)%nat _ c (pad k v)); auto. apply in_map; auto.
        * rewrite vscale_length, (V v Hv), (span_length n vs V u Hu). reflexivity.
  Qed.
  Lemma pad_inj u v : length u = length v -> pad k u = pad k v -> u = v.
  Proof.
    unfold pad. revert v. induction u as [|x u IH]; intros [|y v] L E; try discriminate; auto. injection E as -> E. f_equal. apply IH; auto.
  Qed.
  Lemma pad_independent vs : vectors n vs -> independent n vs -> independent (n + k)%nat (map (pad k) vs).
  Proof.
    intros V I l1 v l2 E Hs. apply map_eq_app in E. destruct E as (m1 & m2 & -> & <- & E). destruct m2 as [|u m2]; [discriminate|]. injection E as <- <-.
    assert (V1 : vectors n m1) by (intros x Hx; apply V, in_or_app; auto).
    apply pad_span in Hs; auto. destruct Hs as (u' & Eu & Hu). apply pad_inj in Eu.
    - subst u'. apply (I m1 u m2); auto.
    - rewrite (span_length n m1 V1 u' Hu). apply V, in_or_app. right; left; auto.
  Qed.
End Pad.

(* ------------------------------------------------------------- coordinates *)

Section Coords.
  Variable ty : optype.
  Lemma coords_app U W ts : coords (U ++ W) ts = coords U ts ++ coords W ts.
  Proof. apply map_app. Qed.
  Lemma coords_pad U W o : NoDup (U ++ W) -> (forall s, In s (U ++ W) -> string_ok ty s) -> inU ty U o ->
    coords (U ++ W) (c_terms o) = pad (length W) (coords U (c_terms o)).
  Proof.
    intros Hn Ho [Go Hi]. rewrite coords_app. unfold pad. f_equal. unfold coords, vzero.
    assert (Z : forall s, In s W -> tcoef (c_terms o) s = RtoC 0).
    { intros s Hs. apply (tcoef_outside ty); auto; [apply Ho, in_or_app; auto|]. intros H. apply Hi in H.
      apply in_split in H. destruct H as (l1 & l2 & ->). rewrite <- app_assoc in Hn. simpl in Hn. apply NoDup_remove_2 in Hn. apply Hn. apply in_or_app. right. apply in_or_app. auto. }
    clear - Z. induction W as [|s W IH]; simpl; auto. rewrite Z by (left; auto). f_equal. apply IH. intros; apply Z; right; auto.
  Qed.
  Lemma index_terms b us : basis_ok b -> (forall s, In s (b_strings b) -> string_ok ty s) -> (forall t, In t us -> In (snd t) (b_strings b)) ->
    exists ts, rmap (fun t : C * OS => let! i := basis_index b (snd t) in Ok (i, fst t)) us = Ok ts /\
      forall f : C -> bool, map (fun i => csum (map (fun p => if Nat.eqb (fst p) i then snd p else RtoC 0) (filter (fun p => f (snd p)) ts))) (seq 0 (basis_len b))
        = coords (b_strings b) (filter (fun t => f (fst t)) us).
  Proof.
    intros Ob Sb Hu.
    assert (R : exists ts, rmap (fun t : C * OS => let! i := basis_index b (snd t) in Ok (i, fst t)) us = Ok ts /\
      forall (f : C -> bool) i s, nth_error (b_strings b) i = Some s -> csum (map (fun q => if Nat.eqb (fst q) i then snd q else RtoC 0) (filter (fun p => f (snd p)) ts)) = tcoef (filter (fun t => f (fst t)) us) s).
    { induction us as [|[c t] us IH]; [exists []; split; auto|]. destruct IH as (ts & Et & Vt); [intros; apply Hu; right; auto|].
      destruct (basis_index_in b t Ob (Hu _ (or_introl eq_refl))) as (j & Ej & Nj). cbn [rmap snd fst]. rewrite Ej. cbn [rbind]. rewrite Et. cbn [rbind].
      eexists. split; [reflexivity|]. intros f i s Hi. cbn [filter fst snd]. destruct (f c); [|apply Vt; auto]. rewrite tcoef_cons. cbn [map fst snd]. unfold csum in *. cbn [fold_right]. rewrite (Vt f i s Hi). f_equal.
      destruct (Nat.eqb_spec j i) as [->|N].
      - rewrite Hi in Nj. injection Nj as ->. rewrite (proj2 (key_eq ty t t (Sb t ltac:(eapply nth_error_In; eauto)) (Sb t ltac:(eapply nth_error_In; eauto))) eq_refl). auto.
      - replace (os_key t s) with false; auto. symmetry. apply not_true_is_false. intros E. apply (key_eq ty) in E; [|apply Sb; eapply nth_error_In; eauto..]. subst t.
        apply N. pose proof (distinct_NoDup _ (proj1 Ob)) as Bn. rewrite NoDup_nth_error in Bn. apply Bn; [apply nth_error_Some; congruence | congruence]. }
    destruct R as (ts & Et & Vt). exists ts. split; auto. intros f. unfold coords, basis_len.
    apply nth_ext with (d := RtoC 0) (d' := RtoC 0); [rewrite !map_length, seq_length; auto|]. rewrite map_length, seq_length. intros i Hi.
    destruct (nth_error (b_strings b) i) as [s|] eqn:Es; [|apply nth_error_None in Es; lia].
    rewrite (nth_indep _ (RtoC 0) (csum (map (fun q : nat * C => if Nat.eqb (fst q) 0 then snd q else RtoC 0) (filter (fun p => f (snd p)) ts)))) by (rewrite map_length, seq_length; auto).
    rewrite (map_nth (fun i => csum (map (fun p : nat * C => if Nat.eqb (fst p) i then snd p else RtoC 0) (filter (fun p => f (snd p)) ts))) _ 0), seq_nth by auto. cbn [Nat.add].
    rewrite (Vt f i s Es). rewrite (nth_indep _ (RtoC 0) (tcoef (filter (fun t => f (fst t)) us) s)) by (rewrite map_length; auto). rewrite map_nth. f_equal. symmetry. apply nth_error_nth; auto.
  Qed.
  Lemma filter_all {T} (l : list T) : filter (fun _ => true) l = l.
  Proof. induction l; simpl; f_equal; auto. Qed.
  Lemma coeff_column_coords b o : good_basis ty b -> inU ty (b_strings b) o -> coeff_column b o = Ok (coords (b_strings b) (c_terms o)).
  Proof.
    intros [Hb Hs] Ho. apply built_ok in Hb. destruct (index_terms b (c_terms o) Hb Hs (terms_inU ty _ o Ho)) as (ts & Et & Vt).
    unfold coeff_column. rewrite Et. cbn [rbind]. f_equal. specialize (Vt (fun _ => true)). rewrite !filter_all in Vt. exact Vt.
  Qed.
  Lemma lie_column_coords b tol o : good_basis ty b -> inU ty (b_strings b) o -> (forall c, In c (c_coeffs o) -> c = RtoC 0 \/ (tol < Cmod c)%R) ->
    lie_column b tol o = Ok (coords (b_strings b) (c_terms o)).
  Proof.
    intros [Hb Hs] Ho Hc. apply built_ok in Hb. destruct (index_terms b (c_terms o) Hb Hs (terms_inU ty _ o Ho)) as (ts & Et & Vt).
    unfold lie_column. rewrite Et. cbn [rbind]. f_equal. specialize (Vt (fun c => lt_dec tol (Cmod c))). cbv zeta. rewrite Vt.
    apply coords_ext. intros s _. apply tcoef_filter. intros [c t] Hin Hf. cbn [fst] in *. apply in_combine_l in Hin. destruct (Hc c Hin) as [|H]; auto.
    unfold lt_dec in Hf. destruct (Rlt_dec tol (Cmod c)); [discriminate | contradiction].
  Qed.
End Coords.
