(** What the cumulative mode finds. *)
From Coq Require Import List ZArith Bool Arith Lia Reals Qcanon Lra Setoid Morphisms.
From Coquelicot Require Import Complex.
From Verif Require Import GC Exn S_Alg M_OpString M_Algebra M_Basis M_Transform M_LinAlg M_Core S_Den S_Basis S_Built S_OpAlg S_Transform S_RScal S_CScal S_LinAlg S_Core S_Invariant S_Sparsify S_Generate S_Cumulative
  L_PropStr L_Alg L_Basis L_Operator L_PropBasis L_Commutant L_Conversion L_CScal L_LinAlg L_Inter L_Herm L_Core L_Commuting L_PartIso L_Invariant L_Sparsify L_Generate L_Generate2 L_LU L_Dim L_Cumulative L_Cumul2.
Import ListNotations.
Local Open Scope nat_scope.
Local Open Scope alg_scope.

Lemma vscale_nonzero n k (v : vec) : k <> RtoC 0 -> length v = n -> vscale k v = vzero n -> v = vzero n.
Proof.
  intros Hk L E. rewrite <- (vscale_one v). replace (RtoC 1) with (/ k * k)%C by (field; auto). rewrite <- vscale_vscale, E. apply vscale_zero.
Qed.
Lemma unit_nonzero n (v : vec) : inner v v = RtoC 1 -> v <> vzero n.
Proof. intros H ->. rewrite inner_zero_l in H. apply RtoC_inj in H. lra. Qed.

(** Sparsification keeps the span and the independence. *)
Section Sparse.
  Variables (Or : oracles) (n : nat) (sp orth : bool).
  Hypothesis Hsp : sp = true -> (forall V, vectors n V -> orthonormal V -> lu_columns n V (or_lu Or V)) /\ forall l, sorts l (or_argsort Or l).
  Lemma c_sparsify_ok V : vectors n V -> orthonormal V ->
    exists W, c_sparsify Or n sp orth V = Ok (Some W) /\ vectors n W /\ (forall w, In w W -> inner w w = RtoC 1) /\ injective n W /\
      (sp = false \/ orth = true -> orthonormal W) /\ forall v, span n W v <-> span n V v.
  Proof.
    intros HV HO. unfold c_sparsify. destruct sp.
    2: { exists V. split; auto. split; auto. split; [apply HO|]. split; [apply orthonormal_injective; auto|]. split; auto. tauto. }
    destruct (Hsp eq_refl) as [Hlu Has]. destruct (sparsify_orthonormal Or n Hlu Has V HV HO) as (W & EW & VW & OW & SW). rewrite EW. cbn [rbind].
    destruct orth.
    { exists W. split; auto. split; auto. split; [apply OW|]. split; [apply orthonormal_injective; auto|]. split; auto. }
    destruct (Nat.le_gt_cases (length W) 1) as [L|L].
    - exists W. unfold sparsify, vec in *. destruct (Nat.leb_spec (length W) 1); [|lia]. split; auto. split; auto. split; [apply OW|].
      split; [apply orthonormal_injective; auto|]. split; auto.
    - pose proof (orthonormal_independent n W VW OW) as Hi. pose proof (lu_dimension n W _ VW Hi (Hlu W VW OW)) as Hd.
      destruct (sparsify_proof (or_lu Or) (or_argsort Or) n false tol12r W VW ltac:(unfold vec in *; lia) (Hlu W VW OW) Has) as (Q & E & H1 & H2 & H3 & H4 & H5 & H6 & H7 & _).
      exists Q. split; auto. split; auto. split; auto. split.
      + apply (spanning_injective n W Q); auto; [unfold vec in *; lia|]. intros v Hv. apply H6. apply span_member; auto.
      + split; [intros [X|X]; discriminate|]. intros v. rewrite <- SW. split; auto.
  Qed.
End Sparse.

Section Cumul.
  Variables (ty : optype) (Or : oracles) (U : list OS) (tol : R).
  Hypotheses (Hnd : NoDup U) (Hok : forall s, In s U -> string_ok ty s) (Ht : (0 < tol)%R).
  Let m := length U.
  Notation co o := (coords U (c_terms o)).

  (** A basis whose strings are among [U]. *)
  Definition over (b : cbasis) : Prop := match b with CBasis b => good_basis ty b /\ b_strings b = U | COps l => forall o, In o l -> inU ty U o end.
  Definition columns (b : cbasis) : list vec := match b with CBasis _ => units m | COps l => map (fun o => co o) l end.
  Lemma columns_length b : over b -> length (columns b) = cbasis_len b.
  Proof. destruct b as [b|l]; simpl; [intros [_ <-]; apply units_length | intros _; apply map_length]. Qed.
  Lemma columns_vectors b : vectors m (columns b).
  Proof. destruct b as [b|l]; simpl; [apply units_vectors|]. intros x Hx. apply in_map_iff in Hx. destruct Hx as (o & <- & _). apply coords_length. Qed.

  (** Values of linear functions. *)
  Definition bval {A : StarAlg} (S : RScal A) (h : OS -> A) (b : cbasis) (v : vec) : A :=
    match b with CBasis b => tval S h (combine v (b_strings b)) | COps l => asum (map (fun p => cs S (fst p) (tval S h (c_terms (snd p)))) (combine v l)) end.
  Lemma bval_columns {A : StarAlg} (S : RScal A) h b v : over b -> length v = cbasis_len b -> bval S h b v == hval U S h (mat_vec m (columns b) v).
  Proof.
    destruct b as [b|l]; simpl; intros Ho Lv.
    - destruct Ho as [_ E]. unfold hval. rewrite mat_vec_units; [rewrite E; reflexivity|]. rewrite Lv. unfold basis_len. rewrite E. reflexivity.
    - unfold m. rewrite hval_mat_vec by apply (columns_vectors (COps l)). revert v Lv. induction l as [|o l IH]; intros [|c v] Lv; try discriminate; [reflexivity|].
      cbn [combine map fst snd]. change (asum (?x :: ?r)) with (x + asum r). rewrite IH by (auto; intros; apply Ho; right; auto).
      rewrite (hval_coords ty U Hnd Hok S h (c_terms o)) by (apply (terms_inU ty), Ho; left; auto). reflexivity.
  Qed.
  Lemma cden_bval {A : StarAlg} (S : RScal A) g b v : cden S g b v = bval S (den g) b v.
  Proof. reflexivity. Qed.
  Lemma cimage_bval {A : StarAlg} (S : RScal A) g T b v : cimage S g T b v = bval S (timage g T) b v.
  Proof. reflexivity. Qed.
  (** The symmetry for an operator given by coordinates. *)
  Definition satX {A : StarAlg} (S : RScal A) (g : op -> Z -> A) (y : entry_sym) (x : vec) : Prop :=
    match y_sym y with
    | SymOperator o => match op_mode (y_mode y) with Some m => exact m (hval U S (den g) x) (lincomb g (op_terms o)) == azero | None => False end
    | SymTransformation T => match trans_sign (y_mode y) with Some s => hval U S (timage g T) x == cs S (RtoC s) (hval U S (den g) x) | None => False end
    | SymOther => False
    end.
  Lemma satisfies_satX {A : StarAlg} (S : RScal A) g b y v : over b -> length v = cbasis_len b -> (satisfies S g b y v <-> satX S g y (mat_vec m (columns b) v)).
  Proof.
    intros Ho Lv. unfold satisfies, satX. destruct (y_sym y) as [o|T|]; [| |tauto].
    - destruct (op_mode (y_mode y)) as [md|]; [|tauto]. rewrite cden_bval.
      assert (E : exact md (bval S (den g) b v) (lincomb g (op_terms o)) == exact md (hval U S (den g) (mat_vec m (columns b) v)) (lincomb g (op_terms o))).
      { pose proof (bval_columns S (den g) b v Ho Lv) as E. destruct md; simpl; unfold asub; rewrite E; reflexivity. }
      rewrite E. tauto.
    - destruct (trans_sign (y_mode y)) as [s|]; [|tauto]. rewrite cimage_bval, cden_bval, !bval_columns by auto. tauto.
  Qed.

  (** The conversion of all vectors. *)
  Definition converted (b : cbasis) (v : vec) (o : COp) : Prop :=
    inU ty U o /\ inner (co o) (co o) = RtoC 1 /\ exists k, k <> RtoC 0 /\ co o = vscale k (mat_vec m (columns b) v).
  Lemma to_operators_ok b vs : over b -> cbasis_len b <> 0 -> injective m (columns b) -> vectors (cbasis_len b) vs -> (forall v, In v vs -> inner v v = RtoC 1) ->
    (forall v, In v vs -> exact_entries tol v) ->
    exists l, to_operators b tol vs = Ok (Some l) /\ Forall2 (converted b) vs l.
  Proof.
    intros Ho Nb Hi. induction vs as [|v vs IH]; intros Vv Nv Ev; [exists []; split; auto|].
    destruct IH as (l & El & Fl); [intros x Hx; apply Vv; right; auto | intros x Hx; apply Nv; right; auto | intros x Hx; apply Ev; right; auto|].
    assert (Lv : length v = cbasis_len b) by (apply Vv; left; auto). assert (Iv : inner v v = RtoC 1) by (apply Nv; left; auto).
    assert (C : exists o, to_operator b tol v = Ok (Some o) /\ converted b v o).
    { destruct b as [b|k].
      - destruct Ho as [Gb Eb]. simpl in Lv. assert (Lm : length v = m) by (rewrite Lv; unfold basis_len; rewrite Eb; reflexivity).
        destruct (to_operator_basis ty U Hnd Hok b tol v Gb Eb Lm (unit_nonzero _ v Iv) (Ev v (or_introl eq_refl))) as (o & Eo & Uo & Co).
        exists o. split; auto. split; auto. split; [rewrite Co; auto|]. exists (RtoC 1). split; [intros E; apply RtoC_inj in E; lra|].
        simpl columns. rewrite mat_vec_units, vscale_one by auto. auto.
      - destruct (to_operator_ops ty U Hnd Hok k tol v) as (o & c & Eo & Uo & Io & Hc & Co); auto.
        + intros ->. apply Nb. reflexivity.
        + apply Ev; left; auto.
        + intros E. apply (unit_nonzero (length (columns (COps k))) v Iv). apply Hi; auto. rewrite columns_length; auto.
        + exists o. split; auto. split; auto. split; auto. exists c. auto. }
    destruct C as (o & Eo & Co). cbn [to_operators]. rewrite Eo. cbn [rbind]. rewrite El. cbn [rbind]. exists (o :: l). split; auto.
  Qed.

  (** Combinations of the converted vectors. *)
  Lemma converted_range b n vs l : over b -> cbasis_len b = n -> vectors n vs -> Forall2 (converted b) vs l ->
    (forall w, length w = length l -> exists x, length x = length vs /\ mat_vec m (columns (COps l)) w = mat_vec m (columns b) (mat_vec n vs x) /\
       (x = vzero (length vs) -> w = vzero (length l))) /\
    (forall x, length x = length vs -> exists w, length w = length l /\ mat_vec m (columns (COps l)) w = mat_vec m (columns b) (mat_vec n vs x)).
  Proof.
    intros Ho <- Vv F. pose proof (columns_vectors b) as Vb. pose proof (columns_length b Ho) as Lb. simpl columns. induction F as [|v o vs l (Uo & Io & k & Hk & Co) F IH].
    - split.
      + intros [|c w] Lw; try discriminate. exists []. split; auto. split; [symmetry; apply mat_vec_zero; auto | auto].
      + intros [|c x] Lx; try discriminate. exists []. split; auto. symmetry; apply mat_vec_zero; auto.
    - assert (Vv' : vectors (cbasis_len b) vs) by (intros x Hx; apply Vv; right; auto). assert (Lv : length v = cbasis_len b) by (apply Vv; left; auto).
      destruct (IH Vv') as [I1 I2].
      assert (Step : forall c x, length x = length vs -> mat_vec m (columns b) (vadd (vscale c v) (mat_vec (cbasis_len b) vs x)) =
                      vadd (vscale c (mat_vec m (columns b) v)) (mat_vec m (columns b) (mat_vec (cbasis_len b) vs x))).
      { intros c x Lx. rewrite mat_vec_add, mat_vec_scale; auto; unfold vec in *; rewrite ?vscale_length, ?mat_vec_length; auto; congruence. }
      split.
      + intros [|c w] Lw; try discriminate. destruct (I1 w) as (x & Lx & Ex & Zx); [simpl in Lw; lia|]. exists ((c * k)%C :: x). split; [simpl; auto|].
        split; [cbn [map mat_vec]; rewrite Ex, Co, vscale_vscale, Step by auto; reflexivity|].
        intros E. unfold vzero in *. simpl in E |- *. assert (E1 : (c * k)%C = RtoC 0) by exact (f_equal (hd (RtoC 0)) E). assert (E2 : x = repeat (RtoC 0) (length vs)) by exact (f_equal (@tl C) E).
        rewrite (Zx E2). f_equal. destruct (Ceq_dec c (RtoC 0)); auto. exfalso. revert E1. apply Cmult_neq_0; auto.
      + intros [|c x] Lx; try discriminate. destruct (I2 x) as (w & Lw & Ew); [simpl in Lx; lia|]. exists ((c * / k)%C :: w). split; [simpl; auto|].
        cbn [map mat_vec]. rewrite Ew, Co, vscale_vscale, Step by (exact (eq_add_S _ _ Lx)). f_equal. f_equal. field. auto.
  Qed.

  (** One step. *)
  Definition good_list (l : list COp) : Prop :=
    (forall o, In o l -> inU ty U o /\ inner (co o) (co o) = RtoC 1) /\ injective m (columns (COps l)).
  Lemma step_ok b y sp orth : over b -> cbasis_len b <> 0 -> injective m (columns b) -> good_sym ty Or b y -> y_num y = None ->
    (sp = true -> (forall V, vectors (cbasis_len b) V -> orthonormal V -> lu_columns (cbasis_len b) V (or_lu Or V)) /\ forall l, sorts l (or_argsort Or l)) ->
    exact_cstep Or b y sp orth tol ->
    exists f vs l, search Or b y tol = Ok f /\ c_sparsify Or (cbasis_len b) sp orth (f_ops f) = Ok (Some vs) /\ to_operators b tol vs = Ok (Some l) /\
      good_list l /\ ((sp = false \/ orth = true) -> orthonormal (columns b) -> orthonormal (columns (COps l))) /\
      forall (A : StarAlg) (S : RScal A) g, rep ty g -> ~ (@aone A == azero) ->
        (forall w, length w = length l -> exists v, length v = cbasis_len b /\ mat_vec m (columns (COps l)) w = mat_vec m (columns b) v /\ satX S g y (mat_vec m (columns b) v)) /\
        (forall v, length v = cbasis_len b -> satX S g y (mat_vec m (columns b) v) -> exists w, length w = length l /\ mat_vec m (columns (COps l)) w = mat_vec m (columns b) v).
  Proof.
    intros Ho Nb Hi Gy Ny Hsp HE.
    assert (Gb : good_cbasis ty b).
    { destruct b as [b|l]; simpl in *; [apply Ho|]. split; [intros ->; apply Nb; reflexivity | intros o H; apply (Ho o H)]. }
    destruct (search_ok ty Or b tol Gb Ht y Gy Ny) as (f & Ef & HH & Hk & Hm). destruct (HE f Ef) as [EP EC].
    destruct (Hk EP) as (Vf & Of & Sf). clear Hk. set (n := cbasis_len b) in *.
    destruct (c_sparsify_ok Or n sp orth Hsp (f_ops f) Vf Of) as (vs & Es & Vs & Ns & Is & Os & Ss).
    destruct (to_operators_ok b vs Ho Nb Hi Vs Ns) as (l & El & Fl).
    { intros v Hv z Hz. apply (EC vs Es v z); auto. }
    destruct (converted_range b n vs l Ho eq_refl Vs Fl) as [R1 R2].
    exists f, vs, l. split; auto. split; auto. split; auto. split; [|split].
    - split.
      + intros o Ho'. destruct (Forall2_In_r _ _ _ Fl o Ho') as (v & _ & C1 & C2 & _). auto.
      + intros w Lw E. unfold columns at 1 in Lw. rewrite map_length in Lw. destruct (R1 w Lw) as (x & Lx & Ex & Zx). rewrite E in Ex.
        assert (Z : x = vzero (length vs)).
        { apply Is; auto. pose proof (columns_length b Ho) as Lb. transitivity (vzero (length (columns b))); [|rewrite Lb; reflexivity]. apply Hi; [rewrite Lb; apply mat_vec_length; auto | auto]. }
        rewrite (Zx Z). unfold columns. rewrite map_length. reflexivity.
    - intros Hm' Oc. specialize (Os Hm').
      (* unit vectors are mapped to unit vectors *)
      simpl columns. assert (K : forall v o, In v vs -> converted b v o -> exists k, co o = vscale k (mat_vec m (columns b) v) /\ (Cconj k * k = RtoC 1)%C).
      { intros v o Hv (Uo & Io & k & Hk & Co). exists k. split; auto. rewrite Co, inner_scale_r, inner_scale_l in Io.
        assert (Lv : length v = length (columns b)) by (rewrite (columns_length b Ho); apply Vs; auto).
        rewrite (isometry m (columns b) (columns_vectors b) Oc v v Lv Lv), (Ns v Hv) in Io. rewrite <- Io. ring. }
      apply orthonormal_map. intros i j o p Hi' Hj'.
      assert (N : forall i o, nth_error l i = Some o -> exists v, nth_error vs i = Some v /\ converted b v o).
      { clear - Fl. induction Fl as [|v o vs l C F IH]; intros [|i] o' H; try discriminate; [injection H as <-; exists v; auto | apply IH; auto]. }
      destruct (N i o Hi') as (v & Hv & Cv). destruct (N j p Hj') as (w & Hw & Cw).
      destruct (K v o (nth_error_In _ _ Hv) Cv) as (k & Ek & Kk). destruct (K w p (nth_error_In _ _ Hw) Cw) as (k' & Ek' & Kk').
      assert (Lv : length v = length (columns b)) by (rewrite (columns_length b Ho); apply Vs; eapply nth_error_In; eauto).
      assert (Lw : length w = length (columns b)) by (rewrite (columns_length b Ho); apply Vs; eapply nth_error_In; eauto).
      rewrite Ek, Ek', inner_scale_r, inner_scale_l, (isometry m (columns b) (columns_vectors b) Oc v w Lv Lw).
      destruct (Nat.eqb_spec i j) as [<-|Nij].
      + rewrite Hi' in Hj'. injection Hj' as <-. rewrite Hv in Hw. injection Hw as <-. destruct Cv as (_ & Io & _). rewrite (Ns v (nth_error_In _ _ Hv)).
        rewrite Ek, inner_scale_r, inner_scale_l, (isometry m (columns b) (columns_vectors b) Oc v v Lv Lv), (Ns v (nth_error_In _ _ Hv)) in Io.
        assert (Ek2 : k' = k).
        { assert (D : vscale (k' - k)%C (mat_vec m (columns b) v) = vzero m).
          { unfold Cminus. rewrite vscale_plus. rewrite <- Ek'. rewrite Ek. rewrite <- vscale_plus. replace (k + - k)%C with (RtoC 0) by ring. rewrite vscale_0. f_equal. apply mat_vec_length. apply columns_vectors. }
          destruct (Ceq_dec (k' - k)%C (RtoC 0)) as [Z|Z]; [replace k' with (k' - k + k)%C by ring; rewrite Z; ring|]. exfalso.
          apply (vscale_nonzero m) in D; auto; [|apply mat_vec_length, columns_vectors]. apply (unit_nonzero (length (columns b)) v (Ns v (nth_error_In _ _ Hv))). apply Hi; auto. }
        rewrite Ek2. exact Io.
      + destruct Os as [_ O2]. rewrite (O2 i j v w Hv Hw Nij). ring.
    - intros A S g Hr Hn. split.
      + intros w Lw. destruct (R1 w Lw) as (x & Lx & Ex & _). exists (mat_vec n vs x). assert (Lm : length (mat_vec n vs x) = n) by (apply mat_vec_length; auto).
        split; auto. split; auto. apply satisfies_satX; auto. apply Hm; auto. apply Sf, Ss, mat_vec_span; auto.
      + intros v Lv Hs. apply satisfies_satX in Hs; auto. apply Hm in Hs; auto. assert (Sv : span n vs v) by (apply Ss, Sf; auto).
        destruct (span_mat_vec n vs Vs v Sv) as (x & Lx & ->). destruct (R2 x Lx) as (w & Lw & Ew). exists w. auto.
  Qed.
End Cumul.
