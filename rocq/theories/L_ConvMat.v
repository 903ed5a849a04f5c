(** conversion_matrix. *)
From Coq Require Import List Arith Lia ZArith Bool Sorted Qcanon.
From Verif Require Import GC Exn S_Alg S_Den S_Basis S_Conv M_OpString M_Algebra M_Basis M_OpAlg M_Conversion
  L_Basis L_Operator L_Sum L_ConvLin L_Conversion2.
Import ListNotations.
Local Open Scope nat_scope.

(** The entry of a column: the coefficient, zero if not above the tolerance. *)
Definition kept (tol : Qc) (c : GC) : GC := if abs_gtb c tol then c else g0.

Lemma entry_other j ts i j' : (forall t, In t ts -> snd (fst t) = j) -> j' <> j -> entry ts i j' = g0.
Proof.
  intros H Hj. induction ts as [|t ts IH]; [reflexivity|]. rewrite entry_cons, IH by (intros; apply H; right; auto).
  rewrite (H t) by (left; auto). destruct (Nat.eqb_spec j j'); [congruence|]. rewrite andb_false_r. ring.
Qed.

Lemma column_ok tol to j o : basis_ok to -> op_ok o ->
  (forall c u, In (c, u) (op_terms o) -> abs_gtb c tol = true -> exists t, In t (b_strings to) /\ same_key t u) ->
  exists ts, conv_column tol to j o = Ok ts /\
    (forall t, In t ts -> snd (fst t) = j /\ fst (fst t) < basis_len to) /\
    forall i t c, nth_error (b_strings to) i = Some t -> has_coeff (op_terms o) t c -> entry ts i j = kept tol c.
Proof.
  intros Hb Ho. unfold conv_column.
  assert (D : distinct_keys (map snd (op_terms o))) by (rewrite (op_terms_snd o Ho); apply Ho).
  revert D. generalize (op_terms o). clear o Ho. induction l as [|[c u] l IH]; intros D Hall.
  - exists []. split; [reflexivity|]. split; [intros t []|]. intros i t c Hi Hc. destruct Hc as [(v & [] & _)|[-> _]].
    unfold kept. destruct (abs_gtb g0 tol); reflexivity.
  - cbn [map snd] in D. apply distinct_cons in D. destruct D as [D N].
    destruct IH as (ts & E & Hin & He); auto; [intros d v Hv; apply Hall; right; auto|].
    cbn [filter fst]. destruct (abs_gtb c tol) eqn:Ec.
    + destruct (Hall c u (or_introl eq_refl) Ec) as (t & Ht & K). apply In_nth_error in Ht. destruct Ht as (i0 & Hi0).
      assert (Ei : basis_index to u = Ok i0) by (apply basis_ok_index; eauto).
      exists ((i0, j, c) :: ts). cbn [rmap snd fst]. rewrite Ei. cbn [rbind]. rewrite E. cbn [rbind].
      split; auto. split.
      { intros x [<-|Hx]; [cbn; split; auto; apply nth_error_Some; congruence|auto]. }
      intros i t' d Hi Hc. rewrite entry_cons. cbn [fst snd]. rewrite Nat.eqb_refl, andb_true_r.
      destruct (Nat.eqb_spec i0 i) as [<-|Ni].
      * rewrite Hi0 in Hi. injection Hi as <-.
        assert (Hd : d = c).
        { destruct Hc as [(v & [Ev|Hv] & Kv)|[_ Nv]].
          - injection Ev as -> ->. reflexivity.
          - exfalso. apply (N v); [apply (in_map snd) in Hv; auto|].
            eapply same_key_trans; [apply same_key_sym; exact K | apply same_key_sym; auto].
          - exfalso. apply (Nv c u); [left; auto | apply same_key_sym; auto]. }
        subst d. rewrite (He i0 t g0 Hi0).
        -- unfold kept. rewrite Ec. destruct (abs_gtb g0 tol); ring.
        -- right. split; auto. intros d v Hv Kv. apply (N v); [apply (in_map snd) in Hv; auto|].
           eapply same_key_trans; [apply same_key_sym; exact K | apply same_key_sym; auto].
      * rewrite (He i t' d Hi); [ring|]. destruct Hc as [(v & [Ev|Hv] & Kv)|[-> Nv]].
        -- injection Ev as <- <-. exfalso. apply Ni. apply (proj1 Hb i0 i t t'); auto. eapply same_key_trans; eauto.
        -- left. eauto.
        -- right. split; auto. intros d v Hv. apply Nv with (d := d). right; auto.
    + exists ts. split; auto. split; auto. intros i t d Hi Hc.
      destruct Hc as [(v & [Ev|Hv] & Kv)|[-> Nv]].
      * injection Ev as <- <-. rewrite (He i t g0 Hi); [unfold kept; rewrite Ec; destruct (abs_gtb g0 tol); reflexivity|].
        right. split; auto. intros d v Hv Kv'. apply (N v); [apply (in_map snd) in Hv; auto|].
        eapply same_key_trans; [exact Kv | apply same_key_sym; auto].
      * apply (He i t d Hi). left. eauto.
      * apply (He i t g0 Hi). right. split; auto. intros d v Hv. apply Nv with (d := d). right; auto.
Qed.

Lemma rmap_app_err {X Y} (f : X -> res Y) l1 x l2 e : (forall y, In y l1 -> exists z, f y = Ok z) -> f x = Err e -> rmap f (l1 ++ x :: l2) = Err e.
Proof.
  induction l1 as [|y l1 IH]; intros H E; cbn.
  - rewrite E. reflexivity.
  - destruct (H y (or_introl eq_refl)) as (z & ->). cbn. rewrite IH; auto. intros; apply H; right; auto.
Qed.
Lemma index_or_key to u : (exists i, basis_index to u = Ok i) \/ basis_index to u = Err KeyError.
Proof. unfold basis_index. destruct (dget _ _ _); cbn; eauto. Qed.
Lemma column_err tol to j o c u : basis_ok to -> In (c, u) (op_terms o) -> abs_gtb c tol = true ->
  (~ exists t, In t (b_strings to) /\ same_key t u) -> conv_column tol to j o = Err KeyError.
Proof.
  intros Hb Hin Hc Hno. unfold conv_column.
  assert (Hf : In (c, u) (filter (fun t => abs_gtb (fst t) tol) (op_terms o))) by (apply filter_In; auto).
  revert Hf. generalize (filter (fun t => abs_gtb (fst t) tol) (op_terms o)). induction l as [|[d v] l IH]; [intros []|].
  intros Hf. cbn [rmap snd fst]. destruct (index_or_key to v) as [(i & E)|E].
  - rewrite E. cbn [rbind]. destruct Hf as [Ev|Hf]; [|rewrite (IH Hf); reflexivity].
    injection Ev as -> ->. exfalso. apply Hno. apply (basis_ok_index to u i Hb) in E. destruct E as (t & Ht & K).
    exists t. split; auto. eapply nth_error_In; eauto.
  - rewrite E. reflexivity.
Qed.

Definition column_fits (tol : Qc) (ty : optype) (to : Basis) (s : OS) : Prop :=
  exists o, convert (CString s) ty false = Ok o /\
    forall c u, In (c, u) (op_terms o) -> abs_gtb c tol = true -> exists t, In t (b_strings to) /\ same_key t u.

Lemma columns_ok tol ty to l : basis_ok to -> (forall s, In s l -> column_fits tol ty to s) -> forall j,
  exists ts, conv_columns tol ty to j l = Ok ts /\
    (forall t, In t ts -> j <= snd (fst t) < j + length l /\ fst (fst t) < basis_len to) /\
    forall a s o i t c, nth_error l a = Some s -> convert (CString s) ty false = Ok o ->
      nth_error (b_strings to) i = Some t -> has_coeff (op_terms o) t c -> entry ts i (j + a) = kept tol c.
Proof.
  intros Hb. induction l as [|s l IH]; intros Hall j.
  - exists []. split; [reflexivity|]. split; [intros t []|]. intros [|a]; discriminate.
  - destruct (Hall s (or_introl eq_refl)) as (o & Eo & Hfit). destruct (conv_shape s ty false o Eo) as [Ho _].
    destruct (column_ok tol to j o Hb Ho Hfit) as (ts & Ets & Hts & He).
    destruct (IH (fun x Hx => Hall x (or_intror Hx)) (S j)) as (us & Eus & Hus & Heu).
    exists (ts ++ us). cbn [conv_columns]. cbn [convert] in Eo. rewrite Eo. cbn [rbind]. rewrite Ets. cbn [rbind]. rewrite Eus. cbn [rbind].
    split; auto. split.
    + intros t Ht. apply in_app_or in Ht. cbn [length]. destruct Ht as [Ht|Ht].
      * destruct (Hts t Ht) as [-> ?]. split; auto. lia.
      * destruct (Hus t Ht). split; auto. lia.
    + intros a s' o' i t c Ha Eo' Hi Hc. rewrite entry_app. destruct a as [|a]; cbn [nth_error] in Ha.
      * injection Ha as <-. cbn [convert] in Eo'. rewrite Eo in Eo'. injection Eo' as <-.
        rewrite Nat.add_0_r, (He i t c Hi Hc).
        assert (Z : entry us i j = g0).
        { clear - Hus. induction us as [|x us IH]; [reflexivity|]. rewrite entry_cons, IH by (intros; apply Hus; right; auto).
          destruct (Hus x (or_introl eq_refl)) as [? _]. destruct (Nat.eqb_spec (snd (fst x)) j); [lia|]. rewrite andb_false_r. ring. }
        rewrite Z. ring.
      * rewrite (entry_other j ts i (j + S a)); [|intros x Hx; apply Hts; auto | lia].
        replace (j + S a) with (S j + a) by lia. rewrite (Heu a s' o' i t c Ha Eo' Hi Hc). ring.
Qed.
Lemma columns_err tol ty to l1 s l2 : basis_ok to -> (forall x, In x l1 -> column_fits tol ty to x) ->
  forall o c u, convert (CString s) ty false = Ok o -> In (c, u) (op_terms o) -> abs_gtb c tol = true ->
  (~ exists t, In t (b_strings to) /\ same_key t u) -> forall j, conv_columns tol ty to j (l1 ++ s :: l2) = Err KeyError.
Proof.
  intros Hb Hall o c u Eo Hin Hc Hno. induction l1 as [|x l1 IH]; intros j; cbn [app conv_columns].
  - cbn [convert] in Eo. rewrite Eo. cbn [rbind]. rewrite (column_err tol to j o c u); auto.
  - destruct (Hall x (or_introl eq_refl)) as (ox & Ex & Hfit). destruct (conv_shape x ty false ox Ex) as [Hox _].
    destruct (column_ok tol to j ox Hb Hox Hfit) as (ts & Ets & _). cbn [convert] in Ex. rewrite Ex. cbn [rbind]. rewrite Ets. cbn [rbind].
    rewrite IH; [reflexivity | intros; apply Hall; right; auto].
Qed.

Theorem matrix_ok tol from to t0 r : basis_ok to -> b_strings from <> [] -> b_strings to = t0 :: r ->
  (forall s, In s (b_strings from) -> column_fits tol (os_type t0) to s) ->
  exists M, conversion_matrix tol from to = Ok M /\ sm_rows M = basis_len to /\ sm_cols M = basis_len from /\
    forall a s o i t c, nth_error (b_strings from) a = Some s -> convert (CString s) (os_type t0) false = Ok o ->
      nth_error (b_strings to) i = Some t -> has_coeff (op_terms o) t c -> sm_entry M i a = kept tol c.
Proof.
  intros Hb Hne Et Hall. destruct (columns_ok tol (os_type t0) to (b_strings from) Hb Hall 0) as (ts & E & Hin & He).
  exists (mkSM (basis_len to) (basis_len from) ts). split; [|split; [|split]]; auto.
  - unfold conversion_matrix. destruct (b_strings from) eqn:Ef; [congruence|]. rewrite Et, E. cbn [rbind]. unfold sm_make.
    replace (forallb _ ts) with true; auto. symmetry. apply forallb_forall. intros t Ht. destruct (Hin t Ht) as [[_ H1] H2].
    apply andb_true_iff. split; apply Nat.ltb_lt; auto. unfold basis_len at 1. rewrite Ef. exact H1.
Qed.
Theorem matrix_key_error tol from to t0 r l1 s l2 o c u : basis_ok to -> b_strings from = l1 ++ s :: l2 -> b_strings to = t0 :: r ->
  (forall x, In x l1 -> column_fits tol (os_type t0) to x) ->
  convert (CString s) (os_type t0) false = Ok o -> In (c, u) (op_terms o) -> abs_gtb c tol = true ->
  (~ exists t, In t (b_strings to) /\ same_key t u) -> conversion_matrix tol from to = Err KeyError.
Proof.
  intros Hb Ef Et Hall Eo Hin Hc Hno. unfold conversion_matrix. destruct (b_strings from) eqn:E; [destruct l1; discriminate|].
  rewrite Et, Ef. rewrite (columns_err tol (os_type t0) to l1 s l2 Hb Hall o c u); auto.
Qed.
