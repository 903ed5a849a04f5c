(** invariant_operators: the coordinates of a symmetry matrix. *)
From Coq Require Import List ZArith Bool Arith Lia Setoid Morphisms Reals QArith Qreals Qcanon Lra.
From Coquelicot Require Import Complex.
From Verif Require Import GC Exn M_OpString M_Tools M_Algebra M_Basis M_OpAlg M_Transform M_LinAlg M_Core S_Alg S_Den S_Basis S_Built S_OpAlg S_Transform S_RScal S_CFock S_CScal S_LinAlg S_Core S_Invariant
  L_Alg L_Sort L_StrAlg L_StrOp L_Indep L_Operator L_VSum L_Basis L_PropBasis L_OpAlg L_Sum L_Struct L_Commutant L_Trans4 L_Trans5 L_Trans6 L_Trans8 L_CScal L_LinAlg L_Inter L_Herm L_Core L_PartIso L_Invariant.
Import ListNotations.
Local Open Scope nat_scope.
Local Open Scope alg_scope.

(* ------------------------------------------------ columns of coefficients *)

Definition colsum (strs : list OS) (ts : list (C * OS)) : vec :=
  fold_right (fun t acc => vadd (ind (fst t) (snd t) strs) acc) (vzero (length strs)) ts.
Lemma colsum_length strs ts : length (colsum strs ts) = length strs.
Proof. induction ts as [|t ts IH]; simpl; [apply vzero_length|]. apply vadd_length; auto. apply map_length. Qed.

Section Cols.
  Variables (ty : optype) (strs : list OS).
  Hypotheses (Hnd : NoDup strs) (Hok : forall s, In s strs -> string_ok ty s /\ canonical s).

  Lemma ind_index i c s : nth_error strs i = Some s -> map (fun j => if Nat.eqb i j then c else RtoC 0) (seq 0 (length strs)) = ind c s strs.
  Proof.
    intros Hi. assert (Hs : In s strs) by (eapply nth_error_In; eauto).
    unfold ind. rewrite <- (map_seq_nth strs s (fun u => if os_key s u then c else RtoC 0)). apply map_ext_in. intros j Hj. apply in_seq in Hj.
    destruct (nth_error strs j) as [u|] eqn:Ej; [|apply nth_error_None in Ej; lia]. rewrite (nth_error_nth _ _ _ Ej).
    assert (Hu : In u strs) by (eapply nth_error_In; eauto).
    destruct (Nat.eqb_spec i j) as [->|N].
    - rewrite Hi in Ej. injection Ej as <-. rewrite (proj2 (key_eq ty s s (proj1 (Hok s Hs)) (proj1 (Hok s Hs)))); auto.
    - destruct (os_key s u) eqn:K; auto. exfalso. apply (key_eq ty) in K; [|apply Hok; auto | apply Hok; auto]. subst u. apply N.
      apply (NoDup_nth_error strs); auto; [apply nth_error_Some; congruence | congruence].
  Qed.
  Lemma colsum_index : forall (ts : list (nat * C)) us,
    Forall2 (fun p (t : C * OS) => fst t = snd p /\ nth_error strs (fst p) = Some (snd t)) ts us ->
    map (fun i => csum (map (fun p => if Nat.eqb (fst p) i then snd p else RtoC 0) ts)) (seq 0 (length strs)) = colsum strs us.
  Proof.
    induction 1 as [|[i c] [c' s] ts us [E Hn] H IH]; simpl in *.
    - unfold csum; simpl. unfold vzero. generalize 0%nat. generalize (length strs). induction n; intros; simpl; auto. f_equal. apply IHn.
    - subst c'. rewrite <- IH, <- (ind_index i c s Hn). unfold vadd. generalize (seq 0 (length strs)). induction l as [|j l IHl]; simpl; auto. f_equal. apply IHl.
  Qed.
  Lemma colsum_inner ts us : (forall t, In t ts -> In (snd t) strs) -> (forall t, In t us -> In (snd t) strs) ->
    inner (colsum strs ts) (colsum strs us) =
    fold_right Cplus (RtoC 0) (map (fun t => fold_right Cplus (RtoC 0) (map (fun u => if os_key (snd t) (snd u) then Cmult (Cconj (fst t)) (fst u) else RtoC 0) us)) ts).
  Proof.
    intros Ht Hu. induction ts as [|[c s] ts IH]; cbn [colsum fold_right map fst snd].
    - apply inner_zero_l.
    - fold (colsum strs ts). rewrite (inner_add_l (length strs)) by (try apply colsum_length; apply map_length).
      rewrite IH by (intros; apply Ht; simpl; auto). f_equal. clear IH.
      assert (Hs : In s strs) by (apply (Ht (c, s)); simpl; auto).
      induction us as [|[d u] us IHu]; cbn [colsum fold_right map fst snd]; [apply inner_zero_r|]. fold (colsum strs us).
      rewrite (inner_add_r (length strs)) by (try apply colsum_length; apply map_length). rewrite IHu by (intros; apply Hu; simpl; auto). f_equal.
      rewrite (ind_ind ty) by (auto; apply Hok; auto; apply (Hu (d, u)); simpl; auto).
      replace (existsb (os_key s) strs) with true; [rewrite andb_true_r; auto|]. symmetry. apply existsb_exists. exists s. split; auto.
      apply (key_eq ty); auto; apply Hok; auto.
  Qed.
End Cols.

Lemma coeff_column_sum ty b o : good_basis ty b -> (forall s, In s (b_strings b) -> canonical s) -> good_cop ty o -> (forall s, In s (b_strings (c_basis o)) -> In s (b_strings b)) ->
  coeff_column b o = Ok (colsum (b_strings b) (c_terms o)).
Proof.
  intros [Hb Hs] Hc Ho Hin. pose proof Hb as Hb'. apply built_ok in Hb. unfold coeff_column.
  assert (Ht : forall us, (forall t, In t us -> In (snd t) (b_strings (c_basis o))) ->
    exists ts, rmap (fun t => let! i := basis_index b (snd t) in Ok (i, fst t)) us = Ok ts /\
      Forall2 (fun p (t : C * OS) => fst t = snd p /\ nth_error (b_strings b) (fst p) = Some (snd t)) ts us).
  { induction us as [|[c s] us IH]; intros Hu.
    - exists []. split; auto.
    - destruct IH as (ts & Et & Ft); [intros; apply Hu; simpl; auto|].
      assert (Hsb : In s (b_strings b)) by (apply Hin, (Hu (c, s)); simpl; auto).
      destruct (basis_index_in b s Hb Hsb) as (i & Hi & Hn).
      exists ((i, c) :: ts). cbn [rmap snd fst]. rewrite Hi. cbn [rbind]. rewrite Et. split; auto. }
  destruct (Ht (c_terms o)) as (ts & Et & Ft); [intros [c s] H; eapply in_combine_r; eauto|].
  rewrite Et. cbn [rbind]. f_equal. apply (colsum_index ty); auto. apply distinct_NoDup, Hb.
Qed.
Lemma coeff_columns_sum ty b : good_basis ty b -> (forall s, In s (b_strings b) -> canonical s) -> forall ops, (forall o, In o ops -> good_cop ty o) ->
  (forall o s, In o ops -> In s (b_strings (c_basis o)) -> In s (b_strings b)) ->
  rmap (coeff_column b) ops = Ok (map (fun o => colsum (b_strings b) (c_terms o)) ops).
Proof.
  intros Hb Hc. induction ops as [|o ops IH]; intros Ho Hin; auto.
  cbn [rmap map]. rewrite (coeff_column_sum ty) by (auto; try (apply Ho; simpl; auto); intros; eapply Hin; eauto; simpl; auto). cbn [rbind].
  rewrite IH; auto; [intros; apply Ho; simpl; auto | intros; eapply Hin; eauto; simpl; auto].
Qed.
Lemma ccombined_only ops : forall b s, (forall o, In o ops -> basis_ok (c_basis o)) -> basis_ok b -> In s (b_strings (fold_left (fun b o => basis_iadd b (c_basis o)) ops b)) ->
  In s (b_strings b) \/ exists o, In o ops /\ In s (b_strings (c_basis o)).
Proof.
  induction ops as [|o ops IH]; intros b s Ho Hb H; auto. simpl in H.
  destruct (basis_iadd_ok b (c_basis o) Hb) as [H1 H2].
  destruct (IH _ s (fun o' H' => Ho o' (or_intror H')) H1 H) as [K|(o' & K1 & K2)]; [|right; exists o'; simpl; auto].
  destruct (append_new_in _ _ _ H2 s K); auto. right. exists o. simpl; auto.
Qed.

(* --------------------------------------------------- images of the strings *)

Definition img_of (T : rule) (s : OS) (p : R * OS) : Prop :=
  exists k, one_term (T s) k (snd p) /\ (k = g1 /\ fst p = 1%R \/ k = gm1 /\ fst p = (-1)%R).
Lemma images_exist ty T l : signed_permutation ty T l -> exists imgs, Forall2 (img_of T) l imgs /\
  (forall p, In p imgs -> (fst p = 1 \/ fst p = -1)%R /\ string_ok ty (snd p) /\ canonical (snd p)) /\ (NoDup l -> NoDup (map snd imgs)).
Proof.
  intros [[H1 H2] H3].
  assert (G : forall m, incl m l -> exists imgs, Forall2 (img_of T) m imgs).
  { induction m as [|s m IH]; intros Hi; [exists []; constructor|]. destruct IH as (is & F); [intros x Hx; apply Hi; right; auto|].
    destruct (H1 s (Hi s (or_introl eq_refl))) as (k & t & Ht & [-> | ->]).
    - exists ((1%R, t) :: is). constructor; auto. exists g1. simpl. auto.
    - exists (((-1)%R, t) :: is). constructor; auto. exists gm1. simpl. auto. }
  destruct (G l (incl_refl l)) as (imgs & F). exists imgs. split; auto. split.
  - intros p Hp. destruct (Forall2_In_r _ _ _ F p Hp) as (s & Hs & k & Ht & Hk). split; [destruct Hk as [[_ ->]|[_ ->]]; auto|]. eapply H3; eauto.
  - assert (H2' : forall s s' k k' t, In s l -> In s' l -> one_term (T s) k t -> one_term (T s') k' t -> s = s').
    { intros s s' k k' t ? ? ? ?. apply (H2 s s' k k' t t); auto. apply same_key_refl. }
    clear - F H2'. induction F as [|s p l imgs Hp F IH]; intros ND; simpl; constructor.
    + intros Hin. apply in_map_iff in Hin. destruct Hin as (q & Eq & Hq). destruct (Forall2_In_r _ _ _ F q Hq) as (s' & Hs' & k' & Ht' & _).
      destruct Hp as (k & Ht & _). rewrite Eq in Ht'. inversion ND; subst. rewrite (H2' s s' k k' (snd p)) in H1; simpl; auto.
    + inversion ND; subst. apply IH; auto. intros; eapply H2'; eauto; simpl; auto.
Qed.
Lemma timage_img {A : StarAlg} (S : RScal A) (g : op -> Z -> A) T s p : img_of T s p -> timage g T s == cs S (RtoC (fst p)) (den g (snd p)).
Proof.
  intros (k & (o & Eo & _ & Et) & Hk). unfold timage. rewrite Eo, Et. unfold lincomb. simpl. rewrite aadd_0_r.
  assert (E : RtoC (fst p) = emb k).
  { destruct Hk as [[-> ->]|[-> ->]]; [rewrite emb_1; auto|]. apply C_ext; cbn; unfold qr, Q2R; cbn; lra. }
  rewrite E, cs_emb. reflexivity.
Qed.
Lemma emb_gm1 : emb gm1 = RtoC (-1).
Proof. apply C_ext; cbn; unfold qr, Q2R; cbn; lra. Qed.

Lemma symmetry_dense ty b T imgs : good_basis ty b -> (forall s, In s (b_strings b) -> canonical s) -> keeps_type ty T -> monomial_on T (b_strings b) ->
  Forall2 (img_of T) (b_strings b) imgs -> (forall p, In p imgs -> string_ok ty (snd p)) ->
  exists M, symmetry_matrix b T = Ok M /\ sm_rows M = basis_len b /\ sm_cols M = basis_len b /\ dense_cols M = icols (b_strings b) imgs.
Proof.
  intros [Hb Hs] Hc HT Hm HF Hi.
  destruct (symmetry_matrix_columns ty b T Hb HT) as [X Y]; [intros s H; split; [apply Hs; auto | apply canonical_std; auto]|].
  destruct (proj2 X) as (M & EM); [intros s H; destruct (proj1 Hm s H) as (k & t & (o & E & _) & _); eauto|].
  exists M. split; auto. destruct (Y M EM) as (R1 & R2 & Y'). split; auto. split; auto.
  set (o := mkOperator (map (fun _ => g0) (b_strings b)) b ty).
  assert (Po : proper o).
  { split; [exact Hb|]. split; [apply map_length|]. intros s H. split; [apply Hs; auto | apply canonical_std; auto]. }
  unfold dense_cols, icols. rewrite R1, R2. pose proof (Forall2_length' _ _ _ HF) as Lf.
  apply nth_ext with (d := []) (d' := []); [rewrite !map_length, seq_length; auto|]. rewrite map_length, seq_length. intros j Hj.
  rewrite (nth_indep _ _ (map (fun i => to_C (sm_entry M i 0)) (seq 0 (basis_len b)))) by (rewrite map_length, seq_length; auto).
  rewrite (map_nth (fun j => map (fun i => to_C (sm_entry M i j)) (seq 0 (basis_len b)))), seq_nth by auto. simpl.
  destruct (nth_error (b_strings b) j) as [s|] eqn:Es; [|apply nth_error_None in Es; unfold basis_len in Hj; lia].
  destruct (nth_error imgs j) as [p|] eqn:Ep; [|apply nth_error_None in Ep; unfold basis_len in Hj; lia].
  rewrite (nth_indep _ _ (ind (RtoC (fst p)) (snd p) (b_strings b))) by (rewrite map_length; unfold basis_len in Hj; lia).
  rewrite (map_nth (fun p => ind (RtoC (fst p)) (snd p) (b_strings b))), (nth_error_nth _ _ _ Ep).
  assert (Him : img_of T s p).
  { clear - HF Es Ep. revert j Es Ep. induction HF as [|s0 p0 l m H F IH]; intros [|j] E1 E2; simpl in *; try discriminate; [congruence | eauto]. }
  unfold ind. rewrite <- (map_seq_nth (b_strings b) s (fun u => if os_key (snd p) u then RtoC (fst p) else RtoC 0)). fold (basis_len b).
  apply map_ext_in. intros i Hii. apply in_seq in Hii. destruct (nth_error (b_strings b) i) as [u|] eqn:Eu; [|apply nth_error_None in Eu; unfold basis_len in Hii; lia].
  rewrite (nth_error_nth _ _ _ Eu). destruct Him as (k & Ht & Hk).
  rewrite (M_entry ty T o M HT Po eq_refl Hm EM i j u s k (snd p) Eu Es Ht). unfold keyed.
  destruct (os_key (snd p) u).
  - destruct Hk as [[-> ->]|[-> ->]].
    + replace (gmul g1 g1) with g1 by ring. apply emb_1.
    + replace (gmul gm1 g1) with gm1 by ring. apply emb_gm1.
  - replace (gmul k g0) with g0 by ring. apply emb_0.
Qed.

Lemma pinv_orthonormal n K P x : vectors n K -> orthonormal K -> least_squares n K P -> length x = n -> rows_vec P x = adj K x.
Proof.
  intros VK OK H Lx. destruct (H x Lx) as [L E]. transitivity (adj K (mat_vec n K (rows_vec P x))).
  - symmetry. apply adj_isometry; auto.
  - unfold adj. apply map_ext_in. intros c Hc. symmetry. auto.
Qed.
Lemma mat_vec_nil_r n K : mat_vec n K [] = vzero n.
Proof. destruct K; auto. Qed.

(** The symmetry matrix compresses a partial isometry. *)
Theorem symmetry_columns_ok ty pinv basis T : good_cbasis ty basis -> (forall s, In s (cbasis_strings basis) -> canonical s) ->
  orthonormal_cbasis basis -> keeps_type ty T -> signed_permutation ty T (cbasis_strings basis) ->
  (forall n K, vectors n K -> orthonormal K -> least_squares n K (pinv K)) ->
  exists strs imgs K B, symmetry_columns pinv basis T = Ok B /\ length K = cbasis_len basis /\
    NoDup strs /\ (forall s, In s strs -> string_ok ty s /\ canonical s) /\
    (forall p, In p imgs -> (fst p = 1 \/ fst p = -1)%R /\ string_ok ty (snd p) /\ canonical (snd p)) /\ NoDup (map snd imgs) /\ length imgs = length strs /\
    vectors (length strs) K /\ orthonormal K /\ vectors (length K) B /\ length B = length K /\
    (forall v, length v = length K -> mat_vec (length K) B v = adj K (mat_vec (length strs) (icols strs imgs) (mat_vec (length strs) K v))) /\
    (forall (A : StarAlg) (S : RScal A) (g : op -> Z -> A) v, length v = length K ->
       cden S g basis v == clincomb S g (combine (mat_vec (length strs) K v) strs) /\
       cimage S g T basis v == asum (map (fun p => cs S (fst p) (cs S (RtoC (fst (snd p))) (den g (snd (snd p))))) (combine (mat_vec (length strs) K v) imgs))).
Proof.
  intros Hb Hc Ho HT Hsp Hpi. destruct basis as [b|ops].
  - destruct Hb as [Hb Hs]. simpl in Hc, Hsp. destruct (images_exist ty T _ Hsp) as (imgs & HF & Hi & Hnd).
    assert (ND : NoDup (b_strings b)) by (apply distinct_NoDup; apply built_ok in Hb; apply Hb).
    destruct (symmetry_dense ty b T imgs (conj Hb Hs) Hc HT (proj1 Hsp) HF ltac:(intros; apply Hi; auto)) as (M & EM & _ & _ & ED).
    exists (b_strings b), imgs, (units (length (b_strings b))), (dense_cols M). unfold symmetry_columns. rewrite EM. split; [reflexivity|].
    pose proof (Forall2_length' _ _ _ HF) as Lf.
    rewrite units_length. do 4 (split; [auto|]). split; [auto|]. split; [auto|]. split; [apply units_vectors|]. split; [apply units_orthonormal|].
    rewrite ED. split; [apply icols_vectors; auto|]. split; [apply icols_length; auto|]. split.
    + intros v Lv. rewrite mat_vec_units by auto. rewrite adj_units; auto. apply mat_vec_length, icols_vectors; auto.
    + intros A S g v Lv. rewrite mat_vec_units by auto. split; [reflexivity|]. unfold cimage. clear - HF Lv.
      revert v Lv. induction HF as [|s p l m H F IH]; intros [|z v] L; try discriminate; simpl; [reflexivity|].
      rewrite IH by (simpl in L; lia). rewrite (timage_img S g T s p H). reflexivity.
  - destruct Hb as [Hne Hops]. destruct ops as [|o0 ops0]; [congruence|]. set (ops := o0 :: ops0) in *.
    destruct (ccombined_ok ty ops Hops) as [Hb Hin]. 
    assert (Honly : forall s, In s (b_strings (ccombined ops)) -> In s (cbasis_strings (COps ops))).
    { intros s Hs. destruct (ccombined_only ops basis_empty s) as [[]|(o & H1 & H2)]; auto; [intros o H; apply built_ok, (Hops o H) | apply built_ok, built_empty|].
      unfold cbasis_strings. apply in_concat. exists (b_strings (c_basis o)). split; auto. apply in_map_iff. eauto. }
    set (b := ccombined ops) in *.
    assert (Hc' : forall s, In s (b_strings b) -> canonical s) by auto.
    assert (Hsp' : signed_permutation ty T (b_strings b)).
    { destruct Hsp as [[H1 H2] H3]. split; [split|]; intros; [apply H1; auto | eapply H2; eauto | eapply H3; eauto]. }
    destruct (images_exist ty T _ Hsp') as (imgs & HF & Hi & Hnd).
    assert (ND : NoDup (b_strings b)) by (apply distinct_NoDup; destruct Hb as [Hb _]; apply built_ok in Hb; apply Hb).
    destruct (symmetry_dense ty b T imgs Hb Hc' HT (proj1 Hsp') HF ltac:(intros; apply Hi; auto)) as (M & EM & RM & CM & ED).
    pose proof (Forall2_length' _ _ _ HF) as Lf. specialize (Hnd ND).
    assert (Hok : forall s, In s (b_strings b) -> string_ok ty s /\ canonical s) by (intros s Hs; split; auto; apply Hb; auto).
    pose proof (coeff_columns_sum ty b Hb Hc' ops Hops Hin) as EK. set (K := map (fun o => colsum (b_strings b) (c_terms o)) ops) in *.
    assert (VK : vectors (length (b_strings b)) K) by (intros k Hk; apply in_map_iff in Hk; destruct Hk as (o & <- & _); apply colsum_length).
    assert (Ct : forall o t, In o ops -> In t (c_terms o) -> In (snd t) (b_strings b)).
    { intros o [c s] H1 H2. apply in_combine_r in H2. eauto. }
    assert (OK : orthonormal K).
    { assert (G : forall i j v w, nth_error K i = Some v -> nth_error K j = Some w -> inner v w = if Nat.eqb i j then RtoC 1 else RtoC 0).
      { intros i j v w Hv Hw. unfold K in Hv, Hw. rewrite nth_error_map in Hv, Hw.
        destruct (nth_error ops i) as [o|] eqn:Ei; [|discriminate]. destruct (nth_error ops j) as [p|] eqn:Ej; [|discriminate].
        injection Hv as <-. injection Hw as <-. pose proof (nth_error_In _ _ Ei). pose proof (nth_error_In _ _ Ej).
        rewrite (colsum_inner ty (b_strings b) ND Hok (c_terms o) (c_terms p) (fun t => Ct o t ltac:(assumption)) (fun t => Ct p t ltac:(assumption))). exact (Ho i j o p Ei Ej). }
      split.
      - intros v Hv. apply In_nth_error in Hv. destruct Hv as (i & Hi'). rewrite (G i i v v Hi' Hi'), Nat.eqb_refl. auto.
      - intros i j v w Hv Hw N. rewrite (G i j v w Hv Hw). destruct (Nat.eqb_spec i j); [contradiction|auto]. }
    pose proof (Hpi _ K VK OK) as HP.
    assert (LC : length (icols (b_strings b) imgs) = length (b_strings b)) by (apply icols_length; auto).
    assert (VC : vectors (length (b_strings b)) (icols (b_strings b) imgs)) by (apply icols_vectors; auto).
    assert (EB : map (fun k => rows_vec (pinv K) (rows_vec (dense_rows M) k)) K =
                 map (fun k => adj K (mat_vec (length (b_strings b)) (icols (b_strings b) imgs) k)) K).
    { apply map_ext_in. intros k Hk. pose proof (rows_cols M k ltac:(rewrite CM; apply VK; auto)) as E. rewrite E, ED, RM. fold (basis_len b).
      apply pinv_orthonormal with (n := basis_len b); auto. apply mat_vec_length; auto. }
    exists (b_strings b), imgs, K, (map (fun k => rows_vec (pinv K) (rows_vec (dense_rows M) k)) K).
    split; [unfold symmetry_columns, ops; fold ops; fold b; rewrite EK; cbn [rbind]; rewrite EM; reflexivity|].
    split; [apply map_length|]. do 4 (split; [auto|]). split; [auto|]. split; [auto|]. split; [auto|].
    rewrite EB. split; [intros a Ha; apply in_map_iff in Ha; destruct Ha as (k & <- & Hk); apply adj_length|]. split; [apply map_length|]. split.
    + intros v Lv. apply (mat_vec_map (length (b_strings b)) (length K) (fun k => adj K (mat_vec (length (b_strings b)) (icols (b_strings b) imgs) k))); auto.
      * intros u Lu. apply adj_length.
      * rewrite mat_vec_zero by auto. clear. unfold adj. induction K as [|k K IH]; auto. simpl. unfold vzero in *. simpl. rewrite IH. f_equal. apply inner_zero_r.
      * intros c u w Lu Lw. rewrite mat_vec_add, mat_vec_scale, (adj_add (length (b_strings b))), adj_scale; auto;
          try (rewrite ?vscale_length; apply mat_vec_length; auto); try (rewrite vscale_length); refine (eq_trans _ (eq_sym LC)); auto.
    + intros A S g v Lv.
      assert (Mc : forall ts, (forall t, In t ts -> In (snd t) (b_strings b)) -> clincomb S g (combine (colsum (b_strings b) ts) (b_strings b)) == clincomb S g ts).
      { induction ts as [|[c s] ts IH]; intros Hts; cbn [colsum fold_right fst snd]; [apply clin_vzero|]. fold (colsum (b_strings b) ts).
        assert (Hs : In s (b_strings b)) by (apply (Hts (c, s)); simpl; auto).
        rewrite clin_vadd by (rewrite colsum_length; apply map_length). rewrite (ind_meaning ty), clin_cons, IH by (auto; try (intros; apply Hts; simpl; auto); apply Hok; auto).
        replace (existsb (os_key s) (b_strings b)) with true; [reflexivity|]. symmetry. apply existsb_exists. exists s. split; auto. apply (key_eq ty); auto; apply Hok; auto. }
      assert (Mi : forall x, length x = length (b_strings b) -> asum (map (fun p => cs S (fst p) (cs S (RtoC (fst (snd p))) (den g (snd (snd p))))) (combine x imgs)) ==
                 asum (map (fun p => cs S (fst p) (timage g T (snd p))) (combine x (b_strings b)))).
      { intros x Lx. clear - HF Lx. revert x Lx. induction HF as [|s p l m H F IH]; intros [|z x] L; try discriminate; simpl; [reflexivity|].
        rewrite IH by (simpl in L; lia). rewrite (timage_img S g T s p H). reflexivity. }
      (* a linear functional of the coordinate vector *)
      set (L := fun x : vec => asum (map (fun p => cs S (fst p) (timage g T (snd p))) (combine x (b_strings b)))).
      assert (L0 : forall n, L (vzero n) == azero).
      { intros n. unfold L. generalize (b_strings b). clear. induction n as [|n IH]; intros [|s l]; simpl; try reflexivity. unfold vzero in IH. rewrite IH, cs_0. apply aadd_0_l. }
      assert (La : forall c u w, length u = length w -> L (vadd (vscale c u) w) == cs S c (L u) + L w).
      { intros c u w. unfold L. generalize (b_strings b). clear. intros l. revert u w. induction l as [|s l IH]; intros [|x u] [|y w] H; try discriminate;
          try (simpl; rewrite cs_zero, aadd_0_l; reflexivity).
        change (vadd (vscale c (x :: u)) (y :: w)) with ((c * x + y)%C :: vadd (vscale c u) w). injection H as H. cbn [combine map asum fold_right fst snd].
        pose proof (IH u w H) as E. unfold asum in E. rewrite E. rewrite cs_add_l, cs_add_r, cs_cs.
        rewrite <- !aadd_assoc. apply aadd_proper; [reflexivity|]. rewrite !aadd_assoc. apply aadd_proper; [apply aadd_comm | reflexivity]. }
      assert (Li : forall c s, In s (b_strings b) -> L (ind c s (b_strings b)) == cs S c (timage g T s)).
      { intros c s. unfold L. assert (Hok1 : forall s, In s (b_strings b) -> string_ok ty s) by (intros; apply Hok; auto). revert Hok1 ND. generalize (b_strings b). clear. intros l Hok1 ND Hs.
        assert (Z : forall m, (forall s, In s m -> string_ok ty s) -> string_ok ty s -> ~ In s m -> asum (map (fun p => cs S (fst p) (timage g T (snd p))) (combine (ind c s m) m)) == azero).
        { intros m Hm Hs' Hn. rewrite (ind_nil ty) by auto. clear. induction m as [|u m IH]; simpl; [reflexivity|]. unfold vzero in IH. rewrite IH, cs_0. apply aadd_0_l. }
        induction l as [|u l IH]; [destruct Hs|]. inversion ND; subst. unfold ind. cbn [map combine fst snd asum fold_right]. fold (ind c s l).
        assert (Su : string_ok ty s) by auto.
        destruct (os_key s u) eqn:E.
        - apply (key_eq ty) in E; auto; [|apply Hok1; left; auto]. subst u.
          transitivity (cs S c (timage g T s) + azero); [|apply aadd_0_r]. apply aadd_proper; [reflexivity|]. apply Z; auto. intros; apply Hok1; right; auto.
        - destruct Hs as [->|Hs]; [exfalso; rewrite (proj2 (key_eq ty s s Su Su)) in E; [discriminate|auto]|].
          transitivity (azero + cs S c (timage g T s)); [|apply aadd_0_l]. apply aadd_proper; [apply cs_0|]. apply IH; auto. intros; apply Hok1; right; auto. }
      assert (Lc : forall ts, (forall t, In t ts -> In (snd t) (b_strings b)) -> L (colsum (b_strings b) ts) == asum (map (fun t => cs S (fst t) (timage g T (snd t))) ts)).
      { induction ts as [|[c s] ts IH]; intros Hts; cbn [colsum fold_right fst snd]; [apply L0|]. fold (colsum (b_strings b) ts).
        rewrite <- (vscale_one (ind c s (b_strings b))). rewrite La by (rewrite colsum_length; apply map_length). rewrite cs_1, Li, IH by (try (intros; apply Hts; simpl; auto); apply (Hts (c, s)); simpl; auto). reflexivity. }
      split.
      * unfold cden, K. unfold K in Lv. rewrite map_length in Lv. assert (Ct' := Ct). clear - Lv Ct' Mc. clearbody b. clearbody ops. revert v Lv Ct'. induction ops as [|o l IH]; intros [|z v] Lv Ct'; try discriminate; simpl.
        -- symmetry. apply clin_vzero.
        -- rewrite IH by (simpl in Lv; try lia; intros; eapply Ct'; eauto; simpl; auto).
           rewrite clin_vadd, clin_vscale, Mc; [reflexivity | intros; eapply Ct'; eauto; simpl; auto |].
           rewrite vscale_length, colsum_length, mat_vec_length; auto. intros k Hk; apply in_map_iff in Hk; destruct Hk as (o' & <- & _); apply colsum_length.
      * rewrite Mi by (apply mat_vec_length; auto). fold (L (mat_vec (length (b_strings b)) K v)).
        unfold cimage, K. unfold K in Lv. rewrite map_length in Lv. assert (Ct' := Ct). clear - Lv Ct' Lc La L0. clearbody L. clearbody b. clearbody ops. revert v Lv Ct'. induction ops as [|o l IH]; intros [|z v] Lv Ct'; try discriminate; simpl.
        -- symmetry. apply L0.
        -- rewrite IH by (simpl in Lv; try lia; intros; eapply Ct'; eauto; simpl; auto).
           rewrite La, Lc; [reflexivity | intros; eapply Ct'; eauto; simpl; auto |].
           rewrite colsum_length, mat_vec_length; auto. intros k Hk; apply in_map_iff in Hk; destruct Hk as (o' & <- & _); apply colsum_length.
Qed.
