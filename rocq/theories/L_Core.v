(** commuting_operators. *)
From Coq Require Import List ZArith Bool Arith Lia Setoid Morphisms Reals QArith Qreals Qcanon Lra.
From Coquelicot Require Import Complex.
From Verif Require Import GC Exn M_OpString M_Tools M_Algebra M_Basis M_OpAlg M_Transform M_LinAlg M_Core S_Alg S_Den S_Basis S_Built S_OpAlg S_RScal S_CFock S_CScal S_LinAlg S_Core
  L_Alg L_Sort L_StrAlg L_StrOp L_Indep L_Operator L_Basis L_PropBasis L_OpAlg L_Sum L_Struct L_Commutant L_CScal L_LinAlg L_Inter.
Import ListNotations.
Local Open Scope nat_scope.
Local Open Scope alg_scope.

Lemma to_C_emb z : to_C z = emb z.
Proof. reflexivity. Qed.

Section Clin.
  Context {A : StarAlg} (S : RScal A) (g : op -> Z -> A).
  Lemma clin_vzero n strs : clincomb S g (combine (vzero n) strs) == azero.
  Proof. revert strs. induction n as [|n IH]; intros [|s strs]; simpl; try reflexivity. rewrite clin_cons. unfold vzero in IH. rewrite IH, cs_0. apply aadd_0_l. Qed.
  Lemma clin_vscale c v : forall strs, clincomb S g (combine (vscale c v) strs) == cs S c (clincomb S g (combine v strs)).
  Proof.
    induction v as [|z v IH]; intros [|s strs]; simpl; try (symmetry; apply cs_zero).
    rewrite !clin_cons. fold (vscale c v). rewrite IH, cs_add_r, cs_cs. reflexivity.
  Qed.
  Lemma clin_vadd u : forall v strs, length u = length v -> clincomb S g (combine (vadd u v) strs) == clincomb S g (combine u strs) + clincomb S g (combine v strs).
  Proof.
    induction u as [|x u IH]; intros [|y v] [|s strs] H; simpl in *; try discriminate; try (symmetry; apply aadd_0_l).
    unfold vadd. simpl. rewrite !clin_cons. fold (vadd u v). rewrite IH by lia. rewrite cs_add_l.
    set (p := cs S x (den g s)). set (q := cs S y (den g s)). set (r := clincomb S g (combine u strs)). set (t := clincomb S g (combine v strs)).
    rewrite <- !aadd_assoc. apply aadd_proper; [reflexivity|]. rewrite !aadd_assoc. apply aadd_proper; [apply aadd_comm | reflexivity].
  Qed.
  Lemma clin_emb cs0 : forall strs, clincomb S g (combine (map emb cs0) strs) == lincomb g (combine cs0 strs).
  Proof. induction cs0 as [|c l IH]; intros [|s strs]; simpl; try reflexivity. rewrite clin_cons, lincomb_cons, IH, cs_emb. reflexivity. Qed.

  (** The sum of columns that denote x_0, x_1, ... with weights [v]. *)
  Lemma exact_cs_l m c x y : exact m (cs S c x) y == cs S c (exact m x y).
  Proof.
    destruct m; simpl; unfold asub; rewrite ?cs_mul_l, ?cs_mul_r, ?cs_add_r, ?cs_gscal; reflexivity.
  Qed.
  Lemma mat_vec_meaning m n Cs y (X : Type) (den' : X -> A) : forall (xs : list X) cols v,
    Forall2 (fun x c => length c = n /\ exact m (den' x) y == clincomb S g (combine c Cs)) xs cols ->
    exact m (asum (map (fun p => cs S (fst p) (den' (snd p))) (combine v xs))) y == clincomb S g (combine (mat_vec n cols v) Cs).
  Proof.
    intros xs cols v H. revert v. induction H as [|x c xs cols [Lc Hc] H IH]; intros [|z v]; simpl; try (rewrite clin_vzero; apply exact_0_l).
    assert (Lm : length (mat_vec n cols v) = n).
    { apply mat_vec_length. intros c' Hc'. clear - H Hc'. induction H as [|x0 c0 xs cols [L0 _] H IH]; [destruct Hc'|]. destruct Hc' as [<-|Hc']; auto. }
    rewrite clin_vadd by (rewrite vscale_length; congruence). rewrite clin_vscale, <- Hc, <- IH, exact_add_l, exact_cs_l. reflexivity.
  Qed.
End Clin.

(* ------------------------------------------------------------- matrices *)

Lemma dense_cols_vectors M : vectors (sm_rows M) (dense_cols M).
Proof. intros v H. apply in_map_iff in H. destruct H as (j & <- & _). rewrite map_length, seq_length. auto. Qed.
Lemma dense_cols_length M : length (dense_cols M) = sm_cols M.
Proof. unfold dense_cols. rewrite map_length, seq_length. auto. Qed.
Lemma dense_cols_nth M j : (j < sm_cols M)%nat -> nth_error (dense_cols M) j = Some (map emb (column M j)).
Proof.
  intros H. unfold dense_cols. rewrite nth_error_map, (nth_error_nth' _ 0), seq_nth by (rewrite ?seq_length; auto). cbn. f_equal.
  unfold column. rewrite map_map. reflexivity.
Qed.

Lemma rows_cols M v : length v = sm_cols M -> rows_vec (dense_rows M) v = mat_vec (sm_rows M) (dense_cols M) v.
Proof.
  intros Hl. unfold rows_vec, dense_rows. rewrite map_map.
  assert (G : forall l v, length v = length l ->
     mat_vec (sm_rows M) (map (fun j => map (fun i => to_C (sm_entry M i j)) (seq 0 (sm_rows M))) l) v =
     map (fun i => csum (zip_with Cmult (map (fun j => to_C (sm_entry M i j)) l) v)) (seq 0 (sm_rows M))).
  { induction l as [|j l IH]; intros [|c w] E; simpl in *; try discriminate.
    - unfold vzero. generalize (sm_rows M). intros n. clear. generalize 0%nat. induction n as [|n IH]; intros k; simpl; auto. f_equal. apply IH.
    - rewrite IH by lia. unfold vadd, vscale. rewrite map_map. generalize (seq 0 (sm_rows M)). intros q. clear. induction q as [|i q IH]; simpl; auto.
      rewrite IH. f_equal. ring. }
  symmetry. apply G. rewrite seq_length. auto.
Qed.

Lemma gram_length cols : length (gram cols) = length cols.
Proof. apply map_length. Qed.
Lemma gram_apply n cols x : vectors n cols -> length x = length cols -> rows_vec (gram cols) x = map (fun c => inner c (mat_vec n cols x)) cols.
Proof.
  intros Hc Hx. unfold gram, rows_vec. rewrite map_map. apply map_ext_in. intros c Hi.
  rewrite (inner_mat_vec n) by auto. f_equal. f_equal. apply map_ext. intros. apply vdot_inner.
Qed.
Lemma gram_form n cols x y : vectors n cols -> length x = length cols -> length y = length cols ->
  inner y (rows_vec (gram cols) x) = inner (mat_vec n cols y) (mat_vec n cols x).
Proof.
  intros Hc Hx Hy. rewrite (gram_apply n), (inner_mat_vec_l n); auto. apply mat_vec_length; auto.
Qed.

(* --------------------------------------- columns of the coefficients *)

Lemma unit_column {A : StarAlg} (S : RScal A) g strs i c s : nth_error strs i = Some s ->
  clincomb S g (combine (map (fun j => if Nat.eqb i j then c else RtoC 0) (seq 0 (length strs))) strs) == cs S c (den g s).
Proof.
  enough (G : forall k strs i, nth_error strs i = Some s ->
    clincomb S g (combine (map (fun j => if Nat.eqb (k + i) j then c else RtoC 0) (seq k (length strs))) strs) == cs S c (den g s)) by (apply (G 0%nat)).
  intros k. assert (Z : forall strs k i, (i < k)%nat -> clincomb S g (combine (map (fun j => if Nat.eqb i j then c else RtoC 0) (seq k (length strs))) strs) == azero).
  { induction strs0 as [|t l IH]; intros k0 i0 H; simpl; [reflexivity|]. rewrite clin_cons, IH by lia.
    destruct (Nat.eqb_spec i0 k0); [lia|]. rewrite cs_0. apply aadd_0_l. }
  intros strs0. revert k. induction strs0 as [|t l IH]; intros k [|i0] H; simpl in *; try discriminate.
  - injection H as ->. rewrite clin_cons, Nat.add_0_r, Nat.eqb_refl, Z by lia. apply aadd_0_r.
  - rewrite clin_cons. destruct (Nat.eqb_spec (k + Datatypes.S i0) k); [lia|]. rewrite cs_0, aadd_0_l.
    replace (k + Datatypes.S i0)%nat with (Datatypes.S k + i0)%nat by lia. apply IH; auto.
Qed.

Lemma column_meaning {A : StarAlg} (S : RScal A) g (strs : list OS) : forall (ts : list (nat * C)) us,
  Forall2 (fun p (t : C * OS) => fst t = snd p /\ nth_error strs (fst p) = Some (snd t)) ts us ->
  clincomb S g (combine (map (fun i => csum (map (fun p => if Nat.eqb (fst p) i then snd p else RtoC 0) ts)) (seq 0 (length strs))) strs) == clincomb S g us.
Proof.
  induction 1 as [|[i c] [c' s] ts us [E Hn] H IH]; simpl in *.
  - unfold csum; simpl. transitivity (clincomb S g (combine (vzero (length strs)) strs)); [|apply clin_vzero].
    assert (E : map (fun _ : nat => RtoC 0) (seq 0 (length strs)) = vzero (length strs)); [|rewrite E; reflexivity].
    unfold vzero. generalize 0%nat. generalize (length strs). induction n; intros; simpl; auto. f_equal. apply IHn.
  - subst c'. rewrite clin_cons, <- IH, <- (unit_column S g strs i c s Hn), <- clin_vadd by (rewrite !map_length; auto).
    assert (E : forall l, map (fun j => csum ((if Nat.eqb i j then c else RtoC 0) :: map (fun p => if Nat.eqb (fst p) j then snd p else RtoC 0) ts)) l =
       vadd (map (fun j => if Nat.eqb i j then c else RtoC 0) l) (map (fun j => csum (map (fun p => if Nat.eqb (fst p) j then snd p else RtoC 0) ts)) l)).
    { unfold vadd. induction l as [|j l IHl]; simpl; auto. f_equal. apply IHl. }
    rewrite <- E. reflexivity.
Qed.

Lemma ccombined_fold ty ops : (forall o, In o ops -> good_cop ty o) -> forall b, basis_ok b ->
  (forall s, In s (b_strings b) -> string_ok ty s) ->
  let b' := fold_left (fun b o => basis_iadd b (c_basis o)) ops b in
  basis_ok b' /\ (forall s, In s (b_strings b') -> string_ok ty s) /\
  (forall s, In s (b_strings b) -> In s (b_strings b')) /\
  (forall o s, In o ops -> In s (b_strings (c_basis o)) -> exists t, In t (b_strings b') /\ same_key t s).
Proof.
  induction ops as [|o ops IH]; intros Hops b Hb Hs.
  - simpl. split; auto. split; auto. split; auto. intros o s [].
  - simpl. destruct (Hops o (or_introl eq_refl)) as (Ho & _ & _ & Hso). apply built_ok in Ho.
    destruct (basis_iadd_ok b (c_basis o) Hb) as [H1 H2].
    assert (H3 : forall s, In s (b_strings (basis_iadd b (c_basis o))) -> string_ok ty s).
    { intros s Hin. destruct (append_new_in _ _ _ H2 s Hin); auto. }
    destruct (IH (fun o H => Hops o (or_intror H)) _ H1 H3) as (K1 & K2 & K4 & K5).
    split; auto. split; auto. split.
    + intros s Hin. apply K4. eapply append_new_left; eauto.
    + intros o' s [<-|Ho'] Hin; [|eauto].
      destruct (append_new_right _ _ _ H2 s Hin) as (t & Ht & K). exists t; auto.
Qed.

Lemma built_fold ops : (forall o, In o ops -> built (c_basis o)) -> forall b, built b -> built (fold_left (fun b o => basis_iadd b (c_basis o)) ops b).
Proof. induction ops as [|o ops IH]; intros H b Hb; simpl; auto. apply IH; [intros; apply H; simpl; auto|]. apply built_iadd; auto. apply H; simpl; auto. Qed.
Lemma built_empty : built basis_empty.
Proof. apply (built_new []). reflexivity. Qed.

Lemma ccombined_ok ty ops : (forall o, In o ops -> good_cop ty o) ->
  good_basis ty (ccombined ops) /\ forall o s, In o ops -> In s (b_strings (c_basis o)) -> In s (b_strings (ccombined ops)).
Proof.
  intros H. destruct (ccombined_fold ty ops H basis_empty (built_ok _ built_empty)) as (K1 & K2 & _ & K4); [intros s []|].
  split; [split; auto; apply built_fold; [intros o Ho; apply (H o Ho) | apply built_empty]|].
  intros o s Ho Hs. destruct (K4 o s Ho Hs) as (t & Ht & K).
  assert (t = s); [|subst; auto]. apply (key_string_ok ty); auto. apply (H o Ho); auto.
Qed.

Lemma coeff_column_ok ty b o : good_basis ty b -> good_cop ty o -> (forall s, In s (b_strings (c_basis o)) -> In s (b_strings b)) ->
  exists k, coeff_column b o = Ok k /\ length k = basis_len b /\
    forall (A : StarAlg) (S : RScal A) (g : op -> Z -> A), clincomb S g (combine k (b_strings b)) == clincomb S g (c_terms o).
Proof.
  intros [Hb Hs] Ho Hin. apply built_ok in Hb. unfold coeff_column.
  assert (Ht : forall us, (forall t, In t us -> In (snd t) (b_strings (c_basis o))) ->
    exists ts, rmap (fun t => let! i := basis_index b (snd t) in Ok (i, fst t)) us = Ok ts /\
      Forall2 (fun p (t : C * OS) => fst t = snd p /\ nth_error (b_strings b) (fst p) = Some (snd t)) ts us).
  { induction us as [|[c s] us IH]; intros Hu.
    - exists []. split; auto.
    - destruct IH as (ts & Et & Ft); [intros; apply Hu; simpl; auto|].
      assert (Hsb : In s (b_strings b)) by (apply Hin, (Hu (c, s)); simpl; auto).
      destruct (basis_index_in b s Hb Hsb) as (i & Hi & Hn).
      exists ((i, c) :: ts). cbn [rmap snd fst]. rewrite Hi. cbn [rbind]. rewrite Et. split; auto. }
  destruct (Ht (c_terms o)) as (ts & Et & Ft); [intros [c s] H; eapply in_combine_r; eauto|].
  rewrite Et. cbn [rbind]. eexists. split; [reflexivity|]. split; [rewrite map_length, seq_length; auto|].
  intros A S g. apply column_meaning; auto.
Qed.

Lemma coeff_columns_ok ty b : good_basis ty b -> forall ops, (forall o, In o ops -> good_cop ty o) ->
  (forall o s, In o ops -> In s (b_strings (c_basis o)) -> In s (b_strings b)) ->
  exists K, rmap (coeff_column b) ops = Ok K /\
    Forall2 (fun o k => length k = basis_len b /\ forall (A : StarAlg) (S : RScal A) (g : op -> Z -> A), clincomb S g (combine k (b_strings b)) == clincomb S g (c_terms o)) ops K.
Proof.
  intros Hb. induction ops as [|o ops IH]; intros Ho Hin.
  - exists []. split; auto.
  - destruct IH as (K & EK & FK); [intros; apply Ho; simpl; auto | intros; eapply Hin; eauto; simpl; auto|].
    destruct (coeff_column_ok ty b o Hb) as (k & Ek & Lk & Dk); [apply Ho; simpl; auto | intros; eapply Hin; eauto; simpl; auto|].
    exists (k :: K). cbn [rmap]. rewrite Ek. cbn [rbind]. rewrite EK. split; auto.
Qed.

(* --------------------------------------------------- the Liouvillian matrix *)

Lemma Forall2_nth {X Y} (P : X -> Y -> Prop) l m : length l = length m ->
  (forall i x y, nth_error l i = Some x -> nth_error m i = Some y -> P x y) -> Forall2 P l m.
Proof.
  revert m. induction l as [|x l IH]; intros [|y m] H HP; try discriminate; constructor.
  - apply (HP 0%nat); auto.
  - apply IH; [simpl in H; lia|]. intros i a b Ha Hb. apply (HP (S i)); auto.
Qed.

Lemma Forall2_length' {X Y} (P : X -> Y -> Prop) l m : Forall2 P l m -> length l = length m.
Proof. induction 1; simpl; auto. Qed.

Lemma Forall2_In_r {X Y} (P : X -> Y -> Prop) l m : Forall2 P l m -> forall y, In y m -> exists x, In x l /\ P x y.
Proof. induction 1 as [|x y l m H F IH]; intros z Hz; [destruct Hz|]. destruct Hz as [<-|Hz]; [exists x; simpl; auto|]. destruct (IH z Hz) as (w & Hw & Pw). exists w; simpl; auto. Qed.

Lemma liouvillian_mode_ok ty gm m b o : ty <> Fermion -> good_basis ty b -> good_op ty o -> op_mode gm = Some m ->
  exists L C, liouvillian_mode gm b o = Ok (L, C) /\ canonical_basis ty C /\ sm_rows L = basis_len C /\ sm_cols L = basis_len b /\
    forall (A : StarAlg) (S : RScal A) (g : op -> Z -> A), rep ty g ->
    Forall2 (fun s c => length c = basis_len C /\ exact m (den g s) (lincomb g (op_terms o)) == clincomb S g (combine c (b_strings C))) (b_strings b) (dense_cols L).
Proof.
  intros Hty Hb Ho Hm. destruct (liouvillian_strings_proof ty m b o Hty Hb Ho) as (L & C & HL & HC & RL & CL & BL & DL).
  exists L, C. split; [destruct gm; cbn in Hm; try discriminate; injection Hm as <-; exact HL|].
  split; auto. split; auto. split; auto. intros A S g Hr. apply Forall2_nth; [rewrite dense_cols_length, CL; reflexivity|].
  intros i s c Hi Hc. assert (Hlt : (i < sm_cols L)%nat).
  { rewrite CL. unfold basis_len. apply nth_error_Some. congruence. }
  pose proof (eq_trans (eq_sym (dense_cols_nth L i Hlt)) Hc) as E. injection E as <-.
  split; [unfold column; rewrite !map_length, seq_length; auto|].
  rewrite clin_emb. apply DL; auto.
Qed.

Lemma liouvillian_columns_ok ty gm m basis o : ty <> Fermion -> good_cbasis ty basis -> good_op ty o -> op_mode gm = Some m ->
  exists cols C, liouvillian_columns gm basis o = Ok cols /\ canonical_basis ty C /\ vectors (basis_len C) cols /\ length cols = cbasis_len basis /\
    forall (A : StarAlg) (S : RScal A) (g : op -> Z -> A), rep ty g -> forall v, length v = cbasis_len basis ->
      exact m (cden S g basis v) (lincomb g (op_terms o)) == clincomb S g (combine (mat_vec (basis_len C) cols v) (b_strings C)).
Proof.
  intros Hty Hb Ho Hm. destruct basis as [b|ops].
  - destruct (liouvillian_mode_ok ty gm m b o Hty Hb Ho Hm) as (L & C & HL & HC & RL & CL & DL).
    exists (dense_cols L), C. unfold liouvillian_columns. rewrite HL. split; auto. split; auto.
    split; [rewrite <- RL; apply dense_cols_vectors|]. split; [rewrite dense_cols_length; auto|].
    intros A S g Hr v _. unfold cden, clincomb at 1. apply (mat_vec_meaning S g m _ _ _ OS (den g)). apply DL; auto.
  - destruct Hb as [Hne Hops]. destruct ops as [|o0 ops0]; [congruence|]. set (ops := o0 :: ops0) in *.
    destruct (ccombined_ok ty ops Hops) as [Hb Hin]. set (b := ccombined ops) in *.
    destruct (liouvillian_mode_ok ty gm m b o Hty Hb Ho Hm) as (L & C & HL & HC & RL & CL & DL).
    destruct (coeff_columns_ok ty b Hb ops Hops Hin) as (K & EK & FK).
    exists (map (rows_vec (dense_rows L)) K), C.
    split; [unfold liouvillian_columns, ops; fold ops; fold b; rewrite HL; cbn [rbind]; rewrite EK; reflexivity|]. split; auto.
    assert (FKl : forall k, In k K -> length k = basis_len b).
    { intros k Hk. destruct (Forall2_In_r _ _ _ FK k Hk) as (x & _ & H & _). exact H. }
    assert (RC : forall k, In k K -> rows_vec (dense_rows L) k = mat_vec (basis_len C) (dense_cols L) k).
    { intros k Hk. rewrite <- RL. apply rows_cols. rewrite CL. auto. }
    assert (VL : vectors (basis_len C) (dense_cols L)) by (rewrite <- RL; apply dense_cols_vectors).
    split; [|split].
    + intros v Hv. apply in_map_iff in Hv. destruct Hv as (k & <- & Hk). rewrite RC by auto. apply mat_vec_length; auto.
    + rewrite map_length. symmetry. apply (Forall2_length' _ _ _ FK).
    + intros A S g Hr v _. unfold cden. apply (mat_vec_meaning S g m _ _ _ COp (fun o => clincomb S g (c_terms o))).
      clear Hops Hin Hne EK FKl. clearbody b. clearbody ops. revert RC. induction FK as [|o' k l K [Lk Hk] F IH]; intros RC; simpl; constructor.
      * rewrite (RC k) by (simpl; auto). split; [apply mat_vec_length; auto|].
        rewrite <- (mat_vec_meaning S g m (basis_len C) (b_strings C) (lincomb g (op_terms o)) OS (den g) _ _ k (DL A S g Hr)).
        apply exact_proper; [|reflexivity]. symmetry. apply Hk.
      * apply IH. intros; apply RC; simpl; auto.
Qed.
