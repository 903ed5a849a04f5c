(** Consequences for the transformations of the package. *)
From Coq Require Import List Arith Lia ZArith NArith Bool Setoid Morphisms Sorted Permutation QArith Qcanon Ring.
From Verif Require Import GC Exn S_Alg S_Den S_Basis S_Built S_OpAlg S_Transform S_Fock M_OpString M_Tools M_Algebra M_Basis M_OpAlg M_Transform
  L_Alg L_Module L_StrAlg L_StrOp L_PropStr L_Basis L_Operator L_VSum L_Struct L_Sum L_ConvLin L_Conversion2 L_ConvMat
  L_Trans1 L_Trans2 L_Trans3 L_Trans4 L_Trans5 L_Trans6 L_Trans7 L_Trans8.
Import ListNotations.
Local Open Scope nat_scope.
Local Open Scope alg_scope.

Lemma acts_monomial ty T (conj : bool) h l : ty <> Fermion -> rep_map ty conj h -> (forall s, In s l -> string_ok ty s /\ canonical s) ->
  (forall s, In s l -> acts_as ty T conj h s) -> monomial_on T l.
Proof.
  intros Hty Hh Hl Ha. split.
  - intros s Hs. destruct (Ha s Hs) as (k & t & H1 & H2 & _). eauto.
  - intros s s' k k' t t' Hs Hs' H1 H2 K.
    destruct (Ha s Hs) as (k0 & t0 & A1 & A2 & A3 & A4 & A5). destruct (one_term_fun _ _ _ _ _ H1 A1) as [-> ->].
    destruct (Ha s' Hs') as (k1 & t1 & B1 & B2 & B3 & B4 & B5). destruct (one_term_fun _ _ _ _ _ H2 B1) as [-> ->].
    destruct (Hl s Hs) as [S1 S2], (Hl s' Hs') as [S3 S4].
    assert (t0 = t1) by (apply std_key; auto using canonical_std). subst t1.
    apply (acts_inj ty conj h Hty Hh s s' k0 k1 t0); auto.
Qed.
Theorem time_reversal_monomial ty l : ty <> Fermion -> (forall s, In s l -> string_ok ty s /\ canonical s) -> monomial_on time_reversal l.
Proof.
  intros Hty Hl. apply (acts_monomial ty _ true (fun A g => reversed ty g)); auto.
  - intros A g. apply rep_reversed. - intros s Hs. apply time_reversal_acts; auto. apply Hl; auto.
Qed.
Theorem particle_hole_monomial l : (forall s, In s l -> string_ok Majorana s /\ canonical s) -> monomial_on particle_hole l.
Proof.
  intros Hl. apply (acts_monomial Majorana _ false (fun A g => conjugated g)); auto; [discriminate| |].
  - intros A g. apply rep_conjugated. - intros s Hs. apply particle_hole_acts; auto. apply Hl; auto.
Qed.
Theorem parity_monomial dn l : (forall s, In s l -> string_ok Majorana s /\ canonical s) -> monomial_on (sz_rule dn) l.
Proof.
  intros Hl. apply (acts_monomial Majorana _ false (fun A g => parity_flipped (fun l => In l dn) (fun l => in_dec Z.eq_dec l dn) g)); auto; [discriminate| |].
  - intros A g. apply rep_parity. - intros s Hs. apply sz_acts; auto. apply Hl; auto.
Qed.
Theorem permutation_monomial ty perm f l : ty <> Fermion -> permutes perm f ->
  (forall s, In s l -> string_ok ty s /\ canonical s /\ in_range (length perm) s) -> monomial_on (label_permutation perm) l.
Proof.
  intros Hty Hp Hl. apply (acts_monomial ty _ false _ l Hty (permutation_rep_map ty perm f Hp)).
  - intros s Hs. split; apply Hl; auto. - intros s Hs. destruct (Hl s Hs) as (A & B & C). apply permutation_acts_as; auto.
Qed.

(** Time reversal as an antilinear map of operators. *)
Theorem time_reversal_map ty {A : StarAlg} (g : op -> Z -> A) (th : A -> A) o r : ty <> Fermion -> rep ty g -> mult_map true th ->
  (forall p l, is_op_of ty p = true -> th (g p l) == reversed ty g p l) -> good_operator ty o -> real_coeffs o ->
  apply time_reversal (TOperator o) = Ok r -> th (lincomb g (op_terms o)) == lincomb g (op_terms r).
Proof.
  intros Hty Hg Hth Hgen Ho Hreal Er. destruct (time_reversal_operator ty o Hty Ho) as (r' & Er' & _ & _ & _ & Hr). rewrite Er in Er'. injection Er' as <-.
  rewrite <- (Hr A g Hg). destruct (good_proper ty o Ho) as [Po _].
  apply (mult_sum_ok ty true); auto using proper_ok. intros t Ht. apply Ho. rewrite <- (op_terms_snd o (proper_ok _ Po)). apply in_map. exact Ht.
Qed.
Theorem time_reversal_map_string ty {A : StarAlg} (g : op -> Z -> A) (th : A -> A) s : ty <> Fermion -> rep ty g -> mult_map true th ->
  (forall p l, is_op_of ty p = true -> th (g p l) == reversed ty g p l) -> string_ok ty s ->
  exists k, one_term (apply time_reversal (TString s)) k s /\ (k = g1 \/ k = gm1) /\ th (den g s) == k · den g s.
Proof.
  intros Hty Hg Hth Hgen Hs. destruct (time_reversal_acts ty s Hty Hs) as (k & t & A1 & A2 & A3 & A4 & A5).
  destruct (one_term_fun _ _ _ _ _ A1 (tr_one ty s Hty Hs)) as [E ->]. exists k. split; auto. split; auto.
  rewrite <- (A5 A g Hg). apply mult_image; auto. intros o l Hin. apply Hgen. apply (letters_valid ty s o l Hs Hin).
Qed.

(** Conjugation by the parity of the down orbitals. *)
Theorem parity_conjugation dn s : NoDup dn -> string_ok Majorana s ->
  exists k, one_term (apply (sz_rule dn) (TString s)) k s /\
    k = gsgn (Nat.odd (length (filter (fun p => is_ab (fst p) && (if in_dec Z.eq_dec (snd p) dn then true else false)) (combine (os_ops s) (os_labels s))))) /\
    forall (A : StarAlg) (g : op -> Z -> A), rep Majorana g ->
      let P := aprod (map (g OD) dn) in P * P == aone /\ P * den g s * P == k · den g s.
Proof.
  intros N Hs. eexists. split; [exact (sz_one dn s Hs)|]. split.
  - f_equal. unfold letters. induction (combine (os_ops s) (os_labels s)) as [|[o l] w IH]; [reflexivity|]. cbn [par filter fst snd].
    assert (Z : zmem l dn = if in_dec Z.eq_dec l dn then true else false).
    { destruct (in_dec Z.eq_dec l dn) as [i|n]; [apply zmem_in; auto|]. apply not_true_is_false. intros X. apply n, zmem_in; auto. }
    rewrite Z, IH. destruct (is_ab o && _); [cbn [length]; rewrite Nat.odd_succ, <- Nat.negb_odd; destruct (Nat.odd _); reflexivity | apply xorb_false_l].
  - intros A g Hg P. split; [apply (dprod_sq g Hg)|]. apply (parity_conj g Hg dn s _ s N Hs (sz_one dn s Hs)).
Qed.

(** Spinful time reversal of Operators. *)
Theorem spinful_operator flip f dn o : permutes flip f -> good_operator Majorana o -> (forall s, In s (b_strings (o_basis o)) -> in_range (length flip) s) ->
  exists r, apply (time_reversal_spinful flip dn) (TOperator o) = Ok r /\ good_operator Majorana r /\ op_norm2 r = op_norm2 o /\
    forall (A : StarAlg) (g : op -> Z -> A), rep Majorana g ->
      image_sum true (reversed_spin f (fun l => In l dn) (fun l => in_dec Z.eq_dec l dn) g) (op_terms o) == lincomb g (op_terms r).
Proof.
  intros Hp Ho Hr. set (h := fun (A : StarAlg) (g : op -> Z -> A) => reversed_spin (extended (length flip) f) (fun l => In l dn) (fun l => in_dec Z.eq_dec l dn) g).
  assert (E : forall (A : StarAlg) (g : op -> Z -> A) s, in_range (length flip) s -> image true (h A g) s == image true (reversed_spin f (fun l => In l dn) (fun l => in_dec Z.eq_dec l dn) g) s).
  { intros A g s Hs. apply image_ext. intros p l Hin. unfold h, reversed_spin. rewrite extended_in; [reflexivity|]. apply Hs. eapply in_combine_r; eauto. }
  destruct (acts_operator Majorana (time_reversal_spinful flip dn) true h) with (o := o) as (r & Er & Gr & _ & Nr & Dr); auto.
  - discriminate.
  - intros A g Hg. apply rep_reversed_spin; auto. apply extended_inj; auto.
  - apply spinful_keeps.
  - intros s Hs. destruct Ho as (_ & _ & _ & Hg). destruct (Hg s Hs) as [G1 G2].
    destruct (spinful_string flip f dn s Hp G1 (canonical_std s G2) (Hr s Hs)) as (k & t & A1 & A2 & A3 & A4 & A5).
    exists k, t. split; auto. split; auto. split; auto. split; auto. intros A g Hg'. rewrite (E A g s (Hr s Hs)). auto.
  - exists r. split; auto. split; auto. split; auto. intros A g Hg. rewrite <- (Dr A g Hg). unfold image_sum. apply asum_ext.
    intros t Ht. apply ascal_proper. symmetry. apply E. apply Hr. rewrite <- (op_terms_snd o); [apply in_map; auto|]. apply proper_ok. apply (good_proper Majorana); auto.
Qed.

(** invariant_operators. *)
Lemma norms_nonneg l : (0 <= fold_right Qcplus 0 (map norm2 l))%Qc.
Proof.
  induction l as [|c cs IH]; cbn [map fold_right]; [discriminate|].
  replace 0%Qc with (0 + 0)%Qc by reflexivity. apply Qcplus_le_compat; [|exact IH].
  unfold norm2. replace 0%Qc with (0 + 0)%Qc by reflexivity. apply Qcplus_le_compat; apply qc_sq_nonneg.
Qed.
Lemma small_gap sign lam tol : (sign * sign = 1)%Qc -> (0 <= tol)%Qc -> abs_ltb (gq (lam - sign)) tol = true -> (1 - sign * lam <= tol)%Qc.
Proof.
  intros Hs Ht H. unfold abs_ltb in H. apply qc_ltb_lt in H. apply Qcnot_lt_le. intros C. apply (Qclt_not_le _ _ H).
  replace (norm2 (gq (lam - sign))) with ((1 - sign * lam) * (1 - sign * lam))%Qc.
  - apply Qcle_trans with (tol * (1 - sign * lam))%Qc.
    + rewrite (Qcmult_comm tol (1 - sign * lam)). apply Qcmult_le_compat_r; auto. apply Qclt_le_weak; auto.
    + apply Qcmult_le_compat_r; [apply Qclt_le_weak; auto | apply Qcle_trans with tol; auto; apply Qclt_le_weak; auto].
  - unfold norm2, gq. cbn. transitivity (1 - (1 + 1) * sign * lam + (sign * sign) * lam * lam)%Qc; [ring|]. rewrite Hs. rewrite <- Hs at 1. ring.
Qed.
Theorem invariant_sound ty T b eigh m tol vs : keeps_type ty T -> built b -> (forall s, In s (b_strings b) -> os_type s = ty /\ std s) -> monomial_on T (b_strings b) ->
  (0 <= tol)%Qc -> invariant_operators eigh b T m tol = Ok vs ->
  (forall H lam v, sm_rows H = basis_len b -> In (lam, v) (eigh H) -> eigenpair H lam v) ->
  forall v o, In v vs -> o_basis o = b -> o_coeffs o = v -> o_type o = ty ->
  exists sign r k d, inv_sign m = Ok sign /\ apply T (TOperator o) = Ok r /\ op_scale (gq sign) o = Ok k /\ op_sub r k = Ok d /\
    (op_norm2 d <= (1 + 1) * tol * op_norm2 o)%Qc.
Proof.
  intros Hsh Hb Hs Hm Ht Ei He v o Hv Bo Co To. unfold invariant_operators in Ei.
  destruct (symmetry_matrix b T) as [M|] eqn:EM; [|discriminate]. cbn [rbind] in Ei.
  destruct (inv_sign m) as [sign|] eqn:Es; [|discriminate]. cbn [rbind] in Ei.
  destruct (hermitian_part M) as [H|] eqn:EH; [|discriminate]. cbn [rbind] in Ei. injection Ei as <-.
  apply in_map_iff in Hv. destruct Hv as ([lam v'] & E & Hv). cbn in E. subst v'. apply filter_In in Hv. destruct Hv as [Hv Hf]. cbn [fst] in Hf.
  assert (Hrow : sm_rows H = basis_len b).
  { destruct (symmetry_matrix_columns ty b T Hb Hsh Hs) as [_ X]. destruct (X M EM) as (A & B & _). unfold hermitian_part, sm_add in EH. cbn [sm_adj sm_rows sm_cols] in EH.
    destruct (_ && _); [|discriminate]. cbn in EH. injection EH as <-. exact A. }
  pose proof (He H lam v Hrow Hv) as Hp.
  assert (Po : proper o).
  { assert (Hcol : sm_cols H = length (b_strings b)).
    { destruct (symmetry_matrix_columns ty b T Hb Hsh Hs) as [_ X]. destruct (X M EM) as (A & B & _). unfold hermitian_part, sm_add in EH. cbn [sm_adj sm_rows sm_cols] in EH.
      destruct (_ && _); [|discriminate]. cbn in EH. injection EH as <-. exact B. }
    split; [rewrite Bo; auto|]. split; [rewrite Co, Bo, (proj1 Hp); exact Hcol|]. rewrite Bo, To. exact Hs. }
  assert (Sg : (sign * sign = 1)%Qc) by (destruct m; try discriminate; injection Es as <-; ring).
  destruct (deviation ty T o M H Hsh Po To ltac:(rewrite Bo; auto) ltac:(rewrite Bo; auto) EH sign lam Sg ltac:(rewrite Co; auto)) as (r & k & d & E1 & E2 & E3 & E4 & _).
  exists sign, r, k, d. split; auto. split; auto. split; auto. split; auto. rewrite E4.
  apply Qcmult_le_compat_r.
  - rewrite (Qcmult_comm (1 + 1) (1 - sign * lam)), (Qcmult_comm (1 + 1) tol). apply Qcmult_le_compat_r; [apply small_gap; auto | discriminate].
  - unfold op_norm2. generalize (o_coeffs o). intros l. apply norms_nonneg.
Qed.

Theorem particle_hole_string s : string_ok Majorana s ->
  exists k, one_term (apply particle_hole (TString s)) k s /\ (k = g1 \/ k = gm1) /\
    forall (A : StarAlg) (g : op -> Z -> A), rep Majorana g -> image false (conjugated g) s == k · den g s.
Proof.
  intros Hs. destruct (particle_hole_acts s Hs) as (k & t & A1 & A2 & A3 & A4 & A5). destruct (ph_one s Hs) as (e & He).
  destruct (one_term_fun _ _ _ _ _ A1 He) as [_ ->]. eauto.
Qed.
