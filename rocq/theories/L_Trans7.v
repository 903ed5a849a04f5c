(** Time reversal, particle-hole, spin parity; products and powers. *)
From Coq Require Import List Arith Lia ZArith NArith Bool Setoid Morphisms Sorted Permutation QArith Qcanon Ring.
From Verif Require Import GC Exn S_Alg S_Den S_Basis S_Built S_Transform S_Fock M_OpString M_Tools M_Algebra M_Basis M_Transform
  L_Alg L_Module L_StrAlg L_StrOp L_Fock L_Basis L_Operator L_VSum L_Struct L_PropStr L_JW2 L_Conversion L_ConvLin L_Conversion2 L_Conversion3 L_ConvOrd L_Perm
  L_Trans1 L_Trans2 L_Trans3 L_Trans4 L_Trans5 L_Trans6.
Import ListNotations.
Local Open Scope nat_scope.
Local Open Scope alg_scope.

(** An antilinear multiplicative map: complex conjugation of wave functions. *)
Definition conj_fun (f : wave -> wave) : wave -> wave := fun u s => gconj (f (fun t => gconj (u t)) s).
Lemma conj_linear f : linear f -> linear (conj_fun f).
Proof.
  intros [E Ad Sc]. unfold conj_fun. split; intros.
  - f_equal. apply E. intros t. rewrite H. reflexivity.
  - rewrite <- gconj_add, <- Ad. f_equal. apply E. intros t. apply gconj_add.
  - transitivity (gconj (gmul (gconj a) (f (fun t => gconj (u t)) s))); [|rewrite gconj_mul, gconj_conj; reflexivity].
    f_equal. rewrite <- Sc. apply E. intros t. apply gconj_mul.
Qed.
Definition conj_fock (x : Fock) : Fock := mkFock _ _ (conj_linear _ (fo_lin x)) (conj_linear _ (fo_adj_lin x)).
Lemma conj_fock_map : mult_map true conj_fock.
Proof.
  split.
  - intros x y [H1 H2]. split; intros u s; cbn; unfold conj_fun; rewrite ?H1, ?H2; reflexivity.
  - intros x y. split; intros u s; cbn; unfold conj_fun; cbn; apply gconj_add.
  - intros x y. split; intros u s; cbn; unfold conj_fun; cbn; f_equal.
    + apply (lin_ext _ (fo_lin x)). intros t. symmetry. apply gconj_conj.
    + apply (lin_ext _ (fo_adj_lin y)). intros t. symmetry. apply gconj_conj.
  - split; intros u s; cbn; unfold conj_fun; cbn; apply gconj_conj.
  - intros z x. split; intros u s; cbn; unfold conj_fun; cbn; apply gconj_mul.
Qed.
Lemma conj_fock_gen o l : In o [OA; OB; OD] -> conj_fock (fock_gen o l) == reversed Majorana fock_gen o l.
Proof.
  assert (M : forall ph m, conj_fock (mono ph m) == mono (fun s => gconj (ph s)) m).
  { intros ph m. split; intros u s; cbn; unfold conj_fun; cbn; rewrite !gconj_mul, ?gconj_conj; reflexivity. }
  intros [<-|[<-|[<-|[]]]]; cbn [reversed fock_gen]; unfold fA, fB, fZ; rewrite M; rewrite ?mono_scal; apply mono_eq; auto; intros s.
  - apply gsgn_conj.
  - rewrite gconj_mul, gsgn_conj. destruct (occ s (site l)), (below (site l) s); apply GC_ext; apply Qc_is_canon; reflexivity.
  - apply gsgn_conj.
Qed.

(* ---------------------------------------------------------------- products *)

Theorem time_reversal_products ty S1 S2 : ty <> Fermion -> string_ok ty S1 -> string_ok ty S2 ->
  respects_products (fun s => apply time_reversal (TString s)) true S1 S2.
Proof.
  intros Hty H1 H2. apply (acts_products ty time_reversal true (fun A g => reversed ty g) Hty); auto using time_reversal_acts.
  intros A g. apply rep_reversed.
Qed.
Theorem particle_hole_products S1 S2 : string_ok Majorana S1 -> string_ok Majorana S2 ->
  respects_products (fun s => apply particle_hole (TString s)) false S1 S2.
Proof.
  intros H1 H2. apply (acts_products Majorana particle_hole false (fun A g => conjugated g)); auto using particle_hole_acts; [discriminate|].
  intros A g. apply rep_conjugated.
Qed.
Theorem parity_products dn S1 S2 : string_ok Majorana S1 -> string_ok Majorana S2 ->
  respects_products (fun s => apply (sz_rule dn) (TString s)) false S1 S2.
Proof.
  intros H1 H2. apply (acts_products Majorana (sz_rule dn) false (fun A g => parity_flipped (fun l => In l dn) (fun l => in_dec Z.eq_dec l dn) g)); auto using sz_acts; [discriminate|].
  intros A g. apply rep_parity.
Qed.

(* ---------------------------------------------------------------- Operators *)

(** Rules that only change signs. *)
Definition diagonal (ty : optype) (T : rule) : Prop := forall s, string_ok ty s -> exists k, one_term (T s) k s /\ (k = g1 \/ k = gm1).

Lemma diagonal_involution ty T o r : keeps_type ty T -> diagonal ty T -> good_operator ty o ->
  apply T (TOperator o) = Ok r -> apply T (TOperator r) = Ok o.
Proof.
  intros Hsh Hd Ho Er. destruct (good_proper ty o Ho) as [Po To].
  assert (K : forall q, proper q -> o_type q = ty -> (forall s, In s (b_strings (o_basis q)) -> string_ok ty s /\ canonical s) ->
     exists r, apply T (TOperator q) = Ok r /\ proper r /\ o_type r = ty /\ term_by_term T q r).
  { intros q Pq Tq Gq. apply (apply_monomial ty T q Hsh Pq Tq).
    - intros s Hs. destruct (Hd s (proj1 (Gq s Hs))) as (k & H1 & H2). exists k, s; auto.
    - intros s s' k k' t t' Hs Hs' H1 H2 Kk. destruct (Hd s (proj1 (Gq s Hs))) as (k0 & A1 & _). destruct (Hd s' (proj1 (Gq s' Hs'))) as (k1 & B1 & _).
      destruct (one_term_fun _ _ _ _ _ H1 A1) as [_ ->]. destruct (one_term_fun _ _ _ _ _ H2 B1) as [_ ->].
      destruct (Gq s Hs) as [G1 G2]. destruct (Gq s' Hs') as [G3 G4]. apply std_key; auto using canonical_std. }
  destruct Ho as (_ & _ & _ & Hg).
  destruct (K o Po To Hg) as (r' & Er' & Pr & Tr & Htt). rewrite Er in Er'. injection Er' as <-.
  assert (Hin : forall t, In t (op_terms o) -> In (snd t) (b_strings (o_basis o))).
  { intros t H. rewrite <- (op_terms_snd o (proper_ok _ Po)). apply in_map; auto. }
  assert (Es : map snd (op_terms r) = map snd (op_terms o)).
  { unfold term_by_term in Htt. revert Hin. clear - Htt Hd Hg. induction Htt as [|a b ts us (k & Hk & _) Htt IH]; intros Hin; cbn [map]; auto.
    rewrite IH by (intros; apply Hin; right; auto). f_equal.
    destruct (Hd (snd a) (proj1 (Hg _ (Hin a (or_introl eq_refl))))) as (k0 & A1 & _). destruct (one_term_fun _ _ _ _ _ Hk A1) as [_ E]. congruence. }
  assert (Bs : b_strings (o_basis r) = b_strings (o_basis o)) by (rewrite <- (op_terms_snd r (proper_ok _ Pr)), <- (op_terms_snd o (proper_ok _ Po)); auto).
  destruct (K r Pr Tr) as (r2 & Er2 & Pr2 & Tr2 & Htt2); [rewrite Bs; auto|].
  rewrite Er2. f_equal. apply op_eq; auto using proper_ok; [congruence|].
  unfold term_by_term in Htt, Htt2. revert Htt2 Hin. generalize (op_terms r2) as vs. clear - Htt Hd Hg.
  induction Htt as [|a b ts us (k & Hk & Uk & Eb) Htt IH]; intros vs Htt2 Hin; inversion Htt2 as [|b' c us' vs' (k' & Hk' & Uk' & Ec) Htt2' E1 E2]; subst; auto.
  f_equal; [|apply IH; auto; intros; apply Hin; right; auto].
  destruct (Hd (snd a) (proj1 (Hg _ (Hin a (or_introl eq_refl))))) as (k0 & A1 & A2). destruct (one_term_fun _ _ _ _ _ Hk A1) as [-> E]. rewrite E in Hk'.
  destruct (one_term_fun _ _ _ _ _ Hk' A1) as [-> E']. destruct a as [xa sa], c as [xc sc0]. cbn [fst snd] in *. subst sc0. f_equal.
  rewrite Ec, Eb. transitivity (gmul xa (gmul k0 k0)); [ring|]. rewrite (unit_sq k0 A2). ring.
Qed.

Lemma tr_one ty s : ty <> Fermion -> string_ok ty s -> one_term (time_reversal s)
  (gsgn (xorb (pref_sign ty s) (par (fun p => match ty with Pauli => true | _ => is_b (fst p) end) (letters s)))) s.
Proof.
  intros Hty Hs. pose proof Hs as (Ht & _). destruct ty; [| |congruence].
  - unfold time_reversal, time_reversal_rule. rewrite Ht, par_true, (letters_length Pauli) by auto. cbn [pref_sign].
    change g1 with (gsgn false) at 1. rewrite flip_if_sgn, xorb_false_r, xorb_false_l. apply single_one.
  - destruct (count_ops_spec s Hs) as (ab & b & d & E & Ea & Eb & Ed). unfold time_reversal, time_reversal_rule. rewrite Ht, E. cbn [rbind pref_sign].
    change g1 with (gsgn false) at 1. rewrite !flip_if_sgn, xorb_false_r, Eb, <- Ea. apply single_one.
Qed.
Lemma ph_one s : string_ok Majorana s -> exists e, one_term (particle_hole s) (gsgn e) s.
Proof.
  intros Hs. pose proof Hs as (Ht & _). destruct (count_ops_spec s Hs) as (ab & b & d & E & Ea & Eb & Ed). unfold particle_hole, particle_hole_rule. rewrite Ht, E. cbn [rbind].
  change g1 with (gsgn false) at 1. rewrite !flip_if_sgn. eexists. apply single_one.
Qed.
Lemma sz_one dn s : string_ok Majorana s -> one_term (sz_rule dn s) (gsgn (par (fun p => is_ab (fst p) && zmem (snd p) dn) (letters s))) s.
Proof.
  intros Hs. pose proof Hs as (Ht & _). destruct (count_down_spec dn s Hs) as (n & E & En). unfold sz_rule. rewrite Ht, E. cbn [rbind]. rewrite <- En.
  change (if Nat.odd n then gm1 else g1) with (gsgn (Nat.odd n)). apply single_one.
Qed.
Lemma gsgn_unit e : gsgn e = g1 \/ gsgn e = gm1.
Proof. destruct e; auto. Qed.
Lemma tr_diagonal ty : ty <> Fermion -> diagonal ty time_reversal.
Proof. intros Hty s Hs. eexists. split; [exact (tr_one ty s Hty Hs) | apply gsgn_unit]. Qed.
Lemma ph_diagonal : diagonal Majorana particle_hole.
Proof. intros s Hs. destruct (ph_one s Hs) as (e & H). eexists. split; [exact H | apply gsgn_unit]. Qed.
Lemma sz_diagonal dn : diagonal Majorana (sz_rule dn).
Proof. intros s Hs. eexists. split; [exact (sz_one dn s Hs) | apply gsgn_unit]. Qed.

Theorem time_reversal_operator ty o : ty <> Fermion -> good_operator ty o ->
  exists r, apply time_reversal (TOperator o) = Ok r /\ good_operator ty r /\ op_norm2 r = op_norm2 o /\ apply time_reversal (TOperator r) = Ok o /\
    forall (A : StarAlg) (g : op -> Z -> A), rep ty g -> image_sum true (reversed ty g) (op_terms o) == lincomb g (op_terms r).
Proof.
  intros Hty Ho. destruct (acts_operator ty time_reversal true (fun A g => reversed ty g) Hty) with (o := o) as (r & Er & Gr & _ & Nr & Dr); auto.
  - intros A g. apply rep_reversed.
  - apply time_reversal_keeps.
  - intros s Hs. apply time_reversal_acts; auto. apply Ho; auto.
  - exists r. split; auto. split; auto. split; auto. split; auto.
    apply (diagonal_involution ty time_reversal o r (time_reversal_keeps ty) (tr_diagonal ty Hty) Ho Er).
Qed.
Theorem particle_hole_operator o : good_operator Majorana o ->
  exists r, apply particle_hole (TOperator o) = Ok r /\ good_operator Majorana r /\ op_norm2 r = op_norm2 o /\ apply particle_hole (TOperator r) = Ok o /\
    forall (A : StarAlg) (g : op -> Z -> A), rep Majorana g -> image_sum false (conjugated g) (op_terms o) == lincomb g (op_terms r).
Proof.
  intros Ho. destruct (acts_operator Majorana particle_hole false (fun A g => conjugated g)) with (o := o) as (r & Er & Gr & _ & Nr & Dr); auto.
  - discriminate.
  - intros A g. apply rep_conjugated.
  - apply particle_hole_keeps.
  - intros s Hs. apply particle_hole_acts; auto. apply Ho; auto.
  - exists r. split; auto. split; auto. split; auto. split; auto.
    apply (diagonal_involution Majorana particle_hole o r (particle_hole_keeps _) ph_diagonal Ho Er).
Qed.

(* ------------------------------------------------------- conjugation by the parity *)

Section Parity.
  Context {A : StarAlg} (g : op -> Z -> A).
  Hypothesis Hg : rep Majorana g.
  Definition dprod (dn : list Z) : A := aprod (map (g OD) dn).

  Lemma d_dprod l dn : sc false (g OD l) (dprod dn).
  Proof. induction dn as [|m dn IH]; [apply sc_one; auto|]. unfold dprod. cbn [map]. rewrite aprod_cons. apply (sc_mul false false); auto. apply d_d; auto. Qed.
  Lemma u_dprod o l dn : o = OA \/ o = OB -> NoDup dn -> sc (zmem l dn) (g o l) (dprod dn).
  Proof.
    intros Ho. induction dn as [|m dn IH]; intros N; [apply sc_one; auto|]. inversion N as [|? ? N1 N2]; subst.
    unfold dprod. cbn [map]. rewrite aprod_cons.
    replace (zmem l (m :: dn)) with (xorb (Z.eqb l m) (zmem l dn)); [apply sc_mul; [apply u_d; auto | apply IH; auto]|].
    unfold zmem. cbn [existsb]. destruct (Z.eqb_spec l m) as [->|]; [|destruct (existsb (Z.eqb l) dn); reflexivity].
    destruct (existsb (Z.eqb m) dn) eqn:E; auto. exfalso. apply N1. apply zmem_in. exact E.
  Qed.
  Lemma dprod_sq dn : dprod dn * dprod dn == aone.
  Proof.
    induction dn as [|m dn IH]; [apply amul_1_l|]. unfold dprod in *. cbn [map]. rewrite aprod_cons.
    rewrite <- amul_assoc, (amul_assoc A (aprod (map (g OD) dn)) (g OD m)).
    rewrite <- (sc_comm _ _ (d_dprod m dn)). unfold dprod. rewrite <- (amul_assoc A (g OD m)), IH, amul_1_r.
    apply (rep_sq Majorana g Hg OD m). reflexivity.
  Qed.
  Lemma word_dprod dn w : NoDup dn -> (forall o l, In (o, l) w -> is_op_of Majorana o = true) ->
    sc (par (fun p => is_ab (fst p) && zmem (snd p) dn) w) (word (lval g) w) (dprod dn).
  Proof.
    intros N. induction w as [|[o l] w IH]; intros Hv; [apply sc_sym, sc_one; auto|].
    rewrite word_cons. cbn [par fst snd]. apply sc_mul_l; [|apply IH; intros; eapply Hv; right; eauto].
    specialize (Hv o l (or_introl eq_refl)). unfold lval. cbn [fst snd]. destruct o; try discriminate Hv; cbn [is_ab andb].
    - apply u_dprod; auto. - apply u_dprod; auto. - apply d_dprod.
  Qed.
  (** P S P = k S. *)
  Lemma parity_conj dn s k t : NoDup dn -> string_ok Majorana s -> one_term (sz_rule dn s) k t ->
    dprod dn * den g s * dprod dn == k · den g t.
  Proof.
    intros N Hs H. destruct (one_term_fun _ _ _ _ _ H (sz_one dn s Hs)) as [-> ->].
    rewrite den_word. assert (W := word_dprod dn (letters s) N (fun o l => letters_valid Majorana s o l Hs)). unfold sc in W.
    rewrite ascal_mul_r, ascal_mul_l, <- amul_assoc, W, ascal_mul_r, amul_assoc, dprod_sq, amul_1_l, !ascal_ascal. apply ascal_eq. ring.
  Qed.
End Parity.

(* ---------------------------------------------------------------- spinful *)

Lemma rep_ext {A : StarAlg} (g g' : op -> Z -> A) : (forall o l, g o l == g' o l) -> rep Majorana g -> rep Majorana g'.
Proof. intros E [H1 H2 H3 H4 H5 H6 H7 H8]. split; intros; rewrite <- ?E; auto. Qed.
Lemma rep_reversed_spin {A : StarAlg} (g : op -> Z -> A) f dn dec : (forall l m, f l = f m -> l = m) -> rep Majorana g ->
  @rep Majorana (conj_alg A) (reversed_spin f dn dec g).
Proof.
  intros Hf Hg. apply (@rep_ext (conj_alg A) (reversed Majorana (parity_flipped dn dec (renamed f g)))).
  - intros o l. cbn [reversed parity_flipped reversed_spin renamed conj_alg aeq car]. destruct o; cbn; try destruct (dec l); try reflexivity. apply gm1_gm1.
  - apply rep_reversed, rep_parity, rep_inj; auto.
Qed.
Lemma spinful_keeps flip dn : keeps_type Majorana (time_reversal_spinful flip dn).
Proof. unfold time_reversal_spinful. apply tmul_keeps; [apply time_reversal_keeps|]. apply tmul_keeps; [apply sz_keeps | apply permutation_keeps]. Qed.

Lemma spinful_string flip f dn s : permutes flip f -> string_ok Majorana s -> std s -> in_range (length flip) s ->
  exists k t, one_term (apply (time_reversal_spinful flip dn) (TString s)) k t /\ (k = g1 \/ k = gm1) /\ string_ok Majorana t /\ canonical t /\
    forall (A : StarAlg) (g : op -> Z -> A), rep Majorana g ->
      image true (reversed_spin f (fun l => In l dn) (fun l => in_dec Z.eq_dec l dn) g) s == k · den g t.
Proof.
  intros Hp Hs Hst Hr.
  destruct (permutation_string Majorana flip f s ltac:(discriminate) Hp Hs Hr) as (k & t & A1 & A2 & A3 & A4 & A5 & _ & A6).
  pose proof (tr_one Majorana s ltac:(discriminate) Hs) as K1. pose proof (sz_one dn s Hs) as K2.
  set (e1 := xorb (pref_sign Majorana s) _) in K1. set (e2 := par _ (letters s)) in K2.
  assert (Ht : os_type s = Majorana) by apply Hs.
  assert (K3 : one_term (tmul (permutation_rule flip) (sz_rule dn) s) (gmul (gsgn e2) k) t).
  { apply (tmul_one Majorana (sz_rule dn) (permutation_rule flip) s (gsgn e2) s k t); auto using sz_keeps, permutation_keeps, gsgn_unit. }
  assert (U3 : gmul (gsgn e2) k = g1 \/ gmul (gsgn e2) k = gm1).
  { destruct (gsgn_unit e2) as [->| ->], A2 as [->| ->]; [left|right|right|left]; apply GC_ext; apply Qc_is_canon; reflexivity. }
  assert (K4 : one_term (time_reversal_spinful flip dn s) (gmul (gsgn e1) (gmul (gsgn e2) k)) t).
  { apply (tmul_one Majorana time_reversal_rule (tmul (permutation_rule flip) (sz_rule dn)) s (gsgn e1) s (gmul (gsgn e2) k) t); auto using gsgn_unit.
    - apply time_reversal_keeps. - apply tmul_keeps; auto using sz_keeps, permutation_keeps. }
  exists (gmul (gsgn e1) (gmul (gsgn e2) k)), t. split; [exact K4|]. split.
  { destruct (gsgn_unit e1) as [->| ->], U3 as [->| ->]; [left|right|right|left]; apply GC_ext; apply Qc_is_canon; reflexivity. }
  split; auto. split; auto. intros A g Hg.
  rewrite (image_ext true _ (fun o l => gsgn (xorb (is_b o) (is_ab o && zmem l dn)) · renamed f g o l)).
  - rewrite image_sign, (image_conj Majorana) by auto. rewrite <- image_false, (A6 A g Hg), !ascal_ascal. apply ascal_eq.
    unfold e1, e2. rewrite (par_xor (fun p => is_b (fst p)) (fun p => is_ab (fst p) && zmem (snd p) dn)), !gsgn_xorb. ring.
  - intros o l Hin. assert (Z : zmem l dn = if in_dec Z.eq_dec l dn then true else false).
    { destruct (in_dec Z.eq_dec l dn) as [i|n]; [apply zmem_in; auto|]. apply not_true_is_false. intros X. apply n, zmem_in; auto. }
    unfold renamed. pose proof (letters_valid Majorana s o l Hs Hin) as V.
    destruct o; try discriminate V; cbn [reversed_spin is_ab is_b andb xorb]; rewrite ?Z; try destruct (in_dec Z.eq_dec l dn); cbn [gsgn xorb]; rewrite ?ascal_1; reflexivity.
Qed.
Theorem spinful_products flip f dn S1 S2 : permutes flip f -> string_ok Majorana S1 -> string_ok Majorana S2 -> canonical S1 -> canonical S2 ->
  in_range (length flip) S1 -> in_range (length flip) S2 ->
  respects_products (fun s => apply (time_reversal_spinful flip dn) (TString s)) true S1 S2.
Proof.
  intros Hp H1 H2 C1 C2 R1 R2.
  assert (X : forall s, string_ok Majorana s -> canonical s -> in_range (length flip) s ->
    acts_as Majorana (time_reversal_spinful flip dn) true (fun A g => reversed_spin (extended (length flip) f) (fun l => In l dn) (fun l => in_dec Z.eq_dec l dn) g) s).
  { intros s Hs Hc Hr. destruct (spinful_string flip f dn s Hp Hs (canonical_std s Hc) Hr) as (k & t & A1 & A2 & A3 & A4 & A5).
    exists k, t. split; auto. split; auto. split; auto. split; auto. intros A g Hg. rewrite <- (A5 A g Hg). apply image_ext.
    intros o l Hin. unfold reversed_spin. rewrite extended_in; [reflexivity|]. apply Hr. eapply in_combine_r; eauto. }
  apply (acts_products_can Majorana (time_reversal_spinful flip dn) true (fun A g => reversed_spin (extended (length flip) f) (fun l => In l dn) (fun l => in_dec Z.eq_dec l dn) g)); auto.
  - discriminate.
  - intros A g Hg. apply rep_reversed_spin; auto. apply extended_inj; auto.
  - intros C HC Hcan Hl. apply X; auto. intros l Hin. destruct (Hl l Hin); auto.
Qed.

(* ---------------------------------------------------------------- products and powers *)

Lemma no_small C D s : no_small_products C D s -> no_loss C D s.
Proof.
  intros H oC oD t u E1 H1 E2 H2. destruct (H oC oD t u E1 H1 E2 H2) as [Z|Z]; auto. right. unfold abs_gtb. apply qc_ltb_lt. exact Z.
Qed.
Theorem product_string ty C D s : keeps_type ty C -> keeps_type ty D -> os_type s = ty -> std s -> no_small_products C D s ->
  (forall oC r, apply C (TString s) = Ok oC -> apply D (TOperator oC) = Ok r -> exists n, apply (tmul D C) (TString s) = Ok n /\ same_coeffs n r) /\
  (forall n, apply (tmul D C) (TString s) = Ok n -> exists oC r, apply C (TString s) = Ok oC /\ apply D (TOperator oC) = Ok r /\ same_coeffs n r).
Proof. intros HC HD Hs Hst H. apply (tmul_string ty C D HC HD s Hs Hst (no_small C D s H)). Qed.
Theorem product_operator ty C D o n : keeps_type ty C -> keeps_type ty D -> proper o -> o_type o = ty ->
  (forall s, In s (b_strings (o_basis o)) -> no_small_products C D s) -> apply (tmul D C) (TOperator o) = Ok n ->
  forall oC r, apply C (TOperator o) = Ok oC -> apply D (TOperator oC) = Ok r -> same_coeffs n r.
Proof. intros HC HD Ho Ht H En. apply (tmul_operator ty C D HC HD o n); auto. intros s Hs. apply no_small; auto. Qed.

Lemma tpow_loop_S T acc n : tpow_loop T acc (S n) = tmul (tpow_loop T acc n) T.
Proof. revert acc. induction n as [|n IH]; intros acc; [reflexivity|]. cbn [tpow_loop] in *. rewrite IH. reflexivity. Qed.
Theorem power_step T : tpow T (PInt 1) = Ok T /\
  forall n Tn, (0 < n)%Z -> tpow T (PInt n) = Ok Tn -> tpow T (PInt (n + 1)) = Ok (tmul Tn T).
Proof.
  split; [reflexivity|]. intros n Tn Hn. unfold tpow. rewrite (proj2 (Z.leb_gt n 0)), (proj2 (Z.leb_gt (n + 1) 0)) by lia.
  intros H. injection H as <-. f_equal. rewrite <- tpow_loop_S. f_equal. lia.
Qed.
Theorem power_iterated ty T n s k t : keeps_type ty T -> os_type s = ty -> std s -> iterated T (S n) s k t ->
  exists Tn, tpow T (PInt (Z.of_nat (S n))) = Ok Tn /\ one_term (apply Tn (TString s)) k t /\ (k = g1 \/ k = gm1).
Proof.
  intros Hsh. unfold tpow. rewrite (proj2 (Z.leb_gt _ 0)) by lia. replace (Z.to_nat (Z.of_nat (S n) - 1)) with n by lia.
  intros Hs Hst H. eexists. split; [reflexivity|]. cbn [apply]. revert s k t Hs Hst H.
  assert (KT : forall m, keeps_type ty (tpow_loop T T m)).
  { induction m as [|m IH]; [exact Hsh|]. rewrite tpow_loop_S. apply tmul_keeps; auto. }
  induction n as [|n IH]; intros s k t Hs Hst H; inversion H as [|? ? k1 t1 k2 t2 H1 U1 H2]; subst.
  - inversion H2; subst. cbn [tpow_loop]. replace (gmul k1 g1) with k1 by ring. auto.
  - pose proof H1 as (o1 & E1 & _). destruct (one_term_inv (os_type s) T s o1 k1 t1 Hsh eq_refl Hst E1 H1) as (_ & _ & _ & T1 & S1).
    destruct (IH t1 k2 t T1 S1 H2) as [I1 I2]. rewrite tpow_loop_S. split.
    + apply (tmul_one (os_type s) T (tpow_loop T T n) s k1 t1 k2 t); auto.
    + destruct U1 as [->| ->], I2 as [->| ->]; [left|right|right|left]; apply GC_ext; apply Qc_is_canon; reflexivity.
Qed.
(** The n-th power of a permutation is the n-th iterate. *)
Lemma permutation_iterated ty p f s n : ty <> Fermion -> permutes p f -> string_ok ty s -> in_range (length p) s ->
  exists k t, iterated (label_permutation p) n s k t.
Proof.
  intros Hty Hp. revert s. induction n as [|n IH]; intros s Hs Hr; [exists g1, s; constructor|].
  destruct (permutation_string ty p f s Hty Hp Hs Hr) as (k1 & t1 & A1 & A2 & A3 & A4 & A5 & _).
  destruct (IH t1 A3 A5) as (k2 & t2 & H2). exists (gmul k1 k2), t2. econstructor; eauto.
Qed.
Lemma iter_succ_r {X} (f : X -> X) n x : Nat.iter (S n) f x = Nat.iter n f (f x).
Proof. induction n as [|n IH]; auto. change (f (Nat.iter (S n) f x) = f (Nat.iter n f (f x))). f_equal. exact IH. Qed.
Theorem permutation_power ty p f pn s n : ty <> Fermion -> permutes p f -> string_ok ty s -> std s -> in_range (length p) s ->
  permutes pn (iterate f (S n)) -> length pn = length p ->
  exists Tn k t, tpow (label_permutation p) (PInt (Z.of_nat (S n))) = Ok Tn /\ one_term (apply Tn (TString s)) k t /\
    one_term (apply (label_permutation pn) (TString s)) k t.
Proof.
  intros Hty Hp Hs Hst Hr Hpn El.
  destruct (permutation_iterated ty p f s (S n) Hty Hp Hs Hr) as (k & t & Hit).
  destruct (power_iterated ty (label_permutation p) n s k t (permutation_keeps ty p) ltac:(apply Hs) Hst Hit) as (Tn & E & H1 & U).
  exists Tn, k, t. split; auto. split; auto.
  destruct (permutation_string ty pn _ s Hty Hpn Hs ltac:(rewrite El; auto)) as (k' & t' & A1 & A2 & A3 & A4 & A5 & _ & A6).
  pose proof (fock_rep ty Hty) as Hf.
  assert (X : forall m s k t, string_ok ty s -> in_range (length p) s -> iterated (label_permutation p) m s k t ->
     (m = 0 \/ canonical t) /\ string_ok ty t /\ k <> g0 /\ forall (g : op -> Z -> Fock), rep ty g -> image false (renamed (iterate f m) g) s == k · den g t).
  { clear - Hp Hty. induction m as [|m IH]; intros s k t Hs Hr H; inversion H as [|? ? k1 t1 k2 t2 H1 U1 H2]; subst.
    - split; auto. split; auto. split; [discriminate|]. intros g Hg. rewrite ascal_1. reflexivity.
    - destruct (permutation_string ty p f s Hty Hp Hs Hr) as (k1' & t1' & B1 & B2 & B3 & B4 & B5 & _ & B6).
      destruct (one_term_fun _ _ _ _ _ H1 B1) as [-> ->].
      destruct (IH t1' k2 t B3 B5 H2) as (C1 & C2 & C3 & C4). split.
      + right. destruct C1 as [->|C1]; auto. inversion H2; subst; auto.
      + split; auto. split.
        * intros Z0. apply gmul_integral in Z0. destruct Z0 as [Z0|Z0]; auto. apply (unit_nz k1' U1 Z0).
        * intros g Hg. rewrite <- ascal_ascal, <- (C4 g Hg).
          assert (Rq : rep ty (renamed (iterate (extended (length p) f) m) g)).
          { apply rep_inj; auto. intros l l' E. induction m as [|m' IHm]; [exact E|]. cbn in E. apply extended_inj in E; auto.
            revert E. clear - Hp. induction m' as [|m' IHm]; cbn; auto. intros E. apply extended_inj in E; auto. }
          assert (Hit : forall q l, (0 <= l < Z.of_nat (length p))%Z -> iterate (extended (length p) f) q l = iterate f q l /\ (0 <= iterate f q l < Z.of_nat (length p))%Z).
          { intros q. induction q as [|q IHq]; intros l Hl; [split; auto|]. destruct (IHq l Hl) as [I1 I2]. unfold iterate in *. change (Nat.iter (S q) (extended (length p) f) l) with (extended (length p) f (Nat.iter q (extended (length p) f) l)). change (Nat.iter (S q) f l) with (f (Nat.iter q f l)).
            rewrite I1. split; [apply extended_in; auto|]. destruct Hp as (_ & P2 & P3). apply P2. apply (nth_error_In _ (Z.to_nat (Nat.iter q f l))). auto. }
          transitivity (k1' · image false (renamed (iterate (extended (length p) f) m) g) t1').
          2:{ apply ascal_proper. apply image_ext. intros o l Hin. unfold renamed. rewrite (proj1 (Hit m l ltac:(apply B5; eapply in_combine_r; eauto))). reflexivity. }
          change (image false (renamed (iterate (extended (length p) f) m) g) t1') with (den (renamed (iterate (extended (length p) f) m) g) t1'). rewrite <- (B6 _ _ Rq). apply image_ext. intros o l Hin. unfold renamed.
          assert (Hl : (0 <= l < Z.of_nat (length p))%Z) by (apply Hr; eapply in_combine_r; eauto).
          assert (Hfl : (0 <= f l < Z.of_nat (length p))%Z) by (apply (proj2 (Hit 1 l Hl))).
          rewrite (proj1 (Hit m (f l) Hfl)). unfold iterate. rewrite iter_succ_r. reflexivity. }
  destruct (X (S n) s k t Hs Hr Hit) as ([?|C1] & C2 & C3 & C4); [discriminate|].
  destruct (@multiple_unique ty Fock fock_gen k k' t t') as [-> ->]; auto.
  - apply fock_nontrivial.
  - rewrite <- (C4 _ Hf), <- (A6 _ _ Hf). reflexivity.
Qed.

(** Small coefficients are dropped. *)
Definition tiny : GC := gq (Q2Qc (1 # 10000000)).
Definition tiny_rule : rule := fun s => op_new [tiny] [s] None.
Lemma tiny_keeps ty : keeps_type ty tiny_rule.
Proof. intros s n Hs Hst. apply new_keeps; auto. Qed.

(** Non-positive powers. *)
Theorem power_rejected T n : (n <= 0)%Z -> tpow T (PInt n) = Err ValueError.
Proof. intros H. unfold tpow. rewrite (proj2 (Z.leb_le n 0)) by auto. reflexivity. Qed.
Theorem power_accepted T n : (0 < n)%Z -> exists Tn, tpow T (PInt n) = Ok Tn.
Proof. intros H. unfold tpow. rewrite (proj2 (Z.leb_gt n 0)) by auto. eexists; reflexivity. Qed.
