(** The transformations of qosy/transformation.py as automorphisms. *)
From Coq Require Import List Arith Lia ZArith Bool Setoid Morphisms Sorted Permutation Qcanon Ring.
From Verif Require Import GC Exn S_Alg S_Den S_Basis S_Built S_Transform S_Fock M_OpString M_Tools M_Algebra M_Basis M_Transform
  L_Alg L_Module L_StrAlg L_StrOp L_Fock L_Basis L_Operator L_VSum L_Struct L_PropStr L_JW2 L_Conversion L_ConvLin L_Conversion2 L_Conversion3 L_ConvOrd L_Perm
  L_Trans1 L_Trans2 L_Trans3 L_Trans4 L_Trans5.
Import ListNotations.
Local Open Scope nat_scope.
Local Open Scope alg_scope.

(* ------------------------------------------------------------- Operators *)

Lemma good_proper ty o : good_operator ty o -> proper o /\ o_type o = ty.
Proof.
  intros (H1 & H2 & H3 & H4). split; auto. split; auto. split; auto. intros s Hs. destruct (H4 s Hs) as [(A & _) B].
  split; [congruence | apply canonical_std; auto].
Qed.
Lemma one_term_fun r k t k' t' : one_term r k t -> one_term r k' t' -> k = k' /\ t = t'.
Proof. intros (o & E & _ & H) (o' & E' & _ & H'). rewrite E in E'. injection E' as <-. rewrite H in H'. injection H' as -> ->. auto. Qed.
Lemma op_eq o r : op_ok o -> op_ok r -> o_type o = o_type r -> op_terms o = op_terms r -> o = r.
Proof.
  intros Ho Hr Ht E.
  assert (Eb : o_basis o = o_basis r).
  { apply basis_ok_eq; [apply Ho | apply Hr |]. rewrite <- (op_terms_snd o Ho), <- (op_terms_snd r Hr), E. reflexivity. }
  assert (Ec : o_coeffs o = o_coeffs r) by (rewrite <- (op_terms_fst o Ho), <- (op_terms_fst r Hr), E; reflexivity).
  destruct o, r; cbn in *. congruence.
Qed.

Section Auto.
  Variables (ty : optype) (T : rule) (conj : bool) (h : forall A : StarAlg, (op -> Z -> A) -> op -> Z -> A).
  Hypothesis Hty : ty <> Fermion.
  Hypothesis Hrep : rep_map ty conj h.
  Hypothesis Hsh : keeps_type ty T.

  Theorem acts_operator o : good_operator ty o -> (forall s, In s (b_strings (o_basis o)) -> acts_as ty T conj h s) ->
    exists r, apply T (TOperator o) = Ok r /\ good_operator ty r /\ term_by_term T o r /\ op_norm2 r = op_norm2 o /\
      forall (A : StarAlg) (g : op -> Z -> A), rep ty g -> image_sum conj (h A g) (op_terms o) == lincomb g (op_terms r).
  Proof.
    intros Ho Hact. destruct (good_proper ty o Ho) as [Po To]. pose proof Ho as (_ & _ & _ & Hgood).
    destruct (apply_monomial ty T o Hsh Po To) as (r & Er & Pr & Tr & Htt).
    - intros s Hs. destruct (Hact s Hs) as (k & t & H1 & H2 & _). exists k, t. auto.
    - intros s s' k k' t t' Hs Hs' H1 H2 K.
      destruct (Hact s Hs) as (k0 & t0 & A1 & A2 & A3 & A4 & A5). destruct (one_term_fun _ _ _ _ _ H1 A1) as [-> ->].
      destruct (Hact s' Hs') as (k1 & t1 & B1 & B2 & B3 & B4 & B5). destruct (one_term_fun _ _ _ _ _ H2 B1) as [-> ->].
      destruct (Hgood s Hs) as [G1 G2]. destruct (Hgood s' Hs') as [G3 G4].
      assert (t0 = t1) by (apply std_key; auto using canonical_std). subst t1.
      apply (acts_inj ty conj h Hty Hrep s s' k0 k1 t0); auto.
    - exists r. split; auto.
      assert (Hin : forall t, In t (op_terms o) -> In (snd t) (b_strings (o_basis o))).
      { intros t Ht. rewrite <- (op_terms_snd o (proper_ok _ Po)). apply in_map; auto. }
      split.
      + split; [apply Pr|]. split; [apply Pr|]. split; auto. intros t Ht.
        rewrite <- (op_terms_snd r (proper_ok _ Pr)) in Ht. unfold term_by_term in Htt. clear Er Pr Tr. revert Ht Hin.
        induction Htt as [|a b ts us (k & Hk & _) Htt IH]; cbn [map]; intros Ht Hin; [destruct Ht|].
        destruct Ht as [<-|Ht]; [|apply IH; auto; intros; apply Hin; right; auto].
        specialize (Hin a (or_introl eq_refl)). destruct (Hact (snd a) Hin) as (k0 & t0 & A1 & A2 & A3 & A4 & A5).
        destruct (one_term_fun _ _ _ _ _ Hk A1) as [-> ->]. split; auto. apply A4. apply Hgood; auto.
      + split; auto. split; [apply (term_norm T o r); auto using proper_ok|].
        intros A g Hr. unfold image_sum, lincomb. unfold term_by_term in Htt. clear Er Pr Tr. revert Hin.
        induction Htt as [|a b ts us (k & Hk & _ & Eb) Htt IH]; cbn [map asum fold_right]; intros Hin; [reflexivity|].
        change (fst a · image conj (h A g) (snd a) + asum (map (fun t => fst t · image conj (h A g) (snd t)) ts) ==
                fst b · den g (snd b) + asum (map (fun t => fst t · den g (snd t)) us)).
        rewrite IH by (intros; apply Hin; right; auto). apply aadd_proper; [|reflexivity].
        specialize (Hin a (or_introl eq_refl)). destruct (Hact (snd a) Hin) as (k0 & t0 & A1 & A2 & A3 & A4 & A5).
        destruct (one_term_fun _ _ _ _ _ Hk A1) as [-> E2]. rewrite (A5 A g Hr), Eb, E2, ascal_ascal. reflexivity.
  Qed.
End Auto.

(** A multiplicative map on the sum of the terms. *)
Lemma mult_sum_ok ty {A : StarAlg} (conj : bool) (f : A -> A) (g h : op -> Z -> A) o : mult_map conj f -> op_ok o -> (conj = true -> real_coeffs o) ->
  (forall p l, is_op_of ty p = true -> f (g p l) == h p l) -> (forall t, In t (op_terms o) -> string_ok ty (snd t)) -> f (lincomb g (op_terms o)) == image_sum conj h (op_terms o).
Proof.
  intros Hf Ho Hreal Hg Hv. unfold lincomb, image_sum.
  assert (Hc : conj = true -> forall t, In t (op_terms o) -> gconj (fst t) = fst t).
  { intros E t Ht. apply Hreal; auto. rewrite <- (op_terms_fst o Ho). apply in_map; auto. }
  clear Hreal. revert Hc Hv. induction (op_terms o) as [|t ts IH]; intros Hc Hv; cbn [map asum fold_right].
  - apply (mm_zero conj); auto.
  - change (f (fst t · den g (snd t) + asum (map (fun t => fst t · den g (snd t)) ts)) ==
            fst t · image conj h (snd t) + asum (map (fun t => fst t · image conj h (snd t)) ts)).
    rewrite (mm_add _ _ Hf), (mm_scal _ _ Hf), IH by (intros; try (apply Hv; right; auto); apply Hc; auto; right; auto).
    rewrite (mult_image conj f g h (snd t) Hf) by (intros p l Hin; apply Hg; apply (letters_valid ty (snd t) p l (Hv t (or_introl eq_refl)) Hin)).
    apply aadd_proper; [|reflexivity]. apply ascal_eq. destruct conj; auto. apply Hc; auto. left; auto.
Qed.

(* ------------------------------------------------------------- permutations *)

Definition extended (n : nat) (f : Z -> Z) (l : Z) : Z := if ((0 <=? l) && (l <? Z.of_nat n))%Z then f l else l.
Lemma extended_in n f l : (0 <= l < Z.of_nat n)%Z -> extended n f l = f l.
Proof. intros H. unfold extended. rewrite (proj2 (Z.leb_le _ _)), (proj2 (Z.ltb_lt _ _)) by lia. reflexivity. Qed.
Lemma extended_inj perm f : permutes perm f -> forall l m, extended (length perm) f l = extended (length perm) f m -> l = m.
Proof.
  intros (Hn & Hr & Hf) l m. set (n := length perm).
  assert (In1 : forall x, (0 <= x < Z.of_nat n)%Z -> (0 <= f x < Z.of_nat n)%Z).
  { intros x Hx. apply Hr. apply (nth_error_In _ (Z.to_nat x)). auto. }
  unfold extended. destruct ((0 <=? l) && (l <? Z.of_nat n))%Z eqn:El, ((0 <=? m) && (m <? Z.of_nat n))%Z eqn:Em; auto.
  - apply andb_true_iff in El, Em. rewrite Z.leb_le, Z.ltb_lt in El, Em. intros E.
    assert (Z.to_nat l = Z.to_nat m); [|lia].
    apply (proj1 (NoDup_nth_error perm) Hn); [rewrite <- Nat2Z.inj_lt || idtac; lia|]. rewrite (Hf l), (Hf m) by lia. congruence.
  - apply andb_true_iff in El. rewrite Z.leb_le, Z.ltb_lt in El. intros E. specialize (In1 l ltac:(lia)). rewrite E in In1.
    apply andb_false_iff in Em. rewrite Z.leb_gt, Z.ltb_ge in Em. lia.
  - apply andb_true_iff in Em. rewrite Z.leb_le, Z.ltb_lt in Em. intros E. specialize (In1 m ltac:(lia)). rewrite <- E in In1.
    apply andb_false_iff in El. rewrite Z.leb_gt, Z.ltb_ge in El. lia.
Qed.
Lemma permutes_nth perm f l : permutes perm f -> (0 <= l < Z.of_nat (length perm))%Z -> py_nth perm l = Ok (extended (length perm) f l).
Proof.
  intros (_ & _ & Hf) H. unfold py_nth. rewrite extended_in by auto.
  destruct (Z.ltb_spec l 0); [lia|]. rewrite (proj2 (Z.ltb_ge l 0)) by lia. rewrite (Hf l H). reflexivity.
Qed.
Lemma in_combine_snd {T} (a : list T) (b : list Z) x y : In (x, y) (combine a b) -> In y b.
Proof. apply in_combine_r. Qed.
Lemma image_extended {A : StarAlg} (perm : list Z) f (g : op -> Z -> A) s : in_range (length perm) s ->
  image false (renamed (extended (length perm) f) g) s == image false (renamed f g) s.
Proof.
  intros H. apply image_ext. intros o l Hin. unfold renamed. rewrite extended_in; [reflexivity|]. apply H. eapply in_combine_r; eauto.
Qed.

Theorem permutation_string ty perm f s : ty <> Fermion -> permutes perm f -> string_ok ty s -> in_range (length perm) s ->
  exists k t, one_term (apply (label_permutation perm) (TString s)) k t /\ (k = g1 \/ k = gm1) /\ string_ok ty t /\ canonical t /\
    in_range (length perm) t /\ Permutation (os_labels t) (map f (os_labels s)) /\
    forall (A : StarAlg) (g : op -> Z -> A), rep ty g -> image false (renamed f g) s == k · den g t.
Proof.
  intros Hty Hp Hs Hr.
  destruct (permutation_acts ty perm (extended (length perm) f) s Hty (extended_inj perm f Hp) Hs) as (k & t & H1 & H2 & H3 & H4 & H5 & H6).
  { intros l Hl. apply permutes_nth; auto. }
  assert (Em : map (extended (length perm) f) (os_labels s) = map f (os_labels s)).
  { apply map_ext_in. intros l Hl. apply extended_in. auto. }
  rewrite Em in H5.
  exists k, t. repeat (split; auto); try apply H3; try apply H4.
  - apply (Permutation_in _ H5), in_map_iff in H. destruct H as (x & <- & Hx). destruct Hp as (_ & Hp2 & Hp3). apply Hp2.
    apply (nth_error_In _ (Z.to_nat x)). apply Hp3. auto.
  - apply (Permutation_in _ H5), in_map_iff in H. destruct H as (x & <- & Hx). destruct Hp as (_ & Hp2 & Hp3). apply Hp2.
    apply (nth_error_In _ (Z.to_nat x)). apply Hp3. auto.
  - intros A g Hg. rewrite <- (image_extended perm f g s Hr). auto.
Qed.
Lemma permutation_acts_as ty perm f s : ty <> Fermion -> permutes perm f -> string_ok ty s -> in_range (length perm) s ->
  acts_as ty (label_permutation perm) false (fun A g => renamed (extended (length perm) f) g) s.
Proof.
  intros Hty Hp Hs Hr. destruct (permutation_string ty perm f s Hty Hp Hs Hr) as (k & t & H1 & H2 & H3 & H4 & H5 & H6 & H7).
  exists k, t. repeat (split; auto); try apply H3; try apply H4. intros A g Hg. rewrite (image_extended perm f g s Hr). auto.
Qed.
Lemma permutation_rep_map ty perm f : permutes perm f -> rep_map ty false (fun A g => renamed (extended (length perm) f) g).
Proof. intros Hp A g Hg. apply rep_inj; auto. apply extended_inj; auto. Qed.

Theorem permutation_products ty perm f S1 S2 : ty <> Fermion -> permutes perm f -> string_ok ty S1 -> string_ok ty S2 ->
  in_range (length perm) S1 -> in_range (length perm) S2 -> respects_products (fun s => apply (label_permutation perm) (TString s)) false S1 S2.
Proof.
  intros Hty Hp H1 H2 R1 R2.
  apply (acts_products ty (label_permutation perm) false _ Hty (permutation_rep_map ty perm f Hp)); auto using permutation_acts_as.
  intros C HC Hl. apply permutation_acts_as; auto. intros l Hin. destruct (Hl l Hin); auto.
Qed.
Theorem permutation_operator ty perm f o : ty <> Fermion -> permutes perm f -> good_operator ty o ->
  (forall s, In s (b_strings (o_basis o)) -> in_range (length perm) s) ->
  exists r, apply (label_permutation perm) (TOperator o) = Ok r /\ good_operator ty r /\ op_norm2 r = op_norm2 o /\
    forall (A : StarAlg) (g : op -> Z -> A), rep ty g -> image_sum false (renamed f g) (op_terms o) == lincomb g (op_terms r).
Proof.
  intros Hty Hp Ho Hr.
  destruct (acts_operator ty (label_permutation perm) false _ Hty (permutation_rep_map ty perm f Hp) (permutation_keeps ty perm) o Ho) as (r & Er & Gr & _ & Nr & Dr).
  - intros s Hs. apply permutation_acts_as; auto. apply Ho; auto.
  - exists r. split; auto. split; auto. split; auto. intros A g Hg. rewrite <- (Dr A g Hg). unfold image_sum. apply asum_ext.
    intros t Ht. apply ascal_proper. symmetry. apply image_extended. apply Hr.
    rewrite <- (op_terms_snd o); [apply in_map; auto|]. apply proper_ok. apply (good_proper ty); auto.
Qed.

(** First p, then q. *)
Theorem permutation_compose ty p q pq f h s : ty <> Fermion -> permutes p f -> permutes q h -> length p = length q ->
  permutes pq (fun l => h (f l)) -> length pq = length p -> string_ok ty s -> in_range (length p) s ->
  exists k1 t1 k2 t2, one_term (apply (label_permutation p) (TString s)) k1 t1 /\ one_term (apply (label_permutation q) (TString t1)) k2 t2 /\
    one_term (apply (label_permutation pq) (TString s)) (gmul k1 k2) t2.
Proof.
  intros Hty Hp Hq El Hpq El2 Hs Hr.
  destruct (permutation_string ty p f s Hty Hp Hs Hr) as (k1 & t1 & A1 & A2 & A3 & A4 & A5 & _ & A6).
  destruct (permutation_string ty q h t1 Hty Hq A3 ltac:(rewrite <- El; auto)) as (k2 & t2 & B1 & B2 & B3 & B4 & B5 & _ & B6).
  destruct (permutation_string ty pq _ s Hty Hpq Hs ltac:(rewrite El2; auto)) as (k3 & t3 & C1 & C2 & C3 & C4 & C5 & _ & C6).
  exists k1, t1, k2, t2. split; auto. split; auto.
  pose proof (fock_rep ty Hty) as Hf.
  assert (Hf2 : rep ty (renamed (extended (length q) h) fock_gen)) by (apply rep_inj; auto; apply extended_inj; auto).
  destruct (@multiple_unique ty Fock fock_gen k3 (gmul k1 k2) t3 t2) as [-> ->]; auto using unit_nz.
  - apply fock_nontrivial.
  - rewrite <- (C6 _ _ Hf).
    transitivity (k1 · image false (renamed h fock_gen) t1); [|rewrite (B6 _ _ Hf), ascal_ascal; reflexivity].
    rewrite <- (image_extended q h fock_gen t1) by (rewrite <- El; auto). rewrite (image_false _ t1), <- (A6 _ _ Hf2).
    apply image_ext. intros o l Hin. unfold renamed. rewrite extended_in; [reflexivity|].
    destruct Hp as (_ & P2 & P3). rewrite <- El. apply P2. apply (nth_error_In _ (Z.to_nat l)). apply P3. apply Hr. eapply in_combine_r; eauto.
Qed.
(** The identity permutation. *)
Theorem permutation_identity ty p f s : ty <> Fermion -> permutes p f -> (forall l, (0 <= l < Z.of_nat (length p))%Z -> f l = l) ->
  string_ok ty s -> canonical s -> in_range (length p) s -> one_term (apply (label_permutation p) (TString s)) g1 s.
Proof.
  intros Hty Hp Hid Hs Hc Hr. destruct (permutation_string ty p f s Hty Hp Hs Hr) as (k1 & t1 & A1 & A2 & A3 & A4 & A5 & _ & A6).
  pose proof (fock_rep ty Hty) as Hf.
  destruct (@multiple_unique ty Fock fock_gen g1 k1 s t1) as [X1 X2]; auto.
  - apply fock_nontrivial.
  - discriminate.
  - rewrite <- (A6 _ _ Hf), ascal_1. change (image false fock_gen s == image false (renamed f fock_gen) s). apply image_ext. intros o l Hin. unfold renamed. rewrite Hid; [reflexivity|]. apply Hr. eapply in_combine_r; eauto.
  - subst k1 t1. exact A1.
Qed.
(** Errors. *)
Theorem permutation_fermion perm s : os_type s = Fermion -> apply (label_permutation perm) (TString s) = Err ValueError.
Proof. intros E. cbn [apply]. unfold label_permutation, permutation_rule. rewrite E. reflexivity. Qed.
Lemma rmap_err {X Y} (f : X -> res Y) l x e : In x l -> f x = Err e -> (forall y e', In y l -> f y = Err e' -> e' = e) -> rmap f l = Err e.
Proof.
  induction l as [|y l IH]; intros Hin He Hu; [destruct Hin|]. cbn [rmap]. destruct (f y) as [v|e'] eqn:E; cbn [rbind].
  - destruct Hin as [->|Hin]; [congruence|]. rewrite IH; auto. intros z e'' Hz. apply Hu. right; auto.
  - f_equal. apply (Hu y); auto. left; auto.
Qed.
Theorem permutation_range perm s l : os_type s <> Fermion -> In l (os_labels s) -> (Z.of_nat (length perm) <= l)%Z ->
  apply (label_permutation perm) (TString s) = Err IndexError.
Proof.
  intros Ht Hin Hl. assert (E : rmap (py_nth perm) (os_labels s) = Err IndexError).
  { apply (rmap_err _ _ l); auto.
    - unfold py_nth. rewrite (proj2 (Z.ltb_ge l 0)) by lia. rewrite (proj2 (Z.ltb_ge l 0)) by lia.
      rewrite (proj2 (nth_error_None perm (Z.to_nat l))) by lia. reflexivity.
    - intros y e' _. unfold py_nth. destruct (_ <? 0)%Z; [intros H; injection H; auto|]. destruct (nth_error _ _); cbn; [discriminate|]. intros H; injection H; auto. }
  cbn [apply]. unfold label_permutation, permutation_rule. rewrite E. destruct (os_type s); try reflexivity. congruence.
Qed.
