(** Converting Hermitian Operators to Pauli strings of the same orbitals with real coefficients. *)
From Coq Require Import String List ZArith NArith Bool Arith Lia Permutation Sorted QArith Qcanon.
From Verif Require Import GC Exn PyStr M_OpString M_Basis M_OpAlg M_Diag M_Conversion
  S_Alg S_Fock S_Den S_Basis S_Built S_Conv S_Diag S_Diagonalize
  L_Fock L_Alg L_Indep L_PropStr L_Basis L_Operator L_PropBasis L_JW L_JW2 L_ConvAlg L_ConvMaj L_ConvMaj2 L_ConvFerm L_ConvLin L_Conversion L_Conversion2.
Import ListNotations.
Local Open Scope nat_scope.

Lemma conj_real k : gconj k = k <-> im k = 0%Qc.
Proof.
  split; intros E.
  - assert (X := f_equal im E). cbn in X. assert (Y : (im k + im k = 0)%Qc) by (rewrite <- X at 1; ring).
    replace (im k) with ((im k + im k) * (1 / (1 + 1)))%Qc by (field; discriminate). rewrite Y. ring.
  - apply GC_ext; cbn; auto. rewrite E. ring.
Qed.
Lemma real_mul x y : im x = 0%Qc -> im y = 0%Qc -> im (gmul x y) = 0%Qc.
Proof. intros A B. cbn. rewrite A, B. ring. Qed.
Lemma real_add x y : im x = 0%Qc -> im y = 0%Qc -> im (gadd x y) = 0%Qc.
Proof. intros A B. cbn. rewrite A, B. ring. Qed.

(** Majorana strings. *)
Lemma jw_real n s : string_ok Majorana s -> labels_in n s -> exists k m, jordan_wigner s = Ok (k, m) /\ im k = 0%Qc /\ string_ok Pauli m /\ canonical m /\ labels_in n m.
Proof.
  intros Hs Hl. destruct (jordan_wigner_ok Majorana s (Z.of_nat n)) as (k & m & E & U & S & Cm & L & _); auto; [discriminate|].
  exists k, m. split; auto. split; auto.
  assert (Nn : nonneg s) by (intros x Hx; apply Hl in Hx; lia).
  destruct (jw_from_majorana s Hs Nn) as (k' & m' & E' & _ & _ & _ & _ & D & _). rewrite E in E'. injection E' as <- <-.
  specialize (D Fock fock_gen fock_majorana).
  assert (Rp : rep Pauli (gpl fock_gen (Z.of_nat n))) by (apply gpauli_rep; [exact fock_majorana | lia]).
  assert (NZ : gconj k <> g0).
  { intros Z. rewrite Z in U. assert (X : gmul k g0 = g0) by (apply GC_ext; cbn; ring). rewrite X in U. discriminate (f_equal re U). }
  assert (Q : (gconj k · den (gpl fock_gen (Z.of_nat n)) m == k · den (gpl fock_gen (Z.of_nat n)) m)%alg).
  { rewrite <- (den_star Pauli (gpl fock_gen (Z.of_nat n)) Rp m S) at 1. rewrite <- astar_scal, (den_gpl fock_gen (Z.of_nat n) m L), <- D. apply (den_star Majorana fock_gen fock_majorana s Hs). }
  apply conj_real. apply (proj1 (multiple_unique Pauli (gpl fock_gen (Z.of_nat n)) (gconj k) k m m Rp fock_nontrivial S S Cm Cm NZ Q)).
Qed.

(** Fermion strings. *)
Lemma mcoef_real s I J ks t : StronglySorted Z.lt ks -> length t = length (map (fop I J) ks) -> pval (os_pref s) = g1 ->
  (forall q, In q (map (fop I J) ks) -> fst q = FCDagC) -> im (mcoef s I J ks t) = 0%Qc.
Proof.
  intros S Lt Hp Hall.
  assert (N0 : ndeg (map (fop I J) ks) = 0).
  { unfold ndeg. rewrite filter_none; auto. intros x Hx. rewrite (Hall x Hx). reflexivity. }
  unfold mcoef. rewrite (mstr_pref s I J ks S t Lt), N0, Hp. change (majorana_phase 0) with g1.
  replace (gdiv (zf (map (fop I J) ks) t) g1) with (zf (map (fop I J) ks) t) by (field; intros X; discriminate (f_equal re X)).
  apply real_mul; [apply real_mul|]; auto. apply zf_real; auto.
Qed.
Lemma ferm_real s I J : fermion_form I J s -> NoDup I -> NoDup J -> (I = J \/ orbitals I J <= 51) -> (I = J -> pval (os_pref s) = g1) ->
  produces I J (pval (os_pref s)) false -> exists o, convert_fermion_string s false = Ok o /\ op_ok o /\ NoDup (map snd (op_terms o)) /\
    forall q, In q (op_terms o) -> im (fst q) = 0%Qc /\ string_ok Majorana (snd q) /\ canonical (snd q) /\ forall l, In l (os_labels (snd q)) -> In l I \/ In l J.
Proof.
  intros F NI NJ Hn Hp Hpr. destruct (ferm_conv s I J F NI NJ Hn) as (ts & Hc & _). destruct (Hc false Hpr) as (o & E & K & _ & _).
  destruct (ferm_conv_terms s I J F NI NJ Hn) as (ks & S & Hk & E'). specialize (E' false).
  assert (G : forall q, In q (without_identity (mts s I J ks)) -> good_maj I J q /\ im (fst q) = 0%Qc).
  { intros q Hq. apply filter_In in Hq. destruct Hq as [Hq _]. pose proof (mts_good s I J ks S Hk q Hq) as Gq. split; auto.
    destruct (list_eq_dec Z.eq_dec I J) as [EI|NE]; [|apply Gq; auto].
    apply somes_in in Hq. destruct Hq as (t & Ht & Et). apply choices_in in Ht. unfold mterm, herm in Et. rewrite zlist_eqb in Et. destruct (list_eq_dec Z.eq_dec I J); [|contradiction]. cbn [negb] in Et. injection Et as <-. cbn [fst].
    apply mcoef_real; auto; [rewrite map_length; auto|]. intros x Hx. apply in_map_iff in Hx. destruct Hx as (l & <- & Hl). apply Hk in Hl. cbn [fop fst]. unfold typ. rewrite <- EI in *.
    destruct (in_dec Z.eq_dec l I); auto; tauto. }
  assert (ND : NoDup (map snd (without_identity (mts s I J ks)))) by (apply NoDup_without, mts_nodup; auto).
  rewrite E in E'. assert (Ne : without_identity (mts s I J ks) <> []) by (intros X; rewrite X in E'; discriminate).
  destruct (op_of_terms_ok (without_identity (mts s I J ks)) None) as (o' & E1 & _ & E3 & _); [intros r Hr; apply canonical_std, (G r Hr) | auto | auto |].
  rewrite <- E' in E1. injection E1 as <-. exists o. rewrite E3. split; auto. split; auto. split; auto.
  intros q Hq. destruct (G q Hq) as ((G1 & G2 & G3 & _) & G4). auto.
Qed.

(** One string. *)
Definition good_result (n : nat) (r : Operator) : Prop :=
  op_ok r /\ forall x t, In (x, t) (op_terms r) -> im x = 0%Qc /\ string_ok Pauli t /\ std t /\ labels_in n t.
Lemma jw_terms n ts : (forall q : GC * OS, In q ts -> im (fst q) = 0%Qc /\ string_ok Majorana (snd q) /\ canonical (snd q) /\ labels_in n (snd q)) ->
  rmap (fun t => let! (k, u) := jordan_wigner (snd t) in Ok (gmul k (fst t), u)) ts = Ok (map jwq ts) /\
  forall q, In q (map jwq ts) -> im (fst q) = 0%Qc /\ string_ok Pauli (snd q) /\ canonical (snd q) /\ labels_in n (snd q).
Proof.
  induction ts as [|q ts IH]; intros H; [split; auto; intros q []|]. destruct (H q (or_introl eq_refl)) as (A & B & Cq & D).
  destruct (jw_real n (snd q) B D) as (k & m & E & Rk & P1 & P2 & P3). destruct IH as [I1 I2]; [intros; apply H; right; auto|].
  assert (Ej : jwq q = (gmul k (fst q), m)) by (unfold jwq; rewrite E; auto).
  cbn [rmap map]. rewrite E. cbn [rbind]. rewrite I1. cbn [rbind]. rewrite Ej. split; auto. intros q' [<-|Hq]; auto. cbn [fst snd]. split; auto. apply real_mul; auto.
Qed.
Lemma op_of_terms_result n ts ty : (forall q, In q ts -> im (fst q) = 0%Qc /\ string_ok Pauli (snd q) /\ std (snd q) /\ labels_in n (snd q)) -> NoDup (map snd ts) -> (ts <> [] \/ ty <> None) ->
  exists o, op_of_terms ts ty = Ok o /\ good_result n o.
Proof.
  intros H N Hne. destruct (op_of_terms_ok ts ty) as (o & E & K & T & _); auto; [intros q Hq; apply H; auto|]. exists o. split; auto. split; auto. rewrite T. intros x t Ht. apply (H (x, t) Ht).
Qed.
Lemma string_result n s : hermitian_string n s -> exists r, convert_string s Pauli false = Ok r /\ good_result n r.
Proof.
  intros (Sd & Hl & Hs). unfold convert_string. destruct (os_type s) eqn:T; cbn [optype_eqb].
  - apply op_of_terms_result; [|constructor; [auto | constructor] | left; discriminate]. intros q [<-|[]]. cbn. auto.
  - destruct (jw_real n s Hs Hl) as (k & m & E & Rk & P1 & P2 & P3). rewrite E. cbn [rbind]. apply op_of_terms_result; [|constructor; [auto | constructor] | left; discriminate].
    intros q [<-|[]]. cbn [fst snd]. split; auto. split; auto. split; auto. apply canonical_std; auto.
  - destruct Hs as (I & J & F & NI & NJ & Hn & Hp & Hpr). destruct (ferm_real s I J F NI NJ Hn Hp Hpr) as (o & E & K & N & G). rewrite E. cbn [rbind].
    assert (G' : forall q, In q (op_terms o) -> im (fst q) = 0%Qc /\ string_ok Majorana (snd q) /\ canonical (snd q) /\ labels_in n (snd q)).
    { intros q Hq. destruct (G q Hq) as (G1 & G2 & G3 & G4). split; auto. split; auto. split; auto. intros l Hin. apply Hl. destruct F as (_ & _ & -> & _). apply in_or_app. destruct (G4 l Hin); auto. right. apply in_rev. rewrite rev_involutive. auto. }
    destruct (jw_terms n (op_terms o) G') as [E1 G1]. rewrite E1. cbn [rbind]. apply op_of_terms_result; [| |right; discriminate].
    + intros q Hq. destruct (G1 q Hq) as (A & B & Cc & D). split; auto. split; auto. split; auto. apply canonical_std; auto.
    + apply jwq_nodup; auto. intros q Hq. destruct (G' q Hq) as (_ & B & Cc & D). split; auto. split; auto. intros l Hin. apply D in Hin. lia.
Qed.

(** Operators. *)
Lemma append_new_from l m r : append_new l m r -> forall s, In s r -> In s l \/ In s m.
Proof.
  induction 1 as [l|l s' m r Hk An IH|l s' m r Hk An IH]; intros s Hs; auto.
  - destruct (IH s Hs); auto. right; right; auto.
  - destruct (IH s Hs) as [H|H]; [|right; right; auto]. apply in_app_or in H. destruct H as [H|[->|[]]]; auto. right; left; auto.
Qed.
Lemma terms_strings o : op_ok o -> forall t, In t (b_strings (o_basis o)) <-> exists x, In (x, t) (op_terms o).
Proof.
  intros K t. rewrite <- (op_terms_snd o K), in_map_iff. split; [intros ([x u] & <- & H); exists x; auto | intros (x & H); exists (x, t); auto].
Qed.
Lemma fold_strings n ts : (forall t, In t ts -> hermitian_string n (snd t)) -> forall acc r, op_ok acc -> o_type acc = Pauli ->
  (forall s, In s (b_strings (o_basis acc)) -> string_ok Pauli s /\ std s /\ labels_in n s) -> rfold (conv_step Pauli false) ts acc = Ok r ->
  forall s, In s (b_strings (o_basis r)) -> string_ok Pauli s /\ std s /\ labels_in n s.
Proof.
  induction ts as [|[x s0] ts IH]; intros H acc r Ka Ta Sa E; [injection E as <-; auto|].
  destruct (string_result n s0 (H (x, s0) (or_introl eq_refl))) as (m0 & E0 & K0 & G0).
  destruct (conv_step_ok Pauli false acc x s0 m0 Ka Ta E0) as (m & r1 & _ & Km & Tm & Bm & _ & E1 & _ & (Kr & Tr & An & _) & _).
  cbn [rfold] in E. rewrite E1 in E. cbn [rbind] in E. refine (IH _ r1 r Kr _ _ E); [intros; apply H; right; auto | congruence |].
  intros s Hs. destruct (append_new_from _ _ _ An s Hs) as [Hs'|Hs']; auto. rewrite Bm in Hs'. apply (terms_strings m0 K0) in Hs'. destruct Hs' as (y & Hy). apply (G0 y s Hy).
Qed.
Lemma combined_real n u ts : (forall t, In t ts -> im (fst t) = 0%Qc /\ hermitian_string n (snd t)) -> forall c, combined Pauli false u ts c -> im c = 0%Qc.
Proof.
  intros H c Hc. induction Hc as [|x s ts o c d Eo Hc Hd IH]; [reflexivity|]. destruct (H (x, s) (or_introl eq_refl)) as [Rx Hs]. cbn [fst snd] in *.
  destruct (string_result n s Hs) as (r & Er & _ & G). cbn [convert] in Eo. rewrite Er in Eo. injection Eo as <-. apply real_add; [apply real_mul; auto | apply IH; intros; apply H; right; auto].
  destruct Hc as [(t & Hin & _)|[-> _]]; [apply (G c t Hin) | reflexivity].
Qed.
Theorem convert_hermitian n o : hermitian_operator n o -> exists r, convert (COperator o) Pauli false = Ok r /\ on_spins n r /\ (forall z, In z (o_coeffs r) -> gconj z = z).
Proof.
  intros (Hm & Hr & Hs). apply made_ok in Hm. destruct (conv_linear o Pauli false Hm) as [L1 L2].
  assert (Ht : forall t, In t (op_terms o) -> im (fst t) = 0%Qc /\ hermitian_string n (snd t)).
  { intros [x s] Hx. split; [apply Hr; exact (in_combine_l _ _ _ _ Hx) | apply Hs; exact (in_combine_r _ _ _ _ Hx)]. }
  assert (Ex : exists r, convert (COperator o) Pauli false = Ok r).
  { apply L1. intros t Hin. destruct (string_result n (snd t) (proj2 (Ht t Hin))) as (r & E & _). exists r. auto. }
  destruct Ex as (r & E). destruct (L2 r E) as (Kr & Tr & Hc). exists r. split; auto. split.
  - split; [apply made_ok; auto|]. destruct (op_empty Pauli) as (z & Ez & Hz & Tz & Nz). cbn [convert] in E. rewrite (conv_operator_eq o Pauli false z Hm Ez) in E.
    refine (fold_strings n (op_terms o) (fun t Hin => proj2 (Ht t Hin)) z r Hz Tz _ E). intros s Hin. rewrite <- (op_terms_snd z Hz), Nz in Hin. destruct Hin.
  - intros c Hin. apply conj_real. apply In_nth_error in Hin. destruct Hin as (i & Hi).
    assert (Li : i < length (b_strings (o_basis r))) by (destruct Kr as (_ & <- & _); apply nth_error_Some; congruence).
    destruct (nth_error (b_strings (o_basis r)) i) as [u|] eqn:Eu; [|apply nth_error_None in Eu; lia].
    apply (combined_real n u (op_terms o) Ht). apply Hc. apply (has_coeff_at r u Kr i u Eu (same_key_refl u) c). auto.
Qed.
