(** Conversion of Operators, round trips, conversion matrices. *)
From Coq Require Import List Arith Lia ZArith Bool Setoid Morphisms Sorted Permutation Qcanon.
From Verif Require Import GC Exn S_Alg S_Den S_Basis S_Conv S_Fock M_OpString M_Algebra M_Basis M_OpAlg M_Conversion
  L_Alg L_Module L_StrAlg L_Basis L_Operator L_Fock L_Indep L_PropStr L_VSum L_ConvAlg L_ConvMaj2 L_ConvFerm L_JW2 L_ConvLin L_Conversion.
Import ListNotations.
Local Open Scope nat_scope.
Local Open Scope alg_scope.

(* ------------------------------------------------ meaning of converted Operators *)

Lemma conv_fold_means ty incl ts : forall acc, op_ok acc -> o_type acc = ty -> op_std acc ->
  (forall t, In t ts -> conv_dom (snd t) ty /\ conv_prod (snd t) ty incl /\ std (snd t)) ->
  exists r k, rfold (conv_step ty incl) ts acc = Ok r /\ op_ok r /\ o_type r = ty /\ op_std r /\ (incl = true -> k = g0) /\
    (forall (A : StarAlg) (c : Z -> A), CAR A c -> means c (op_terms acc) + means c ts == means c (op_terms r) + k · aone).
Proof.
  induction ts as [|[x s] ts IH]; intros acc Ha Ht Hst Hall.
  - exists acc, g0. split; [reflexivity|]. split; auto. split; auto. split; auto. split; auto. intros A c _.
    rewrite ascal_0. reflexivity.
  - destruct (Hall (x, s) (or_introl eq_refl)) as (Hd & Hp & Hs). cbn [snd] in Hd, Hp, Hs.
    destruct (conv_string_denotes s ty incl Hd Hp) as (n & k & En & Hn & Tn & Hk & Sn & Mn). specialize (Sn Hs).
    destruct (conv_step_ok ty incl acc x s n Ha Ht En) as (m & r & Em & Hm & Tm & Bm & Cm & Er & Eadd & (Hr & Tr & Hap & Hsum) & Hc).
    assert (Sm : op_std m) by (intros u Hu; apply Sn; rewrite <- Bm; auto).
    assert (Sr : op_std r).
    { intros u Hu. destruct (append_new_in _ _ _ Hap u Hu); auto. }
    destruct (IH r Hr) as (r' & k' & Er' & Hr' & Tr' & Sr' & Hk' & Mr'); [congruence | auto | intros; apply Hall; right; auto |].
    exists r', (gadd (gmul x k) k'). cbn [rfold]. rewrite Er. cbn [rbind]. split; auto. split; auto. split; auto. split; auto. split.
    { intros Ei. rewrite (Hk Ei), (Hk' Ei). ring. }
    intros A c Hcar. rewrite (means_vsum c ((x, s) :: ts)), vsum_cons, (Mn A c Hcar), <- (means_vsum c ts).
    assert (E1 : means c (op_terms r) == means c (op_terms acc) + x · means c (op_terms n)).
    { rewrite !means_vsum. rewrite (op_add_vsum (meaning c) acc m r Ha Hm Hst Sm); [|congruence|auto].
      rewrite (scaled_terms x n m Bm Cm). unfold scaled. rewrite vsum_scal. reflexivity. }
    pose proof (Mr' A c Hcar) as E2. rewrite E1 in E2.
    transitivity ((means c (op_terms acc) + x · means c (op_terms n) + means c ts) + gmul x k · aone).
    { msolve [means c (op_terms acc); means c (op_terms n); means c ts; aone : A]; ring. }
    rewrite E2. msolve [means c (op_terms r'); aone : A]; ring.
Qed.

Theorem conv_operator_denotes o ty incl : op_ok o -> op_std o ->
  (forall s, In s (b_strings (o_basis o)) -> conv_dom s ty /\ conv_prod s ty incl) -> exists r k,
  convert (COperator o) ty incl = Ok r /\ op_ok r /\ o_type r = ty /\ op_std r /\ (incl = true -> k = g0) /\
  (forall (A : StarAlg) (c : Z -> A), CAR A c -> means c (op_terms o) == means c (op_terms r) + k · aone).
Proof.
  intros Ho Hs Hall. destruct (op_empty ty) as (z & Ez & Hz & Tz & Nz). cbn [convert].
  rewrite (conv_operator_eq o ty incl z Ho Ez).
  assert (Sz : op_std z).
  { intros s Hin. rewrite <- (op_terms_snd z Hz), Nz in Hin. destruct Hin. }
  destruct (conv_fold_means ty incl (op_terms o) z Hz Tz Sz) as (r & k & Er & Hr & Tr & Sr & Hk & M).
  - intros t Ht. assert (Hin : In (snd t) (b_strings (o_basis o))) by (rewrite <- (op_terms_snd o Ho); apply in_map; auto).
    destruct (Hall (snd t) Hin). auto.
  - exists r, k. do 5 (split; auto). intros A c Hc. rewrite <- (M A c Hc), Nz. unfold means at 2. cbn. symmetry. apply aadd_0_l.
Qed.

(* ------------------------------------------------ same type *)

Lemma terms_ext o r : op_ok o -> op_ok r -> b_strings (o_basis o) = b_strings (o_basis r) ->
  (forall u c, has_coeff (op_terms o) u c -> has_coeff (op_terms r) u c) -> o_coeffs o = o_coeffs r.
Proof.
  intros Ho Hr Eb H. apply nth_ext with (d := g0) (d' := g0).
  - destruct Ho as (_ & -> & _), Hr as (_ & -> & _). congruence.
  - intros i Hi. assert (Hi' : i < length (b_strings (o_basis o))) by (destruct Ho as (_ & <- & _); auto).
    destruct (nth_len _ i Hi') as (s & Hs). destruct (nth_len _ i Hi) as (c & Hc).
    pose proof (proj2 (has_coeff_at o s Ho i s Hs (same_key_refl s) c) Hc) as H1. apply H in H1.
    rewrite Eb in Hs. apply (has_coeff_at r s Hr i s Hs (same_key_refl s) c) in H1.
    rewrite (nth_error_nth _ _ _ Hc), (nth_error_nth _ _ _ H1). reflexivity.
Qed.

Lemma single_coeff k s u c : has_coeff [(k, s)] u c -> (same_key s u /\ c = k) \/ (~ same_key s u /\ c = g0).
Proof.
  intros [(t & [E|[]] & K)|[-> N]].
  - injection E as -> ->. auto.
  - right. split; auto. apply (N k s). left; auto.
Qed.
Lemma distinct_cons s l : distinct_keys (s :: l) -> distinct_keys l /\ forall t, In t l -> ~ same_key s t.
Proof.
  intros H. change (s :: l) with ([s] ++ l) in H. apply distinct_app in H. destruct H as (_ & H & N). split; auto.
  intros t Ht K. apply (N s t); simpl; auto.
Qed.
Lemma combined_same ty incl u ts c : (forall t, In t ts -> os_type (snd t) = ty) -> distinct_keys (map snd ts) ->
  combined ty incl u ts c -> has_coeff ts u c.
Proof.
  intros Hall D H. induction H as [|x s ts o c d E Hc H IH].
  - right. split; auto.
  - cbn [convert] in E. rewrite (conv_same s ty incl (Hall (x, s) (or_introl eq_refl))) in E.
    destruct (single_ok g1 s None) as (o' & E' & _ & _ & HT). rewrite E in E'. injection E' as <-. rewrite HT in Hc.
    cbn [map snd] in D. apply distinct_cons in D. destruct D as [D N].
    specialize (IH (fun t Ht => Hall t (or_intror Ht)) D).
    destruct (single_coeff _ _ _ _ Hc) as [[K ->]|[K ->]].
    + left. exists s. split; auto. left. f_equal. destruct IH as [(t & Ht & Kt)|[-> _]]; [|ring].
      exfalso. apply (N t); [apply (in_map snd) in Ht; auto|]. eapply same_key_trans; eauto. apply same_key_sym; auto.
    + replace (gadd (gmul x g0) d) with d by ring. destruct IH as [(t & Ht & Kt)|[-> N']].
      * left. exists t. split; auto. right; auto.
      * right. split; auto. intros e t [E1|Ht]; [injection E1 as <- <-; auto|eauto].
Qed.
Lemma conv_fold_same ty incl ts : forall acc, op_ok acc -> o_type acc = ty ->
  (forall t, In t ts -> os_type (snd t) = ty) -> distinct_keys (b_strings (o_basis acc) ++ map snd ts) ->
  exists r, rfold (conv_step ty incl) ts acc = Ok r /\ b_strings (o_basis r) = b_strings (o_basis acc) ++ map snd ts.
Proof.
  induction ts as [|[x s] ts IH]; intros acc Ha Ht Hall D.
  - exists acc. split; auto. rewrite app_nil_r; auto.
  - destruct (single_ok g1 s None) as (n & En & Hn & Tn & HT).
    rewrite <- (conv_same s ty incl (Hall (x, s) (or_introl eq_refl))) in En.
    destruct (conv_step_ok ty incl acc x s n Ha Ht En) as (m & r & Em & Hm & Tm & Bm & Cm & Er & Eadd & (Hr & Tr & Hap & Hsum) & Hc).
    assert (Bs : b_strings (o_basis r) = b_strings (o_basis acc) ++ [s]).
    { rewrite Bm, <- (op_terms_snd n Hn), HT in Hap. cbn [map snd] in Hap.
      eapply append_new_fun; [exact Hap|]. apply an_take; [|constructor].
      intros (t & Ht' & K). apply distinct_app in D. destruct D as (_ & _ & N). apply (N t s); auto. left; auto. }
    destruct (IH r Hr) as (r' & Er' & B').
    + congruence.
    + intros; apply Hall; right; auto.
    + rewrite Bs, <- app_assoc. exact D.
    + exists r'. cbn [rfold]. rewrite Er. cbn [rbind]. split; auto. rewrite B', Bs, <- app_assoc. reflexivity.
Qed.
Theorem conv_operator_same o incl : op_ok o -> (forall s, In s (b_strings (o_basis o)) -> os_type s = o_type o) ->
  convert (COperator o) (o_type o) incl = Ok o.
Proof.
  intros Ho Hall. destruct (op_empty (o_type o)) as (z & Ez & Hz & Tz & Nz).
  assert (Hall' : forall t, In t (op_terms o) -> os_type (snd t) = o_type o).
  { intros t Ht. apply Hall. rewrite <- (op_terms_snd o Ho). apply in_map; auto. }
  assert (Bz : b_strings (o_basis z) = []) by (rewrite <- (op_terms_snd z Hz), Nz; reflexivity).
  assert (Dk : distinct_keys (map snd (op_terms o))) by (rewrite (op_terms_snd o Ho); apply Ho).
  destruct (conv_fold_same (o_type o) incl (op_terms o) z Hz Tz Hall') as (r & Er & Br).
  { rewrite Bz. exact Dk. }
  rewrite Bz in Br. cbn [app] in Br. rewrite (op_terms_snd o Ho) in Br.
  assert (E : convert (COperator o) (o_type o) incl = Ok r) by (cbn [convert]; rewrite (conv_operator_eq o _ incl z Ho Ez); auto).
  rewrite E. f_equal. destruct (proj2 (conv_linear o (o_type o) incl Ho) r E) as (Hr & Tr & Hco).
  assert (Ec : o_coeffs r = o_coeffs o).
  { apply terms_ext; auto. intros u c Hc. apply Hco in Hc. eapply combined_same; eauto. }
  assert (Eb : o_basis r = o_basis o) by (apply basis_ok_eq; [apply Hr | apply Ho | auto]).
  destruct o, r; cbn in *. congruence.
Qed.

(* ------------------------------------------------ through Majorana strings *)

Lemma combined_map ty incl u ts us : Forall2 (fun t q => exists k, jordan_wigner (snd t) = Ok (k, snd q) /\ os_type (snd t) = Majorana /\ fst q = gmul k (fst t)) ts us ->
  distinct_keys (map snd us) -> ty = Pauli -> forall c, combined ty incl u ts c -> has_coeff us u c.
Proof.
  intros F D -> c H. revert c H. induction F as [|[x s] [y v] ts us (k & E & Et & Ey) F IH]; intros c H; inversion H; subst.
  - right. split; auto.
  - cbn [fst snd] in *. cbn [convert] in *.
    assert (Ec : convert_string s Pauli incl = op_of_terms [(k, v)] (Some Pauli)).
    { unfold convert_string. rewrite Et. cbn [optype_eqb]. rewrite E. reflexivity. }
    destruct (single_ok k v (Some Pauli)) as (o' & E' & _ & _ & HT).
    match goal with X : convert_string s Pauli incl = Ok ?o |- _ => rewrite Ec, E' in X; injection X as <- end.
    match goal with X : has_coeff (op_terms o') u ?z |- _ => rewrite HT in X; rename X into Hc; rename z into c0 end.
    cbn [map snd] in D. apply distinct_cons in D. destruct D as [D N].
    match goal with X : combined Pauli incl u ts ?z |- _ => pose proof (IH D z X) as IHd; rename z into d0 end.
    destruct (single_coeff _ _ _ _ Hc) as [[K ->]|[K ->]].
    + left. exists v. split; auto. left. f_equal. destruct IHd as [(t & Ht & Kt)|[-> _]]; [|rewrite Ey; ring].
      exfalso. apply (N t); [apply (in_map snd) in Ht; auto|]. eapply same_key_trans; eauto. apply same_key_sym; auto.
    + replace (gadd (gmul x g0) d0) with d0 by ring. destruct IHd as [(t & Ht & Kt)|[-> N']].
      * left. exists t. split; auto. right; auto.
      * right. split; auto. intros e t [E1|Ht]; [injection E1 as <- <-; auto|eauto].
Qed.
Theorem fermion_pauli_route s incl o : os_type s = Fermion -> convert (CString s) Pauli incl = Ok o ->
  exists m r, convert (CString s) Majorana incl = Ok m /\ convert (COperator m) Pauli incl = Ok r /\
    forall u c, has_coeff (op_terms o) u c <-> has_coeff (op_terms r) u c.
Proof.
  intros Es. cbn [convert]. unfold convert_string at 1 2. rewrite Es. cbn [optype_eqb].
  destruct (convert_fermion_string s incl) as [m|e] eqn:E; [|discriminate]. cbn [rbind].
  destruct (rmap _ _) as [ts|e] eqn:Et; [|discriminate]. cbn [rbind]. intros H. apply op_of_terms_inv in H.
  destruct H as (Ho & HT & D & _). destruct (conv_ferm_shape s incl m E) as (Hm & Tm & Hall). exists m.
  apply rmap_ok in Et.
  assert (F : Forall2 (fun t q => exists k, jordan_wigner (snd t) = Ok (k, snd q) /\ os_type (snd t) = Majorana /\ fst q = gmul k (fst t)) (op_terms m) ts).
  { clear - Et Hall. induction Et as [|t q l l' Hx H IH]; constructor.
    - destruct (jordan_wigner (snd t)) as [[k u]|e] eqn:E; [|discriminate]. cbn [rbind] in Hx. injection Hx as <-.
      exists k. cbn. split; auto. split; auto. apply Hall. left; auto.
    - apply IH. intros; apply Hall; right; auto. }
  assert (Hsome : forall t, In t (op_terms m) -> exists n, convert (CString (snd t)) Pauli incl = Ok n).
  { intros t Ht. clear - F Ht. induction F as [|t' q l l' (k & E & Et & _) F IH]; [destruct Ht|]. destruct Ht as [<-|Ht]; auto.
    cbn [convert]. unfold convert_string. rewrite Et. cbn [optype_eqb]. rewrite E. cbn [rbind].
    destruct (single_ok k (snd q) (Some Pauli)) as (o' & E' & _). exists o'. auto. }
  destruct (conv_linear m Pauli incl Hm) as [[_ H1] H2]. destruct (H1 Hsome) as (r & Er). exists r. split; auto. split; auto.
  destruct (H2 r Er) as (Hr & _ & Hco).
  assert (K : forall u c, has_coeff (op_terms r) u c -> has_coeff (op_terms o) u c).
  { intros u c Hc. rewrite HT. apply Hco in Hc. eapply combined_map; eauto. }
  intros u c. split; auto. intros Hc. destruct (has_coeff_total r u Hr) as (d & Hd).
  rewrite (has_coeff_fun o u c d Ho Hc (K u d Hd)). auto.
Qed.
Theorem pauli_fermion_route s incl o : os_type s = Pauli -> convert (CString s) Fermion incl = Ok o ->
  exists m r, convert (CString s) Majorana incl = Ok m /\ convert (COperator m) Fermion incl = Ok r /\
    forall u c, has_coeff (op_terms o) u c <-> has_coeff (op_terms r) u c.
Proof.
  intros Es. cbn [convert]. unfold convert_string at 1 2. rewrite Es. cbn [optype_eqb].
  destruct (jordan_wigner s) as [[k m]|e] eqn:E; [|discriminate]. cbn [rbind].
  destruct (convert_majorana_string m incl) as [f|e] eqn:Ef; [|discriminate]. cbn [rbind]. intros H.
  destruct (conv_maj_shape m incl f Ef) as [Hf Tf].
  destruct (op_scale_ok k f Hf) as (o' & Eo & Ho & To & Bo & Co & Hso). rewrite Eo in H. injection H as ->.
  destruct (single_ok k m (Some Majorana)) as (om & Em & Hom & Tom & HTm). exists om.
  assert (Tm : os_type m = Majorana) by (destruct (jordan_wigner_type s k m E) as [[A B]|[A B]]; congruence).
  assert (Ec : convert (CString m) Fermion incl = Ok f) by (cbn [convert]; unfold convert_string; rewrite Tm; auto).
  destruct (conv_linear om Fermion incl Hom) as [[_ H1] H2]. destruct H1 as (r & Er).
  { rewrite HTm. intros t [<-|[]]. exists f. auto. }
  exists r. split; auto. split; auto. destruct (H2 r Er) as (Hr & _ & Hco).
  assert (K : forall u c, has_coeff (op_terms r) u c -> has_coeff (op_terms o) u c).
  { intros u c Hc. apply Hco in Hc. rewrite HTm in Hc. inversion Hc as [|x s' ts o1 c1 d1 E1 Hc1 Hd1]; subst.
    rewrite Ec in E1. injection E1 as <-. inversion Hd1; subst. replace (gadd (gmul k c1) g0) with (gmul k c1) by ring. auto. }
  intros u c. split; auto. intros Hc. destruct (has_coeff_total r u Hr) as (d & Hd).
  rewrite (has_coeff_fun o u c d Ho Hc (K u d Hd)). auto.
Qed.
