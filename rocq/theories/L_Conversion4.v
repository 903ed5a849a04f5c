(** Conversion of Majorana and Fermion strings in terms of their documented forms, and of
    the cluster bases. *)
From Coq Require Import List Arith Lia ZArith Bool Setoid Morphisms Sorted Permutation Qcanon.
From Verif Require Import GC Exn S_Alg S_Den S_Basis S_Built S_Conv S_Cluster M_OpString M_Tools M_Algebra M_Basis M_Cluster M_OpAlg M_Conversion
  L_Alg L_Module L_StrAlg L_Basis L_Operator L_PropTools L_PropStr L_Struct L_VSum L_ConvAlg L_ConvMaj2 L_ConvFerm L_JW2 L_ConvLin L_Conversion L_Conversion2
  L_Conversion3 L_ConvMat L_Cluster L_Distance.
Import ListNotations.
Local Open Scope nat_scope.
Local Open Scope alg_scope.

Definition documented (s : OS) (q : GC * OS) : Prop :=
  exists I J, fermion_form I J (snd q) /\ increasing I /\ increasing J /\ (length J <= length I)%nat /\
    (forall l, In l I \/ In l J -> In l (os_labels s)) /\
    (I <> J -> im (fst q) = 0%Qc).

Lemma compare_length I J : (0 <= compare I J)%Z -> (length J <= length I)%nat.
Proof. unfold compare. destruct (Nat.ltb_spec (length I) (length J)); lia. Qed.
Lemma letters_labels s x : In x (map snd (letters s)) -> In x (os_labels s).
Proof. unfold letters. intros H. apply in_map_iff in H. destruct H as ([o l] & <- & H). apply in_combine_r in H. exact H. Qed.

Theorem majorana_fermion_proof s : string_ok Majorana s -> exists o1 o0 k,
  convert (CString s) Fermion true = Ok o1 /\ convert (CString s) Fermion false = Ok o0 /\
  op_ok o1 /\ op_ok o0 /\ o_type o1 = Fermion /\ o_type o0 = Fermion /\
  op_terms o0 = without_identity (op_terms o1) /\
  (forall q, In q (op_terms o1) -> documented s q) /\
  (forall (A : StarAlg) (c : Z -> A), CAR A c ->
     means c (op_terms o1) == den (gmaj c) s /\ means c (op_terms o0) + k · aone == den (gmaj c) s).
Proof.
  intros Hs. destruct (maj_conv s Hs) as (ts & Hc & Hg & Hm).
  destruct (Hc true) as (o1 & E1 & K1 & T1 & R1). destruct (Hc false) as (o0 & E0 & K0 & T0 & R0).
  destruct (without_means ts) as (k & Hk). exists o1, o0, k.
  assert (Et : os_type s = Majorana) by apply Hs.
  split; [cbn [convert]; unfold convert_string; rewrite Et; exact E1|].
  split; [cbn [convert]; unfold convert_string; rewrite Et; exact E0|].
  do 4 (split; auto). split; [congruence|]. split.
  - rewrite R1. intros q Hq. destruct (Hg q Hq) as (f & I & J & Eq & Hf & SI & SJ & Hcmp & _ & Hl & Him).
    exists I, J. rewrite Eq. split; [|split; [|split; [|split; [|split]]]]; auto.
    + split; [reflexivity|]. split; [reflexivity|]. split; [reflexivity|]. destruct Hf as [->| ->]; auto.
    + apply compare_length; auto.
    + intros l Hx. apply letters_labels, Hl; auto.
    + intros N. destruct Him; [auto|contradiction].
  - intros A c HC. split; [rewrite R1; apply Hm; auto|]. rewrite R0, <- (Hk A c). apply Hm; auto.
Qed.

Theorem fermion_majorana_proof s I J incl : fermion_form I J s -> NoDup I -> NoDup J -> (I = J \/ (orbitals I J <= 51)%nat) ->
  (produces I J (pval (os_pref s)) incl -> exists o k,
     convert (CString s) Majorana incl = Ok o /\ op_ok o /\ o_type o = Majorana /\ (incl = true -> k = g0) /\
     (forall x t, In (x, t) (op_terms o) -> string_ok Majorana t /\ canonical t /\
        (forall l, In l (os_labels t) -> In l I \/ In l J) /\ (I <> J -> im x = 0%Qc)) /\
     (forall (A : StarAlg) (c : Z -> A), CAR A c -> means c (op_terms o) + k · aone == fden c s)) /\
  (~ produces I J (pval (os_pref s)) incl ->
     convert (CString s) Majorana incl = Err ValueError /\
     (incl = true -> forall (A : StarAlg) (c : Z -> A), CAR A c -> fden c s == azero)).
Proof.
  intros F NI NJ Hn. assert (Et : os_type s = Fermion) by apply F.
  destruct (ferm_conv s I J F NI NJ Hn) as (ts & Hc & Hg & Hm). split.
  - intros Hp. destruct (Hc incl Hp) as (o & E & K & T & R). destruct (without_means ts) as (k & Hk).
    exists o, (if incl then g0 else k). split; [cbn [convert]; unfold convert_string; rewrite Et; exact E|].
    split; auto. split; auto. split; [intros ->; auto|]. split.
    + intros x t Hin. assert (Hin' : In (x, t) ts) by (rewrite R in Hin; destruct incl; auto; apply filter_In in Hin; tauto).
      destruct (Hg _ Hin') as (G1 & G2 & G3 & _ & G5). cbn [fst snd] in *. auto.
    + intros A c HC. rewrite R. destruct incl.
      * rewrite (Hm A c HC), ascal_0. apply aadd_0_r.
      * rewrite <- (Hk A c). apply Hm; auto.
  - intros Hp. split.
    + cbn [convert]. unfold convert_string. rewrite Et. apply (ferm_conv_none s I J F NI NJ Hn); auto.
    + intros -> A c HC. apply (ferm_conv_zero s I J F NI NJ Hn); auto.
Qed.
(* ------------------------------------------------------- cluster bases *)


Lemma compare_two (I J : list Z) m ls : NoDup ls -> length ls = m -> (m <= 2)%nat -> increasing I -> increasing J ->
  (forall l, In l I \/ In l J -> In l ls) -> (0 <= compare I J)%Z -> I <> J ->
  increasing (rev J) /\ ((length J < length I)%nat \/ length J = length I /\ lex_before (rev J) I).
Proof.
  intros Nl Hl Hm SI SJ Hsub Hc HN.
  assert (LI : (length I <= m)%nat).
  { rewrite <- Hl. apply NoDup_incl_length; [apply sorted_nodup; auto | intros x Hx; apply Hsub; auto]. }
  assert (Hlen := compare_length _ _ Hc).
  assert (LJ : (length J <= 1)%nat).
  { destruct (le_lt_dec (length J) 1) as [|Hj]; auto. exfalso. apply HN. apply sorted_perm_eq; auto.
    apply NoDup_Permutation_bis; [apply sorted_nodup; auto | lia |].
    assert (P : Permutation J ls).
    { apply NoDup_Permutation_bis; [apply sorted_nodup; auto | lia | intros x Hx; apply Hsub; auto]. }
    intros x Hx. apply (Permutation_in x (Permutation_sym P)), Hsub; auto. }
  assert (ER : rev J = J) by (destruct J as [|a [|b J]]; [reflexivity|reflexivity|cbn [length] in LJ; lia]).
  rewrite ER. split; auto. destruct (Nat.eq_dec (length J) (length I)) as [El|]; [right|left; lia]. split; auto.
  destruct (compare_proof I J []) as (C1 & _ & C3 & C4 & _). destruct (compare_proof J I []) as (_ & _ & _ & D4 & D5).
  assert (compare J I = -1)%Z.
  { assert (compare I J <> 0)%Z by (intros E; apply C3 in E; auto). destruct D5 as [?|[?|?]]; lia. }
  apply D4 in H. destruct H as [?|(_ & p & x & y & a' & b' & E1 & E2 & L)]; [lia|].
  exists p, x, y, a', b'. auto.
Qed.

Theorem cluster_convert n labels : NoDup labels -> (0 <= n)%Z -> (n <= 2)%Z \/ (length labels <= 2)%nat ->
  exists bM bF, cluster_basis (KInt n) labels Majorana false = Ok bM /\ cluster_basis (KInt n) labels Fermion false = Ok bF /\
    (forall s, In s (b_strings bM) -> exists o, convert (CString s) Fermion false = Ok o /\
       forall x t, In (x, t) (op_terms o) -> In t (b_strings bF)) /\
    (forall tol, b_strings bM <> [] -> exists M, conversion_matrix tol bM bF = Ok M).
Proof.
  intros Nl H0 H2.
  destruct (cluster_proof (KInt n) labels Majorana false Nl H0) as (bM & EM & BM & NM & IM & _).
  destruct (cluster_proof (KInt n) labels Fermion false Nl H0) as (bF & EF & BF & NF & IF_ & _).
  exists bM, bF. split; auto. split; auto.
  assert (Hall : forall s, In s (b_strings bM) -> exists o, convert (CString s) Fermion false = Ok o /\
       (forall x t, In (x, t) (op_terms o) -> In t (b_strings bF))).
  { intros s Hs. apply IM in Hs. destruct Hs as [[? _]|[(So & Ca & Ne & Nu) Hin]]; [discriminate|]. cbn [num_ok] in Nu.
    destruct (maj_conv s So) as (ts & Hc & Hg & _). destruct (Hc false) as (o & Eo & _ & _ & R).
    exists o. split; [cbn [convert]; unfold convert_string; replace (os_type s) with Majorana by (symmetry; apply So); exact Eo|].
    intros x t Hx. rewrite R in Hx. apply filter_In in Hx. destruct Hx as [Hx Hid]. cbn [snd] in Hid.
    destruct (Hg _ Hx) as (f & I & J & Eq & Hf & SI & SJ & Hcmp & Hone & Hl & _). cbn [snd] in Eq. subst t.
    assert (Nls : NoDup (os_labels s)) by apply So.
    assert (Hl' : forall l, In l I \/ In l J -> In l (os_labels s)) by (intros l X; apply letters_labels, Hl; auto).
    assert (LI : (length I <= length (os_labels s))%nat).
    { apply NoDup_incl_length; [apply sorted_nodup; auto | intros y Hy; apply Hl'; auto]. }
    assert (Ls : (length (os_labels s) <= 2)%nat).
    { destruct H2 as [H2|H2]; [lia|]. etransitivity; [apply NoDup_incl_length; [exact Nls | exact Hin]|auto]. }
    apply IF_. right. split.
    - exists I, (rev J), f. split; [unfold FS; rewrite rev_length; reflexivity|]. split; auto. split.
      { intros ->. apply compare_length in Hcmp. destruct J; [|cbn [length] in Hcmp; lia]. discriminate. }
      split; [cbn [num_ok]; lia|].
      destruct (list_eq_dec Z.eq_dec I J) as [EI|NE]; [left; subst; auto|right].
      destruct (compare_two I J _ (os_labels s) Nls eq_refl Ls SI SJ Hl' Hcmp NE) as (A1 & A2).
      split; auto. split; auto. rewrite rev_length. exact A2.
    - cbn [FS os_labels]. intros y Hy. apply Hin, Hl'. apply in_app_or in Hy. destruct Hy as [Hy|Hy]; auto. right. apply in_rev; auto. }
  split; auto. intros tol Hne.
  assert (NFe : b_strings bF <> []).
  { destruct (b_strings bM) as [|s r] eqn:Eb; [congruence|].
    assert (Hs : In s (b_strings bM)) by (rewrite Eb; left; auto).
    destruct (proj1 (IM s) (or_introl eq_refl)) as [[? _]|[(So & Ca & Ne & Nu) Hin]]; [discriminate|].
    destruct (os_labels s) as [|l ls] eqn:El; [congruence|].
    assert (Hf : In (mkOS [OCDag; OC] [l; l] Fermion p_one) (b_strings bF)).
    { apply IF_. right. split.
      - exists [l], [l], p_one. split; [reflexivity|]. split; [repeat constructor|]. split; [discriminate|].
        split; [cbn [num_ok length] in *; lia|]. left. auto.
      - intros y Hy. apply Hin. cbn [os_labels] in Hy. destruct Hy as [<-|[<-|[]]]; left; auto. }
    intros E. rewrite E in Hf. destruct Hf. }
  destruct (b_strings bF) as [|t0 r] eqn:EbF; [congruence|].
  assert (T0 : os_type t0 = Fermion).
  { destruct (proj1 (IF_ t0) (or_introl eq_refl)) as [[? _]|[(f & b & p & E & _) _]]; [discriminate|]. rewrite E. reflexivity. }
  destruct (matrix_ok tol bM bF t0 r) as (M & E & _); [apply built_iff; auto | auto | auto | | exists M; exact E].
  intros s Hs. rewrite T0. destruct (Hall s Hs) as (o & Eo & Ho). exists o. split; auto.
  intros c u Hin _. exists u. split; [rewrite EbF; eapply Ho; eauto|]. repeat split; auto.
Qed.

(* ------------------------------------------------------- Jordan-Wigner *)

Theorem pauli_majorana_proof s incl : string_ok Pauli s -> nonneg s -> exists o k m,
  convert (CString s) Majorana incl = Ok o /\ o_type o = Majorana /\ op_terms o = [(k, m)] /\ gmul k (gconj k) = g1 /\
  string_ok Majorana m /\ canonical m /\
  forall (A : StarAlg) (g : op -> Z -> A), rep Majorana g -> den (gpauli g) s == k · den g m.
Proof.
  intros Hs Hn. destruct (jw_from_pauli s Hs Hn) as (k & m & E & U & M1 & M2 & M3 & D).
  destruct (single_ok k m (Some Majorana)) as (o & Eo & _ & To & Ro). exists o, k, m.
  split; [|split; [rewrite To; apply M1|auto 6]].
  cbn [convert]. unfold convert_string. replace (os_type s) with Pauli by (symmetry; apply Hs). cbn [optype_eqb]. rewrite E. exact Eo.
Qed.
Theorem majorana_pauli_proof s incl : string_ok Majorana s -> nonneg s -> exists o k m,
  convert (CString s) Pauli incl = Ok o /\ o_type o = Pauli /\ op_terms o = [(k, m)] /\ gmul k (gconj k) = g1 /\
  string_ok Pauli m /\ canonical m /\
  (forall (A : StarAlg) (g : op -> Z -> A), rep Pauli g -> den (gmajw g) s == k · den g m) /\
  (forall (A : StarAlg) (g : op -> Z -> A), rep Majorana g -> den g s == k · den (gpauli g) m).
Proof.
  intros Hs Hn. destruct (jw_from_majorana s Hs Hn) as (k & m & E & U & M1 & M2 & M3 & D1 & D2).
  destruct (single_ok k m (Some Pauli)) as (o & Eo & _ & To & Ro). exists o, k, m.
  split; [|split; [rewrite To; apply M1|auto 8]].
  cbn [convert]. unfold convert_string. replace (os_type s) with Majorana by (symmetry; apply Hs). cbn [optype_eqb]. rewrite E. exact Eo.
Qed.

Definition tol_16 : Qc := Q2Qc (QArith_base.Qmake 1 10000000000000000).
Definition ex_aad : OS := mkOS [OA; OA; OD] [1; 2; 3]%Z Majorana p_j.
Definition ex_term : OS := mkOS [OCDag; OCDag; OC; OC] [2; 3; 3; 1]%Z Fermion p_j.
Definition bases3 : res (Basis * Basis) :=
  let! a := cluster_basis (KInt 3) [1; 2; 3]%Z Majorana false in
  let! b := cluster_basis (KInt 3) [1; 2; 3]%Z Fermion false in Ok (a, b).
Lemma cluster_convert_fails : exists bM bF s o x t, cluster_basis (KInt 3) [1; 2; 3]%Z Majorana false = Ok bM /\
  cluster_basis (KInt 3) [1; 2; 3]%Z Fermion false = Ok bF /\
  In s (b_strings bM) /\ convert (CString s) Fermion false = Ok o /\ In (x, t) (op_terms o) /\ ~ In t (b_strings bF) /\
  conversion_matrix tol_16 bM bF = Err KeyError.
Proof.
  destruct (cluster_basis (KInt 3) [1; 2; 3]%Z Majorana false) as [bM|] eqn:EM; [|vm_compute in EM; discriminate].
  destruct (cluster_basis (KInt 3) [1; 2; 3]%Z Fermion false) as [bF|] eqn:EF; [|vm_compute in EF; discriminate].
  destruct (convert (CString ex_aad) Fermion false) as [o|] eqn:Eo; [|vm_compute in Eo; discriminate].
  exists bM, bF, ex_aad, o, (gz 2), ex_term.
  split; auto. split; auto. split.
  { vm_compute in EM. injection EM as <-. cbn [b_strings]. repeat (try (left; reflexivity); right). }
  split; [exact Eo|]. split.
  { vm_compute in Eo. injection Eo as <-. unfold op_terms. cbn. left. reflexivity. }
  split.
  { intros H. apply (in_map os_labels) in H. vm_compute in EF. injection EF as <-. cbn in H. repeat destruct H as [H|H]; try discriminate H. destruct H. }
  vm_compute in EM, EF. injection EM as <-. injection EF as <-. vm_compute. reflexivity.
Qed.
