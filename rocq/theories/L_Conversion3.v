(** Round trips and conversion matrices. *)
From Coq Require Import List Arith Lia ZArith Bool Setoid Morphisms Sorted Permutation Qcanon.
From Verif Require Import GC Exn S_Alg S_Den S_Basis S_Built S_OpAlg S_Conv S_Fock M_OpString M_Algebra M_Basis M_OpAlg M_Conversion
  L_Alg L_Module L_StrAlg L_Basis L_Operator L_Struct L_Sum L_OpAlg L_Commutant L_Fock L_Indep L_PropStr L_PropBasis L_VSum L_ConvAlg L_ConvMaj2 L_ConvFerm L_JW2 L_ConvLin L_Conversion L_Conversion2.
Import ListNotations.
Local Open Scope nat_scope.
Local Open Scope alg_scope.

(* ------------------------------------------------ one term *)

Lemma append_new_nil l : distinct_keys l -> append_new [] l l.
Proof.
  intros D. pose proof (append_new_filter [] l D (fun _ => false)) as H. cbn [app] in H.
  rewrite filter_all in H by auto. apply H. intros s. split; [discriminate|]. intros (t & [] & _).
Qed.
Lemma conv_single o k m ty incl n : op_ok o -> op_terms o = [(k, m)] -> convert_string m ty incl = Ok n ->
  exists r, convert (COperator o) ty incl = Ok r /\ op_ok r /\ o_type r = ty /\ op_terms r = scaled k (op_terms n).
Proof.
  intros Ho HT En. destruct (op_empty ty) as (z & Ez & Hz & Tz & Nz).
  destruct (conv_step_ok ty incl z k m n Hz Tz En) as (m' & r & Em & Hm & Tm & Bm & Cm & Er & Eadd & (Hr & Tr & Hap & Hsum) & Hc).
  exists r. cbn [convert]. rewrite (conv_operator_eq o ty incl z Ho Ez), HT. cbn [rfold]. rewrite Er. cbn [rbind].
  split; auto. split; auto. split; [congruence|].
  assert (Bz : b_strings (o_basis z) = []) by (rewrite <- (op_terms_snd z Hz), Nz; reflexivity).
  rewrite Bz in Hap. assert (Br : b_strings (o_basis r) = b_strings (o_basis m')).
  { eapply append_new_fun; [exact Hap|]. apply append_new_nil. apply Hm. }
  assert (Cr : o_coeffs m' = o_coeffs r).
  { apply terms_ext; auto. intros u c Hu. replace c with (gadd g0 c) by ring. apply Hsum; auto.
    right. split; auto. rewrite Nz. intros d t []. }
  rewrite <- (scaled_terms k n m' Bm Cm). unfold op_terms. rewrite Br, Cr. reflexivity.
Qed.

(* ------------------------------------------------ Pauli and Majorana *)

Theorem round_pauli s i1 i2 : string_ok Pauli s -> canonical s -> nonneg s -> exists o r,
  convert (CString s) Majorana i1 = Ok o /\ convert (COperator o) Pauli i2 = Ok r /\ op_terms r = [(g1, s)].
Proof.
  intros Hs Cs Ns. destruct (jw_from_pauli s Hs Ns) as (k & m & E & U & M1 & M2 & M3 & D).
  destruct (jw_from_majorana m M1 M3) as (k' & u & E' & U' & P1 & P2 & P3 & D' & _).
  destruct (single_ok k m (Some Majorana)) as (o & Eo & Ho & To & HT).
  destruct (single_ok k' u (Some Pauli)) as (n & En & Hn & Tn & HTn).
  exists o. destruct (conv_single o k m Pauli i2 n Ho HT) as (r & Er & _ & _ & HTr).
  { unfold convert_string. destruct M1 as (-> & _). cbn [optype_eqb]. rewrite E'. cbn [rbind]. exact En. }
  exists r. split; [|split; auto].
  - cbn [convert]. unfold convert_string. destruct Hs as (-> & _). cbn [optype_eqb]. rewrite E. cbn [rbind]. exact Eo.
  - rewrite HTr, HTn. cbn.
    destruct (labels_bound s Ns) as (N1 & B1 & L1), (labels_bound u P3) as (N2 & B2 & L2).
    set (N := Z.max N1 N2). assert (HN : (0 <= N)%Z) by (unfold N; lia).
    destruct (multiple_unique Pauli (gpl fock_gen N) g1 (gmul k' k) s u) as [Ek Eu]; auto.
    + apply gpauli_rep; auto. exact fock_majorana.
    + exact fock_nontrivial.
    + intros X. discriminate (f_equal re X).
    + rewrite (den_gpl fock_gen N s), (den_gpl fock_gen N u).
      * rewrite (D Fock fock_gen fock_majorana), (D' Fock fock_gen fock_majorana), !ascal_ascal. apply ascal_eq. ring.
      * intros x Hx. apply L2 in Hx. unfold N. lia.
      * intros x Hx. apply L1 in Hx. unfold N. lia.
    + rewrite <- Ek, Eu. reflexivity.
Qed.
Theorem round_majorana s i1 i2 : string_ok Majorana s -> canonical s -> nonneg s -> exists o r,
  convert (CString s) Pauli i1 = Ok o /\ convert (COperator o) Majorana i2 = Ok r /\ op_terms r = [(g1, s)].
Proof.
  intros Hs Cs Ns. destruct (jw_from_majorana s Hs Ns) as (k & m & E & U & M1 & M2 & M3 & D & _).
  destruct (jw_from_pauli m M1 M3) as (k' & u & E' & U' & P1 & P2 & P3 & D').
  destruct (single_ok k m (Some Pauli)) as (o & Eo & Ho & To & HT).
  destruct (single_ok k' u (Some Majorana)) as (n & En & Hn & Tn & HTn).
  exists o. destruct (conv_single o k m Majorana i2 n Ho HT) as (r & Er & _ & _ & HTr).
  { unfold convert_string. destruct M1 as (-> & _). cbn [optype_eqb]. rewrite E'. cbn [rbind]. exact En. }
  exists r. split; [|split; auto].
  - cbn [convert]. unfold convert_string. destruct Hs as (-> & _). cbn [optype_eqb]. rewrite E. cbn [rbind]. exact Eo.
  - rewrite HTr, HTn. cbn.
    destruct (multiple_unique Majorana fock_gen g1 (gmul k' k) s u) as [Ek Eu]; auto.
    + exact fock_majorana.
    + exact fock_nontrivial.
    + intros X. discriminate (f_equal re X).
    + rewrite (D Fock fock_gen fock_majorana), (D' Fock fock_gen fock_majorana), !ascal_ascal. apply ascal_eq. ring.
    + rewrite <- Ek, Eu. reflexivity.
Qed.

(* ------------------------------------------------ Majorana and Fermion *)

Definition maj_canonical (o : Operator) : Prop := forall s, In s (b_strings (o_basis o)) -> string_ok Majorana s /\ canonical s.

Lemma means_majorana {A : StarAlg} (c : Z -> A) o : maj_canonical o -> means c (op_terms o) == lincomb (gmaj c) (op_terms o).
Proof.
  intros H. unfold means, lincomb. apply asum_ext. intros [z t] Ht. cbn [fst snd].
  apply (in_combine_r (o_coeffs o)) in Ht. unfold meaning. destruct (H t Ht) as ((-> & _) & _). reflexivity.
Qed.

Lemma maj_zero o u c : op_ok o -> maj_canonical o -> means (cmaj fock_gen) (op_terms o) == azero ->
  has_coeff (op_terms o) u c -> c = g0.
Proof.
  intros Ho Hm Hz Hc. rewrite means_majorana in Hz by auto. unfold op_terms in Hz.
  apply (canonical_zero Majorana (gmaj (cmaj fock_gen)) (o_basis o) (o_coeffs o)) in Hz.
  - destruct Hc as [(t & Ht & _)|[-> _]]; auto. apply (in_map fst) in Ht. rewrite (op_terms_fst o Ho), Hz in Ht.
    apply repeat_spec in Ht. auto.
  - apply gmaj_rep. exact fock_car.
  - exact fock_nontrivial.
  - split; [apply built_iff; apply Ho|]. exact Hm.
  - apply Ho.
Qed.

Lemma conv_fold_strings ty incl (P : OS -> Prop) ts : forall acc r, op_ok acc -> o_type acc = ty ->
  (forall t n, In t ts -> convert_string (snd t) ty incl = Ok n -> forall u, In u (b_strings (o_basis n)) -> P u) ->
  (forall u, In u (b_strings (o_basis acc)) -> P u) ->
  rfold (conv_step ty incl) ts acc = Ok r -> forall u, In u (b_strings (o_basis r)) -> P u.
Proof.
  induction ts as [|[x s] ts IH]; intros acc r Ha Ht Hall Hacc E.
  - cbn in E. injection E as <-. auto.
  - pose proof (conv_fold_inv ty incl _ acc r Ha Ht E (x, s) (or_introl eq_refl)) as (n & En). cbn [snd] in En.
    destruct (conv_step_ok ty incl acc x s n Ha Ht En) as (m & r1 & Em & Hm & Tm & Bm & Cm & Er & Eadd & (Hr & Tr & Hap & Hsum) & Hc).
    cbn [rfold] in E. rewrite Er in E. cbn [rbind] in E. apply (IH r1 r Hr); auto; [congruence | |].
    + intros t n' Hin. apply Hall; right; auto.
    + intros u Hu. destruct (append_new_in _ _ _ Hap u Hu) as [H|H]; auto. rewrite Bm in H.
      apply (Hall (x, s) n); auto. left; auto.
Qed.

Lemma orbitals_le I J (l : list Z) : (forall x, In x I \/ In x J -> In x l) -> orbitals I J <= length l.
Proof.
  intros H. unfold orbitals. apply NoDup_incl_length; [apply NoDup_nodup|]. intros x Hx. apply nodup_In in Hx.
  apply in_app_or in Hx. auto.
Qed.
Lemma sorted_nodup (l : list Z) : StronglySorted Z.lt l -> NoDup l.
Proof.
  induction 1 as [|x l S IH F]; constructor; auto. rewrite Forall_forall in F. intros Hin. specialize (F x Hin). lia.
Qed.
Lemma sorted_perm_eq (l m : list Z) : StronglySorted Z.lt l -> StronglySorted Z.lt m -> Permutation l m -> l = m.
Proof.
  intros S. revert m. induction S as [|x l S IH F]; intros m Sm P.
  - apply Permutation_nil in P. auto.
  - destruct m as [|y m]; [apply Permutation_sym, Permutation_nil in P; discriminate|]. inversion Sm as [|? ? Sm' Fm]; subst.
    rewrite Forall_forall in F, Fm. assert (x = y).
    { assert (Hx : In x (y :: m)) by (eapply Permutation_in; [exact P | left; auto]).
      assert (Hy : In y (x :: l)) by (eapply Permutation_in; [symmetry; exact P | left; auto]).
      destruct Hx as [->|Hx]; auto. destruct Hy as [->|Hy]; auto. apply Fm in Hx. apply F in Hy. lia. }
    subst y. f_equal. apply IH; auto. eapply Permutation_cons_inv; eauto.
Qed.
Lemma form_unique I J I' J' s : fermion_form I J s -> fermion_form I' J' s -> I = I' /\ J = J'.
Proof.
  intros F F'. destruct (labels_of_form I J s F) as [<- <-], (labels_of_form I' J' s F') as [<- <-]. auto.
Qed.

Section Round.
  Variables (s : OS) (incl : bool).
  Hypothesis Hs : string_ok Majorana s.
  Hypothesis Cs : canonical s.
  Hypothesis Hlen : length (os_labels s) <= 51.

  Lemma good_dom w q : w = letters s -> good_term w q -> (os_ops (snd q) = [] -> incl = true) ->
    conv_dom (snd q) Majorana /\ conv_prod (snd q) Majorana incl.
  Proof.
    intros -> (f & I & J & -> & Hf & SI & SJ & _ & Hf' & Hl & _) Hid. pose proof (FS_form f I J Hf) as F.
    assert (Hls : map snd (letters s) = os_labels s).
    { unfold letters. destruct Hs as (_ & Hl1 & _). clear -Hl1. revert Hl1. generalize (os_ops s) (os_labels s).
      induction l as [|a l IH]; intros [|b m] E; cbn in *; try discriminate; auto. f_equal; auto. }
    split; [split|].
    - destruct F as (Et & F'). rewrite Et. exists I, J. split; [split; auto|]. split; [apply sorted_nodup; auto|]. split; [apply sorted_nodup; auto|].
      right. etransitivity; [|exact Hlen]. rewrite <- Hls. apply orbitals_le; auto.
    - intros _ [E|E]; [destruct F as (Et & _); congruence|discriminate].
    - intros _ _ I' J' F2. destruct (form_unique I J I' J' _ F F2) as [<- <-]. split.
      + intros -> ->. apply Hid. reflexivity.
      + destruct (list_eq_dec Z.eq_dec I J) as [E|NE]; auto. right. right. intros P. apply NE. apply sorted_perm_eq; auto.
  Qed.

  Definition is_id (t : OS) : Prop := os_ops t = [].

  Theorem round_fermion : exists o r,
    convert (CString s) Fermion incl = Ok o /\ convert (COperator o) Majorana incl = Ok r /\ op_ok r /\ o_type r = Majorana /\
    (forall t c, string_ok Majorana t -> canonical t -> (incl = true \/ os_ops t <> []) ->
       has_coeff (op_terms r) t c -> (t = s -> c = g1) /\ (t <> s -> c = g0)) /\
    (incl = false -> forall x t, In (x, t) (op_terms r) -> os_ops t <> []).
  Proof.
    destruct (maj_conv s Hs) as (ts & Hconv & Hg & Hm). destruct (Hconv incl) as (o & Eo & Ho & Ho' & HT).
    assert (Hterm : forall q, In q (op_terms o) -> good_term (letters s) q /\ (os_ops (snd q) = [] -> incl = true)).
    { intros q Hq. rewrite HT in Hq. destruct incl; [split; auto|]. apply filter_In in Hq. destruct Hq as [Hq Hn]. split; auto.
      intros E. rewrite E in Hn. discriminate. }
    assert (Eo' : convert (CString s) Fermion incl = Ok o).
    { cbn [convert]. unfold convert_string. destruct Hs as (-> & _). exact Eo. }
    assert (So : op_std o).
    { intros u Hu. rewrite <- (op_terms_snd o Ho) in Hu. apply in_map_iff in Hu. destruct Hu as (q & <- & Hq).
      destruct (Hterm q Hq) as ((f & I & J & -> & Hf & _) & _). apply FS_std; auto. }
    assert (Hdom : forall u, In u (b_strings (o_basis o)) -> conv_dom u Majorana /\ conv_prod u Majorana incl).
    { intros u Hu. rewrite <- (op_terms_snd o Ho) in Hu. apply in_map_iff in Hu. destruct Hu as (q & <- & Hq).
      destruct (Hterm q Hq). eapply good_dom; eauto. }
    destruct (conv_operator_denotes o Majorana incl Ho So Hdom) as (r & k & Er & Hr & Tr & Sr & Hk & M).
    assert (M0 : exists k0, (incl = true -> k0 = g0) /\
        forall (A : StarAlg) (c : Z -> A), CAR A c -> den (gmaj c) s == means c (op_terms o) + k0 · aone).
    { destruct incl.
      - exists g0. split; auto. intros A c Hc. rewrite HT, (Hm A c Hc), ascal_0. symmetry. apply aadd_0_r.
      - destruct (without_means ts) as (k0 & Hk0). exists k0. split; [discriminate|]. intros A c Hc.
        rewrite <- (Hm A c Hc), HT. apply Hk0. }
    destruct M0 as (k0 & Hk0 & M0).
    (* the strings of the result *)
    assert (HP : forall u, In u (b_strings (o_basis r)) -> (string_ok Majorana u /\ canonical u) /\ (incl = false -> os_ops u <> [])).
    { destruct (op_empty Majorana) as (z & Ez & Hz & Tz & Nz). cbn [convert] in Er.
      rewrite (conv_operator_eq o Majorana incl z Ho Ez) in Er.
      eapply (conv_fold_strings Majorana incl _ (op_terms o) z r Hz Tz); [| |exact Er].
      - intros t n Ht En u Hu. destruct (Hterm t Ht) as [(f & I & J & Ef & Hf & SI & SJ & _) Hid].
        assert (F : fermion_form I J (snd t)) by (rewrite Ef; apply FS_form; auto).
        destruct (good_dom (letters s) t eq_refl (proj1 (Hterm t Ht)) Hid) as [_ Hp].
        assert (Ef' : os_type (snd t) = Fermion) by apply F.
        specialize (Hp Ef' ltac:(discriminate) I J F).
        assert (Hlab : I = J \/ orbitals I J <= 51).
        { destruct (good_dom (letters s) t eq_refl (proj1 (Hterm t Ht)) Hid) as [[Hd _] _]. rewrite Ef' in Hd.
          destruct Hd as (I' & J' & F' & _ & _ & Hb). destruct (form_unique I J I' J' _ F F') as [-> ->]. exact Hb. }
        destruct (ferm_conv (snd t) I J F (sorted_nodup I SI) (sorted_nodup J SJ) Hlab) as (us & Hc & Hgm & _).
        destruct (Hc incl Hp) as (n' & En' & Hn' & _ & HTn). unfold convert_string in En. rewrite Ef' in En. cbn [optype_eqb] in En.
        rewrite En' in En. injection En as <-. rewrite <- (op_terms_snd n' Hn') in Hu. apply in_map_iff in Hu. destruct Hu as (q & <- & Hq).
        rewrite HTn in Hq. destruct incl.
        + destruct (Hgm q Hq) as (A1 & A2 & _). split; [auto|discriminate].
        + apply filter_In in Hq. destruct Hq as [Hq Hne]. destruct (Hgm q Hq) as (A1 & A2 & _). split; auto. intros _ E.
          rewrite E in Hne. discriminate.
      - intros u Hu. rewrite <- (op_terms_snd z Hz), Nz in Hu. destruct Hu. }
    exists o, r. split; auto. split; auto. split; auto. split; auto. split.
    2:{ intros Ei x t Ht. apply (in_map snd) in Ht. rewrite (op_terms_snd r Hr) in Ht. apply (HP t Ht); auto. }
    intros t c Ht Ct Hid Hc.
    set (e := mkOS [] [] Majorana p_one).
    assert (Oe : string_ok Majorana e) by (repeat split; cbn; auto; try tauto; constructor).
    assert (Ce : canonical e) by (split; cbn; [constructor|auto]).
    destruct (single_ok gm1 s (Some Majorana)) as (o1 & _ & H1 & T1 & HT1).
    destruct (single_ok (gadd k k0) e (Some Majorana)) as (o2 & _ & H2 & T2 & HT2).
    assert (B1 : b_strings (o_basis o1) = [s]) by (rewrite <- (op_terms_snd o1 H1), HT1; reflexivity).
    assert (B2 : b_strings (o_basis o2) = [e]) by (rewrite <- (op_terms_snd o2 H2), HT2; reflexivity).
    assert (Ts : os_type s = Majorana) by apply Hs.
    destruct (op_iadd_ok r o1 Hr H1) as (r1 & E1 & (Hr1 & Tr1 & A1 & Hsum1)); [congruence|].
    destruct (op_iadd_ok r1 o2 Hr1 H2) as (r2 & E2 & (Hr2 & Tr2 & A2 & Hsum2)); [rewrite Tr1, Tr, T2; reflexivity|].
    assert (S1 : op_std o1) by (intros u Hu; rewrite B1 in Hu; destruct Hu as [<-|[]]; apply canonical_std; auto).
    assert (S2 : op_std o2) by (intros u Hu; rewrite B2 in Hu; destruct Hu as [<-|[]]; apply canonical_std; auto).
    assert (P1 : maj_canonical r1).
    { intros u Hu. destruct (append_new_in _ _ _ A1 u Hu) as [H|H]; [apply HP; auto|]. rewrite B1 in H. destruct H as [<-|[]]. auto. }
    assert (Sr1 : op_std r1) by (intros u Hu; apply canonical_std, P1; auto).
    assert (P2 : maj_canonical r2).
    { intros u Hu. destruct (append_new_in _ _ _ A2 u Hu) as [H|H]; [apply P1; auto|]. rewrite B2 in H. destruct H as [<-|[]]. auto. }
    assert (Z : means (cmaj fock_gen) (op_terms r2) == azero).
    { rewrite means_vsum.
      rewrite (op_add_vsum (meaning (cmaj fock_gen)) r1 o2 r2 Hr1 H2 Sr1 S2) by (auto; rewrite Tr1, Tr, T2; reflexivity).
      rewrite (op_add_vsum (meaning (cmaj fock_gen)) r o1 r1 Hr H1 Sr S1) by (auto; congruence).
      rewrite HT1, HT2, <- !means_vsum, !means_single.
      pose proof (M Fock _ fock_car) as X1. pose proof (M0 Fock _ fock_car) as X2. rewrite X1 in X2.
      rewrite (identity_meaning (cmaj fock_gen) e eq_refl). change (pval (os_pref e)) with g1. rewrite ascal_1.
      change (meaning (cmaj fock_gen) s) with (match os_type s with Fermion => fden (cmaj fock_gen) s | Majorana => den (gmaj (cmaj fock_gen)) s | Pauli => den (gpauli (gmaj (cmaj fock_gen))) s end). rewrite Ts, X2.
      msolve [means (cmaj fock_gen) (op_terms r); aone : Fock]; gring. }
    destruct (has_coeff_total o1 t H1) as (d1 & Hd1). destruct (has_coeff_total o2 t H2) as (d2 & Hd2).
    pose proof (maj_zero r2 t _ Hr2 P2 Z (Hsum2 t _ _ (Hsum1 t _ _ Hc Hd1) Hd2)) as Ez.
    rewrite HT1 in Hd1. rewrite HT2 in Hd2.
    assert (D2 : d2 = g0).
    { destruct (single_coeff _ _ _ _ Hd2) as [[K ->]|[_ ->]]; auto. destruct Hid as [Hi|Hi].
      - rewrite (Hk Hi), (Hk0 Hi). ring.
      - exfalso. apply Hi. destruct K as (_ & K & _). symmetry. exact K. }
    destruct (single_coeff _ _ _ _ Hd1) as [[K ->]|[K ->]]; split; intros Et.
    - replace c with (gadd (gadd (gadd c gm1) d2) (gsub g1 d2)) by (unfold gm1; ring). rewrite Ez, D2. ring.
    - exfalso. apply Et. symmetry. apply std_key; auto using canonical_std.
    - exfalso. apply K. subst. apply same_key_refl.
    - replace c with (gadd (gadd (gadd c g0) d2) (gopp d2)) by ring. rewrite Ez, D2. ring.
  Qed.
End Round.
