(** Proofs about selected_ci_greedy: the growing basis and the cache. *)
From Coq Require Import String List ZArith Bool Arith Lia Reals QArith Qreals Qcanon Lra.
From Coquelicot Require Import Complex.
From Verif Require Import GC Exn M_OpString M_Tools M_Algebra M_Basis M_OpAlg M_Transform M_LinAlg M_Explore M_Core M_Greedy
  S_Alg S_Den S_Basis S_Built S_OpAlg S_Explore S_RScal S_CScal S_LinAlg S_Core S_Greedy
  L_Alg L_StrAlg L_StrOp L_Indep L_PropStr L_Basis L_Operator L_Heap L_PropBasis L_OpAlg L_Struct L_PropOpAlg L_Explore L_Explore2 L_Explore3 L_Explore4
  L_CScal L_LinAlg L_Inter L_Herm L_Core L_Commuting.
Import ListNotations.
Local Open Scope nat_scope.

Lemma rmap_in {T U} (f : T -> res U) l m : rmap f l = Ok m -> forall y, In y m -> exists x, In x l /\ f x = Ok y.
Proof.
  revert m. induction l as [|x l IH]; intros m E y Hy; cbn [rmap] in E.
  - injection E as <-. destruct Hy.
  - destruct (f x) as [z|] eqn:Ez; [|discriminate]. cbn [rbind] in E. destruct (rmap f l) as [zs|]; [|discriminate]. cbn [rbind] in E. injection E as <-.
    destruct Hy as [<-|Hy]; [exists x; split; auto; left; auto|]. destruct (IH zs eq_refl y Hy) as (u & Hu & Eu). exists u. split; auto. right; auto.
Qed.
Lemma rmap_length {T U} (f : T -> res U) l m : rmap f l = Ok m -> length m = length l.
Proof.
  revert m. induction l as [|x l IH]; intros m E; cbn [rmap] in E; [injection E as <-; auto|].
  destruct (f x) as [z|]; [|discriminate]. cbn [rbind] in E. destruct (rmap f l) as [zs|]; [|discriminate]. cbn [rbind] in E. injection E as <-. cbn. f_equal. auto.
Qed.
Lemma take_in {T} (l : list T) inds m : take l inds = Ok m -> forall x, In x m -> In x l.
Proof.
  intros E x Hx. destruct (rmap_in _ _ _ E x Hx) as (i & _ & Ei). destruct (nth_error l i) as [y|] eqn:N; [|discriminate]. cbn in Ei. injection Ei as ->.
  eapply nth_error_In; eauto.
Qed.

Lemma dget_key {V} (d : list (OS * V)) s t : os_key s t = true -> dget os_key d s = dget os_key d t.
Proof.
  intros K. apply os_key_spec in K. induction d as [|[a v] d IH]; cbn [dget]; auto.
  destruct (os_key a s) eqn:E1, (os_key a t) eqn:E2; auto; exfalso.
  - apply os_key_spec in E1. assert (os_key a t = true); [|congruence]. apply os_key_spec. eapply same_key_trans; eauto.
  - apply os_key_spec in E2. assert (os_key a s = true); [|congruence]. apply os_key_spec. eapply same_key_trans; [eauto | apply same_key_sym; auto].
Qed.

Section Std.
  Variable ty : optype.
  Hypothesis Hty : ty <> Fermion.

  Lemma std_basis_ok b : std_basis ty b <-> basis_ok b /\ std_list ty (b_strings b).
  Proof.
    split.
    - intros [[H1 H2] H3]. split; [apply built_iff; auto|]. intros s Hs. split; auto.
    - intros [H1 H2]. split; [split; [apply built_iff; auto|]|]; intros s Hs; apply H2; auto.
  Qed.
  Lemma std_add b s : std_basis ty b -> string_ok ty s -> std s -> std_basis ty (basis_iadd_string b s).
  Proof.
    intros Hb Hs Ht. apply std_basis_ok in Hb. destruct Hb as [H1 H2]. apply std_basis_ok.
    destruct (basis_iadd_string_ok b s H1) as [K1 K2]. split; auto. intros t Hu.
    destruct (append_new_in _ _ _ K2 t Hu) as [Hu'|[<-|[]]]; auto.
  Qed.
  Lemma std_new l b : basis_new l = Ok b -> std_list ty l -> std_basis ty b.
  Proof. intros E H. apply basis_new_ok in E. destruct E as [E1 E2]. apply std_basis_ok. rewrite E1. auto. Qed.

  Lemma add_terms_ok k ext inds : std_list ty (b_strings ext) -> forall n b b', std_basis ty b -> add_terms k ext inds n b = Ok b' -> std_basis ty b'.
  Proof.
    intros He. induction inds as [|i inds IH]; intros n b b' Hb E; cbn [add_terms] in E; [congruence|].
    destruct (nth_error (b_strings ext) i) as [s|] eqn:N; [|discriminate]. cbn [of_option rbind] in E.
    assert (Hs : string_ok ty s /\ std s) by (apply He; eapply nth_error_In; eauto).
    destruct (basis_mem b s).
    - destruct (k <=? n); [congruence | eauto].
    - assert (Hb' : std_basis ty (basis_iadd_string b s)) by (apply std_add; tauto).
      destruct (k <=? S n); [congruence | eauto].
  Qed.

  Lemma update_same ud U UE X E : forall terms d d', (forall t, In t terms -> dget os_key ud (snd t) = Some []) ->
    rfold (update_data ud U UE X E) terms d = Ok d' -> forall s, old_data d' s = old_data d s.
  Proof.
    induction terms as [|t terms IH]; intros d d' Hu E1 s; cbn [rfold] in E1; [congruence|].
    unfold update_data at 1 in E1. rewrite (Hu t (or_introl eq_refl)) in E1. cbn [of_option rbind rmap] in E1. rewrite app_nil_r in E1.
    rewrite (IH _ _ (fun u Hv => Hu u (or_intror Hv)) E1). unfold old_data at 1. rewrite dget_dset.
    destruct (os_key (snd t) s) eqn:K; [|reflexivity]. unfold old_data. rewrite (dget_key d (snd t) s); auto.
  Qed.

  (** Exploring a basis that has been explored does not change what is known. *)
  Lemma explore_keep Hs st b o L ext st' : cache_ok ty Hs st -> std_op ty o -> std_basis ty b ->
    (forall s, In s (b_strings b) -> In s (b_strings (x_basis st))) -> explore b o st None = Ok (L, ext, st') ->
    cache_ok ty Hs st' /\ x_basis st' = x_basis st.
  Proof.
    intros (HX & SX & HE & HD) [(Hm & HtH & HsH) HstdH] Hb Hin E. apply explore_inv in E. apply std_basis_ok in Hb. destruct Hb as [Hb1 Hb2].
    destruct (made_terms o Hm) as [ET HbH]. unfold explore_update in E. rewrite filter_none in E.
    2:{ intros s Hs'. apply negb_false_iff. apply (mem_std _ s); auto; [apply Hb2; auto|]. intros t Ht; apply SX; auto. }
    change (basis_new []) with (Ok basis_empty) in E. cbn [rbind] in E. unfold structure_data in E. change (b_strings basis_empty) with (@nil OS) in E.
    rewrite sc_outer_nil in E by apply HbH. cbn [rbind app] in E.
    change (basis_iadd (x_basis st) basis_empty) with (x_basis st) in E. change (basis_iadd (x_ext st) basis_empty) with (x_ext st) in E.
    destruct (rfold _ _ _) as [d|] eqn:Ed; [|discriminate]. cbn [rbind] in E. injection E as <-.
    assert (K : forall s, old_data d s = old_data (x_data st) s).
    { eapply update_same; [|exact Ed]. intros t Ht. apply dget_nils. rewrite <- ET. apply in_map; auto. }
    split; auto. split; [exact HX|]. split; [exact SX|]. split; [exact HE|]. cbn [x_ext x_basis x_data]. intros s Hs'. rewrite K. auto.
  Qed.

  Lemma explore_ext b o st L ext st' : explore b o st None = Ok (L, ext, st') -> forall e, In e (b_strings ext) -> In e (b_strings (x_ext st')).
  Proof.
    intros E. unfold explore in E. destruct (explore_update b o st) as [s|]; [|discriminate]. cbn [rbind] in E.
    destruct (rmap _ _) as [b2x|]; [|discriminate]. cbn [rbind] in E. match type of E with context [rfold (extend_term None ?s ?x) ?t ?a] => destruct (rfold (extend_term None s x) t a) as [p|] eqn:F; [|discriminate] end.
    destruct p as [e i]. cbn [rbind] in E.
    match type of E with context [rfold (matrix_term ?a ?b ?c ?d) ?e ?f] => destruct (rfold (matrix_term a b c d) e f); [|discriminate] end. cbn [rbind] in E. destruct (sm_make (basis_len e) (basis_len b) l); [|discriminate]. cbn [rbind] in E. injection E as _ <- <-.
    assert (G2 : forall ts x (acc acc' : Basis * list nat), rfold (extend_entry (x_ext s) x) ts acc = Ok acc' ->
      (forall e, In e (b_strings (fst acc)) -> In e (b_strings (x_ext s))) -> forall e, In e (b_strings (fst acc')) -> In e (b_strings (x_ext s))).
    { induction ts as [|t ts IH]; intros x acc acc' E Ha; cbn [rfold] in E; [injection E as <-; auto|].
      unfold extend_entry at 1 in E. destruct (dmem _ _ _); [|cbn [rbind] in E; eauto].
      destruct (nth_error (b_strings (x_ext s)) (fst (fst t))) as [e0|] eqn:N; [|discriminate]. cbn [of_option rbind] in E.
      destruct (basis_mem (fst acc) e0) eqn:Mb; cbn [rbind] in E; [eauto|]. eapply IH; [exact E|]. cbn [fst]. intros e' He'.
      unfold basis_iadd_string in He'. rewrite Mb in He'. cbn [b_strings] in He'. apply in_app_or in He'. destruct He' as [He'|[<-|[]]]; auto. eapply nth_error_In; eauto. }
    assert (G1 : forall ts x (acc acc' : Basis * list nat), rfold (extend_term None s x) ts acc = Ok acc' ->
      (forall e, In e (b_strings (fst acc)) -> In e (b_strings (x_ext s))) -> forall e, In e (b_strings (fst acc')) -> In e (b_strings (x_ext s))).
    { induction ts as [|t ts IH]; intros x acc acc' E Ha; cbn [rfold] in E; [injection E as <-; auto|].
      unfold extend_term at 1 in E. cbn [considered] in E. destruct (dget os_key _ _) as [us|]; [|discriminate]. cbn [of_option rbind] in E.
      destruct (rfold (extend_entry _ _) us acc) as [acc1|] eqn:E1; [|discriminate]. cbn [rbind] in E. eapply IH; [exact E|]. eapply G2; eauto. }
    intros e0 He0. apply (G1 _ _ _ (e, i) F); auto. intros e' [].
  Qed.
  Lemma ext_std Hs st : cache_ok ty Hs st -> std_list ty (b_strings (x_ext st)).
  Proof. intros (_ & _ & HE & _) s H. split; [apply HE; auto | apply (canon_std ty (x_ext st)); auto]. Qed.
End Std.
