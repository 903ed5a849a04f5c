(** Proofs about the caching exploration: assembling the matrix. *)
From Coq Require Import String List ZArith Bool Arith Lia Sorted Permutation QArith Qcanon.
From Verif Require Import GC Exn S_Alg S_Den S_Basis S_Built S_OpAlg S_Explore M_OpString M_Algebra M_Basis M_OpAlg M_Explore
  L_Alg L_StrAlg L_StrOp L_Indep L_PropStr L_Basis L_Operator L_Heap L_PropBasis L_OpAlg L_Struct L_Explore L_Explore2.
Import ListNotations.
Local Open Scope nat_scope.
Local Open Scope alg_scope.

(* -------------------------------------------------------- inverse dictionaries *)

Lemma nat_dget_dset {V} (d : list (nat * V)) k v x : dget Nat.eqb (dset Nat.eqb d k v) x = if Nat.eqb k x then Some v else dget Nat.eqb d x.
Proof.
  induction d as [|[a w] d IH]; cbn [dset dget]; [reflexivity|].
  destruct (Nat.eqb_spec a k) as [->|Hk]; cbn [dget].
  - destruct (Nat.eqb k x); reflexivity.
  - rewrite IH. destruct (Nat.eqb_spec a x) as [->|]; [|reflexivity]. destruct (Nat.eqb_spec k x); congruence.
Qed.
Lemma inverse_spec inds : forall k d x, NoDup inds ->
  dget Nat.eqb (fold_left (fun d p => dset Nat.eqb d (snd p) (fst p)) (combine (seq k (length inds)) inds) d) x =
  match find (fun p => Nat.eqb (snd p) x) (combine (seq k (length inds)) inds) with Some p => Some (fst p) | None => dget Nat.eqb d x end.
Proof.
  induction inds as [|i inds IH]; intros k d x Hn; [reflexivity|]. inversion Hn as [|? ? H1 H2]; subst.
  cbn [length seq combine fold_left find fst snd]. rewrite IH by auto. rewrite nat_dget_dset.
  destruct (Nat.eqb_spec i x) as [->|]; [|reflexivity].
  destruct (find _ _) as [[j y]|] eqn:F; [|reflexivity]. exfalso. apply find_some in F. destruct F as [F1 F2]. apply Nat.eqb_eq in F2. cbn [snd] in F2. subst y.
  apply in_combine_r in F1. auto.
Qed.
Lemma combine_seq_in {T} (l : list T) k j x : In (j, x) (combine (seq k (length l)) l) <-> k <= j /\ nth_error l (j - k) = Some x.
Proof.
  revert k. induction l as [|y l IH]; intros k.
  - split; [intros []|]. intros [_ H]. destruct (j - k); discriminate.
  - cbn [length seq combine In]. rewrite IH. split.
    + intros [E|[H1 H2] ].
      * injection E as <- <-. rewrite Nat.sub_diag. split; [lia|reflexivity].
      * split; [lia|]. replace (j - k)%nat with (S (j - S k)) by lia. exact H2.
    + intros [H1 H2]. destruct (Nat.eq_dec j k) as [->|].
      * left. rewrite Nat.sub_diag in H2. cbn in H2. congruence.
      * right. split; [lia|]. replace (j - k)%nat with (S (j - S k)) in H2 by lia. exact H2.
Qed.
Lemma inverse_dict_spec inds x j : NoDup inds -> (dget Nat.eqb (inverse_dict inds) x = Some j <-> nth_error inds j = Some x).
Proof.
  intros Hn. unfold inverse_dict. rewrite inverse_spec by auto. cbn [dget]. split.
  - destruct (find _ _) as [[i y]|] eqn:F; [|discriminate]. cbn [fst]. intros E. injection E as ->. apply find_some in F. destruct F as [F1 F2].
    apply Nat.eqb_eq in F2. cbn [snd] in F2. subst y. apply combine_seq_in in F1. rewrite Nat.sub_0_r in F1. tauto.
  - intros E. assert (I : In (j, x) (combine (seq 0 (length inds)) inds)) by (apply combine_seq_in; rewrite Nat.sub_0_r; split; [lia | auto]).
    destruct (find _ _) as [[i y]|] eqn:F.
    + cbn [fst]. f_equal. apply find_some in F. destruct F as [F1 F2]. apply Nat.eqb_eq in F2. cbn [snd] in F2. subst y. apply combine_seq_in in F1.
      rewrite Nat.sub_0_r in F1. destruct F1 as [_ F1]. apply (proj1 (NoDup_nth_error inds) Hn); [apply nth_error_Some|]; congruence.
    + exfalso. apply (find_none _ _ F) in I. cbn [snd] in I. rewrite Nat.eqb_refl in I. discriminate.
Qed.

Definition places (X : list OS) : list OS -> list nat -> Prop := Forall2 (fun s i => nth_error X i = Some s).
Lemma places_nodup X bs inds : places X bs inds -> NoDup bs -> NoDup inds.
Proof.
  intros F. induction F as [|s i bs inds H F IH]; intros Hn; constructor; inversion Hn as [|? ? H1 H2]; subst; auto.
  intros Hi. apply H1. clear - F Hi H. induction F as [|s' j bs inds H' F IH]; [destruct Hi|]. destruct Hi as [->|Hi]; [left; congruence | right; auto].
Qed.
Lemma places_nth X bs inds : places X bs inds -> forall a i, nth_error inds a = Some i -> exists s, nth_error bs a = Some s /\ nth_error X i = Some s.
Proof.
  induction 1 as [|s j bs inds H F IH]; intros [|a] i E; try discriminate; [|apply IH; auto]. cbn in E |- *. injection E as <-. eauto.
Qed.
Lemma places_nth2 X bs inds : places X bs inds -> forall a s, nth_error bs a = Some s -> exists i, nth_error inds a = Some i /\ nth_error X i = Some s.
Proof.
  induction 1 as [|s j bs inds H F IH]; intros [|a] s' E; try discriminate; [|apply IH; auto]. cbn in E |- *. injection E as <-. eauto.
Qed.
Lemma pos_dict X bs inds i S a : NoDup X -> NoDup bs -> places X bs inds -> nth_error X i = Some S ->
  (dget Nat.eqb (inverse_dict inds) i = Some a <-> nth_error bs a = Some S).
Proof.
  intros NX Nb P E. rewrite inverse_dict_spec by (eapply places_nodup; eauto). split; intros H.
  - destruct (places_nth _ _ _ P a i H) as (s & E1 & E2). congruence.
  - destruct (places_nth2 _ _ _ P a S H) as (i' & E1 & E2). rewrite E1. f_equal. apply (proj1 (NoDup_nth_error X) NX); [apply nth_error_Some|]; congruence.
Qed.

Lemma considered_near allowed (t : GC * OS) : considered allowed (snd t) =
  match allowed with None => true | Some ls => existsb (fun l => if in_dec Z.eq_dec l ls then true else false) (os_labels (snd t)) end.
Proof.
  destruct allowed as [ls|]; auto. unfold considered. induction (os_labels (snd t)) as [|l r IH]; auto. cbn [existsb]. rewrite IH. f_equal.
  destruct (in_dec Z.eq_dec l ls) as [I|I].
  - apply existsb_exists. exists l. split; auto. apply Z.eqb_refl.
  - destruct (existsb (Z.eqb l) ls) eqn:E; auto. exfalso. apply existsb_exists in E. destruct E as (m & Hm & E). apply Z.eqb_eq in E. subst m. auto.
Qed.
Lemma in_comms s Xs u : In u (comms s Xs) <-> exists S k e, u = (e, S, k) /\ In S Xs /\ operation_opstring MCommutator S s = Ok (k, Some e).
Proof.
  unfold comms. rewrite in_flat_map. split.
  - intros (S & HS & Hu). unfold found in Hu. destruct (operation_opstring MCommutator S s) as [[k [e|] ]|] eqn:E; try destruct Hu as []; destruct H; subst; eauto 6.
  - intros (S & k & e & -> & HS & E). exists S. split; auto. unfold found. rewrite E. left; auto.
Qed.

Section Assemble.
  Variables (ty : optype) (b : Basis) (st : cache) (b2x : list nat) (allowed : option (list Z)).
  Notation E := (b_strings (x_ext st)).
  Notation X := (b_strings (x_basis st)).
  Notation bs := (b_strings b).
  Hypothesis Hty : ty <> Fermion.
  Hypothesis HX : NoDup X.
  Hypothesis SX : std_list ty X.
  Hypothesis HE : canon_ok ty (x_ext st).
  Hypothesis Hb : NoDup bs.
  Hypothesis HbX : forall s, In s bs -> In s X.
  Hypothesis HP : places X bs b2x.

  Let x2b := inverse_dict b2x.

  Lemma x2b_spec i S a : nth_error X i = Some S -> (dget Nat.eqb x2b i = Some a <-> nth_error bs a = Some S).
  Proof. apply pos_dict; auto. Qed.
  Lemma x2b_mem i S : nth_error X i = Some S -> (dmem Nat.eqb x2b i = true <-> In S bs).
  Proof.
    intros Hi. unfold dmem. destruct (dget Nat.eqb x2b i) as [a|] eqn:D.
    - apply (x2b_spec i S a Hi) in D. split; auto. intros _. eapply nth_error_In; eauto.
    - split; [discriminate|]. intros H. apply In_nth_error in H. destruct H as (a & H). apply (x2b_spec i S a Hi) in H. congruence.
  Qed.

  Definition acc_ok (acc : Basis * list nat) : Prop := canon_ok ty (fst acc) /\ places E (b_strings (fst acc)) (snd acc).

  Lemma extend_entries ts us : decode E X ts us -> forall acc, acc_ok acc ->
    exists acc', rfold (extend_entry (x_ext st) x2b) ts acc = Ok acc' /\ acc_ok acc' /\
      forall e, In e (b_strings (fst acc')) <-> In e (b_strings (fst acc)) \/ exists u, In u us /\ In (snd (fst u)) bs /\ fst (fst u) = e.
  Proof.
    induction 1 as [|t u ts us (H1 & H2 & H3) F IH]; intros acc Ha.
    - exists acc. split; [reflexivity|]. split; auto. intros e. split; auto. intros [H|(u & [] & _)]. auto.
    - cbn [rfold]. unfold extend_entry at 1.
      destruct (dmem Nat.eqb x2b (snd (fst t))) eqn:D.
      + apply (x2b_mem _ _ H2) in D. rewrite H1. cbn [of_option rbind].
        set (e := fst (fst u)) in *. assert (Hin : In e E) by (eapply nth_error_In; eauto).
        destruct Ha as [[A1 A2] A3].
        destruct (basis_mem (fst acc) e) eqn:M.
        * cbn [rbind]. apply (mem_std (fst acc) e) in M; auto.
          2:{ apply (canon_std ty _ _ HE Hin). } 2:{ intros c Hc. apply (canon_std ty (fst acc) c); auto. split; auto. }
          destruct (IH acc) as (acc' & E1 & E2 & E3); [split; [split|]; auto|]. exists acc'. split; auto. split; auto.
          intros e'. rewrite E3. split; intros [H|H]; auto.
          -- destruct H as (v & Hv & Hw). right. exists v. split; [right|]; auto.
          -- destruct H as (v & [<-|Hv] & Hw & Hx); [left; rewrite <- Hx; auto | right; eauto].
        * cbn [rbind]. set (acc1 := (basis_iadd_string (fst acc) e, snd acc ++ [fst (fst t)])).
          assert (ME : b_strings (basis_iadd_string (fst acc) e) = b_strings (fst acc) ++ [e]).
          { unfold basis_iadd_string. rewrite M. reflexivity. }
          destruct (IH acc1) as (acc' & E1 & E2 & E3).
          { unfold acc1. split; cbn [fst snd].
            - destruct (proj2 HE e Hin) as [P1 P2]. apply (canon_iadd ty (fst acc) e); auto. split; auto.
            - rewrite ME. apply Forall2_app; auto. }
          exists acc'. split; auto. split; auto. intros e'. rewrite E3. unfold acc1. cbn [fst]. rewrite ME, in_app_iff. split.
          -- intros [[H|[<-|[] ] ]|(v & Hv & Hw)]; auto; right; [exists u; split; [left|]; auto | exists v; split; [right|]; auto].
          -- intros [H|(v & [<-|Hv] & Hw & Hx)]; auto; [left; right; left; auto | right; eauto].
      + cbn [rbind]. destruct (IH acc Ha) as (acc' & E1 & E2 & E3). exists acc'. split; auto. split; auto.
        intros e'. rewrite E3. split; intros [H|H]; auto.
        * destruct H as (v & Hv & Hw). right. exists v. split; [right|]; auto.
        * destruct H as (v & [<-|Hv] & Hw & Hx); [|right; eauto]. exfalso. apply (x2b_mem _ _ H2) in Hw. congruence.
  Qed.

  Definition ready (t : GC * OS) : Prop := exists ts, dget os_key (x_data st) (snd t) = Some ts /\ decode E X ts (comms (snd t) X).
  (** [e] is a commutator of a string of the basis with the term. *)
  Definition reached (t : GC * OS) (e : OS) : Prop := exists S k, In S bs /\ operation_opstring MCommutator S (snd t) = Ok (k, Some e).

  Lemma extend_terms terms : (forall t, In t terms -> ready t) -> forall acc, acc_ok acc ->
    exists acc', rfold (extend_term allowed st x2b) terms acc = Ok acc' /\ acc_ok acc' /\
      forall e, In e (b_strings (fst acc')) <-> In e (b_strings (fst acc)) \/ exists t, In t terms /\ considered allowed (snd t) = true /\ reached t e.
  Proof.
    induction terms as [|t terms IH]; intros Hr acc Ha.
    - exists acc. split; [reflexivity|]. split; auto. intros e. split; auto. intros [H|(t & [] & _)]. auto.
    - cbn [rfold]. unfold extend_term at 1. destruct (considered allowed (snd t)) eqn:C.
      + destruct (Hr t (or_introl eq_refl)) as (ts & Ed & D). rewrite Ed. cbn [of_option rbind].
        destruct (extend_entries ts _ D acc Ha) as (acc1 & E1 & A1 & I1). rewrite E1. cbn [rbind].
        destruct (IH (fun u Hu => Hr u (or_intror Hu)) acc1 A1) as (acc' & E2 & A2 & I2). exists acc'. split; auto. split; auto.
        intros e. rewrite I2, I1. split.
        * intros [[H|(u & Hu & Hw & Hx)]|(u & Hu & Hw)]; auto.
          -- right. exists t. split; [left; auto|]. split; auto. apply in_comms in Hu. destruct Hu as (S & k & e' & -> & HS & Eo). cbn [fst snd] in Hw, Hx. subst e'. exists S, k. auto.
          -- right. exists u. split; [right|]; auto.
        * intros [H|(u & [<-|Hu] & Hw & Hx)]; auto.
          -- left. right. destruct Hx as (S & k & HS & Eo). exists (e, S, k). split; [|split; auto]. apply in_comms. exists S, k, e. split; auto.
          -- right. exists u. auto.
      + cbn [rbind]. destruct (IH (fun u Hu => Hr u (or_intror Hu)) acc Ha) as (acc' & E2 & A2 & I2). exists acc'. split; auto. split; auto.
        intros e. rewrite I2. split; intros [H|(u & Hu & Hw & Hx)]; auto.
        * right. exists u. split; [right|]; auto.
        * destruct Hu as [<-|Hu]; [congruence|]. right. exists u. auto.
  Qed.

  Section Matrix.
    Variables (ext : Basis) (inds : list nat).
    Hypothesis Hext : acc_ok (ext, inds).
    Let x2e := inverse_dict inds.

    Definition entries (c : GC) (ts : list (nat * nat * GC)) : list (nat * nat * GC) :=
      flat_map (fun u : nat * nat * GC =>
        match dget Nat.eqb x2b (snd (fst u)), dget Nat.eqb x2e (fst (fst u)) with
        | Some k, Some r => [(r, k, gmul c (snd u))]
        | _, _ => []
        end) ts.
    Lemma NE : NoDup E.
    Proof. apply std_nodup. apply HE. Qed.
    Lemma Next : NoDup (b_strings ext).
    Proof. apply std_nodup. apply Hext. Qed.
    Lemma x2e_spec r e k : nth_error E r = Some e -> (dget Nat.eqb x2e r = Some k <-> nth_error (b_strings ext) k = Some e).
    Proof. apply pos_dict; [apply NE | apply Next | apply Hext]. Qed.

    Lemma entries_bound c ts us : decode E X ts us -> forall t, In t (entries c ts) -> fst (fst t) < basis_len ext /\ snd (fst t) < basis_len b.
    Proof.
      intros D. induction D as [|u v ts us (H1 & H2 & H3) F IH]; intros t Ht; [destruct Ht|]. cbn [entries flat_map] in Ht. apply in_app_or in Ht. destruct Ht as [Ht|Ht]; [|apply IH; auto].
      destruct (dget Nat.eqb x2b _) as [k|] eqn:D1; [|destruct Ht]. destruct (dget Nat.eqb x2e _) as [r|] eqn:D2; [|destruct Ht].
      destruct Ht as [<-|[] ]. cbn [fst snd]. apply (x2b_spec _ _ _ H2) in D1. apply (x2e_spec _ _ _ H1) in D2.
      split; unfold basis_len; apply nth_error_Some; congruence.
    Qed.

    Lemma entries_sum c s (Hs : string_ok ty s) a S : nth_error bs a = Some S -> 
      forall (Al : StarAlg) (g : op -> Z -> Al), rep ty g ->
      forall Xs, (forall x, In x Xs -> In x X) -> (forall e, reached (c, s) e -> In e (b_strings ext)) ->
      forall ts, decode E X ts (comms s Xs) ->
      (~ In S Xs -> colsum g (b_strings ext) a (entries c ts) == azero) /\
      (In S Xs -> NoDup Xs -> colsum g (b_strings ext) a (entries c ts) == c · exact MCommutator (den g S) (den g s)).
    Proof.
      intros Ha Al g Hr. induction Xs as [|x Xs IH]; intros HXs Hreach ts D.
      - inversion D; subst. split; [reflexivity | intros []].
      - cbn [comms flat_map] in D. fold (comms s Xs) in D. apply Forall2_app_inv_r in D. destruct D as (t1 & t2 & D1 & D2 & ->).
        destruct (IH (fun y Hy => HXs y (or_intror Hy)) Hreach t2 D2) as [I1 I2]. clear IH.
        unfold entries. rewrite flat_map_app. fold (entries c t1) (entries c t2).
        assert (Hx : In x X) by (apply HXs; left; auto).
        assert (HS : In S X) by (apply HbX; eapply nth_error_In; eauto).
        assert (K : (x <> S -> colsum g (b_strings ext) a (entries c t1) == azero) /\
                    (x = S -> colsum g (b_strings ext) a (entries c t1) == c · exact MCommutator (den g S) (den g s))).
        { destruct (found_cases ty Hty x s) as [(k & R & Fd & Ze)|(k & e & R & Fd & _ & _ & _ & Va)]; auto; [apply SX; auto| |].
          - rewrite Fd in D1. inversion D1; subst. cbn [entries flat_map]. split; [reflexivity|]. intros ->.
            rewrite (Ze Al g Hr), ascal_zero. reflexivity.
          - rewrite Fd in D1. inversion D1 as [|u v us vs (H1 & H2 & H3) F E1 E2]; subst. inversion F; subst. clear D1 F. cbn [fst snd] in *.
            unfold entries. cbn [flat_map]. rewrite app_nil_r.
            destruct (dget Nat.eqb x2b (snd (fst u))) as [a'|] eqn:Da.
            + apply (x2b_spec _ _ _ H2) in Da.
              assert (He : In e (b_strings ext)) by (apply Hreach; exists x, k; split; [eapply nth_error_In; eauto | auto]).
              apply In_nth_error in He. destruct He as (r & He). pose proof (proj2 (x2e_spec _ _ r H1) He) as Dr. rewrite Dr.
              unfold colsum. cbn [map asum fold_right fst snd]. rewrite H3. unfold den_at. rewrite He. split.
              * intros Hne. destruct (Nat.eqb_spec a' a) as [->|]; [congruence|]. apply aadd_0_l.
              * intros ->. assert (a' = a) as -> by (apply (proj1 (NoDup_nth_error bs) Hb); [apply nth_error_Some|]; congruence).
                rewrite Nat.eqb_refl, aadd_0_r, (Va Al g Hr), ascal_ascal. reflexivity.
            + split; [reflexivity|]. intros ->. exfalso. apply (x2b_spec _ _ _ H2) in Ha. congruence. }
        destruct K as [K1 K2]. split.
        + intros Hn. rewrite colsum_app, K1, I1, aadd_0_l; [reflexivity| |]; intros F; apply Hn; [right | left]; auto.
        + intros Hi Hn. inversion Hn as [|? ? N1 N2]; subst. rewrite colsum_app. destruct Hi as [->|Hi].
          * rewrite K2, I1 by auto. apply aadd_0_r.
          * rewrite K1, I2; auto; [apply aadd_0_l|]. intros ->. auto.
    Qed.

    Lemma matrix_terms terms : (forall t, In t terms -> ready t /\ string_ok ty (snd t)) ->
      (forall t e, In t terms -> considered allowed (snd t) = true -> reached t e -> In e (b_strings ext)) -> forall acc,
      (forall t, In t acc -> fst (fst t) < basis_len ext /\ snd (fst t) < basis_len b) ->
      exists ts, rfold (matrix_term allowed st x2b x2e) terms acc = Ok ts /\
        (forall t, In t ts -> fst (fst t) < basis_len ext /\ snd (fst t) < basis_len b) /\
        forall a S, nth_error bs a = Some S -> forall (Al : StarAlg) (g : op -> Z -> Al), rep ty g ->
          colsum g (b_strings ext) a ts == colsum g (b_strings ext) a acc +
            exact MCommutator (den g S) (lincomb g (filter (fun t => considered allowed (snd t)) terms)).
    Proof.
      induction terms as [|[c s] terms IH]; intros Hr Hx acc Ha.
      - exists acc. split; [reflexivity|]. split; auto. intros a S HS Al g Hg. cbn [filter]. change (lincomb g []) with (azero : Al).
        rewrite exact_0_r, aadd_0_r. reflexivity.
      - cbn [rfold]. unfold matrix_term at 1. cbn [fst snd filter].
        assert (Hr' : forall t, In t terms -> ready t /\ string_ok ty (snd t)) by (intros; apply Hr; right; auto).
        assert (Hx' : forall t e, In t terms -> considered allowed (snd t) = true -> reached t e -> In e (b_strings ext)) by (intros t e Ht; apply Hx; right; auto).
        destruct (considered allowed s) eqn:C; [|cbn [rbind]; apply IH; auto].
        destruct (Hr (c, s) (or_introl eq_refl)) as [(us & Ed & D) Hs]. cbn [snd] in *. rewrite Ed. cbn [of_option rbind]. fold (entries c us).
        destruct (IH Hr' Hx' (acc ++ entries c us)) as (ts & E1 & B1 & S1).
        { intros t Ht. apply in_app_or in Ht. destruct Ht as [Ht|Ht]; auto. eapply entries_bound; eauto. }
        exists ts. split; auto. split; auto. intros a S HS Al g Hg. rewrite (S1 a S HS Al g Hg), colsum_app.
        rewrite lincomb_cons, exact_add_r, exact_scal_r, aadd_assoc.
        apply aadd_proper; [|reflexivity]. apply aadd_proper; [reflexivity|].
        apply (entries_sum c s Hs a S HS Al g Hg X); auto.
        + intros e He. apply (Hx (c, s)); auto. left; auto.
        + apply HbX. eapply nth_error_In; eauto.
    Qed.
  End Matrix.
End Assemble.

Section Explore.
  Variables (ty : optype) (H : Operator).
  Hypothesis Hty : ty <> Fermion.
  Hypothesis HH : std_op ty H.

  Lemma explore_ok b st allowed : cache_ok ty (b_strings (o_basis H)) st -> std_basis ty b ->
    exists L ext st', explore b H st allowed = Ok (L, ext, st') /\ cache_ok ty (b_strings (o_basis H)) st' /\ canonical_basis ty ext /\
      sm_rows L = basis_len ext /\ sm_cols L = basis_len b /\
      (forall e, In e (b_strings ext) <-> exists S t k, In S (b_strings b) /\ In t (terms_near allowed H) /\ operation_opstring MCommutator S (snd t) = Ok (k, Some e)) /\
      forall a S, nth_error (b_strings b) a = Some S -> forall (Al : StarAlg) (g : op -> Z -> Al), rep ty g ->
        exact MCommutator (den g S) (lincomb g (terms_near allowed H)) == lincomb g (combine (column L a) (b_strings ext)).
  Proof.
    intros Hst Hb. destruct (explore_update_ok ty Hty H st b HH Hst Hb) as (st' & Eu & Hc & HbX & Hd & _). unfold explore. rewrite Eu. cbn [rbind].
    destruct Hb as [[Hb1 Hb2] Hb3]. apply built_iff in Hb1. destruct Hc as (HX & SX & HE & HD).
    assert (exists b2x, rmap (basis_index (x_basis st')) (b_strings b) = Ok b2x /\ places (b_strings (x_basis st')) (b_strings b) b2x) as (b2x & Eb & Pb).
    { clear - HbX HX. revert HbX. generalize (b_strings b). induction l as [|s l IH]; intros Hin; [exists []; split; [reflexivity | constructor]|].
      destruct (basis_index_in _ s HX (Hin s (or_introl eq_refl))) as (i & Ei & Ni). destruct (IH (fun t Ht => Hin t (or_intror Ht))) as (r & Er & Fr).
      exists (i :: r). cbn [rmap]. rewrite Ei. cbn [rbind]. rewrite Er. split; [reflexivity | constructor; auto]. }
    rewrite Eb. cbn [rbind].
    destruct HH as [(Hm & HtH & HsH) HstdH]. destruct (made_terms H Hm) as [ET HbH].
    assert (IT : forall t, In t (op_terms H) -> In (snd t) (b_strings (o_basis H))) by (intros t Ht; rewrite <- ET; apply in_map; auto).
    assert (RD : forall t, In t (op_terms H) -> ready st' t).
    { intros t Ht. destruct (Hd (snd t) (IT t Ht)) as (ts & Ed). exists ts. split; auto.
      pose proof (HD (snd t) (IT t Ht)) as D. unfold old_data in D. rewrite Ed in D. exact D. }
    pose proof (std_nodup _ HX) as NX. pose proof (std_nodup _ Hb1) as Nb.
    destruct (extend_terms ty b st' b2x allowed NX HE Nb HbX Pb (op_terms H) RD (basis_empty, [])) as ([ext inds] & Ee & Ae & Ie).
    { split; [split; [apply basis_ok_empty | intros c []]|]. constructor. }
    rewrite Ee. cbn [rbind]. cbn [fst] in Ie.
    destruct (matrix_terms ty b st' b2x allowed Hty NX SX HE Nb HbX Pb ext inds Ae (op_terms H)) with (acc := @nil (nat * nat * GC)) as (ts & Em & Bm & Sm).
    { intros t Ht. split; [apply RD; auto | apply HsH; apply IT; auto]. }
    { intros t e Ht Hcn Hre. apply Ie. right. exists t. auto. }
    { intros t []. }
    rewrite Em. cbn [rbind]. unfold sm_make.
    assert (EF : forallb (fun t : nat * nat * GC => (fst (fst t) <? basis_len ext) && (snd (fst t) <? basis_len b)) ts = true).
    { apply forallb_forall. intros t Ht. destruct (Bm t Ht) as [B1 B2]. apply andb_true_intro. split; apply Nat.ltb_lt; auto. }
    rewrite EF. cbn [rbind]. exists (mkSM (basis_len ext) (basis_len b) ts), ext, st'. split; [reflexivity|].
    split; [split; [|split; [|split]]; auto|]. split; [split; [apply built_iff, Ae | apply Ae]|]. split; [reflexivity|]. split; [reflexivity|].
    assert (ENear : forall t, In t (terms_near allowed H) <-> In t (op_terms H) /\ considered allowed (snd t) = true).
    { intros t. unfold terms_near. rewrite filter_In, considered_near. tauto. }
    split.
    - intros e. rewrite Ie. split.
      + intros [[]|(t & Ht & Hcn & S & k & HS & Eo)]. exists S, t, k. split; auto. split; auto. apply ENear; auto.
      + intros (S & t & k & HS & Ht & Eo). apply ENear in Ht. right. exists t. split; [apply Ht|]. split; [apply Ht|]. exists S, k. auto.
    - intros a S HS Al g Hg. rewrite column_colsum; [|reflexivity | intros t Ht; apply Bm; auto].
      rewrite (Sm a S HS Al g Hg). unfold colsum. cbn [map asum fold_right]. rewrite aadd_0_l.
      replace (terms_near allowed H) with (filter (fun t => considered allowed (snd t)) (op_terms H)); [reflexivity|].
      unfold terms_near. apply filter_ext. intros t. apply considered_near.
  Qed.

  Lemma explored_ok st : explored ty H st -> cache_ok ty (b_strings (o_basis H)) st.
  Proof.
    induction 1 as [|st b allowed L ext st' _ IH Hb E]; [apply cache_ok_empty|].
    destruct (explore_ok b st allowed IH Hb) as (L' & ext' & st2 & E' & Hc & _). rewrite E in E'. injection E' as <- <- <-. auto.
  Qed.
End Explore.
