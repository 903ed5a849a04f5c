(** Proofs about products of Operators, structure constants, Liouvillian, commutant matrix. *)
From Coq Require Import String List ZArith Bool Arith Lia Sorted QArith Qcanon.
From Verif Require Import GC Exn S_Alg S_Den S_Fock L_Fock S_Basis S_Built S_OpAlg M_OpString M_Algebra M_Basis M_OpAlg
  L_Alg L_StrAlg L_StrOp L_Indep L_PropStr L_Basis L_Operator L_Heap L_PropBasis.
Import ListNotations.
Local Open Scope nat_scope.
Local Open Scope alg_scope.

(* -------------------------------------------------------- one pair of strings *)

(** All facts about an operation on two strings. *)
Record mode_result (ty : optype) (m : mode) (S T : OS) (k : GC) (oc : option OS) : Prop := {
  mr_run : operation_opstring m S T = Ok (k, oc);
  mr_none : oc = None -> k = g0;
  mr_some : forall C, oc = Some C -> (exists u, gmul u (gconj u) = g1 /\ In u [g1; gm1; gi; gopp gi] /\ (k = u \/ k = gmul u g2)) /\ string_ok ty C /\ canonical C /\
              (forall l, In l (os_labels C) -> In l (os_labels S) \/ In l (os_labels T));
  mr_den : forall (A : StarAlg) (g : op -> Z -> A), rep ty g ->
             exact m (den g S) (den g T) == match oc with Some C => k · den g C | None => azero end
}.

(** The factor of a product of two strings is a fourth root of unity. *)
Lemma unit_root ty S T k e C : ty <> Fermion -> string_ok ty S -> string_ok ty T -> op_result ty S T k e C -> In k [g1; gm1; gi; gopp gi].
Proof.
  intros Hty HS HT R. pose proof (fock_rep ty Hty) as Hr.
  set (s := den fock_gen S). set (t := den fock_gen T). set (c := den fock_gen C).
  assert (E : gmul k k · (aone : Fock) == gsgn e · aone).
  { assert (H1 : (s * t) * (s * t) == gmul k k · aone).
    { unfold s, t. rewrite (or_st _ _ _ _ _ _ R _ _ Hr), ascal_mul_l, ascal_mul_r, ascal_ascal.
      rewrite (den_sq ty fock_gen Hr C) by apply R. reflexivity. }
    rewrite <- H1. rewrite <- amul_assoc, (amul_assoc _ t s t).
    assert (H2 : t * s == gsgn e · (s * t)).
    { unfold s, t. rewrite (or_ts _ _ _ _ _ _ R _ _ Hr), (or_st _ _ _ _ _ _ R _ _ Hr), ascal_ascal. reflexivity. }
    rewrite H2, ascal_mul_l, ascal_mul_r. apply ascal_proper; auto.
    rewrite <- (amul_assoc _ s t t). unfold t. rewrite (den_sq ty fock_gen Hr T HT), amul_1_r.
    unfold s. apply (den_sq ty fock_gen Hr S HS). }
  assert (E2 : gmul k k = gsgn e).
  { assert (Z : gsub (gmul k k) (gsgn e) · (aone : Fock) == azero).
    { replace (gsub (gmul k k) (gsgn e)) with (gadd (gmul k k) (gmul gm1 (gsgn e))) by (unfold gm1; ring).
      rewrite ascal_add_l, E, <- ascal_ascal. apply asub_self. }
    destruct (gc_eq_dec (gsub (gmul k k) (gsgn e)) g0) as [H|H].
    - replace (gmul k k) with (gadd (gsub (gmul k k) (gsgn e)) (gsgn e)) by ring. rewrite H. ring.
    - exfalso. apply fock_nontrivial. rewrite <- (ascal_1 _ aone).
      replace g1 with (gmul (ginv (gsub (gmul k k) (gsgn e))) (gsub (gmul k k) (gsgn e))) by (field; auto).
      rewrite <- ascal_ascal, Z. apply ascal_zero. }
  destruct e; unfold gsgn in E2.
  - assert (H : gmul (gsub k gi) (gadd k gi) = g0).
    { replace (gmul (gsub k gi) (gadd k gi)) with (gsub (gmul k k) (gmul gi gi)) by ring. rewrite E2, gi_sq. ring. }
    apply gmul_integral in H. destruct H as [H|H].
    + right; right; left. replace k with (gadd (gsub k gi) gi) by ring. rewrite H. ring.
    + right; right; right; left. replace k with (gsub (gadd k gi) gi) by ring. rewrite H. ring.
  - assert (H : gmul (gsub k g1) (gadd k g1) = g0).
    { replace (gmul (gsub k g1) (gadd k g1)) with (gsub (gmul k k) g1) by ring. rewrite E2. ring. }
    apply gmul_integral in H. destruct H as [H|H].
    + left. replace k with (gadd (gsub k g1) g1) by ring. rewrite H. ring.
    + right; left. replace k with (gsub (gadd k g1) g1) by ring. rewrite H. unfold gm1. ring.
Qed.

Lemma mode_spec ty m S T : ty <> Fermion -> string_ok ty S -> string_ok ty T ->
  exists k oc, mode_result ty m S T k oc.
Proof.
  intros Hty HS HT. destruct (operation_spec ty S T Hty HS HT) as (k & e & C & R).
  assert (Cs : forall C', Some C = Some C' -> string_ok ty C' /\ canonical C' /\
              (forall l, In l (os_labels C') -> In l (os_labels S) \/ In l (os_labels T))).
  { intros C' E; injection E as <-. split; [apply R|]. split; apply R. }
  pose proof (or_unit _ _ _ _ _ _ R) as U. pose proof (unit_root _ _ _ _ _ _ Hty HS HT R) as U'.
  destruct m.
  - exists k, (Some C). constructor.
    + apply (or_prod _ _ _ _ _ _ R).
    + discriminate.
    + intros C' E. split; [exists k; auto | auto].
    + intros A g Hr. apply (or_st _ _ _ _ _ _ R A g Hr).
  - pose proof (or_comm _ _ _ _ _ _ R) as H. unfold commutator in H. destruct e.
    + exists (gmul k g2), (Some C). constructor; auto.
      * discriminate.
      * intros C' E. split; [exists k; auto | auto].
      * intros A g Hr. simpl. unfold asub. rewrite (or_st _ _ _ _ _ _ R A g Hr), (or_ts _ _ _ _ _ _ R A g Hr), ascal_ascal, <- ascal_add_l.
        apply ascal_eq. replace g2 with (gadd g1 g1) by (apply GC_ext; reflexivity). unfold gsgn, gm1. ring.
    + exists g0, None. constructor; auto.
      * discriminate.
      * intros A g Hr. simpl. apply asub_0_eq.
        rewrite (or_st _ _ _ _ _ _ R A g Hr), (or_ts _ _ _ _ _ _ R A g Hr). apply ascal_eq. unfold gsgn. ring.
  - pose proof (or_anti _ _ _ _ _ _ R) as H. unfold anticommutator in H. destruct e.
    + exists g0, None. constructor; auto.
      * discriminate.
      * intros A g Hr. simpl. rewrite (or_st _ _ _ _ _ _ R A g Hr), (or_ts _ _ _ _ _ _ R A g Hr), <- ascal_add_l.
        rewrite <- (ascal_0 A (den g C)). apply ascal_eq. unfold gsgn, gm1. ring.
    + exists (gmul k g2), (Some C). constructor; auto.
      * discriminate.
      * intros C' E. split; [exists k; auto | auto].
      * intros A g Hr. simpl. rewrite (or_st _ _ _ _ _ _ R A g Hr), (or_ts _ _ _ _ _ _ R A g Hr), <- ascal_add_l.
        apply ascal_eq. replace g2 with (gadd g1 g1) by (apply GC_ext; reflexivity). unfold gsgn. ring.
Qed.

(* -------------------------------------------------------- bilinearity of exact *)

Section Exact.
  Context {A : StarAlg}.
  Implicit Types x y z : A.

  Lemma aadd_swap x y z w : (x + y) + (z + w) == (x + z) + (y + w).
  Proof.
    rewrite <- !aadd_assoc. apply aadd_proper; [reflexivity|]. rewrite !aadd_assoc.
    apply aadd_proper; [apply aadd_comm | reflexivity].
  Qed.
  Global Instance exact_proper m : Proper (aeq ==> aeq ==> aeq) (@exact A m).
  Proof. intros x x' Hx y y' Hy. destruct m; simpl; unfold asub; rewrite Hx, Hy; reflexivity. Qed.
  Lemma exact_add_l m x y z : exact m (x + y) z == exact m x z + exact m y z.
  Proof.
    destruct m; simpl; unfold asub; rewrite ?amul_add_l, ?amul_add_r, ?ascal_add_r; try reflexivity; apply aadd_swap.
  Qed.
  Lemma exact_add_r m x y z : exact m x (y + z) == exact m x y + exact m x z.
  Proof.
    destruct m; simpl; unfold asub; rewrite ?amul_add_l, ?amul_add_r, ?ascal_add_r; try reflexivity; apply aadd_swap.
  Qed.
  Lemma exact_scal_l m a x y : exact m (a · x) y == a · exact m x y.
  Proof.
    destruct m; simpl; unfold asub; rewrite ?ascal_mul_l, ?ascal_mul_r, ?ascal_add_r; try reflexivity.
    apply aadd_proper; [reflexivity|]. rewrite !ascal_ascal. apply ascal_eq. ring.
  Qed.
  Lemma exact_scal_r m a x y : exact m x (a · y) == a · exact m x y.
  Proof.
    destruct m; simpl; unfold asub; rewrite ?ascal_mul_l, ?ascal_mul_r, ?ascal_add_r; try reflexivity.
    apply aadd_proper; [reflexivity|]. rewrite !ascal_ascal. apply ascal_eq. ring.
  Qed.
  Lemma exact_0_l m y : exact m (azero : A) y == azero.
  Proof.
    destruct m; simpl; unfold asub; rewrite ?amul_0_l, ?amul_0_r, ?ascal_zero, ?aadd_0_l; reflexivity.
  Qed.
  Lemma exact_0_r m x : exact m x (azero : A) == azero.
  Proof.
    destruct m; simpl; unfold asub; rewrite ?amul_0_l, ?amul_0_r, ?ascal_zero, ?aadd_0_l; reflexivity.
  Qed.
End Exact.

(* -------------------------------------------------------- C14 *)

Lemma good_op_ok ty o : good_op ty o -> op_ok o.
Proof. intros (H & _). apply made_ok; auto. Qed.

Definition swap_terms (d : list (OS * GC)) : list (GC * OS) := map (fun e => (snd e, fst e)) d.

Lemma swap_terms_combine (d : list (OS * GC)) : combine (map snd d) (map fst d) = swap_terms d.
Proof. induction d as [|[s c] d IH]; simpl; auto. rewrite IH; auto. Qed.

(** The dictionary holds canonical strings, each once. *)
Definition dict_ok (ty : optype) (d : list (OS * GC)) : Prop :=
  distinct_keys (map fst d) /\ forall s, In s (map fst d) -> string_ok ty s /\ canonical s.

Section Den.
  Context {A : StarAlg} (g : op -> Z -> A).

  Lemma lincomb_dset ty d C v w : dict_ok ty d -> canonical C -> dget os_key d C = Some v ->
    lincomb g (swap_terms (dset os_key d C (gadd v w))) == lincomb g (swap_terms d) + w · den g C.
  Proof.
    intros [_ Hd] HC. induction d as [|[s c] d IH]; simpl; [discriminate|].
    destruct (os_key s C) eqn:E; intros H.
    - injection H as ->. assert (s = C).
      { apply std_key; [apply canonical_std, Hd; simpl; auto | apply canonical_std; auto | apply os_key_spec; auto]. }
      subst s. simpl. rewrite !lincomb_cons, ascal_add_l, <- !aadd_assoc.
      apply aadd_proper; [reflexivity | apply aadd_comm].
    - simpl. rewrite !lincomb_cons, IH; auto; [apply aadd_assoc|]. intros; apply Hd; simpl; auto.
  Qed.
  Lemma lincomb_dset_new d C w : dget os_key d C = None ->
    lincomb g (swap_terms (dset os_key d C w)) == lincomb g (swap_terms d) + w · den g C.
  Proof.
    intros H. rewrite dset_none by auto. unfold swap_terms. rewrite map_app. simpl. rewrite lincomb_app.
    apply aadd_proper; [reflexivity|]. rewrite lincomb_cons. unfold lincomb; simpl. apply aadd_0_r.
  Qed.
End Den.

Lemma dset_keys (d : list (OS * GC)) C v : forall s, In s (map fst (dset os_key d C v)) -> In s (map fst d) \/ s = C.
Proof.
  intros s. induction d as [|[t c] d IH]; simpl; [intuition|].
  destruct (os_key t C); simpl; intuition.
Qed.
Lemma dset_distinct {V} (d : list (OS * V)) C v : distinct_keys (map fst d) -> distinct_keys (map fst (dset os_key d C v)).
Proof.
  intros H. destruct (dget os_key d C) as [w|] eqn:E.
  - assert (Em : map fst (dset os_key d C v) = map fst d); [|rewrite Em; auto].
    clear H. revert E. induction d as [|[t c] d IH]; simpl; [discriminate|].
    destruct (os_key t C); simpl; auto. intros; f_equal; auto.
  - rewrite dset_none by auto. rewrite map_app. simpl. apply distinct_snoc. split; auto.
    intros (t & Ht & K). apply in_map_iff in Ht. destruct Ht as ([t' u] & <- & Hin).
    rewrite dget_not_in in E. eapply E; eauto.
Qed.
Lemma dict_ok_dset ty d C v : dict_ok ty d -> string_ok ty C -> canonical C -> dict_ok ty (dset os_key d C v).
Proof.
  intros [H1 H2] HC Hc. split; [apply dset_distinct; auto|].
  intros s Hs. apply dset_keys in Hs. destruct Hs as [Hs| ->]; auto.
Qed.

(** The contribution of a pair of terms to the result. *)
Definition kept {A : StarAlg} (g : op -> Z -> A) (m : mode) (a : GC) (S : OS) (b : GC) (T : OS) : A :=
  match operation_opstring m S T with
  | Ok (k, Some c) => if abs_ltb (gmul (gmul a b) k) tol16 then azero else gmul (gmul a b) k · den g c
  | _ => azero
  end.

Lemma oo_inner ty m a S us : ty <> Fermion -> string_ok ty S -> forall us0 d,
  (forall t, In t us0 -> In t us) ->
  (forall t, In t us0 -> string_ok ty (snd t)) -> dict_ok ty d ->
  exists d' dr, rfold (oo_step m a S) us0 d = Ok d' /\ dict_ok ty d' /\ length dr <= length us0 /\
    (forall x, In x dr -> exists b T k, In (b, T) us /\ fst x = gmul (gmul a b) k /\ abs_ltb (fst x) tol16 = true /\
        operation_opstring m S T = Ok (k, Some (snd x))) /\
    forall (A : StarAlg) (g : op -> Z -> A), rep ty g ->
      lincomb g (swap_terms d') + lincomb g dr == lincomb g (swap_terms d) + exact m (a · den g S) (lincomb g us0) /\
      lincomb g (swap_terms d') == lincomb g (swap_terms d) + asum (map (fun t => kept g m a S (fst t) (snd t)) us0).
Proof.
  intros Hty HS. induction us0 as [|[b T] us0 IH]; intros d Hin Hus Hd.
  - exists d, []. split; auto. split; auto. split; auto. split; [intros x []|].
    intros A g Hr. split; [|simpl; rewrite aadd_0_r; reflexivity].
    unfold lincomb at 4. simpl. rewrite exact_0_r. unfold lincomb at 2. reflexivity.
  - assert (HT : string_ok ty T) by (apply (Hus (b, T)); simpl; auto).
    destruct (mode_spec ty m S T Hty HS HT) as (k & oc & R).
    pose proof (mr_run _ _ _ _ _ _ R) as Hrun.
    cbn [rfold]. unfold oo_step at 1. cbn [snd fst]. rewrite Hrun. cbn [rbind].
    assert (IH' : forall d, dict_ok ty d -> _) by (intros d0 Hd0; apply (IH d0); [intros; apply Hin; simpl; auto | intros; apply Hus; simpl; auto | exact Hd0]).
    clear IH.
    assert (Hsplit : forall (A : StarAlg) (g : op -> Z -> A), rep ty g -> exact m (a · den g S) (lincomb g ((b, T) :: us0)) ==
      match oc with Some C => gmul (gmul a b) k · den g C | None => azero end + exact m (a · den g S) (lincomb g us0)).
    { intros A g Hr. rewrite lincomb_cons, exact_add_r. apply aadd_proper; [|reflexivity].
      rewrite exact_scal_l, exact_scal_r, (mr_den _ _ _ _ _ _ R A g Hr). destruct oc as [C|].
      - rewrite !ascal_ascal. apply ascal_eq. ring.
      - rewrite !ascal_zero. reflexivity. }
    destruct (abs_ltb (gmul (gmul a b) k) tol16) eqn:Elt; cbn [rbind].
    + destruct (IH' d Hd) as (d' & dr & Hf & Hok & Hlen & Hdr & Hden).
      destruct oc as [C|].
      * exists d', ((gmul (gmul a b) k, C) :: dr). split; auto. split; auto. split; [simpl; lia|]. split.
        -- intros x [<-|Hx]; [|auto]. exists b, T, k. split; [apply Hin; simpl; auto|]. split; auto.
        -- intros A g Hr. destruct (Hden A g Hr) as [Hden1 Hden2]. split.
           ++ rewrite (Hsplit A g Hr), lincomb_cons.
              rewrite aadd_assoc, (aadd_comm _ _ (gmul (gmul a b) k · den g C)), <- aadd_assoc, Hden1.
              rewrite !aadd_assoc. apply aadd_proper; [apply aadd_comm | reflexivity].
           ++ rewrite Hden2. simpl. unfold kept at 2. rewrite Hrun, Elt, aadd_0_l. reflexivity.
      * exists d', dr. split; auto. split; auto. split; [simpl; lia|]. split; auto.
        intros A g Hr. destruct (Hden A g Hr) as [Hden1 Hden2]. split.
        -- rewrite (Hsplit A g Hr), Hden1, aadd_0_l. reflexivity.
        -- rewrite Hden2. simpl. unfold kept at 2. rewrite Hrun, aadd_0_l. reflexivity.
    + destruct oc as [C|].
      2:{ exfalso. rewrite (mr_none _ _ _ _ _ _ R eq_refl) in Elt.
          replace (gmul (gmul a b) g0) with g0 in Elt by ring. vm_compute in Elt. discriminate. }
      destruct (mr_some _ _ _ _ _ _ R C eq_refl) as (_ & HC & Hcan & _).
      assert (Hstep : exists d1, (match dget os_key d C with
                   | Some v => Ok (dset os_key d C (gadd v (gmul (gmul a b) k)))
                   | None => Ok (dset os_key d C (gmul (gmul a b) k))
                   end) = Ok d1 /\ dict_ok ty d1 /\ forall (A : StarAlg) (g : op -> Z -> A),
                     lincomb g (swap_terms d1) == lincomb g (swap_terms d) + gmul (gmul a b) k · den g C).
      { destruct (dget os_key d C) as [v|] eqn:Eg; eexists; (split; [reflexivity|]); (split; [apply dict_ok_dset; auto|]); intros A g.
        - eapply lincomb_dset; eauto.
        - apply lincomb_dset_new; auto. }
      destruct Hstep as (d1 & -> & Hd1 & Hl1). cbn [rbind].
      destruct (IH' d1 Hd1) as (d' & dr & Hf & Hok & Hlen & Hdr & Hden).
      exists d', dr. split; auto. split; auto. split; [simpl; lia|]. split; auto.
      intros A g Hr. destruct (Hden A g Hr) as [Hden1 Hden2]. split.
      * rewrite (Hsplit A g Hr), Hden1, Hl1, <- aadd_assoc. reflexivity.
      * rewrite Hden2, Hl1. simpl. unfold kept at 2. rewrite Hrun, Elt, <- aadd_assoc. reflexivity.
Qed.

Lemma oo_outer ty m ts us : ty <> Fermion -> (forall t, In t us -> string_ok ty (snd t)) -> forall ts0 d,
  (forall t, In t ts0 -> In t ts) ->
  (forall t, In t ts0 -> string_ok ty (snd t)) -> dict_ok ty d ->
  exists d' dr, rfold (fun d ta => rfold (oo_step m (fst ta) (snd ta)) us d) ts0 d = Ok d' /\ dict_ok ty d' /\
    length dr <= length ts0 * length us /\ (forall x, In x dr -> dropped_from m ts us x) /\
    forall (A : StarAlg) (g : op -> Z -> A), rep ty g ->
      lincomb g (swap_terms d') + lincomb g dr == lincomb g (swap_terms d) + exact m (lincomb g ts0) (lincomb g us) /\
      lincomb g (swap_terms d') == lincomb g (swap_terms d) +
        asum (map (fun t => asum (map (fun u => kept g m (fst t) (snd t) (fst u) (snd u)) us)) ts0).
Proof.
  intros Hty Hus. induction ts0 as [|[a S] ts0 IH]; intros d Hin Hts Hd.
  - exists d, []. split; auto. split; auto. split; [simpl; lia|]. split; [intros x []|].
    intros A g Hr. split; [|simpl; rewrite aadd_0_r; reflexivity].
    unfold lincomb at 4. simpl. rewrite exact_0_l. unfold lincomb at 2. reflexivity.
  - assert (HS : string_ok ty S) by (apply (Hts (a, S)); simpl; auto).
    destruct (oo_inner ty m a S us Hty HS us d (fun t H => H) Hus Hd) as (d1 & dr1 & Hf1 & Hok1 & Hl1 & Hdr1 & Hden1).
    cbn [rfold fst snd]. rewrite Hf1. cbn [rbind].
    destruct (IH d1) as (d2 & dr2 & Hf2 & Hok2 & Hl2 & Hdr2 & Hden2); auto.
    { intros; apply Hin; simpl; auto. } { intros; apply Hts; simpl; auto. }
    exists d2, (dr1 ++ dr2). split; auto. split; auto. split; [rewrite app_length; simpl; lia|]. split.
    + intros x Hx. apply in_app_or in Hx. destruct Hx as [Hx|Hx]; auto.
      destruct (Hdr1 x Hx) as (b & T & k & H1 & H2 & H3 & H4). exists a, S, b, T, k.
      split; [apply Hin; simpl; auto|]. auto.
    + intros A g Hr. destruct (Hden1 A g Hr) as [E1 E1'], (Hden2 A g Hr) as [E2 E2']. split.
      * rewrite lincomb_app, lincomb_cons, exact_add_l, !aadd_assoc, <- E1.
        transitivity ((lincomb g (swap_terms d2) + lincomb g dr2) + lincomb g dr1).
        -- rewrite <- !aadd_assoc. apply aadd_proper; [reflexivity|]. apply aadd_comm.
        -- rewrite E2, <- !aadd_assoc. apply aadd_proper; [reflexivity|]. apply aadd_comm.
      * rewrite E2', E1'. simpl. rewrite <- aadd_assoc. reflexivity.
Qed.

Lemma operation_operator_proof ty m A B : ty <> Fermion -> good_op ty A -> good_op ty B ->
  exists C dr, operation_operator m A B = Ok C /\ good_op ty C /\
    (forall s, In s (b_strings (o_basis C)) -> canonical s) /\
    length dr <= op_len A * op_len B /\ (forall x, In x dr -> dropped_from m (op_terms A) (op_terms B) x) /\
    forall (Al : StarAlg) (g : op -> Z -> Al), rep ty g ->
      lincomb g (op_terms C) + lincomb g dr == exact m (lincomb g (op_terms A)) (lincomb g (op_terms B)) /\
      lincomb g (op_terms C) ==
        asum (map (fun t => asum (map (fun u => kept g m (fst t) (snd t) (fst u) (snd u)) (op_terms B))) (op_terms A)).
Proof.
  intros Hty HA HB. pose proof (good_op_ok _ _ HA) as OA. pose proof (good_op_ok _ _ HB) as OB.
  destruct HA as (MA & TA & SA), HB as (MB & TB & SB).
  destruct (oo_outer ty m (op_terms A) (op_terms B) Hty) with (ts0 := op_terms A) (d := @nil (OS * GC)) as (d & dr & Hf & [Hd Hs] & Hl & Hdr & Hden); auto.
  { intros [c s] H. apply SB. eapply in_combine_r; eauto. }
  { intros [c s] H. apply SA. eapply in_combine_r; eauto. }
  { split; [apply distinct_nil | intros s []]. }
  unfold operation_operator. rewrite TA, TB, optype_eqb_refl, Hf. cbn [rbind].
  destruct (op_new_ok (map snd d) (map fst d) (Some ty)) as (C & HC & OC & EC & ES & ET).
  - auto. - rewrite !map_length; auto. - right; discriminate.
  - exists C, dr. split; auto. split; [|split; [|split; [|split; auto]]].
    + split; [apply made_ok; auto|]. rewrite ES. split; [|intros s H; apply Hs; auto].
      destruct (map fst d) as [|s r] eqn:Em; [specialize (ET eq_refl); congruence|].
      destruct OC as (_ & _ & Ht). rewrite (Ht s r); [|congruence]. apply (Hs s). simpl; auto.
    + rewrite ES. intros s H. apply Hs; auto.
    + unfold op_terms in Hl. rewrite !combine_length in Hl. unfold op_len, basis_len.
      destruct OA as (_ & LA & _), OB as (_ & LB & _). rewrite LA, LB in Hl. rewrite !Nat.min_id in Hl. auto.
    + intros Al g Hr. destruct (Hden Al g Hr) as [E1 E2].
      assert (ET' : op_terms C = swap_terms d) by (unfold op_terms; rewrite EC, ES; apply swap_terms_combine).
      rewrite ET'. split; [rewrite E1 | rewrite E2]; unfold lincomb at 1; simpl; apply aadd_0_l.
Qed.
Lemma operation_operator_types m A B : o_type A <> o_type B -> operation_operator m A B = Err ValueError.
Proof.
  intros H. unfold operation_operator. destruct (optype_eqb (o_type A) (o_type B)) eqn:E; auto.
  apply optype_eqb_eq in E. contradiction.
Qed.
