(** The commutator of Operators with complex coefficients. *)
From Coq Require Import List ZArith Bool Arith Lia Setoid Morphisms Reals QArith Qreals Qcanon Lra.
From Coquelicot Require Import Complex.
From Verif Require Import GC Exn M_OpString M_Tools M_Algebra M_Basis M_OpAlg M_Transform M_LinAlg M_Core M_Greedy M_LieOps
  S_Alg S_Den S_Basis S_Built S_OpAlg S_RScal S_CFock S_CScal S_LinAlg S_Core S_Invariant S_Sparsify S_Generate S_Cumulative S_LieOps
  L_Alg L_Sort L_StrAlg L_StrOp L_Indep L_PropStr L_Operator L_Basis L_Heap L_PropBasis L_OpAlg L_Sum L_Struct L_Commutant L_CScal L_LinAlg L_Inter L_Core L_Cumulative L_Cumul2.
Import ListNotations.
Local Open Scope nat_scope.
Local Open Scope alg_scope.

Definition cswap (d : list (OS * C)) : list (C * OS) := map (fun e => (snd e, fst e)) d.
Lemma cswap_combine (d : list (OS * C)) : combine (map snd d) (map fst d) = cswap d.
Proof. induction d as [|[s c] d IH]; simpl; auto. rewrite IH; auto. Qed.

(** The dictionary holds canonical strings with labels in [P], each once. *)
Definition cdict_ok (ty : optype) (P : Z -> Prop) (d : list (OS * C)) : Prop :=
  distinct_keys (map fst d) /\ forall s, In s (map fst d) -> string_ok ty s /\ canonical s /\ forall l, In l (os_labels s) -> P l.

Section CDen.
  Context {A : StarAlg} (S : RScal A) (g : op -> Z -> A).
  Lemma clin_app ts us : clincomb S g (ts ++ us) == clincomb S g ts + clincomb S g us.
  Proof. induction ts as [|[tc tt] ts IH]; [symmetry; apply aadd_0_l|]. cbn [app]. rewrite !clin_cons, IH. apply aadd_assoc. Qed.
  Lemma clin_dset ty P d c v w : cdict_ok ty P d -> string_ok ty c -> dget os_key d c = Some v ->
    clincomb S g (cswap (dset os_key d c (Cplus v w))) == clincomb S g (cswap d) + cs S w (den g c).
  Proof.
    intros [_ Hd] Hc. induction d as [|[s z] d IH]; simpl; [discriminate|].
    destruct (os_key s c) eqn:E; intros H.
    - injection H as ->. assert (s = c).
      { apply (key_string_ok ty); [apply Hd; simpl; auto | auto | apply os_key_spec; auto]. }
      subst s. simpl. rewrite !clin_cons. cbn [fst snd]. rewrite cs_add_l, <- !aadd_assoc.
      apply aadd_proper; [reflexivity | apply aadd_comm].
    - simpl. rewrite !clin_cons, IH; auto; [apply aadd_assoc|]. intros; apply Hd; simpl; auto.
  Qed.
  Lemma clin_dset_new d c w : dget os_key d c = None ->
    clincomb S g (cswap (dset os_key d c w)) == clincomb S g (cswap d) + cs S w (den g c).
  Proof.
    intros H. rewrite dset_none by auto. unfold cswap. rewrite map_app. simpl. rewrite clin_app.
    apply aadd_proper; [reflexivity|]. rewrite clin_cons. unfold clincomb; simpl. apply aadd_0_r.
  Qed.
  Lemma exact_cs_r m a x y : exact m x (cs S a y) == cs S a (exact m x y).
  Proof.
    destruct m; simpl; unfold asub; rewrite ?cs_mul_l, ?cs_mul_r, ?cs_add_r, ?cs_gscal; reflexivity.
  Qed.
End CDen.

Lemma cdset_keys (d : list (OS * C)) c v : forall s, In s (map fst (dset os_key d c v)) -> In s (map fst d) \/ s = c.
Proof.
  intros s. induction d as [|[t z] d IH]; simpl; [intuition|].
  destruct (os_key t c); simpl; intuition.
Qed.
Lemma cdict_ok_dset ty P d c v : cdict_ok ty P d -> string_ok ty c -> canonical c -> (forall l, In l (os_labels c) -> P l) -> cdict_ok ty P (dset os_key d c v).
Proof.
  intros [H1 H2] HC Hc Hl. split; [apply dset_distinct; auto|].
  intros s Hs. apply cdset_keys in Hs. destruct Hs as [Hs| ->]; auto.
Qed.

Lemma coo_inner ty (P : Z -> Prop) m a X : ty <> Fermion -> string_ok ty X -> (forall l, In l (os_labels X) -> P l) -> forall us d,
  (forall t, In t us -> string_ok ty (snd t) /\ forall l, In l (os_labels (snd t)) -> P l) -> cdict_ok ty P d ->
  exists d' dr, rfold (coo_step m a X) us d = Ok d' /\ cdict_ok ty P d' /\ length dr <= length us /\
    (forall x, In x dr -> (Cmod (fst x) < tol16r)%R) /\
    forall (A : StarAlg) (S : RScal A) (g : op -> Z -> A), rep ty g ->
      clincomb S g (cswap d') + clincomb S g dr == clincomb S g (cswap d) + exact m (cs S a (den g X)) (clincomb S g us).
Proof.
  intros Hty HX HP. induction us as [|[b T] us IH]; intros d Hus Hd.
  - exists d, []. split; auto. split; auto. split; auto. split; [intros x []|].
    intros A S g Hr. apply aadd_proper; [reflexivity|]. unfold clincomb. simpl. symmetry. apply exact_0_r.
  - destruct (Hus (b, T)) as [HT HTP]; [simpl; auto|]. cbn [snd] in *.
    destruct (mode_spec ty m X T Hty HX HT) as (k & oc & R).
    pose proof (mr_run _ _ _ _ _ _ R) as Hrun.
    cbn [rfold]. unfold coo_step at 1. cbn [snd fst]. rewrite Hrun. cbn [rbind]. cbv beta iota zeta.
    assert (IH' : forall d, cdict_ok ty P d -> _) by (intros d0 Hd0; apply (IH d0); [intros; apply Hus; simpl; auto | exact Hd0]).
    clear IH. set (z := (a * b * to_C k)%C).
    assert (Hsplit : forall (A : StarAlg) (S : RScal A) (g : op -> Z -> A), rep ty g -> exact m (cs S a (den g X)) (clincomb S g ((b, T) :: us)) ==
      match oc with Some c => cs S z (den g c) | None => azero end + exact m (cs S a (den g X)) (clincomb S g us)).
    { intros A S g Hr. rewrite clin_cons, exact_add_r. apply aadd_proper; [|reflexivity]. cbn [fst snd].
      rewrite (exact_cs_l S), (exact_cs_r S), (mr_den _ _ _ _ _ _ R A g Hr). destruct oc as [c|].
      - rewrite <- cs_emb, !cs_cs. unfold z. change (to_C k) with (emb k). match goal with |- cs S ?x _ == cs S ?y _ => replace x with y by ring end. reflexivity.
      - rewrite !cs_zero. reflexivity. }
    unfold lt_dec. destruct (Rlt_dec (Cmod z) tol16r) as [Elt|Elt]; cbn [rbind].
    + destruct (IH' d Hd) as (d' & dr & Hf & Hok & Hlen & Hdr & Hden).
      destruct oc as [c|].
      * exists d', ((z, c) :: dr). split; auto. split; auto. split; [simpl; lia|]. split.
        -- intros x [<-|Hx]; auto.
        -- intros A S g Hr. rewrite (Hsplit A S g Hr), clin_cons. cbn [fst snd].
           rewrite aadd_assoc, (aadd_comm _ _ (cs S z (den g c))), <- aadd_assoc, (Hden A S g Hr).
           rewrite !aadd_assoc. apply aadd_proper; [apply aadd_comm | reflexivity].
      * exists d', dr. split; auto. split; auto. split; [simpl; lia|]. split; auto.
        intros A S g Hr. rewrite (Hsplit A S g Hr), (Hden A S g Hr), aadd_0_l. reflexivity.
    + destruct oc as [c|].
      2:{ exfalso. apply Elt. unfold z. rewrite (mr_none _ _ _ _ _ _ R eq_refl).
          replace (to_C g0) with (RtoC 0) by (unfold to_C; apply injective_projections; cbn; unfold Q2R; cbn; lra).
          rewrite Cmult_0_r, Cmod_0. unfold tol16r. apply Rinv_0_lt_compat, pow_lt. lra. }
      destruct (mr_some _ _ _ _ _ _ R c eq_refl) as (_ & HC & Hcan & Hlab).
      assert (Pc : forall l, In l (os_labels c) -> P l) by (intros l Hl; destruct (Hlab l Hl); auto).
      assert (Hstep : exists d1, (match dget os_key d c with
                   | Some v => Ok (dset os_key d c (Cplus v z))
                   | None => Ok (dset os_key d c z)
                   end) = Ok d1 /\ cdict_ok ty P d1 /\ forall (A : StarAlg) (S : RScal A) (g : op -> Z -> A),
                     clincomb S g (cswap d1) == clincomb S g (cswap d) + cs S z (den g c)).
      { destruct (dget os_key d c) as [v|] eqn:Eg; eexists; (split; [reflexivity|]); (split; [apply cdict_ok_dset; auto|]); intros A S g.
        - eapply clin_dset; eauto.
        - apply clin_dset_new; auto. }
      destruct Hstep as (d1 & -> & Hd1 & Hl1). cbn [rbind].
      destruct (IH' d1 Hd1) as (d' & dr & Hf & Hok & Hlen & Hdr & Hden).
      exists d', dr. split; auto. split; auto. split; [simpl; lia|]. split; auto.
      intros A S g Hr. rewrite (Hsplit A S g Hr), (Hden A S g Hr), Hl1, <- aadd_assoc. reflexivity.
Qed.

Lemma coo_outer ty (P : Z -> Prop) m us : ty <> Fermion -> (forall t, In t us -> string_ok ty (snd t) /\ forall l, In l (os_labels (snd t)) -> P l) -> forall ts d,
  (forall t, In t ts -> string_ok ty (snd t) /\ forall l, In l (os_labels (snd t)) -> P l) -> cdict_ok ty P d ->
  exists d' dr, rfold (fun d ta => rfold (coo_step m (fst ta) (snd ta)) us d) ts d = Ok d' /\ cdict_ok ty P d' /\
    length dr <= length ts * length us /\ (forall x, In x dr -> (Cmod (fst x) < tol16r)%R) /\
    forall (A : StarAlg) (S : RScal A) (g : op -> Z -> A), rep ty g ->
      clincomb S g (cswap d') + clincomb S g dr == clincomb S g (cswap d) + exact m (clincomb S g ts) (clincomb S g us).
Proof.
  intros Hty Hus. induction ts as [|[a X] ts IH]; intros d Hts Hd.
  - exists d, []. split; auto. split; auto. split; [simpl; lia|]. split; [intros x []|].
    intros A S g Hr. apply aadd_proper; [reflexivity|]. unfold clincomb. simpl. symmetry. apply exact_0_l.
  - destruct (Hts (a, X)) as [HX HP]; [simpl; auto|]. cbn [snd] in *.
    destruct (coo_inner ty P m a X Hty HX HP us d Hus Hd) as (d1 & dr1 & Hf1 & Hok1 & Hl1 & Hdr1 & Hden1).
    cbn [rfold fst snd]. rewrite Hf1. cbn [rbind].
    destruct (IH d1) as (d2 & dr2 & Hf2 & Hok2 & Hl2 & Hdr2 & Hden2); auto.
    { intros; apply Hts; simpl; auto. }
    exists d2, (dr1 ++ dr2). split; auto. split; auto. split; [rewrite app_length; simpl; lia|]. split.
    + intros x Hx. apply in_app_or in Hx. destruct Hx; auto.
    + intros A S g Hr. pose proof (Hden1 A S g Hr) as E1. pose proof (Hden2 A S g Hr) as E2.
      rewrite clin_app, clin_cons, exact_add_l, !aadd_assoc. cbn [fst snd]. rewrite <- E1.
      transitivity ((clincomb S g (cswap d2) + clincomb S g dr2) + clincomb S g dr1).
      * rewrite <- !aadd_assoc. apply aadd_proper; [reflexivity|]. apply aadd_comm.
      * rewrite E2, <- !aadd_assoc. apply aadd_proper; [reflexivity|]. apply aadd_comm.
Qed.

Lemma c_terms_ok ty o t : good_cop ty o -> In t (c_terms o) -> In (snd t) (b_strings (c_basis o)).
Proof. intros _ H. destruct t as [c s]. eapply in_combine_r; eauto. Qed.

Lemma cop_operation_ok ty m A B : ty <> Fermion -> good_cop ty A -> good_cop ty B ->
  exists D dr, cop_operation m A B = Ok D /\ good_cop ty D /\
    (forall s, In s (b_strings (c_basis D)) -> canonical s /\ forall l, In l (os_labels s) ->
       exists t, (In t (b_strings (c_basis A)) \/ In t (b_strings (c_basis B))) /\ In l (os_labels t)) /\
    length dr <= length (c_coeffs A) * length (c_coeffs B) /\ (forall x, In x dr -> (Cmod (fst x) < tol16r)%R) /\
    forall (X : StarAlg) (S : RScal X) (g : op -> Z -> X), rep ty g ->
      clincomb S g (c_terms D) + clincomb S g dr == exact m (clincomb S g (c_terms A)) (clincomb S g (c_terms B)).
Proof.
  intros Hty HA HB. pose proof HA as (_ & LA & TA & SA). pose proof HB as (_ & LB & TB & SB).
  set (P := fun l => exists t, (In t (b_strings (c_basis A)) \/ In t (b_strings (c_basis B))) /\ In l (os_labels t)).
  destruct (coo_outer ty P m (c_terms B) Hty) with (ts := c_terms A) (d := @nil (OS * C)) as (d & dr & Hf & [Hd Hs] & Hl & Hdr & Hden).
  { intros t Ht. pose proof (c_terms_ok ty B t HB Ht). split; auto. intros l Hx. exists (snd t); auto. }
  { intros t Ht. pose proof (c_terms_ok ty A t HA Ht). split; auto. intros l Hx. exists (snd t); auto. }
  { split; [apply distinct_nil | intros s []]. }
  unfold cop_operation. rewrite TA, TB, optype_eqb_refl, Hf. cbn [rbind].
  destruct (cop_new_ok ty (map snd d) (map fst d) (Some ty)) as (D & ED & GD & CD & SD).
  - apply distinct_NoDup; auto. - intros s H. apply Hs; auto. - rewrite !map_length; auto. - auto.
  - exists D, dr. split; auto. split; auto. split; [|split; [|split; auto]].
    + rewrite SD. intros s H. split; apply Hs; auto.
    + unfold c_terms in Hl. rewrite !combine_length, <- LA, <- LB, !Nat.min_id in Hl. auto.
    + intros X S g Hr. pose proof (Hden X S g Hr) as E. unfold c_terms at 1. rewrite CD, SD, cswap_combine, E.
      unfold clincomb at 1. simpl. apply aadd_0_l.
Qed.
Lemma cop_commutator_ok ty A B : ty <> Fermion -> good_cop ty A -> good_cop ty B ->
  exists D, cop_operation MCommutator A B = Ok D /\ is_commutator ty A B D /\
    (forall s, In s (b_strings (c_basis D)) -> canonical s /\ forall l, In l (os_labels s) ->
       exists t, (In t (b_strings (c_basis A)) \/ In t (b_strings (c_basis B))) /\ In l (os_labels t)).
Proof.
  intros Hty HA HB. destruct (cop_operation_ok ty MCommutator A B Hty HA HB) as (D & dr & E & GD & H1 & H2 & H3 & H4).
  exists D. split; auto. split; auto. split; auto. exists dr. split; auto.
Qed.
Lemma cop_operation_types m A B : c_type A <> c_type B -> cop_operation m A B = Err ValueError.
Proof. intros H. unfold cop_operation. destruct (optype_eqb (c_type A) (c_type B)) eqn:E; auto. destruct (c_type A), (c_type B); try discriminate; congruence. Qed.

(** Exchanging the two Operators changes the sign. *)
Lemma is_commutator_swap ty A B D : is_commutator ty A B D ->
  exists D', is_commutator ty B A D' /\ hs_norm D' = hs_norm D /\ forall s, coefficient D' s = (- coefficient D s)%C.
Proof.
  intros ((Hb & Hl & Ht & Hs) & dr & L & Hd & H).
  set (D' := mkCOp (map (fun c => Cmult c (RtoC (-1))) (c_coeffs D)) (c_basis D) (c_type D)).
  assert (N : forall ts (X : StarAlg) (S : RScal X) g, clincomb S g (map (fun t => (Cmult (fst t) (RtoC (-1)), snd t)) ts) == gm1 · clincomb S g ts).
  { intros ts X S g. induction ts as [|[c s] ts IH]; [unfold clincomb; simpl; symmetry; apply ascal_zero|]. cbn [map]. rewrite !clin_cons, IH, ascal_add_r. cbn [fst snd].
    apply aadd_proper; [|reflexivity]. rewrite <- (cs_emb S gm1), cs_cs. match goal with |- cs S ?x _ == cs S ?y _ => replace x with y; [reflexivity|] end.
    apply injective_projections; unfold emb, qr; cbn; unfold Q2R; cbn; lra. }
  assert (ET : c_terms D' = map (fun t => (Cmult (fst t) (RtoC (-1)), snd t)) (c_terms D)).
  { unfold c_terms, D'. cbn [c_coeffs c_basis]. generalize (c_coeffs D) (b_strings (c_basis D)). clear. induction l as [|c l IH]; intros [|s m]; simpl; auto. f_equal. auto. }
  exists D'. split; [|split].
  - split; [split; [|split; [|split]]; auto; cbn; rewrite map_length; auto|].
    exists (map (fun t => (Cmult (fst t) (RtoC (-1)), snd t)) dr). rewrite map_length. split; [lia|]. split.
    + intros t Hin. apply in_map_iff in Hin. destruct Hin as (u & <- & Hu). cbn [fst]. rewrite Cmod_mult, Cmod_R, Rabs_left by lra. specialize (Hd u Hu). lra.
    + intros X S g Hr. pose proof (H X S g Hr) as E. cbv zeta in *. rewrite ET, !N, <- ascal_add_r, E, ascal_add_r, ascal_ascal.
      replace (gmul gm1 gm1) with g1 by (unfold gm1; ring). rewrite ascal_1. apply aadd_comm.
  - unfold hs_norm. f_equal. unfold D'. cbn [c_coeffs]. unfold norm2c. rewrite map_map. f_equal. apply map_ext. intros z. cbn. ring.
  - intros s. unfold coefficient. rewrite ET, map_map. cbn [fst snd]. clear. induction (c_terms D) as [|t ts IH]; cbn [map fold_right]; [apply injective_projections; cbn; ring|].
    rewrite IH. destruct (os_key (snd t) s); apply injective_projections; cbn; ring.
Qed.
