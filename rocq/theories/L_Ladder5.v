(** Proofs about the ladder operator functions: when an operator is a ladder operator. *)
From Coq Require Import String List ZArith Bool Arith Lia Reals QArith Qreals Qcanon Lra Setoid Morphisms Sorted Permutation.
From Coquelicot Require Import Complex.
From Verif Require Import GC Exn S_Alg M_OpString M_Tools M_Algebra M_Basis M_OpAlg M_LinAlg M_Core M_Greedy M_Ladder
  S_Den S_Basis S_Built S_OpAlg S_RScal S_CFock S_CScal S_LinAlg S_Core S_Greedy S_Transform S_Modes S_SelectedCI S_Ladder
  L_Alg L_Module L_StrAlg L_StrOp L_Indep L_PropStr L_Basis L_Operator L_PropBasis L_OpAlg L_Struct L_Commutant L_Conversion L_CScal L_CFock L_LinAlg L_Inter L_Herm L_Core L_Commuting L_Cumulative L_Cumul2 L_PartIso L_Modes2 L_Ladder L_Ladder2 L_Ladder3 L_Ladder4.
Import ListNotations.
Local Open Scope nat_scope.
Local Open Scope alg_scope.

Definition scaled (z : C) (ts : list (C * OS)) : list (C * OS) := map (fun x => (z * fst x, snd x)%C) ts.
(** The terms of the commutator of Σ v_s s and m. *)
Definition lad_terms (m : Operator) (v : vec) (U : list OS) : list (C * OS) := flat_map (fun p => scaled (fst p) (comm_terms m (snd p))) (combine v U).

Lemma clin_scaled {A : StarAlg} (S : RScal A) (g : op -> Z -> A) z ts : clincomb S g (scaled z ts) == cs S z (clincomb S g ts).
Proof.
  induction ts as [|[c s] ts IH]; [symmetry; apply cs_zero|]. cbn [scaled map]. rewrite !clin_cons. fold (scaled z ts). rewrite IH, cs_add_r, cs_cs. reflexivity.
Qed.
Lemma tcoef_scaled z ts t : tcoef (scaled z ts) t = (z * tcoef ts t)%C.
Proof. induction ts as [|[c s] ts IH]; [cbn; ring|]. cbn [scaled map]. rewrite !tcoef_cons. fold (scaled z ts). rewrite IH. cbn [fst snd]. destruct (os_key s t); ring. Qed.

Section Ladder.
  Variables (ty : optype) (m : Operator).
  Hypotheses (Hty : ty <> Fermion) (Hm : good_op ty m).
  Lemma lad_meaning (A : StarAlg) (S : RScal A) g : rep ty g -> forall U v, (forall s, In s U -> string_ok ty s) ->
    exact MCommutator (clincomb S g (combine v U)) (lincomb g (op_terms m)) == clincomb S g (lad_terms m v U).
  Proof.
    intros Hr U. induction U as [|s U IH]; intros [|z v] HU; try apply exact_0_l. unfold lad_terms. cbn [combine flat_map fst snd]. rewrite clin_cons, clin_app, clin_scaled.
    rewrite exact_add_l, exact_cs_l, IH by (intros; apply HU; right; auto). apply aadd_proper; [|reflexivity]. apply cs_proper.
    symmetry. apply (comm_terms_meaning ty m Hty (op_terms_ok ty m Hm) S g s Hr). apply HU; left; auto.
  Qed.
  Lemma lad_coef v U t : tcoef (lad_terms m v U) t = csum (zip_with Cmult v (map (ecoef m t) U)).
  Proof.
    revert v. induction U as [|s U IH]; intros [|z v]; try reflexivity. unfold lad_terms. cbn [combine flat_map fst snd map zip_with]. rewrite tcoef_app, tcoef_scaled, tcoef_terms.
    fold (lad_terms m v U). rewrite IH. reflexivity.
  Qed.
  Lemma lad_terms_ok v U p : (forall s, In s U -> string_ok ty s /\ canonical s) -> In p (lad_terms m v U) -> string_ok ty (snd p) /\ canonical (snd p).
  Proof.
    intros HU H. apply in_flat_map in H. destruct H as ([z s] & Hs & H). apply in_combine_r in Hs. apply in_map_iff in H. destruct H as (x & <- & Hx). cbn [snd] in *.
    apply (comm_terms_ok ty m Hty (op_terms_ok ty m Hm) s); auto; apply HU; auto.
  Qed.
End Ladder.

(** The coefficients with Gaussian rationals. *)
Lemma to_C_0 : to_C g0 = RtoC 0.
Proof. rewrite to_C_emb. apply emb_0. Qed.
Lemma to_C_add a b : to_C (gadd a b) = (to_C a + to_C b)%C.
Proof. rewrite !to_C_emb. apply emb_add. Qed.
Definition gcoef (m : Operator) (t s : OS) : GC :=
  fold_right gadd g0 (map (fun p => match commutator s (snd p) with Ok (k, Some d) => if os_key d t then gmul (fst p) k else g0 | _ => g0 end) (op_terms m)).
Lemma gcoef_ok m t s : ecoef m t s = to_C (gcoef m t s).
Proof.
  unfold ecoef, gcoef. induction (op_terms m) as [|p ts IH]; [symmetry; apply to_C_0|]. cbn [map fold_right]. rewrite to_C_add. unfold csum in *. cbn [fold_right]. rewrite IH. f_equal.
  unfold comm_coef. destruct (commutator s (snd p)) as [[k [d|]]|]; try (symmetry; apply to_C_0). destruct (os_key d t); auto. symmetry. apply to_C_0.
Qed.

Section Op.
  Variables (ty : optype) (o : Operator) (b : Basis).
  Hypotheses (Hty : ty <> Fermion) (Hb : canonical_basis ty b) (Ho : good_op ty o) (Hre : real_coeffs o).
  (** The coefficients of the commutator with a ladder operator. *)
  Lemma ladder_coefs (A : StarAlg) (S : RScal A) g m v l t : rep ty g -> ~ (@aone A == azero) -> op_neg o = Ok m -> ladder S (lincomb g (op_terms o)) l (cden S g (CBasis b) v) -> string_ok ty t ->
    csum (zip_with Cmult v (map (fun s => to_C (gcoef m t s)) (b_strings b))) = (RtoC l * tcoef (combine v (b_strings b)) t)%C.
  Proof.
    intros Hr Hn Em HL Ht. destruct (neg_ok ty o Ho Hre) as (m' & Em' & Hm & _ & _ & Dm). rewrite Em in Em'. injection Em' as <-.
    rewrite <- (map_ext _ _ (gcoef_ok m t)), <- lad_coef, <- tcoef_vscale.
    apply (tcoef_unique S ty g Hr Hn); auto.
    - intros p Hp. apply (lad_terms_ok ty m Hty Hm _ _ _ (proj2 Hb) Hp).
    - intros [c s] H. apply in_combine_r in H. apply Hb; auto.
    - rewrite <- (lad_meaning ty m Hty Hm A S g Hr) by (intros; apply Hb; auto). rewrite Dm, clin_vscale. apply ladder_iff. exact HL.
  Qed.
  Lemma ladder_intro (A : StarAlg) (S : RScal A) g m v l : rep ty g -> op_neg o = Ok m -> (forall z s c k t, In (z, s) (combine v (b_strings b)) -> z <> RtoC 0 -> In c (b_strings (o_basis m)) -> commutator s c = Ok (k, Some t) -> In t (b_strings b)) -> length v = basis_len b ->
    (forall t, In t (b_strings b) -> csum (zip_with Cmult v (map (fun s => to_C (gcoef m t s)) (b_strings b))) = (RtoC l * tcoef (combine v (b_strings b)) t)%C) ->
    ladder S (lincomb g (op_terms o)) l (cden S g (CBasis b) v).
  Proof.
    intros Hr Em Hi Lv HC. destruct (neg_ok ty o Ho Hre) as (m' & Em' & Hm & _ & _ & Dm). rewrite Em in Em'. injection Em' as <-.
    apply ladder_iff. rewrite <- Dm. cbn [cden]. rewrite (lad_meaning ty m Hty Hm A S g Hr) by (intros; apply Hb; auto). rewrite <- clin_vscale.
    set (U := b_strings b) in *. assert (NU : NoDup U) by (apply built_nodup, Hb). assert (OU : forall s, In s U -> string_ok ty s) by (intros; apply Hb; auto).
    set (nz := fun p : C * OS => if Ceq_dec (fst p) (RtoC 0) then false else true).
    assert (F : forall ts, clincomb S g (filter nz ts) == clincomb S g ts).
    { induction ts as [|[c s] ts IH]; [reflexivity|]. cbn [filter]. unfold nz at 1. cbn [fst]. destruct (Ceq_dec c (RtoC 0)) as [->|]; rewrite !clin_cons, ?IH; [rewrite cs_0, aadd_0_l|]; reflexivity. }
    rewrite <- F. rewrite <- (hval_coords ty U NU OU S (den g) (filter nz (lad_terms m v U))).
    - replace (coords U (filter nz (lad_terms m v U))) with (vscale (RtoC l) v); [reflexivity|].
      rewrite <- (coords_self ty U NU OU (vscale (RtoC l) v)) by (rewrite vscale_length; auto). apply coords_ext. intros t Ht.
      rewrite tcoef_filter by (intros p _; unfold nz; destruct (Ceq_dec (fst p) (RtoC 0)); [auto | discriminate]).
      rewrite tcoef_vscale, lad_coef, (map_ext _ _ (gcoef_ok m t)). symmetry. apply HC. auto.
    - intros p Hp. apply filter_In in Hp. destruct Hp as [Hp Np]. unfold nz in Np. destruct (Ceq_dec (fst p) (RtoC 0)) as [|N]; [discriminate|].
      apply in_flat_map in Hp. destruct Hp as ([z s] & Hs & Hp). apply in_map_iff in Hp. destruct Hp as (x & <- & Hx). cbn [fst snd] in *.
      apply in_flat_map in Hx. destruct Hx as ([c u] & Hu & Hx). cbn [fst snd] in Hx. destruct (commutator s u) as [[k [t|]]|] eqn:E; [| destruct Hx | destruct Hx]. destruct Hx as [<-|[]]. cbn [fst snd] in *.
      apply (Hi z s u k t); auto; [intros ->; apply N; ring | eapply in_combine_r; eauto].
  Qed.
End Op.
