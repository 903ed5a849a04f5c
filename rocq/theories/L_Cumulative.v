(** Coordinates of Operators, and their conversion in the cumulative mode. *)
From Coq Require Import List ZArith Bool Arith Lia Reals Qcanon Lra Setoid Morphisms.
From Coquelicot Require Import Complex.
From Verif Require Import GC Exn S_Alg M_OpString M_Algebra M_Basis M_Transform M_LinAlg M_Core S_Den S_Basis S_Built S_OpAlg S_RScal S_CScal S_LinAlg S_Core S_Invariant S_Sparsify S_Generate S_Cumulative
  L_Alg L_Basis L_PropBasis L_Commutant L_CScal L_LinAlg L_Inter L_Herm L_Core L_PartIso L_Invariant L_Sparsify L_Generate L_Generate2 L_LU L_Dim.
Import ListNotations.
Local Open Scope nat_scope.
Local Open Scope alg_scope.

Definition tcoef (ts : list (C * OS)) (s : OS) : C := fold_right Cplus (RtoC 0) (map (fun t => if os_key (snd t) s then fst t else RtoC 0) ts).
Lemma tcoef_cons t ts s : tcoef (t :: ts) s = ((if os_key (snd t) s then fst t else RtoC 0) + tcoef ts s)%C.
Proof. reflexivity. Qed.
Lemma tcoef_app ts us s : tcoef (ts ++ us) s = (tcoef ts s + tcoef us s)%C.
Proof. induction ts as [|t ts IH]; [symmetry; apply Cplus_0_l|]. change ((t :: ts) ++ us) with (t :: (ts ++ us)). rewrite !tcoef_cons, IH. ring. Qed.
Lemma tcoef_scale z cs : forall strs s, tcoef (combine (map (fun c => Cmult c z) cs) strs) s = Cmult z (tcoef (combine cs strs) s).
Proof.
  induction cs as [|c cs IH]; intros [|t strs] s; try (cbn; ring). change (tcoef ((c * z, t)%C :: combine (map (fun c => Cmult c z) cs) strs) s = Cmult z (tcoef ((c, t) :: combine cs strs) s)).
  rewrite !tcoef_cons, IH. cbn [fst snd]. destruct (os_key t s); ring.
Qed.
Lemma tcoef_zero ts s : (forall t, In t ts -> fst t <> RtoC 0 -> os_key (snd t) s = false) -> tcoef ts s = RtoC 0.
Proof.
  induction ts as [|t ts IH]; intros H; auto. rewrite tcoef_cons, IH by (intros; apply H; simpl; auto).
  destruct (os_key (snd t) s) eqn:E; [|ring]. destruct (Ceq_dec (fst t) (RtoC 0)) as [->|N]; [ring|]. rewrite (H t) in E by (simpl; auto). discriminate.
Qed.
Lemma tcoef_filter f ts s : (forall t, In t ts -> f t = false -> fst t = RtoC 0) -> tcoef (filter f ts) s = tcoef ts s.
Proof.
  induction ts as [|t ts IH]; intros H; auto. simpl. destruct (f t) eqn:E; rewrite ?tcoef_cons, IH by (intros; apply H; simpl; auto); auto.
  rewrite (H t) by (simpl; auto). destruct (os_key _ _); ring.
Qed.

Section Coords.
  Variables (ty : optype).
  (** The coefficient at the position of the string. *)
  Lemma tcoef_nth strs : NoDup strs -> (forall s, In s strs -> string_ok ty s) -> forall cs i s, nth_error strs i = Some s -> tcoef (combine cs strs) s = nth i cs (RtoC 0).
  Proof.
    induction strs as [|t strs IH]; intros Hn Ho cs i s Hi; [destruct i; discriminate|]. inversion Hn; subst.
    assert (Hs : string_ok ty s) by (apply Ho; eapply nth_error_In; eauto). assert (Ht : string_ok ty t) by (apply Ho; left; auto).
    destruct cs as [|c cs]; [destruct i; reflexivity|]. change (tcoef (combine (c :: cs) (t :: strs)) s) with (tcoef ((c, t) :: combine cs strs) s).
    rewrite tcoef_cons. cbn [fst snd]. destruct i as [|i].
    - injection Hi as <-. rewrite (proj2 (key_eq ty t t Ht Ht) eq_refl). rewrite tcoef_zero; [apply Cplus_0_r|].
      intros [d u] Hu _. apply not_true_is_false. intros E. apply in_combine_r in Hu. apply (key_eq ty) in E; auto; [|apply Ho; right; auto]. simpl in E. subst. auto.
    - simpl in Hi. replace (os_key t s) with false; [rewrite Cplus_0_l; cbn [nth]; apply IH; auto; intros; apply Ho; right; auto|].
      symmetry. apply not_true_is_false. intros E. apply (key_eq ty) in E; auto. subst. apply nth_error_In in Hi. auto.
  Qed.

  Variable U : list OS.
  Hypotheses (Hnd : NoDup U) (Hok : forall s, In s U -> string_ok ty s).
  Let m := length U.
  Definition coords (ts : list (C * OS)) : vec := map (tcoef ts) U.
  Lemma coords_length ts : length (coords ts) = m.
  Proof. apply map_length. Qed.
  Lemma coords_nil : coords [] = vzero m.
  Proof. unfold coords, m, vzero. clear. induction U; simpl; f_equal; auto. Qed.
  Lemma coords_cons t ts : coords (t :: ts) = vadd (ind (fst t) (snd t) U) (coords ts).
  Proof. unfold coords, ind. clear. induction U as [|s l IH]; auto. change (map (tcoef (t :: ts)) (s :: l)) with (tcoef (t :: ts) s :: map (tcoef (t :: ts)) l). rewrite IH, tcoef_cons. reflexivity. Qed.
  Lemma coords_ext ts us : (forall s, In s U -> tcoef ts s = tcoef us s) -> coords ts = coords us.
  Proof. intros H. apply map_ext_in. auto. Qed.
  Lemma coords_self v : length v = m -> coords (combine v U) = v.
  Proof.
    intros L. unfold coords. apply nth_ext with (d := RtoC 0) (d' := RtoC 0); [rewrite map_length; auto|]. rewrite map_length. intros i Hi.
    destruct (nth_error U i) as [s|] eqn:E; [|apply nth_error_None in E; lia].
    rewrite (nth_indep _ _ (tcoef (combine v U) s)), map_nth by (rewrite map_length; auto). rewrite (nth_error_nth _ _ s E).
    apply tcoef_nth; auto.
  Qed.

  (** Sums over terms, and over the coordinates. *)
  Section Values.
    Context {A : StarAlg} (S : RScal A) (h : OS -> A).
    Definition tval (ts : list (C * OS)) : A := asum (map (fun t => cs S (fst t) (h (snd t))) ts).
    Definition hval (x : vec) : A := tval (combine x U).
    Lemma tval_cons t ts : tval (t :: ts) = cs S (fst t) (h (snd t)) + tval ts.
    Proof. reflexivity. Qed.
    Lemma tval_vadd u : forall v strs, length u = length v -> tval (combine (vadd u v) strs) == tval (combine u strs) + tval (combine v strs).
    Proof.
      induction u as [|x u IH]; intros [|y v] [|s strs] L; try discriminate; try (cbn; symmetry; apply aadd_0_l).
      change (combine (vadd (x :: u) (y :: v)) (s :: strs)) with ((x + y, s)%C :: combine (vadd u v) strs). cbn [combine]. rewrite !tval_cons. cbn [fst snd].
      rewrite IH by (simpl in L; lia). rewrite cs_add_l. rewrite <- !aadd_assoc. apply aadd_proper; [reflexivity|]. rewrite !aadd_assoc. apply aadd_proper; [apply aadd_comm | reflexivity].
    Qed.
    Lemma tval_vscale c v : forall strs, tval (combine (vscale c v) strs) == cs S c (tval (combine v strs)).
    Proof.
      induction v as [|x v IH]; intros [|s strs]; try (cbn; symmetry; apply cs_zero).
      change (combine (vscale c (x :: v)) (s :: strs)) with ((c * x, s)%C :: combine (vscale c v) strs). cbn [combine]. rewrite !tval_cons. cbn [fst snd].
      rewrite IH, cs_add_r, cs_cs. reflexivity.
    Qed.
    Lemma tval_vzero n : forall strs, tval (combine (vzero n) strs) == azero.
    Proof.
      induction n as [|n IH]; intros [|s strs]; try reflexivity. change (combine (vzero (Datatypes.S n)) (s :: strs)) with ((RtoC 0, s) :: combine (vzero n) strs).
      rewrite tval_cons. cbn [fst snd]. rewrite IH, cs_0. apply aadd_0_l.
    Qed.
    Lemma hval_mat_vec X : vectors m X -> forall v, hval (mat_vec m X v) == asum (map (fun p => cs S (fst p) (hval (snd p))) (combine v X)).
    Proof.
      induction X as [|x X IH]; intros VX [|c v]; try apply tval_vzero. cbn [mat_vec combine map asum fold_right]. unfold hval in *. cbn [fst snd].
      rewrite tval_vadd, tval_vscale, IH; [reflexivity | intros u Hu; apply VX; right; auto|].
      rewrite vscale_length, mat_vec_length by (intros u Hu; apply VX; right; auto). apply VX; left; auto.
    Qed.
    Lemma hval_ind c t : In t U -> hval (ind c t U) == cs S c (h t).
    Proof.
      unfold hval. clear m. revert Hnd Hok. induction U as [|s l IH]; intros Hn Ho Hin; [destruct Hin|]. inversion Hn; subst.
      assert (Hs : string_ok ty s) by (apply Ho; left; auto). assert (Ht : string_ok ty t) by (apply Ho; auto).
      change (combine (ind c t (s :: l)) (s :: l)) with ((if os_key t s then c else RtoC 0, s) :: combine (ind c t l) l). rewrite tval_cons. cbn [fst snd].
      destruct Hin as [->|Hin].
      - rewrite (proj2 (key_eq ty t t Ht Ht) eq_refl). rewrite (ind_nil ty c t l) by (auto; intros; apply Ho; right; auto). rewrite tval_vzero. apply aadd_0_r.
      - replace (os_key t s) with false; [rewrite cs_0, IH, aadd_0_l; [reflexivity | auto | intros; apply Ho; right; auto | auto]|].
        symmetry. apply not_true_is_false. intros E. apply (key_eq ty) in E; auto. subst. auto.
    Qed.
    Lemma hval_coords ts : (forall t, In t ts -> In (snd t) U) -> hval (coords ts) == tval ts.
    Proof.
      induction ts as [|t ts IH]; intros H; [rewrite coords_nil; apply tval_vzero|]. rewrite coords_cons, tval_cons. unfold hval.
      rewrite tval_vadd by (rewrite coords_length; apply map_length). fold (hval (coords ts)). rewrite IH by (intros; apply H; simpl; auto).
      fold (hval (ind (fst t) (snd t) U)). rewrite hval_ind by (apply H; simpl; auto). reflexivity.
    Qed.
  End Values.
End Coords.
