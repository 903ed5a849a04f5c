(** Sums of terms weighted by an arbitrary function of the strings. *)
From Coq Require Import String List Arith Lia ZArith Bool Setoid Morphisms Sorted Permutation.
From Verif Require Import GC Exn S_Alg S_Den S_Basis M_OpString M_Basis L_Alg L_StrAlg L_Basis L_Operator.
Import ListNotations.
Local Open Scope nat_scope.

Definition vsum {A : StarAlg} (F : OS -> A) (ts : list (GC * OS)) : A :=
  asum (map (fun t => ascal (fst t) (F (snd t))) ts).

Section Lin.
  Context {A : StarAlg} (F : OS -> A).
  Local Open Scope alg_scope.

  Lemma vsum_app ts us : vsum F (ts ++ us) == vsum F ts + vsum F us.
  Proof. unfold vsum. rewrite map_app. apply asum_app. Qed.
  Lemma vsum_cons c s ts : vsum F ((c, s) :: ts) = c · F s + vsum F ts.
  Proof. reflexivity. Qed.
  Lemma vsum_scal z ts : vsum F (map (fun t => (gmul (fst t) z, snd t)) ts) == z · vsum F ts.
  Proof.
    induction ts as [|[c s] ts IH]; simpl.
    - unfold vsum; simpl. symmetry. apply ascal_zero.
    - rewrite !vsum_cons, IH, ascal_add_r, ascal_ascal. apply aadd_proper; [|reflexivity].
      apply ascal_eq. simpl. ring.
  Qed.
  Lemma vsum_perm ts us : Permutation.Permutation ts us -> vsum F ts == vsum F us.
  Proof. intros H. unfold vsum. apply asum_perm. apply Permutation.Permutation_map; auto. Qed.

  Lemma vsum_zero_pad cs m strs : vsum F (combine (cs ++ repeat g0 m) strs) == vsum F (combine cs strs).
  Proof.
    revert strs; induction cs as [|c cs IH]; intros strs; simpl.
    - revert strs; induction m as [|m IH]; intros [|s strs]; simpl; try reflexivity.
      rewrite vsum_cons, IH, ascal_0. simpl. apply aadd_0_l.
    - destruct strs; [reflexivity|]. rewrite !vsum_cons, IH. reflexivity.
  Qed.
  Lemma vsum_pad_strs cs strs more : length cs = length strs -> vsum F (combine cs (strs ++ more)) == vsum F (combine cs strs).
  Proof.
    revert strs; induction cs as [|c cs IH]; intros [|s strs] H; simpl in *; try discriminate.
    - reflexivity.
    - rewrite !vsum_cons, IH by lia. reflexivity.
  Qed.
  Lemma vsum_list_set strs : forall cs i s old d, nth_error strs i = Some s -> nth_error cs i = Some old ->
    vsum F (combine (list_set cs i (gadd old d)) strs) == vsum F (combine cs strs) + d · F s.
  Proof.
    induction strs as [|s0 strs IH]; intros cs i s old d Hs Hc.
    - destruct i; discriminate.
    - destruct cs as [|c cs]; [destruct i; discriminate|]. destruct i; simpl in *.
      + injection Hs as ->. injection Hc as ->. rewrite !vsum_cons, ascal_add_l.
        rewrite <- !aadd_assoc. apply aadd_proper; [reflexivity|]. apply aadd_comm.
      + rewrite !vsum_cons, (IH cs i s old d) by auto. apply aadd_assoc.
  Qed.
  Lemma vsum_scatter strs : forall inds cs vals ds, NoDup inds -> length inds = length ds ->
    length vals = length inds ->
    (forall j i v d, nth_error inds j = Some i -> nth_error ds j = Some (d, v) ->
       exists old, nth_error strs i = Some v /\ nth_error cs i = Some old /\ nth_error vals j = Some (gadd old d)) ->
    vsum F (combine (scatter cs inds vals) strs) == vsum F (combine cs strs) + vsum F ds.
  Proof.
    induction inds as [|i inds IH]; intros cs vals ds Hn Hl Hv H.
    - destruct ds; [|discriminate]. simpl. unfold vsum at 3. simpl. symmetry. apply aadd_0_r.
    - destruct ds as [|[d v] ds]; [discriminate|]. destruct vals as [|w vals]; [discriminate|]. simpl.
      inversion Hn as [|? ? Hi Hn']; subst.
      destruct (H 0 i v d eq_refl eq_refl) as (old & Hs & Hc & Hw). simpl in Hw. injection Hw as ->.
      rewrite IH with (ds := ds); auto.
      + rewrite (vsum_list_set strs cs i v old d) by auto. rewrite vsum_cons. symmetry. apply aadd_assoc.
      + intros j k v' d' Hj Hd. destruct (H (S j) k v' d' Hj Hd) as (old' & Hs' & Hc' & Hw').
        exists old'. split; auto. split; auto. rewrite list_set_nth.
        destruct (Nat.eqb_spec i k); [|auto]. subst k. exfalso. apply Hi. eapply nth_error_In; eauto.
  Qed.

  Lemma op_add_vsum o other r : op_ok o -> op_ok other -> op_std o -> op_std other -> o_type o = o_type other ->
    op_iadd o other = Ok r -> vsum F (op_terms r) == vsum F (op_terms o) + vsum F (op_terms other).
  Proof.
    intros Ho Hother So Sother E. unfold op_iadd. rewrite E, optype_eqb_refl.
    pose proof Ho as (Hb & Hl & Ht). pose proof Hother as (_ & Hlo & _).
    destruct (op_add_into_ok (o_coeffs o) (o_basis o) (o_type other) other Hb Hl Hother)
      as (cs' & b' & Er & Hb' & Hl' & Ha & inds & vals & Ecs & Hnd & Hli & Hrel & Hval & Hlv).
    rewrite Er. intros H; injection H as <-. unfold op_terms; simpl. rewrite Ecs.
    set (cs0 := o_coeffs o ++ repeat g0 (length (b_strings b') - length (b_strings (o_basis o)))) in *.
    rewrite (vsum_scatter (b_strings b') inds cs0 vals (op_terms other)); auto.
    - apply aadd_proper; [|reflexivity]. unfold cs0. rewrite vsum_zero_pad.
      destruct (append_new_prefix _ _ _ Ha) as (k & ->). apply vsum_pad_strs; auto.
    - unfold op_terms. rewrite combine_length, Hlo, Nat.min_id. auto.
    - intros j i v d Hj Hd. apply op_terms_nth in Hd. destruct Hd as [Hd Hv].
      destruct (Hrel j i v Hj Hv) as (t & Ht' & K).
      assert (t = v).
      { apply std_key; auto.
        - assert (In t (b_strings b')) by (eapply nth_error_In; eauto).
          destruct (append_new_in _ _ _ Ha t H); auto.
        - apply Sother. eapply nth_error_In; eauto. }
      subst t. assert (L : i < length cs0).
      { rewrite <- (scatter_length cs0 inds vals), <- Ecs, Hl'. apply nth_error_Some. congruence. }
      destruct (nth_len cs0 i L) as (old & Hold). exists old. split; auto. split; auto. eapply Hval; eauto.
  Qed.
End Lin.
