(** Properties C90-C91: the cumulative mode on an empty basis and on a generator used before. *)
From Coq Require Import String List ZArith Bool Arith Lia Reals.
From Coquelicot Require Import Complex.
From Verif Require Import GC Exn M_OpString M_Basis M_LinAlg M_Core S_Alg S_Den S_Core S_Generate S_Cumulative L_Cumul4 P_Generate P_Cumulative P_Default.
Import ListNotations.
Local Open Scope nat_scope.

Lemma snoc_from Or b sp orth tol syms y st : generate_cumulative Or b (syms ++ [y]) sp orth tol st =
  match generate_cumulative Or b syms sp orth tol st with
  | Ok (Some st) => c_step Or b sp orth tol st (length syms, y)
  | Ok None => Ok None
  | Err e => Err e
  end.
Proof.
  unfold generate_cumulative. rewrite app_length. simpl length. rewrite Nat.add_1_r, seq_S. simpl Nat.add.
  assert (E : forall x l, length l = length syms -> combine (l ++ [x]) (syms ++ [y]) = combine l syms ++ [(x : nat, y)]).
  { clear. intros x. induction syms as [|z syms IH]; intros [|w l] L; try discriminate; auto. simpl. f_equal. apply IH. simpl in L. lia. }
  rewrite E by apply seq_length. unfold ofold.
  assert (R : forall (f : option cstate -> nat * entry_sym -> res (option cstate)) l x s, rfold f (l ++ [x]) s = match rfold f l s with Ok t => f t x | Err e => Err e end).
  { clear. intros f. induction l as [|z l IH]; intros x s; [cbn [app rfold]; destruct (f s x); reflexivity|]. cbn [app rfold]. destruct (f s z); cbn [rbind]; auto. }
  rewrite R. destruct (rfold _ _ _) as [[s|]|e]; reflexivity.
Qed.

(** C90: the claim is that generate finds nothing in an empty basis.  It is false for two or more
    symmetries, which raise an IndexError: the first is skipped without storing a result. *)
Theorem C90_empty_partial : forall Or b syms sp orth tol, cbasis_len b = 0 -> length syms <= 1 ->
  generate_cumulative Or b syms sp orth tol c_fresh = Ok (Some c_fresh).
Proof.
  intros Or b [|y [|z syms]] sp orth tol Hb Hl; [reflexivity| |simpl in Hl; lia].
  unfold generate_cumulative, ofold. cbn [length seq combine rfold]. unfold c_step. cbn [Nat.eqb rbind]. rewrite Hb. reflexivity.
Qed.
Print Assumptions C90_empty_partial.
Theorem C90_empty_refuted : forall Or b syms sp orth tol, cbasis_len b = 0 -> 2 <= length syms ->
  generate_cumulative Or b syms sp orth tol c_fresh = Err IndexError.
Proof.
  intros Or b [|y [|z syms]] sp orth tol Hb Hl; simpl in Hl; try lia.
  unfold generate_cumulative, ofold. cbn [length seq combine rfold]. unfold c_step at 1. cbn [Nat.eqb rbind]. rewrite Hb. cbn [Nat.eqb rbind]. reflexivity.
Qed.
Print Assumptions C90_empty_refuted.
(** The empty Basis and two symmetries for which nothing is wrong with a basis that is not empty. *)
Example C90_example : cbasis_len (CBasis basis_empty) = 0 /\ 2 <= length [c82_y0; c82_y1] /\
  forall y, In y [c82_y0; c82_y1] -> good_sym Pauli c82_oracles c82_basis y /\ y_num y = None.
Proof. split; [reflexivity|]. split; [simpl; lia | apply c82_good]. Qed.

(** C91: a call on a generator used before adds the results of a fresh call to the ones that it
    has, so that the last list is right; but entry k is not that of symmetry k. *)
Theorem C91_again : forall Or b syms sp orth tol st, cbasis_len b <> 0 ->
  generate_cumulative Or b syms sp orth tol st =
  match generate_cumulative Or b syms sp orth tol c_fresh with
  | Ok (Some s) => Ok (Some (mkC (cu_psuper st ++ cu_psuper s) (cu_pout st ++ cu_pout s) (cu_used st ++ cu_used s)))
  | r => r
  end.
Proof.
  intros Or b syms sp orth tol st Nb.
  assert (G : match generate_cumulative Or b syms sp orth tol c_fresh with Ok (Some s) => syms <> [] -> cu_pout s <> [] | _ => True end /\
    generate_cumulative Or b syms sp orth tol st = match generate_cumulative Or b syms sp orth tol c_fresh with
      | Ok (Some s) => Ok (Some (mkC (cu_psuper st ++ cu_psuper s) (cu_pout st ++ cu_pout s) (cu_used st ++ cu_used s))) | r => r end); [|apply G].
  induction syms as [|y syms [I1 I2]] using rev_ind.
  - split; [intros H; destruct (H eq_refl)|]. cbn. rewrite !app_nil_r. destruct st; reflexivity.
  - rewrite !snoc_from, I2. destruct (generate_cumulative Or b syms sp orth tol c_fresh) as [[s|]|e]; [|split; auto|split; auto].
    assert (Eb : (if length syms =? 0 then Ok b else match rev (cu_pout s) with l :: _ => Ok (COps l) | [] => Err IndexError end) =
      (if length syms =? 0 then Ok b else match rev (cu_pout st ++ cu_pout s) with l :: _ => Ok (COps l) | [] => Err IndexError end)).
    { destruct syms as [|z syms]; [reflexivity|]. cbn [length Nat.eqb]. rewrite rev_app_distr. specialize (I1 ltac:(discriminate)).
      destruct (rev (cu_pout s)) as [|l r] eqn:Er; [|reflexivity]. apply (f_equal (@rev _)) in Er. rewrite rev_involutive in Er. simpl in Er. tauto. }
    unfold c_step. cbn [cu_pout cu_psuper cu_used]. rewrite <- Eb.
    destruct (if length syms =? 0 then Ok b else match rev (cu_pout s) with l :: _ => Ok (COps l) | [] => Err IndexError end) as [bb|e] eqn:Ebb; cbn [rbind]; [|split; auto].
    destruct (Nat.eqb_spec (cbasis_len bb) 0) as [Z|Z].
    + split; [|reflexivity]. intros _. destruct syms as [|z syms]; [cbn in Ebb; injection Ebb as <-; tauto | apply I1; discriminate].
    + destruct (search Or bb y tol) as [f|e]; cbn [rbind]; [|split; auto]. destruct (c_sparsify Or (cbasis_len bb) sp orth (f_ops f)) as [[vs|]|e]; cbn [rbind]; try (split; auto; fail).
      destruct (to_operators bb tol vs) as [[l|]|e]; cbn [rbind]; try (split; auto; fail). split; [intros _ E; apply (f_equal (@length _)) in E; cbn [cu_pout] in E; rewrite app_length in E; simpl in E; lia|].
      cbn [cu_pout cu_psuper cu_used]. rewrite !app_assoc. reflexivity.
Qed.
Print Assumptions C91_again.
(** X_1, Z_1: after adding the second symmetry the second call stores the list for the first
    symmetry at position 1, where a fresh call stores that for both. *)
Theorem C91_positions_refuted : exists st st' l, generate_cumulative c82_oracles c82_basis [c82_y0] false false tol10r c_fresh = Ok (Some st) /\
  generate_cumulative c82_oracles c82_basis [c82_y0; c82_y1] false false tol10r st = Ok (Some st') /\
  nth_error (cu_pout st') 1 = Some [c88_X; c88_Z] /\
  match generate_cumulative c82_oracles c82_basis [c82_y0; c82_y1] false false tol10r c_fresh with Ok (Some s) => nth_error (cu_pout s) 1 = Some l | _ => False end /\ length l = 1.
Proof.
  destruct C88_example as (_ & _ & _ & _ & _ & s & Es & L2 & N0 & o & N1). exists c88_st0. eexists. exists [o]. split; [apply c88_run0|].
  rewrite C91_again by discriminate. rewrite Es. split; [reflexivity|]. cbn [cu_pout c88_st0 app nth_error]. auto.
Qed.
Print Assumptions C91_positions_refuted.
