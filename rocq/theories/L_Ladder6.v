(** Proofs about the ladder operator functions: the steps of a run. *)
From Coq Require Import String List ZArith Bool Arith Lia Reals QArith Qreals Qcanon Lra.
From Coquelicot Require Import Complex.
From Verif Require Import GC Exn S_Alg M_OpString M_Tools M_Algebra M_Basis M_OpAlg M_LinAlg M_Core M_Greedy M_Ladder
  S_LinAlg S_Core S_Ladder L_LinAlg L_Core L_Commuting.
Import ListNotations.
Local Open Scope nat_scope.

Lemma ladder_run Or b o tol m L E sh ou inA : op_neg o = Ok m -> liouvillian_matrix MCommutator (ABasis b) m = Ok (L, E) ->
  length (filter (basis_mem E) (b_strings b)) <> 0 ->
  filter (fun p => basis_mem b (snd p)) (combine (seq 0 (basis_len E)) (b_strings E)) = sh ->
  map fst (filter (fun p => negb (basis_mem b (snd p))) (combine (seq 0 (basis_len E)) (b_strings E))) = ou -> ou <> [] ->
  rmap (fun p => basis_index b (snd p)) sh = Ok inA ->
  ladder_operators Or b o tol =
    (let! V := null_vectors tol (la_svd Or (length inA) (sub_rows L ou inA)) in
     let ps := partnered tol (la_eigh Or (hermitian_part (project_super V (sub_rows L (map fst sh) inA)))) in
     let! qs := take ps (la_sort Or (map fst ps)) in
     Ok (map (fun p => scatter (basis_len b) inA (mat_vec (length inA) V (snd p))) qs, map fst qs)).
Proof.
  intros Em HL N0 Hs Ho No Hi. unfold ladder_operators. rewrite Em. cbn [rbind]. rewrite HL. cbn [rbind].
  destruct (Nat.eqb_spec (length (filter (basis_mem E) (b_strings b))) 0); [contradiction|]. rewrite Hs, Ho, Hi. cbn [rbind].
  destruct (Nat.eqb_spec (length ou) 0) as [Z|_]; [destruct ou; [contradiction | discriminate]|].
  destruct (null_vectors tol (la_svd Or (length inA) (sub_rows L ou inA))) as [V|]; reflexivity.
Qed.
Lemma sub_rows_map L r c : sub_rows L r c = map (map to_C) (map (fun i => map (sm_entry L i) c) r).
Proof. unfold sub_rows. rewrite map_map. apply map_ext. intros i. rewrite map_map. reflexivity. Qed.

(** A matrix of size one has no partnered eigenvalues. *)
Lemma single_partner tol M ps : length M <= 1 -> (forall r, In r M -> length r = 1) -> (0 < tol)%R -> eigenpairs M ps -> partnered tol ps = [].
Proof.
  intros LM LR Ht E. unfold partnered. 
  assert (U : forall l w l' w', In (l, w) ps -> In (l', w') ps -> l = l').
  { intros l w l' w' H H'. destruct (E _ _ H) as (Lw & Nw & Ew). destruct (E _ _ H') as (Lw' & Nw' & Ew').
    destruct M as [|r [|? M]]; [destruct w; [exfalso; apply Nw; reflexivity | discriminate] | | cbn in LM; lia].
    pose proof (LR r (or_introl eq_refl)) as Lr. destruct r as [|x [|]]; try discriminate. destruct w as [|z [|]]; try discriminate. destruct w' as [|z' [|]]; try discriminate.
    unfold rows_vec, csum in Ew, Ew'. cbn [map zip_with fold_right] in Ew, Ew'.
    assert (K : forall (l : R) z, z <> RtoC 0 -> [(x * z + RtoC 0)%C] = [(RtoC l * z)%C] -> x = RtoC l).
    { intros k y Ny Ey. assert (X : (x * y + RtoC 0 = RtoC k * y)%C) by congruence. destruct (Ceq_dec (x - RtoC k)%C (RtoC 0)) as [D|D].
      - replace x with (x - RtoC k + RtoC k)%C by ring. rewrite D. ring.
      - exfalso. apply (Cmult_neq_0 _ _ D Ny). replace ((x - RtoC k) * y)%C with (x * y + RtoC 0 - RtoC k * y)%C by ring. rewrite X. ring. }
    assert (X1 : x = RtoC l) by (apply (K l z); auto; intros ->; apply Nw; reflexivity).
    assert (X2 : x = RtoC l') by (apply (K l' z'); auto; intros ->; apply Nw'; reflexivity).
    apply RtoC_inj. congruence. }
  match goal with |- filter ?f ps = [] => destruct (filter f ps) as [|[l w] r] eqn:F; auto; assert (H : In (l, w) (filter f ps)) by (rewrite F; left; auto) end.
  exfalso. apply filter_In in H. destruct H as [H T]. apply andb_true_iff in T. destruct T as [T1 T2]. apply andb_true_iff in T1. destruct T1 as [_ T1]. apply lt_dec_true in T1. cbn [fst] in *.
  apply existsb_exists in T2. destruct T2 as ([l' w'] & H' & T2). apply lt_dec_true in T2. cbn [fst] in T2. rewrite <- (U l w l' w' H H') in T2. rewrite Rabs_pos_eq in T2 by lra. lra.
Qed.
