(** Properties C80 and C81: sparsify. *)
From Coq Require Import List Reals Bool Arith Lia Lra Sorting Permutation.
From Coquelicot Require Import Complex.
From Verif Require Import Exn M_LinAlg M_Core S_LinAlg S_Sparsify L_LinAlg L_Sparsify.
Import ListNotations.
Local Open Scope C_scope.

(** C80: sparsify of at least two independent vectors returns as many unit vectors with the same
    span, ordered by the number of their entries above [tol], and orthonormal if asked for. *)
Theorem C80_sparsify : forall lu argsort n orth tol V, vectors n V -> (2 <= length V <= n)%nat -> independent n V ->
  lu_columns n V (lu V) -> (forall l, sorts l (argsort l)) ->
  exists W, sparsify lu argsort n orth tol V = Ok (Some W) /\ length W = length V /\ vectors n W /\
    (forall w, In w W -> inner w w = RtoC 1) /\ (orth = true -> orthonormal W) /\
    StronglySorted le (map (weight tol) W) /\ forall v, span n W v <-> span n V v.
Proof.
  intros lu argsort n orth tol V HV Hk Hi HL Ha.
  destruct (sparsify_proof lu argsort n orth tol V HV Hk HL Ha) as (W & E & H1 & H2 & H3 & H4 & H5 & H6 & H7 & _).
  exists W. do 6 (split; [auto; fail|]). split; auto.
Qed.
Print Assumptions C80_sparsify.
(** At most one vector is returned as it is. *)
Theorem C80_single : forall lu argsort n orth tol V, (length V <= 1)%nat -> sparsify lu argsort n orth tol V = Ok (Some V).
Proof. intros. unfold sparsify. destruct (Nat.leb_spec (length V) 1); auto; lia. Qed.
Print Assumptions C80_single.
(** More vectors than components raise an IndexError. *)
Theorem C80_many : forall lu argsort n orth tol V, vectors n V -> (0 < n < length V)%nat -> (2 <= length V)%nat ->
  lu_columns n V (lu V) -> sparsify lu argsort n orth tol V = Err IndexError.
Proof. exact sparsify_many. Qed.
Print Assumptions C80_many.

(** An implementation of argsort, to have one. *)
Fixpoint insert_index (l : list nat) (i : nat) (p : list nat) : list nat :=
  match p with
  | [] => [i]
  | j :: r => if nth i l 0 <=? nth j l 0 then i :: p else j :: insert_index l i r
  end%nat.
Definition sort_index (l : list nat) : list nat := fold_right (insert_index l) [] (seq 0 (length l)).
Lemma insert_index_ok l i p : Permutation (i :: p) (insert_index l i p) /\
  (StronglySorted le (map (fun i => nth i l 0%nat) p) -> StronglySorted le (map (fun i => nth i l 0%nat) (insert_index l i p))).
Proof.
  induction p as [|j p [IP IS]]; simpl.
  - split; auto. intros _. constructor; constructor.
  - destruct (Nat.leb_spec (nth i l 0%nat) (nth j l 0%nat)) as [H|H].
    + split; auto. intros S. cbn [map]. constructor; auto. inversion S; subst. constructor; auto.
      eapply Forall_impl; [|eassumption]. simpl. intros; lia.
    + split; [rewrite perm_swap; constructor; auto|]. intros S. cbn [map]. inversion S; subst. constructor; auto.
      rewrite Forall_forall in *. intros x Hx. apply in_map_iff in Hx. destruct Hx as (k & <- & Hk).
      apply (Permutation_in k (Permutation_sym IP)) in Hk. destruct Hk as [<-|Hk]; [lia|]. apply H3, in_map_iff. eauto.
Qed.
Lemma sort_index_ok l : sorts l (sort_index l).
Proof.
  unfold sorts, sort_index. assert (G : forall m, Permutation m (fold_right (insert_index l) [] m) /\
    StronglySorted le (map (fun i => nth i l 0%nat) (fold_right (insert_index l) [] m))); [|apply G].
  induction m as [|i m [IP IS]]; simpl; [split; constructor|]. destruct (insert_index_ok l i (fold_right (insert_index l) [] m)) as [H1 H2].
  split; auto. rewrite <- H1. constructor. auto.
Qed.
(** The vectors (1,1) and (1,0) of the documentation (without the factor), P L = ((1,1),(0,1)). *)
Example C80_example : let V := [[RtoC 1; RtoC 1]; [RtoC 1; RtoC 0]] in let L := [[RtoC 1; RtoC 1]; [RtoC 0; RtoC 1]] in
  vectors 2 V /\ independent 2 V /\ lu_columns 2 V L /\ exists argsort, forall l, sorts l (argsort l).
Proof.
  assert (VV : vectors 2 [[RtoC 1; RtoC 1]; [RtoC 1; RtoC 0]]) by (intros v [<-|[<-|[]]]; reflexivity).
  split; auto. split; [|split; [|exists sort_index; apply sort_index_ok]].
  - intros [|a [|b [|c l]]] v l2 E; simpl in E; injection E; intros.
    + subst. intros H. apply span_nil in H. injection H. lra.
    + subst. intros H. change [[RtoC 1; RtoC 1]] with ([] ++ [[RtoC 1; RtoC 1]]) in H. apply span_snoc in H; [|intros v [<-|[]]; reflexivity].
      destruct H as (c & w & Hw & E'). apply span_nil in Hw. subst w. cbn in E'. injection E'. intros. lra.
    + destruct l2; discriminate.
    + destruct l; discriminate.
  - split; [reflexivity|]. split; [intros v [<-|[<-|[]]]; reflexivity|]. split.
    + intros [|[|j]] c E; simpl in E; try (destruct j; discriminate); injection E as <-.
      * exists 0%nat. split; [reflexivity|]. intros [|[|i]] d Hi E; simpl in E; try lia; [injection E as <-; reflexivity | destruct i; discriminate].
      * exists 1%nat. split; [reflexivity|]. intros [|[|i]] d Hi E; simpl in E; try lia. destruct i; discriminate.
    + intros [|[|j]] v E; simpl in E; try (destruct j; discriminate); injection E as <-.
      * apply span_in; [intros v [<-|[]]; reflexivity | left; auto].
      * replace [RtoC 1; RtoC 0] with (zip_with Cplus (map (Cmult (RtoC 1)) [RtoC 1; RtoC 1]) (zip_with Cplus (map (Cmult (RtoC (-1))) [RtoC 0; RtoC 1]) (repeat (RtoC 0) 2))).
        -- apply span_add; [left; auto|]. apply span_add; [right; left; auto|]. apply span_zero.
        -- cbn. f_equal; [|f_equal]; apply injective_projections; cbn; lra.
Qed.

(** C81: the documentation claims that the result always spans the same space.  It is false for
    dependent vectors: (1,0) and (1,0) give vectors that span the plane, for every way to sort. *)
Theorem C81_refuted : exists n V L, vectors n V /\ lu_columns n V L /\
  forall lu argsort orth tol, lu V = L -> (forall l, sorts l (argsort l)) ->
  exists W v, sparsify lu argsort n orth tol V = Ok (Some W) /\ span n W v /\ ~ span n V v.
Proof.
  set (V := [[RtoC 1; RtoC 0]; [RtoC 1; RtoC 0]]). set (L := [[RtoC 1; RtoC 0]; [RtoC 0; RtoC 1]]).
  assert (VV : vectors 2 V) by (intros v [<-|[<-|[]]]; reflexivity).
  assert (VL : vectors 2 L) by (intros v [<-|[<-|[]]]; reflexivity).
  assert (HL : lu_columns 2 V L).
  { split; [reflexivity|]. split; auto. split.
    + intros [|[|j]] c E; simpl in E; try (destruct j; discriminate); injection E as <-.
      * exists 0%nat. split; [reflexivity|]. intros [|[|i]] d Hi E; simpl in E; try lia; [injection E as <-; reflexivity | destruct i; discriminate].
      * exists 1%nat. split; [reflexivity|]. intros [|[|i]] d Hi E; simpl in E; try lia. destruct i; discriminate.
    + intros [|[|j]] v E; simpl in E; try (destruct j; discriminate); injection E as <-.
      * apply span_in; [intros v [<-|[]]; reflexivity | left; auto].
      * apply span_in; [exact VL | left; auto]. }
  exists 2%nat, V, L. split; auto. split; auto. intros lu argsort orth tol E Ha.
  destruct (sparsify_superspan lu argsort 2 orth tol V L VV) as (W & EW & HW); auto.
  exists W, [RtoC 0; RtoC 1]. split; auto. split; [apply HW, span_in; [exact VL | right; left; auto]|].
  intros H. assert (Z : nth 1 [RtoC 0; RtoC 1] (RtoC 0) = RtoC 0); [|apply RtoC_inj in Z; lra].
  apply (span_entry 2 1 V); auto. intros v [<-|[<-|[]]]; reflexivity.
Qed.
Print Assumptions C81_refuted.
