(** Packaging of C53. *)
From Coq Require Import List Arith Lia ZArith Bool Permutation QArith Qcanon Ring Field.
From Verif Require Import GC Exn S_Alg S_Den S_Basis S_Built S_Tools S_Transform S_Symm M_OpString M_Tools M_Algebra M_Basis M_Transform M_Symm
  L_Alg L_Basis L_Operator L_VSum L_Sum L_ConvLin L_Tools L_Trans4 L_Trans6 L_Trans8 L_Symm L_Symm2 L_Symm3.
Import ListNotations.
Local Open Scope nat_scope.

(* ------------------------------------------------------------- more fuel *)

Lemma pass_mono gen : forall f1 f2 G i R, group_pass f1 gen G i = Some R -> f1 <= f2 -> group_pass f2 gen G i = Some R.
Proof.
  induction f1 as [|f1 IH]; intros f2 G i R E Hl; [discriminate|]. destruct f2 as [|f2]; [lia|]. cbn [group_pass] in *.
  destruct (nth_error G i); auto. destruct (compose_permutations l gen); auto. apply IH; auto. lia.
Qed.
Lemma passes_mono f1 f2 : f1 <= f2 -> forall gens G R, group_passes f1 gens G = Some R -> group_passes f2 gens G = Some R.
Proof.
  intros Hl. induction gens as [|gen gens IH]; intros G R E; auto. cbn [group_passes] in *. destruct (group_pass f1 gen G 0) as [R0|] eqn:E0; [|discriminate].
  rewrite (pass_mono gen f1 f2 G 0 R0 E0 Hl). destruct R0; auto.
Qed.
Lemma group_mono f1 f2 gens R : f1 <= f2 -> symmetry_group f1 gens = Some R -> symmetry_group f2 gens = Some R.
Proof. intros Hl. unfold symmetry_group. destruct gens; auto. apply passes_mono; auto. Qed.
Lemma basis_mono f1 f2 root tol b gens R : f1 <= f2 -> symmetrize_basis f1 root tol b gens = Some R -> symmetrize_basis f2 root tol b gens = Some R.
Proof.
  intros Hl. unfold symmetrize_basis. destruct (symmetry_group f1 gens) as [R0|] eqn:E; [|discriminate]. rewrite (group_mono f1 f2 gens R0 Hl E). auto.
Qed.

Theorem group_list n gens : gens <> [] -> (forall g, In g gens -> is_perm n g) ->
  exists N G, (forall fuel, N <= fuel -> symmetry_group fuel gens = Some (Ok G)) /\
    (forall g, In g G -> generated n gens g) /\ In (seq 0 n) G /\ incl gens G.
Proof.
  intros Hne Hg. destruct (group_terminates n gens Hne Hg) as (N & HN). destruct (HN N (le_n N)) as (R & E).
  destruct (group_spec n gens Hg Hne N R E) as (G & -> & A & B & C & _). exists N, G. split; auto. intros fuel Hf. apply (group_mono N); auto.
Qed.

Definition result_ok (ty : optype) (b : Basis) (gens : list (list nat)) (root : Qc -> Qc) (tol : Qc) (ops : list Operator) : Prop :=
    (forall o, In o ops -> proper o /\ o_type o = ty) /\
    (forall o g, In o ops -> In g gens -> exists r, apply (perm_of g) (TOperator o) = Ok r /\ same_coeffs r o) /\
    (forall o, In o ops -> exists x, (0 < x)%Qc /\ (root x <> 0 -> op_norm2 o * (root x * root x) = x)%Qc) /\
    ForallOrdPairs no_common ops /\
    ((tol * tol < 1)%Qc -> (forall x, (0 < x)%Qc -> root x <> 0%Qc) -> forall o, proper o -> o_type o = ty ->
       (forall t, In t (b_strings (o_basis o)) -> In t (b_strings b)) ->
       (forall g, In g gens -> exists r, apply (perm_of g) (TOperator o) = Ok r /\ same_coeffs r o) ->
       exists ws, incl (map snd ws) ops /\ forall u c, has_coeff (op_terms o) u c <-> weighted u ws c).

Theorem whole_group ty n b gens root tol fuel G : ty <> Fermion ->
  gens <> [] -> (forall g, In g gens -> is_perm n g) ->
  symmetry_group fuel gens = Some (Ok G) -> NoDup G -> (forall g, generated n gens g -> In g G) ->
  (forall s, In s (b_strings b) -> string_ok ty s /\ canonical s /\ in_range n s) ->
  exists ops, symmetrize_basis fuel root tol b gens = Some (Ok ops) /\ result_ok ty b gens root tol ops.
Proof.
  intros Hty Hne Hg E ND Hall Hb. destruct (group_spec n gens Hg Hne fuel _ E) as (G' & E' & A & _). injection E' as <-.
  assert (HG : forall g, In g G <-> generated n gens g) by (intros g; split; auto).
  destruct (loop_spec ty Hty n gens Hg G ND HG root tol (b_strings b) []) as (ops & Eo & B1 & B2 & B3).
  - exact Hb.
  - intros v [].
  - intros v t [].
  - exists ops. split; [unfold symmetrize_basis; rewrite E, Eo; reflexivity|]. unfold result_ok. split; [|split; [|split; [|split; auto]]].
    + intros o Ho. destruct (B1 o Ho) as (s & _ & _ & (P & T & _) & _). auto.
    + intros o g Ho Hin. destruct (B1 o Ho) as (s & _ & Vs & F & _). apply (from_invariant ty Hty n gens Hg G ND HG root s); auto. apply (gens_G n gens); auto.
    + intros o Ho. destruct (B1 o Ho) as (s & _ & _ & (_ & _ & _ & _ & N & N0 & N1 & _) & _). exists N. auto.
    + intros Ht Hr o Po To Hin Hinv. apply (complete ty Hty n gens Hg G ND HG root); auto.
      * intros p Hp. destruct (B1 p Hp) as (s & _ & _ & (P & _) & _). apply proper_ok; auto.
      * intros t Hin2. split; [apply Hb; auto|]. destruct (B3 Ht t (Hin t Hin2)) as [[]|]; auto.
Qed.

Theorem commuting_generators ty n b gens root tol : ty <> Fermion ->
  gens <> [] -> (forall g, In g gens -> is_perm n g) -> NoDup (seq 0 n :: gens) -> commuting gens ->
  (forall s, In s (b_strings b) -> string_ok ty s /\ canonical s /\ in_range n s) ->
  exists N ops, (forall fuel, N <= fuel -> symmetrize_basis fuel root tol b gens = Some (Ok ops)) /\ result_ok ty b gens root tol ops.
Proof.
  intros Hty Hne Hg ND Hc Hb. destruct (group_terminates n gens Hne Hg) as (N & HN). destruct (HN N (le_n N)) as (R & E).
  destruct (group_spec n gens Hg Hne N R E) as (G & -> & A & B & C & D1 & D2).
  destruct (whole_group ty n b gens root tol N G Hty Hne Hg E (D1 ND) (D2 Hc) Hb) as (ops & Eo & R).
  exists N, ops. split; auto. intros fuel Hf. apply (basis_mono N); auto.
Qed.
Theorem no_generators fuel root tol b : symmetrize_basis fuel root tol b [] = Some (Err IndexError).
Proof. reflexivity. Qed.

(* ------------------------------------------------------------- counterexamples *)

Lemma not_invariant ty n (Hty : ty <> Fermion) (root : Qc -> Qc) G s o h u : (forall x, (0 < x)%Qc -> root x <> 0%Qc) ->
  from_string ty n root G s o -> (exists r, apply (perm_of h) (TOperator o) = Ok r /\ same_coeffs r o) ->
  ssum G (fun t => vg (keyed u) (TF (perm_of h) t)) s = ssum G (keyed u) s.
Proof.
  intros Hroot (Po & To & Vo & So & N & N0 & _ & Fo) (r & Er & Sc).
  destruct (apply_vsum ty (perm_of h) (perm_keeps ty h) o Po To) as [_ A2]. destruct (A2 r Er) as (Pr & Tr & Vr).
  pose proof (Vr gc_alg (keyed u)) as X. change (vg (keyed u) (op_terms r) = vg (fun t => vg (keyed u) (TF (perm_of h) t)) (op_terms o)) in X.
  assert (Y : vg (keyed u) (op_terms r) = vg (keyed u) (op_terms o)).
  { apply (has_coeff_keyed o u _ (proper_ok _ Po)). apply Sc. apply (has_coeff_keyed r u _ (proper_ok _ Pr)). reflexivity. }
  rewrite X, !Fo in Y. pose proof (root_nonzero root N (Hroot N N0)) as Nz.
  set (a := ssum G _ s) in *. set (c := ssum G _ s) in *. 
  replace a with (gmul (gdiv a (gq (root N))) (gq (root N))) by (field; auto). rewrite Y. field; auto.
Qed.

Definition refutes (n : nat) (b : Basis) (gens : list (list nat)) (g : list nat) : Prop :=
  (forall s, In s (b_strings b) -> string_ok Majorana s /\ canonical s /\ in_range n s) /\
  forall root, (forall x, (0 < x)%Qc -> root x <> 0%Qc) -> exists ops o,
    (forall fuel, 100 <= fuel -> symmetrize_basis fuel root tol12 b gens = Some (Ok ops)) /\ In o ops /\
    ~ exists r, apply (perm_of g) (TOperator o) = Ok r /\ same_coeffs r o.
Definition a_str (l : Z) : OS := mkOS [OA] [l] Majorana p_one.
Ltac a_ok := split; [reflexivity | split; [reflexivity | split; [let o := fresh in let H := fresh in intros o H; repeat (destruct H as [<-|H]; [reflexivity|]); destruct H | split; [repeat constructor; cbn; intuition lia | reflexivity]]]].
Lemma a_valid n l : (0 <= l < Z.of_nat n)%Z -> valid Majorana n (a_str l).
Proof.
  intros H. split; [|split].
  - a_ok.
  - split; [repeat constructor | cbn; auto].
  - intros m [<-|[]]; auto.
Qed.
Lemma refute n b gens G g u : gens <> [] -> (forall g, In g gens -> is_perm n g) -> 0 < n -> b_strings b = [a_str 0] -> symmetry_group 100 gens = Some (Ok G) ->
  (exists q, symmetrize_opstring (a_str 0) G = Ok q /\ exists q', op_remove_zeros tol16 q = Ok q' /\ qc_ltb (tol12 * tol12) (op_norm2 q') = true) ->
  ssum G (fun t => vg (keyed u) (TF (perm_of g) t)) (a_str 0) <> ssum G (keyed u) (a_str 0) -> refutes n b gens g.
Proof.
  intros Hne Hg Hn Eb EG (q & Eq & q' & Eq' & Hq) Hd. split.
  - rewrite Eb. intros s [<-|[]]. apply a_valid. lia.
  - intros root Hroot. exists [op_normalize root q'], (op_normalize root q').
    assert (HP : forall g, In g G -> is_perm n g).
    { destruct (group_spec n gens Hg Hne 100 _ EG) as (G' & E' & A & _). injection E' as <-. intros x Hx. apply (generated_perm n gens Hg), A; auto. }
    assert (Vs : valid Majorana n (a_str 0)) by (apply a_valid; lia).
    split; [|split; [left; auto|]].
    + intros fuel Hf. apply (basis_mono 100); auto. unfold symmetrize_basis. rewrite EG, Eb. cbn [symmetrize_loop existsb]. rewrite Eq. cbn [rbind]. rewrite Eq'. cbn [rbind]. rewrite Hq. reflexivity.
    + intros H. apply Hd. assert (MF : Majorana <> Fermion) by discriminate.
      destruct (string_done Majorana MF n root G tol12 (a_str 0) q q' Vs HP Eq Eq') as [F _].
      apply (not_invariant Majorana n MF root G (a_str 0) _ g u Hroot (F Hq) H).
Qed.
Lemma perm_dec n p : forallb (fun i => existsb (Nat.eqb i) p) (seq 0 n) = true -> length p = n -> is_perm n p.
Proof.
  intros H L. unfold is_perm. apply Permutation_sym. apply NoDup_Permutation_bis; [apply seq_NoDup | rewrite seq_length; lia|].
  intros i Hi. rewrite forallb_forall in H. specialize (H i Hi). apply existsb_exists in H. destruct H as (j & Hj & E). apply Nat.eqb_eq in E. subst; auto.
Qed.
Definition one_basis : Basis := match basis_new [a_str 0] with Ok b => b | Err _ => basis_empty end.

Definition s1 := [0; 3; 2; 1]. Definition s2 := [1; 0; 3; 2].
Definition final (r : option (res (list (list nat)))) : list (list nat) := match r with Some (Ok G) => G | _ => [] end.
Ltac perms := repeat match goal with |- forall g, In g _ -> _ => intros ? H; repeat (destruct H as [<-|H]; [apply perm_dec; reflexivity|]); destruct H end.
Ltac ref G := apply (refute _ _ _ G _ (a_str 1)); [discriminate | perms | lia | reflexivity | vm_compute; reflexivity |
  eexists; split; [vm_compute; reflexivity | eexists; split; [vm_compute; reflexivity | vm_compute; reflexivity]] |
  intros H; apply (f_equal re) in H; apply (f_equal this) in H; vm_compute in H; discriminate].
Lemma reflections_bad : refutes 4 one_basis [s1; s2] s1.
Proof. ref (final (symmetry_group 100 [s1; s2])). Qed.
Lemma repeated_bad : refutes 2 one_basis [[1; 0]; [1; 0]] [1; 0].
Proof. ref (final (symmetry_group 100 [[1; 0]; [1; 0]])). Qed.
Lemma identity_bad : refutes 2 one_basis [[0; 1]; [1; 0]] [1; 0].
Proof. ref (final (symmetry_group 100 [[0; 1]; [1; 0]])). Qed.

Theorem reflections_refuted : exists n b gens g, (forall g, In g gens -> is_perm n g) /\ NoDup (seq 0 n :: gens) /\ In g gens /\ refutes n b gens g.
Proof.
  exists 4, one_basis, [s1; s2], s1. split; [perms|]. split; [|split; [left; auto | apply reflections_bad]].
  unfold s1, s2. cbn [seq]. repeat (constructor; [cbn; intuition discriminate|]). constructor.
Qed.
Theorem repeated_refuted : exists n b gens g, (forall g, In g gens -> is_perm n g) /\ commuting gens /\ In g gens /\ refutes n b gens g.
Proof.
  exists 2, one_basis, [[1; 0]; [1; 0]], [1; 0]. split; [perms|]. split; [|split; [left; auto | apply repeated_bad]].
  intros p q [<-|[<-|[]]] [<-|[<-|[]]]; reflexivity.
Qed.
Theorem identity_refuted : exists n b g, is_perm n g /\ g <> seq 0 n /\ refutes n b [seq 0 n; g] g.
Proof. exists 2, one_basis, [1; 0]. split; [apply perm_dec; reflexivity|]. split; [discriminate | apply identity_bad]. Qed.

Theorem ex_basis : exists b, basis_new [a_str 0; a_str 1; a_str 2; mkOS [OB; OB] [0%Z; 1%Z] Majorana p_j; mkOS [OB; OB] [1%Z; 2%Z] Majorana p_j] = Ok b /\
  (forall s, In s (b_strings b) -> string_ok Majorana s /\ canonical s /\ in_range 3 s) /\
  NoDup (seq 0 3 :: [[1; 2; 0]]) /\ commuting [[1; 2; 0]] /\ (forall g, In g [[1; 2; 0]] -> is_perm 3 g) /\
  exists o1 o2, symmetrize_basis 20 (fun x => x) tol12 b [[1; 2; 0]] = Some (Ok [o1; o2]) /\ length (o_coeffs o1) = 3 /\ length (o_coeffs o2) = 3.
Proof.
  eexists. split; [vm_compute; reflexivity|]. split; [|split; [|split; [|split]]].
  - cbn [b_strings]. intros s H.
    repeat (destruct H as [<-|H]; [split; [a_ok | split; [split; [repeat constructor; cbn; lia | cbn; auto] | intros l Hl; cbn in Hl; intuition lia]]|]); destruct H.
  - cbn [seq]. repeat (constructor; [cbn; intuition discriminate|]). constructor.
  - intros p q [<-|[]] [<-|[]]. reflexivity.
  - perms.
  - eexists; eexists. split; [vm_compute; reflexivity | split; reflexivity].
Qed.
Lemma closed_all n gens G : In (seq 0 n) G -> forallb (fun g => forallb (fun q => perm_mem (after g q) G) gens) G = true -> forall g, generated n gens g -> In g G.
Proof.
  intros H0 H. rewrite forallb_forall in H. induction 1 as [|p q Hp IH Hq]; auto. specialize (H p IH). rewrite forallb_forall in H. apply perm_mem_in. auto.
Qed.
Theorem ex_square : exists G, symmetry_group 100 [[1; 2; 3; 0]; [0; 3; 2; 1]] = Some (Ok G) /\ NoDup G /\ length G = 8 /\
  (forall g, generated 4 [[1; 2; 3; 0]; [0; 3; 2; 1]] g -> In g G) /\ ~ commuting [[1; 2; 3; 0]; [0; 3; 2; 1]].
Proof.
  eexists. split; [vm_compute; reflexivity|]. split; [|split; [reflexivity|split]].
  - repeat (constructor; [cbn; intuition discriminate|]). constructor.
  - apply closed_all; [left; reflexivity | vm_compute; reflexivity].
  - intros H. specialize (H [1; 2; 3; 0] [0; 3; 2; 1] (or_introl eq_refl) (or_intror (or_introl eq_refl))). discriminate.
Qed.
