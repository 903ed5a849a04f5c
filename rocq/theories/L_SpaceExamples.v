(** Examples for the transformations of lattices. *)
From Coq Require Import String List ZArith Bool Arith QArith Qcanon Permutation Lia.
From Verif Require Import GC Exn M_OpString M_Tools M_Basis M_Cluster M_OpAlg M_Transform M_Lattice M_SpaceGroup.
From Verif Require Import S_Alg S_Den S_Fock S_Basis S_Built S_Cluster S_Transform S_Lattice.
From Verif Require Import L_Lattice4 L_Show L_LatticeEx L_SpaceEx.
Import ListNotations.
Local Open Scope Qc_scope.

Definition ex_two : list string := ["Up"; "Dn"]%string.
Definition ex_square (per : list bool) : res Lattice := square show_exact 2 2 (Some per) (Some ex_two).

Ltac the_lattice E :=
  match type of E with ?x = Ok ?L => let y := eval vm_compute in x in
    let E' := fresh in assert (E' : x = y) by (vm_cast_no_check (eq_refl y)); rewrite E in E'; injection E' as -> end.

Definition ms3 : list (list Z) := flat_map (fun a => map (fun b => [a; b]) [-1; 0; 1]%Z) [-1; 0; 1]%Z.
Lemma ms3_in m : length m = 2%nat -> near_image [true; true] m -> In m ms3.
Proof.
  destruct m as [|a [|b [|q m] ] ]; try discriminate. intros _ [_ H]. inversion H as [|? ? Ha H2]; subst. inversion H2 as [|? ? Hb _]; subst.
  assert (A : (a = -1 \/ a = 0 \/ a = 1)%Z) by lia. assert (C : (b = -1 \/ b = 0 \/ b = 1)%Z) by lia.
  destruct A as [A|[A|A] ], C as [C|[C|C] ]; subst a b; cbn; tauto.
Qed.
(** A computed check of [stay_apart] in two periodic dimensions. *)
Definition apart_check (tol : Qc) (vs : list (list Qc)) (ns : list Z) (orbs : list orbital) (f : list Qc -> list Qc) : bool :=
  let places := map (fun o : orbital => map (fun m => show_exact (rounded tol (plus (f (fst (fst o))) (shift 2 vs ns m)))) ms3) orbs in
  let n := length orbs in
  forallb (fun i => forallb (fun i' => Nat.eqb i i' ||
    negb (String.eqb (snd (fst (nth i orbs ([], ""%string, [])))) (snd (fst (nth i' orbs ([], ""%string, []))))) ||
    forallb (fun x => forallb (fun y => negb (String.eqb x y)) (nth i' places [])) (nth i places [])) (seq 0 n)) (seq 0 n).
Lemma apart_check_ok tol vs ns orbs f : apart_check tol vs ns orbs f = true ->
  stay_apart show_exact tol 2 vs ns [true; true] orbs f (fun n => n).
Proof.
  intros H i i' r r' name name' c c' m m' Hi Hi' Hn Hm Hm' Nm Nm' Heq. unfold apart_check in H. rewrite forallb_forall in H.
  assert (Ii : (i < length orbs)%nat) by (apply nth_error_Some; congruence).
  assert (Ii' : (i' < length orbs)%nat) by (apply nth_error_Some; congruence).
  specialize (H i (proj2 (in_seq _ _ _) (conj (Nat.le_0_l i) Ii))). rewrite forallb_forall in H.
  specialize (H i' (proj2 (in_seq _ _ _) (conj (Nat.le_0_l i') Ii'))).
  rewrite !orb_true_iff in H. destruct H as [[H|H]|H].
  - apply Nat.eqb_eq; auto.
  - rewrite (nth_error_nth _ _ _ Hi), (nth_error_nth _ _ _ Hi') in H. cbn [fst snd] in H. rewrite Hn, String.eqb_refl in H. discriminate.
  - exfalso. rewrite forallb_forall in H.
    rewrite (nth_error_nth _ i [] (map_nth_error _ i orbs Hi)), (nth_error_nth _ i' [] (map_nth_error _ i' orbs Hi')) in H. cbn [fst snd] in H.
    specialize (H _ (in_map _ _ _ (ms3_in m Hm Nm))). rewrite forallb_forall in H. specialize (H _ (in_map _ _ _ (ms3_in m' Hm' Nm'))).
    cbv beta in H. rewrite Heq, String.eqb_refl in H. discriminate.
Qed.

Lemma permutes_check p : (forallb (fun l => existsb (Z.eqb l) (map Z.of_nat (seq 0 (length p)))) p = true) -> NoDup p -> permutes p (perm_fun p).
Proof.
  intros H D. split; [exact D|]. split.
  - intros l Hl. rewrite forallb_forall in H. specialize (H l Hl). apply existsb_exists in H. destruct H as (x & Hx & He). apply Z.eqb_eq in He. subst x.
    apply in_map_iff in Hx. destruct Hx as (k & <- & Hk). apply in_seq in Hk. lia.
  - intros l Hl. unfold perm_fun. apply nth_error_nth'. lia.
Qed.

Lemma example66 :
  rbind (ex_square [false; false]) (fun L => space_group_labels show_exact L [[0; - (1)]; [1; 0]] [1; 0]) = Ok [4; 5; 0; 1; 6; 7; 2; 3]%Z /\
  rbind (ex_square [true; true]) (fun L => space_group_labels show_exact L (map (unit_vec 2) (seq 0 2)) (map qz [1; 0]%Z)) = Ok [4; 5; 6; 7; 0; 1; 2; 3]%Z /\
  rbind (ex_square [false; false]) (fun L => space_group_labels show_exact L (map (unit_vec 2) (seq 0 2)) (map qz [1; 0]%Z)) = Err ValueError /\
  permutes [4; 5; 0; 1; 6; 7; 2; 3]%Z (perm_fun [4; 5; 0; 1; 6; 7; 2; 3]%Z) /\
  (exists L, ex_square [true; true] = Ok L /\
     stay_apart show_exact tol8 2 (units 2) [2; 2]%Z [true; true] (l_orbitals L) (affine (units 2) (map qz [1; 0]%Z)) (fun n => n)).
Proof.
  split; [vm_compute; reflexivity|]. split; [vm_compute; reflexivity|]. split; [vm_compute; reflexivity|].
  split; [apply permutes_check; [reflexivity|repeat constructor; cbn; intuition discriminate]|].
  destruct (orbitals_proof show_exact 2 (cubic_cell 2 ex_two) [2; 2]%Z [true; true] tol8 (cubic_shape _ _) eq_refl eq_refl) as (L & E & _).
  exists L. split; [exact E|]. apply apart_check_ok.
  assert (G : rbind (ex_square [true; true]) (fun L => Ok (apart_check tol8 (units 2) [2; 2]%Z (l_orbitals L) (affine (units 2) (map qz [1; 0]%Z)))) = Ok true) by (vm_compute; reflexivity).
  unfold ex_square, square in G. change (cubic show_exact 2 [2; 2]%Z (Some [true; true]) (Some ex_two)) with (lattice_new show_exact (cubic_cell 2 ex_two) [2; 2]%Z (Some [true; true]) tol8) in G.
  rewrite E in G. cbn [rbind] in G. injection G as G. exact G.
Qed.
Lemma example69 :
  rbind (ex_square [true; false]) (fun L => spin_flip_labels show_exact L "Up" "Dn") = Ok [1; 0; 3; 2; 5; 4; 7; 6]%Z /\
  rbind (square show_exact 2 2 None (Some ["Up"%string])) (fun L => spin_flip_labels show_exact L "Up" "Dn") = Err ValueError /\
  flip_closed (atoms (cubic_cell 2 ex_two)) (fun n => swap n "Up" "Dn") /\
  swap "pxUp" "Up" "Dn" = "pxDn"%string.
Proof.
  split; [vm_compute; reflexivity|]. split; [vm_compute; reflexivity|]. split; [|reflexivity].
  intros a os name [H|[]] Hn. injection H as <- <-. destruct Hn as [<-|[<-|[]]]; cbn; auto.
Qed.
Lemma ex_square_told B : told_apart show_exact tol8 2 (uc_vectors (cubic_cell 2 ex_two)) (atoms (cubic_cell 2 ex_two)) B.
Proof. apply cubic_told, show_exact_integers. Qed.
Lemma example70 : exists L, ex_square [true; false] = Ok L /\
  (forall B, told_apart show_exact tol8 2 (uc_vectors (cubic_cell 2 ex_two)) (atoms (cubic_cell 2 ex_two)) B) /\
  nth_error (l_orbitals L) 3 = Some (map qz [0; 1]%Z, ("" ++ "Dn" ++ "")%string, [0; 1]%Z) /\
  rbind (apply (spin_parity_symmetry show_exact L "Up" "Dn") (TString (mkOS [OA; OB; OD] [2; 3; 5]%Z Majorana p_j))) (fun o => Ok (map fst (op_terms o))) = Ok [gm1].
Proof.
  destruct (orbitals_proof show_exact 2 (cubic_cell 2 ex_two) [2; 2]%Z [true; false] tol8 (cubic_shape _ _) eq_refl eq_refl) as (L & E & _).
  exists L. split; [exact E|]. split; [exact ex_square_told|]. split.
  - apply (proj2 (cubic_lattice_proof show_exact 2 [2; 2]%Z [true; false] ex_two L 2 eq_refl eq_refl
      ltac:(repeat constructor; simpl; intuition discriminate) E (show_exact_integers _ _) ltac:(repeat constructor; lia)) [0; 1]%Z 1%nat "Dn"%string); [repeat constructor; lia|reflexivity].
  - assert (G : rbind (ex_square [true; false]) (fun L => rbind (apply (spin_parity_symmetry show_exact L "Up" "Dn") (TString (mkOS [OA; OB; OD] [2; 3; 5]%Z Majorana p_j))) (fun o => Ok (map fst (op_terms o)))) = Ok [gm1]) by (vm_compute; reflexivity).
    change (ex_square [true; false]) with (lattice_new show_exact (cubic_cell 2 ex_two) [2; 2]%Z (Some [true; false]) tol8) in G.
    rewrite E in G. exact G.
Qed.
Lemma example71 : exists L T, ex_square [true; false] = Ok L /\ time_reversal_of show_exact (SpinLattice L) = Ok T /\
  rbind (apply T (TString (mkOS [OA] [0]%Z Majorana p_one))) (fun o => Ok (op_terms o)) = Ok [(g1, mkOS [OA] [1]%Z Majorana p_one)] /\
  rbind (apply T (TString (mkOS [OA] [1]%Z Majorana p_one))) (fun o => Ok (op_terms o)) = Ok [(gm1, mkOS [OA] [0]%Z Majorana p_one)] /\
  rbind (apply T (TString (mkOS [OB] [1]%Z Majorana p_one))) (fun o => Ok (op_terms o)) = Ok [(g1, mkOS [OB] [0]%Z Majorana p_one)].
Proof.
  destruct (orbitals_proof show_exact 2 (cubic_cell 2 ex_two) [2; 2]%Z [true; false] tol8 (cubic_shape _ _) eq_refl eq_refl) as (L & E & _).
  exists L, (M_Transform.time_reversal_spinful [1; 0; 3; 2; 5; 4; 7; 6]%Z (labels_named show_exact L "Dn")).
  split; [exact E|].
  assert (G1 : rbind (ex_square [true; false]) (fun L => spin_flip_labels show_exact L "Up" "Dn") = Ok [1; 0; 3; 2; 5; 4; 7; 6]%Z) by (vm_compute; reflexivity).
  assert (G2 : rbind (ex_square [true; false]) (fun L => Ok (labels_named show_exact L "Dn")) = Ok [1; 3; 5; 7]%Z) by (vm_compute; reflexivity).
  change (ex_square [true; false]) with (lattice_new show_exact (cubic_cell 2 ex_two) [2; 2]%Z (Some [true; false]) tol8) in G1, G2.
  rewrite E in G1, G2. cbn [rbind] in G1, G2. injection G2 as G2.
  split; [unfold time_reversal_of, spinful, spin_flip_symmetry; rewrite G1; reflexivity|]. rewrite G2.
  repeat split; vm_compute; reflexivity.
Qed.
Lemma example26 : exists L b, chain show_exact 4 true None = Ok L /\
  distance_basis (fun R P X => hd 0%nat (P ++ X)) (fun R P X => P) (seq 0 4) (within_distance L (Q2Qc (11 # 10))) 4 (KInt 2) Pauli (seq 0 4) false = Ok b /\
  length (b_strings b) = 48%nat.
Proof.
  destruct (orbitals_proof show_exact 1 (cubic_cell 1 [""%string]) [4]%Z [true] tol8 (cubic_shape _ _) eq_refl eq_refl) as (L & E & _).
  exists L.
  set (F := fun L => distance_basis (fun R P X => hd 0%nat (P ++ X)) (fun R P X => P) (seq 0 4) (within_distance L (Q2Qc (11 # 10))) 4 (KInt 2) Pauli (seq 0 4) false).
  assert (G : rbind (chain show_exact 4 true None) (fun L => rbind (F L) (fun b => Ok (length (b_strings b)))) = Ok 48%nat) by (vm_compute; reflexivity).
  change (chain show_exact 4 true None) with (lattice_new show_exact (cubic_cell 1 [""%string]) [4]%Z (Some [true]) tol8) in *.
  rewrite E in G. cbn [rbind] in G. unfold F in G. destruct (distance_basis _ _ _ _ _ _ _ _ _) as [b|] eqn:EB; [|discriminate]. exists b.
  split; [exact E|]. split; [reflexivity|]. cbn in G. injection G as G. exact G.
Qed.
