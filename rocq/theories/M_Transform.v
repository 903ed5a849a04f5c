(** Model of qosy/transformation.py. *)
From Coq Require Import List ZArith Bool Arith QArith Qcanon.
From Verif Require Import GC Exn M_OpString M_Tools M_Algebra M_Basis M_OpAlg.
Import ListNotations.
Local Open Scope nat_scope.

(** transformation.py:56-58: a Transformation; its rule with its info filled in. *)
Definition rule := OS -> res Operator.

(** transformation.py:60-92: [apply]; the warning at 87 has no effect on the result. *)
Inductive apply_arg : Set := TString (s : OS) | TOperator (o : Operator) | TOther.
Definition apply_step (T : rule) (acc : Operator) (t : GC * OS) : res Operator :=
  let! n := T (snd t) in
  let! m := op_scale (fst t) n in
  op_iadd acc m.
Definition apply_operator (T : rule) (o : Operator) : res Operator :=
  let! z := op_new [] [] (Some (o_type o)) in
  rfold (apply_step T) (op_terms o) z.
Definition apply (T : rule) (a : apply_arg) : res Operator :=
  match a with
  | TString s => T s
  | TOperator o => apply_operator T o
  | TOther => Err TypeError
  end.

(** transformation.py:94-116: [_product_rule], first [C], then [D]; [tol] is 1e-12. *)
Definition product_inner (cC : GC) (acc : Operator) (t : GC * OS) : res Operator :=
  if abs_gtb (gmul cC (fst t)) tol12
  then let! n := op_new [gmul cC (fst t)] [snd t] None in op_iadd acc n
  else Ok acc.
Definition product_outer (D : rule) (acc : Operator) (t : GC * OS) : res Operator :=
  let! oD := D (snd t) in
  rfold (product_inner (fst t)) (op_terms oD) acc.
Definition product_rule (C D : rule) (s : OS) : res Operator :=
  let! z := op_new [] [] (Some (os_type s)) in
  let! oC := C s in
  rfold (product_outer D) (op_terms oC) z.

(** transformation.py:118-141: [__mul__], [self * other]. *)
Definition tmul (self other : rule) : rule := product_rule other self.

(** transformation.py:143-165: [__pow__]. *)
Inductive pow_arg : Set := PInt (n : Z) | POther.
Fixpoint tpow_loop (T acc : rule) (n : nat) : rule :=
  match n with O => acc | S n' => tpow_loop T (tmul acc T) n' end.
Definition tpow (T : rule) (n : pow_arg) : res rule :=
  match n with
  | PInt n => if (n <=? 0)%Z then Err ValueError else Ok (tpow_loop T T (Z.to_nat (n - 1)))
  | POther => Err ValueError
  end.

(** transformation.py:167-207: [_permutation_rule].  [np.argsort] is modelled as the stable
    sort; the order of equal keys (a map that is not injective on the labels) is up to numpy
    for more than 16 labels.  [ops[ind]] raises IndexError if there are fewer operators than
    labels. *)
Definition permutation_rule (perm : list Z) : rule := fun s =>
  match os_type s with
  | Fermion => Err ValueError
  | ty =>
      let ops := os_ops s in
      let! news := rmap (py_nth perm) (os_labels s) in
      let inds := argsort_stable news in
      let! new_ops := rmap (fun i => of_option IndexError (nth_error ops i)) inds in
      let new_labels := map (fun i => nth i news 0%Z) inds in
      let! t := os_new new_ops new_labels ty in
      let coeff :=
        match ty with
        | Majorana => gq (re (gmul (gdiv (pval (os_pref s)) (pval (os_pref t))) (gz (snd (sort_sign (labels_ab ops news))))))
        | _ => g1
        end in
      op_new [coeff] [t] None
  end.

(** transformation.py:231-245, 267-282: counting the operators A or B, B, and D. *)
Fixpoint count_ops (ops : list op) : res (nat * nat * nat) :=
  match ops with
  | [] => Ok (0, 0, 0)
  | o :: r =>
      match o with
      | OA => let! c := count_ops r in let '(ab, b, d) := c in Ok (S ab, b, d)
      | OB => let! c := count_ops r in let '(ab, b, d) := c in Ok (S ab, S b, d)
      | OD => let! c := count_ops r in let '(ab, b, d) := c in Ok (ab, b, S d)
      | _ => Err ValueError
      end
  end.
(** [coeff *= -1.0] if the condition holds. *)
Definition flip_if (c : bool) (x : GC) : GC := if c then gmul x gm1 else x.

(** transformation.py:209-253: [_time_reversal_rule]. *)
Definition time_reversal_rule : rule := fun s =>
  match os_type s with
  | Fermion => Err ValueError
  | Majorana =>
      let! c := count_ops (os_ops s) in
      let '(ab, b, _) := c in
      op_new [flip_if (Nat.odd (ab * (ab - 1) / 2)) (flip_if (Nat.odd b) g1)] [s] None
  | Pauli => op_new [flip_if (Nat.odd (length (os_ops s))) g1] [s] None
  end.

(** transformation.py:255-293: [_particle_hole_rule]. *)
Definition particle_hole_rule : rule := fun s =>
  match os_type s with
  | Majorana =>
      let! c := count_ops (os_ops s) in
      let '(_, b, d) := c in
      op_new [flip_if (Nat.odd d) (flip_if (Nat.odd b) g1)] [s] None
  | _ => Err ValueError
  end.

(** transformation.py:396-428: [_sz_rule] with the set of labels of down orbitals (the count
    of up orbitals is not used).  [labels[ind]] raises IndexError if there are fewer labels
    than operators. *)
Definition zmem (l : Z) (s : list Z) : bool := existsb (Z.eqb l) s.
Fixpoint count_down (dn : list Z) (ops : list op) (labels : list Z) : res nat :=
  match ops with
  | [] => Ok 0
  | o :: r =>
      match labels with
      | [] => Err IndexError
      | l :: ls =>
          let! k := (if is_ab o then Ok (if zmem l dn then 1 else 0)
                     else match o with OD => Ok (if zmem l dn then 2 else 0) | _ => Err ValueError end) in
          let! n := count_down dn r ls in
          Ok (k + n)
      end
  end.
Definition sz_rule (dn : list Z) : rule := fun s =>
  match os_type s with
  | Majorana =>
      let! n := count_down dn (os_ops s) (os_labels s) in
      op_new [if Nat.odd n then gm1 else g1] [s] None
  | _ => Err ValueError
  end.

(** transformation.py:295-326: [label_permutation]. *)
Definition label_permutation (perm : list Z) : rule := permutation_rule perm.
(** transformation.py:460-532: [time_reversal], spinless; and spinful, given the spin-flip
    permutation and the labels of down orbitals (lines 519-530). *)
Definition time_reversal : rule := time_reversal_rule.
Definition time_reversal_spinful (flip dn : list Z) : rule :=
  tmul (tmul (permutation_rule flip) (sz_rule dn)) time_reversal_rule.
(** transformation.py:534-561: [particle_hole], [charge_conjugation]. *)
Definition particle_hole : rule := particle_hole_rule.
Definition charge_conjugation : rule := particle_hole.

(** transformation.py:563-594: [_symmetry_matrix_opstrings]. *)
Definition sym_column (b : Basis) (T : rule) (j : nat) (s : OS) : res (list (nat * nat * GC)) :=
  let! o := T s in
  rfold (fun acc t =>
     if basis_mem b (snd t) then
       let! i := basis_index b (snd t) in
       Ok (if abs_gtb (fst t) tol12 then acc ++ [(i, j, fst t)] else acc)
     else Ok acc) (op_terms o) [].
Fixpoint sym_columns (b : Basis) (T : rule) (j : nat) (l : list OS) : res (list (nat * nat * GC)) :=
  match l with
  | [] => Ok []
  | s :: r =>
      let! ts := sym_column b T j s in
      let! us := sym_columns b T (S j) r in
      Ok (ts ++ us)
  end.
(** transformation.py:632-663: [symmetry_matrix] of a Basis (with the default [tol]). *)
Definition symmetry_matrix (b : Basis) (T : rule) : res smat :=
  let! ts := sym_columns b T 0 (b_strings b) in
  sm_make (basis_len b) (basis_len b) ts.

(** core.py:163: the Hermitian part [0.5*(M + M.H)]. *)
Definition hermitian_part (M : smat) : res smat :=
  let! A := sm_add M (sm_adj M) in Ok (sm_scale half A).
(** core.py:156-161: the accepted spellings of [operation_mode]. *)
Inductive inv_mode : Set := ICommute | IAnticommute | IOther.
Definition inv_sign (m : inv_mode) : res Qc :=
  match m with ICommute => Ok 1%Qc | IAnticommute => Ok (- (1))%Qc | IOther => Err ValueError end.
(** core.py:104-180: [invariant_operators] of a Basis, without the superoperator and the warning.
    The eigensolver is a parameter: it returns (eigenvalue, eigenvector) pairs. *)
Definition invariant_operators (eigh : smat -> list (Qc * list GC)) (b : Basis) (T : rule) (m : inv_mode) (tol : Qc) : res (list (list GC)) :=
  let! M := symmetry_matrix b T in
  let! sign := inv_sign m in
  let! H := hermitian_part M in
  Ok (map snd (filter (fun p => abs_ltb (gq (fst p - sign)) tol) (eigh H))).
