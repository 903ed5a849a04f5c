(** Model of qosy/diagonalization.py, lines 23-220. *)
From Coq Require Import List ZArith NArith Bool Arith QArith Qcanon.
From Verif Require Import GC Exn M_OpString M_Basis M_OpAlg.
Import ListNotations.
Local Open Scope nat_scope.

(** [1 << (num_orbitals-1-label)]; Python raises ValueError for a negative shift count.  Labels are
    unbounded integers here (numpy integers of more than 63 bits are outside the model). *)
Definition mask (n : nat) (label : Z) : res N :=
  let k := (Z.of_nat n - 1 - label)%Z in
  if (k <? 0)%Z then Err ValueError else Ok (N.shiftl 1 (Z.to_N k)).

(** diagonalization.py:36-52: one step of the loop over the operators of the string.  The unknown
    operator of a Pauli string is skipped, as there is no [else]. *)
Definition apply_step_conf (n : nat) (st : GC * N) (p : op * Z) : res (GC * N) :=
  let '(coeff, conf) := st in
  let! m := mask n (snd p) in
  match fst p with
  | OX => Ok (coeff, N.lxor conf m)
  | OY => Ok (gmul coeff (if negb (N.land conf m =? 0)%N then gopp gi else gi), N.lxor conf m)
  | OZ => Ok ((if negb (N.land conf m =? 0)%N then gmul coeff gm1 else coeff), conf)
  | _ => Ok (coeff, conf)
  end.
(** diagonalization.py:23-54: [_apply_opstring]. *)
Definition apply_opstring (s : OS) (conf : N) (n : nat) : res (GC * N) :=
  match os_type s with
  | Pauli => rfold (apply_step_conf n) (combine (os_ops s) (os_labels s)) (pval (os_pref s), conf)
  | _ => Err NotImplementedError
  end.

(** [range(2**num_orbitals)]. *)
Definition confs (n : nat) : list N := map N.of_nat (seq 0 (2 ^ n)).

(** diagonalization.py:56-71: [_to_matrix_opstring(..., return_tuple=True)], as (row, column, value). *)
Definition opstring_triples (s : OS) (n : nat) : res (list (N * N * GC)) :=
  match os_type s with
  | Pauli => rmap (fun conf => let! r := apply_opstring s conf n in Ok (snd r, conf, fst r)) (confs n)
  | _ => Err NotImplementedError
  end.

(** [ss.csr_matrix((data, (row_inds, col_inds)), shape=(2**n, 2**n))]: indices outside the shape raise
    ValueError; values at the same position add up. *)
Record cmat : Set := mkMat { m_orbitals : nat; m_data : list (N * N * GC) }.
Definition csr (n : nat) (d : list (N * N * GC)) : res cmat :=
  if forallb (fun t => (fst (fst t) <? 2 ^ N.of_nat n)%N && (snd (fst t) <? 2 ^ N.of_nat n)%N) d then Ok (mkMat n d) else Err ValueError.
Definition entry (M : cmat) (r c : N) : GC :=
  gsum (map (fun t => if (fst (fst t) =? r)%N && (snd (fst t) =? c)%N then snd t else g0) (m_data M)).

(** diagonalization.py:56-75: [_to_matrix_opstring]. *)
Definition to_matrix_opstring (s : OS) (n : nat) : res cmat := let! d := opstring_triples s n in csr n d.
(** diagonalization.py:78-97: [to_matrix]. *)
Inductive mat_arg := MString (s : OS) | MOperator (o : Operator) | MOther.
Definition to_matrix (a : mat_arg) (n : nat) : res cmat :=
  match a with
  | MString s => to_matrix_opstring s n
  | MOperator o =>
      let! d := rfold (fun acc t => let! d := opstring_triples (snd t) n in
                                   Ok (acc ++ map (fun x => (fst x, gmul (fst t) (snd x))) d)) (op_terms o) [] in
      csr n d
  | MOther => Err ValueError
  end.

(** diagonalization.py:103: [(mat.H).dot(matrix).diagonal().sum()/(2.0**num_orbitals)]; the product of
    matrices of different shapes raises ValueError. *)
Definition overlap (n : nat) (mat M : cmat) : res GC :=
  if m_orbitals mat =? m_orbitals M then
    Ok (gdiv (gsum (map (fun c => gsum (map (fun r => gmul (gconj (entry mat r c)) (entry M r c)) (confs (m_orbitals mat)))) (confs (m_orbitals mat))))
             (gq (Q2Qc (inject_Z (2 ^ Z.of_nat n)))))
  else Err ValueError.
(** diagonalization.py:100-105: [to_vector]. *)
Definition to_vector (M : cmat) (b : Basis) (n : nat) : res (list GC) :=
  let! mats := rmap (fun s => to_matrix_opstring s n) (b_strings b) in
  rmap (fun mat => overlap n mat M) mats.
(** diagonalization.py:108-113: [to_operator]: line 109 calls [to_vector] without its third argument. *)
Definition to_operator (M : cmat) (b : Basis) (n : nat) : res Operator := Err TypeError.

(** diagonalization.py:126-132, 149-155: the new configuration.  [permutation] holds natural numbers; numbers
    that are not below [n] are outside the model. *)
Definition permuted_conf (perm : list nat) (conf : N) (n : nat) : N :=
  fold_left (fun acc l => let m := N.shiftl 1 (N.of_nat (n - 1 - l)) in
                          let m' := N.shiftl 1 (N.of_nat (n - 1 - nth l perm 0)) in
                          (acc + (if N.land conf m =? 0 then 0 else m'))%N) (seq 0 n) 0%N.
(** diagonalization.py:116-134: [apply_transformation_conf]; [info] is the attribute of the transformation. *)
Definition apply_transformation_conf (info : option (list nat)) (conf : N) (n : nat) : res N :=
  match info with
  | Some perm => if length perm =? n then Ok (permuted_conf perm conf n) else Err ValueError
  | None => Err ValueError
  end.
(** diagonalization.py:139-159: [apply_transformation]. *)
Definition apply_transformation (info : option (list nat)) (v : list GC) (n : nat) : res (list GC) :=
  match info with
  | Some perm =>
      if length perm =? n then
        rfold (fun acc conf =>
          let! x := of_option IndexError (nth_error v (N.to_nat conf)) in
          let i := N.to_nat (permuted_conf perm conf n) in
          if i <? length acc then Ok (list_set acc i x) else Err IndexError) (confs n) (repeat g0 (2 ^ n))
      else Err ValueError
  | None => Err ValueError
  end.

(** diagonalization.py:172-180 and 182-190: the bits of [conf] at the given labels, in order. *)
Definition sub_conf (labels : list Z) (conf : N) (n : nat) : res N :=
  let k := length labels in
  let! r := rfold (fun st l =>
    let '(acc, i) := st in
    let! m := mask n l in
    Ok ((acc + (if N.land conf m =? 0 then 0 else N.shiftl 1 (N.of_nat (k - 1 - i))))%N, S i)) labels (0%N, 0) in
  Ok (fst r).
(** diagonalization.py:162: the other labels. *)
Definition other_labels (labels : list Z) (n : nat) : list Z :=
  filter (fun l => negb (existsb (Z.eqb l) labels)) (map Z.of_nat (seq 0 n)).
(** diagonalization.py:161-194: [_reshape_vector_subsystems]: the entries of [c_ab], with their assignments in
    order.  (The indices are always below the shape.) *)
Definition reshape_subsystems (v : list GC) (labels : list Z) (n : nat) : res (N -> N -> GC) :=
  rfold (fun (c : N -> N -> GC) conf =>
    let! a := sub_conf labels conf n in
    let! b := sub_conf (other_labels labels n) conf n in
    let! x := of_option IndexError (nth_error v (N.to_nat conf)) in
    Ok (fun a' b' => if (a' =? a)%N && (b' =? b)%N then x else c a' b')) (confs n) (fun _ _ => g0).
(** diagonalization.py:197-211: [reduced_density_matrix] of a vector or of a pair of vectors: the entries of the
    matrix [np.dot(c_ab1, np.conj(c_ab2.T))]. *)
Inductive rho_arg := RVector (v : list GC) | RPair (v w : list GC) | ROther.
Definition outer (c1 c2 : N -> N -> GC) (kb : nat) (a a' : N) : GC := gsum (map (fun b => gmul (c1 a b) (gconj (c2 a' b))) (confs kb)).
Definition reduced_density_matrix (x : rho_arg) (labels : list Z) (n : nat) : res (N -> N -> GC) :=
  let kb := length (other_labels labels n) in
  match x with
  | RPair v w =>
      let! c1 := reshape_subsystems v labels n in
      let! c2 := reshape_subsystems w labels n in
      Ok (outer c1 c2 kb)
  | RVector v =>
      let! c := reshape_subsystems v labels n in
      Ok (outer c c kb)
  | ROther => Err ValueError
  end.
