(** Model of core.py:762-993 and 995-1090: [_ladder_operators] (with sparsification=False, its
    default) and [_inverse_ladder_operators] (with sparsification=False).
    Simplifications: exact real and complex numbers; printing is not modelled; [nla.eigh],
    [nla.svd], [nla.pinv] and the order that argsort gives to equal numbers are parameters; the
    argument [basis] is a Basis.  [_ladder_operators_original] (585-760) is not modelled. *)
From Coq Require Import String List ZArith Bool Arith Reals.
From Coquelicot Require Import Complex.
From Verif Require Import GC Exn M_OpString M_Tools M_Algebra M_Basis M_OpAlg M_LinAlg M_Core M_Greedy.
Import ListNotations.
Local Open Scope nat_scope.

(** The numerical routines.  [la_svd n M]: the singular values of the matrix with the rows [M] and
    [n] columns, and its right singular vectors (the columns of the third result, conjugated and
    transposed).  [la_pinv n M]: the rows of the pseudo-inverse. *)
Record lad_oracles : Type := mkLad {
  la_eigh : list vec -> list (R * vec);
  la_svd : nat -> list vec -> list R * list vec;
  la_pinv : nat -> list vec -> list vec;
  la_sort : list R -> list nat
}.

(** core.py:807-808,817-818: [M[rows, :][:, cols].toarray()], by rows. *)
Definition sub_rows (M : smat) (rows cols : list nat) : list vec :=
  map (fun i => map (fun j => to_C (sm_entry M i j)) cols) rows.
(** core.py:825-827,1038-1039: the right singular vectors at [np.where(np.abs(svals) < tol)[0]]; there are only
    as many singular values as the smaller dimension of the matrix. *)
Definition null_vectors (tol : R) (r : list R * list vec) : res (list vec) :=
  take (snd r) (map fst (filter (fun p => lt_dec (Rabs (snd p)) tol) (combine (seq 0 (length (fst r))) (fst r)))).
(** core.py:842: [0.5*(M + M^H)] of a square matrix, by rows. *)
Definition hermitian_part (rows : list vec) : list vec :=
  map (fun i => map (fun j => (RtoC (/ 2) * (nth j (nth i rows []) (RtoC 0) + Cconj (nth i (nth j rows []) (RtoC 0))))%C) (seq 0 (length rows))) (seq 0 (length rows)).
(** core.py:849-854: positive eigenvalues with a negative partner. *)
Definition partnered (tol : R) (ps : list (R * vec)) : list (R * vec) :=
  filter (fun p => lt_dec 0 tol && lt_dec tol (fst p) && existsb (fun q => lt_dec (Rabs (fst p + fst q)) tol) ps) ps.
(** core.py:865-866: a vector of length [n] with the entries [w] at the positions [inds]. *)
Definition scatter (n : nat) (inds : list nat) (w : vec) : vec :=
  map (fun i => fold_left (fun acc p => if Nat.eqb (fst p) i then snd p else acc) (combine inds w) (RtoC 0)) (seq 0 n).

(** core.py:762-993: [_ladder_operators]; the coefficients of the operators in the strings of
    [basis] (as with return_operators=False) and the eigenvalues. *)
Definition ladder_operators (Or : lad_oracles) (b : Basis) (o : Operator) (tol : R) : res (list vec * list R) :=
  let! m := op_neg o in
  let! (L, ext) := liouvillian_matrix MCommutator (ABasis b) m in
  if Nat.eqb (length (filter (basis_mem ext) (b_strings b))) 0 then Ok ([], [])
  else
    let numbered := combine (seq 0 (basis_len ext)) (b_strings ext) in
    let shared := filter (fun p => basis_mem b (snd p)) numbered in
    let outside := map fst (filter (fun p => negb (basis_mem b (snd p))) numbered) in
    let! inA := rmap (fun p => basis_index b (snd p)) shared in
    let LAB := sub_rows L (map fst shared) inA in
    let! (P, up) := (if Nat.eqb (length outside) 0 then Ok (LAB, fun w => w)
      else let! V := null_vectors tol (la_svd Or (length inA) (sub_rows L outside inA)) in
           Ok (project_super V LAB, mat_vec (length inA) V)) in
    let ps := partnered tol (la_eigh Or (hermitian_part P)) in
    let! qs := take ps (la_sort Or (map fst ps)) in
    Ok (map (fun p => scatter (basis_len b) inA (up (snd p))) qs, map fst qs).

(** core.py:995-1090: [_inverse_ladder_operators] with sparsification=False: the particular solution
    ([None] if there is none) and the null vectors, as coefficients in the strings of [basis].
    At 1073 and 1077-1078 the particular solution is normalised and, for Operators, its entries below
    [tol] are removed, which is not modelled. *)
Definition inverse_ladder_operators (Or : lad_oracles) (b : Basis) (o : Operator) (tol : R) : res (option vec * list vec) :=
  let! (L, ext) := liouvillian_matrix MCommutator (ABasis b) o in
  let! N := null_vectors tol (la_svd Or (basis_len b) (dense_rows L)) in
  if forallb (fun t => basis_mem ext (snd t)) (op_terms o)
  then
    let! r := coeff_column ext (cop_of o) in
    Ok (Some (rows_vec (la_pinv Or (basis_len b) (dense_rows L)) r), N)
  else Ok (None, N).
