(** Model of qosy/algebra.py:122-496: algebra of Operators, structure constants,
    Liouvillian and commutant matrices. *)
From Coq Require Import List ZArith Bool Arith QArith Qcanon.
From Verif Require Import GC Exn M_OpString M_Tools M_Algebra M_Basis.
Import ListNotations.
Local Open Scope nat_scope.

(* ------------------------------------------------------ sparse matrices *)

(** A scipy sparse matrix: shape and triplets (row, column, value); entries given twice are
    summed.  Explicit zeros and storage formats are not modelled. *)
Record smat : Set := mkSM { sm_rows : nat; sm_cols : nat; sm_trip : list (nat * nat * GC) }.
Definition gsum (l : list GC) : GC := fold_right gadd g0 l.
Definition sm_entry (m : smat) (i j : nat) : GC :=
  gsum (map (fun t => if (Nat.eqb (fst (fst t)) i && Nat.eqb (snd (fst t)) j) then snd t else g0) (sm_trip m)).
(** [csr_matrix((data, (rows, cols)), shape=...)]: indices must fit the shape. *)
Definition sm_make (nr nc : nat) (ts : list (nat * nat * GC)) : res smat :=
  if forallb (fun t => (fst (fst t) <? nr) && (snd (fst t) <? nc)) ts
  then Ok (mkSM nr nc ts) else Err ValueError.
Definition sm_zero (nr nc : nat) : smat := mkSM nr nc [].
Definition sm_scale (z : GC) (m : smat) : smat :=
  mkSM (sm_rows m) (sm_cols m) (map (fun t => (fst t, gmul z (snd t))) (sm_trip m)).
(** [+=]: shapes must agree. *)
Definition sm_add (m k : smat) : res smat :=
  if Nat.eqb (sm_rows m) (sm_rows k) && Nat.eqb (sm_cols m) (sm_cols k)
  then Ok (mkSM (sm_rows m) (sm_cols m) (sm_trip m ++ sm_trip k)) else Err ValueError.
(** [m.dot(k)]. *)
Definition sm_dot (m k : smat) : res smat :=
  if Nat.eqb (sm_cols m) (sm_rows k)
  then Ok (mkSM (sm_rows m) (sm_cols k)
        (flat_map (fun t => flat_map (fun u =>
           if Nat.eqb (snd (fst t)) (fst (fst u))
           then [(fst (fst t), snd (fst u), gmul (snd t) (snd u))] else []) (sm_trip k)) (sm_trip m)))
  else Err ValueError.
(** [m.getH()]: conjugate transpose. *)
Definition sm_adj (m : smat) : smat :=
  mkSM (sm_cols m) (sm_rows m) (map (fun t => (snd (fst t), fst (fst t), gconj (snd t))) (sm_trip m)).

(* --------------------------------------------- operations on Operators *)

(** algebra.py:133-142: the innermost loop body. *)
Definition oo_step (m : mode) (a : GC) (A : OS) (d : list (OS * GC)) (tb : GC * OS) : res (list (OS * GC)) :=
  let! (k, C) := operation_opstring m A (snd tb) in
  let coeff := gmul (gmul a (fst tb)) k in
  if abs_ltb coeff tol16 then Ok d
  else match C with
       | None => Err AttributeError  (* a None key, rejected by the constructor at 151; unreachable as k = 0 then *)
       | Some C => match dget os_key d C with
                   | Some v => Ok (dset os_key d C (gadd v coeff))
                   | None => Ok (dset os_key d C coeff)
                   end
       end.

(** algebra.py:122-151: [_operation_operator]. *)
Definition operation_operator (m : mode) (A B : Operator) : res Operator :=
  if optype_eqb (o_type A) (o_type B)
  then let! d := rfold (fun d ta => rfold (oo_step m (fst ta) (snd ta)) (op_terms B) d) (op_terms A) [] in
       op_new (map snd d) (map fst d) (Some (o_type A))
  else Err ValueError.

(** algebra.py:178-179,208-209,238-239: the Operator cases. *)
Definition product_op := operation_operator MProduct.
Definition commutator_op := operation_operator MCommutator.
Definition anticommutator_op := operation_operator MAnticommutator.

(* ------------------------------------------------- structure constants *)

(** algebra.py:304-315: the loop over basisA for a fixed string of basisB; state is the
    growing basisC and the triplets. *)
Fixpoint sc_inner (m : mode) (tol : Qc) (B : OS) (indA : nat) (As : list OS)
    (C : Basis) (data : list (nat * nat * GC)) : res (Basis * list (nat * nat * GC)) :=
  match As with
  | [] => Ok (C, data)
  | A :: r =>
      let! (k, oc) := operation_opstring m A B in
      match oc with
      | Some c =>
          if abs_ltb k tol then sc_inner m tol B (S indA) r C data
          else let C' := basis_iadd_string C c in
               let! ic := basis_index C' c in
               sc_inner m tol B (S indA) r C' (data ++ [(ic, indA, k)])
      | None => sc_inner m tol B (S indA) r C data
      end
  end.

(** algebra.py:300-317: the loop over basisB. *)
Fixpoint sc_outer (m : mode) (tol : Qc) (As : list OS) (Bs : list OS) (C : Basis)
    (md : list (OS * list (nat * nat * GC))) : res (Basis * list (OS * list (nat * nat * GC))) :=
  match Bs with
  | [] => Ok (C, md)
  | B :: r =>
      let! (C', data) := sc_inner m tol B 0 As C [] in
      sc_outer m tol As r C' (dset os_key md B data)
  end.

(** algebra.py:243-331: [structure_constants] with return_extended_basis=True (False drops
    the second component) and return_data_tuple=False. *)
Definition structure_constants (m : mode) (tol : Qc) (A B : Basis) : res (list (OS * smat) * Basis) :=
  let! (C, md) := sc_outer m tol (b_strings A) (b_strings B) basis_empty [] in
  let! result := rfold (fun d b =>
       let! ts := of_option KeyError (dget os_key md b) in
       let! M := sm_make (basis_len C) (basis_len A) ts in
       Ok (dset os_key d b M)) (b_strings B) [] in
  Ok (result, C).

(** algebra.py:333-347: [_liouvillian_matrix_opstrings]. *)
Definition liouvillian_strings (m : mode) (basis : Basis) (o : Operator) : res (smat * Basis) :=
  let! (sc, ext) := structure_constants m tol16 basis (o_basis o) in
  let! L := rfold (fun L t =>
       let! N := of_option KeyError (dget os_key sc (snd t)) in
       sm_add L (sm_scale (fst t) N)) (op_terms o) (sm_zero (basis_len ext) (basis_len basis)) in
  Ok (L, ext).

(** algebra.py:365-367: all strings of a list of Operators. *)
Definition combined_basis (ops : list Operator) : Basis :=
  fold_left (fun b o => basis_iadd b (o_basis o)) ops basis_empty.
(** algebra.py:374-382: the matrix of coefficients of the Operators. *)
Fixpoint coeff_triplets (b : Basis) (ind : nat) (ops : list Operator) : res (list (nat * nat * GC)) :=
  match ops with
  | [] => Ok []
  | o :: r =>
      let! ts := rmap (fun t => let! i := basis_index b (snd t) in Ok (i, ind, fst t)) (op_terms o) in
      let! us := coeff_triplets b (S ind) r in
      Ok (ts ++ us)
  end.
(** algebra.py:349-393: [_liouvillian_matrix_operators]. *)
Definition liouvillian_operators (m : mode) (ops : list Operator) (o : Operator) : res (smat * Basis) :=
  let b := combined_basis ops in
  let! (sc, ext) := structure_constants m tol16 b (o_basis o) in
  let! ts := coeff_triplets b 0 ops in
  let! K := sm_make (basis_len b) (length ops) ts in
  let! L := rfold (fun L t =>
       let! N := of_option KeyError (dget os_key sc (snd t)) in
       let! NK := sm_dot N K in
       sm_add L (sm_scale (fst t) NK)) (op_terms o) (sm_zero (basis_len ext) (length ops)) in
  Ok (L, ext).

(** The first argument of [liouvillian_matrix] (algebra.py:440-445). *)
Inductive basis_arg : Set := ABasis (b : Basis) | AOperators (l : list Operator).
(** algebra.py:395-445: [liouvillian_matrix]; [basis[0]] fails on an empty list. *)
Definition liouvillian_matrix (m : mode) (b : basis_arg) (o : Operator) : res (smat * Basis) :=
  match b with
  | ABasis b => liouvillian_strings m b o
  | AOperators [] => Err IndexError
  | AOperators l => liouvillian_operators m l o
  end.
(** algebra.py:447-496: [commutant_matrix]. *)
Definition commutant_matrix (m : mode) (b : basis_arg) (o : Operator) : res (smat * Basis) :=
  let! (L, ext) := liouvillian_matrix m b o in
  let! M := sm_dot (sm_adj L) L in
  Ok (M, ext).

(* ------------------------------------------------- generate_lie_algebra *)

(** algebra.py:525: the set of computed pairs of positions. *)
Definition pair_mem (p : nat * nat) (l : list (nat * nat)) : bool :=
  existsb (fun q => Nat.eqb (fst p) (fst q) && Nat.eqb (snd p) (snd q)) l.

(** State of the loops: the Basis, [inds_computed], [indA], [indB]. *)
Record lie_st : Set := mkLie { li_basis : Basis; li_done : list (nat * nat); li_a : nat; li_b : nat }.
Inductive lie_out : Set := LieMore (s : lie_st) | LieDone (b : Basis).

(** algebra.py:531-560: one step of the nested while loops (Basis argument): either the inner
    loop continues, or it ends and the outer loop advances. *)
Definition lie_step (tol : Qc) (st : lie_st) : res lie_out :=
  let '(mkLie b don ia ib) := st in
  if (ia <? basis_len b) then
    if (ib <? basis_len b) then
      if pair_mem (ia, ib) don || pair_mem (ib, ia) don then Ok (LieMore (mkLie b don ia (S ib)))
      else
        let! A := of_option IndexError (nth_error (b_strings b) ia) in
        let! B := of_option IndexError (nth_error (b_strings b) ib) in
        let! (k, oc) := commutator A B in
        if abs_ltb k tol then Ok (LieMore (mkLie b ((ia, ib) :: don) ia (S ib)))
        else match oc with
             | None => Err TypeError (* [lie_algebra += None] at 553; unreachable *)
             | Some c => Ok (LieMore (mkLie (if basis_mem b c then b else basis_iadd_string b c)
                                            ((ia, ib) :: don) ia (S ib)))
             end
    else Ok (LieMore (mkLie b don (S ia) 0))
  else Ok (LieDone b).

(** The while loops; [None] is running out of fuel. *)
Fixpoint lie_run (fuel : nat) (tol : Qc) (st : lie_st) : option (res Basis) :=
  match fuel with
  | O => None
  | S f => match lie_step tol st with
           | Err e => Some (Err e)
           | Ok (LieDone b) => Some (Ok b)
           | Ok (LieMore st') => lie_run f tol st'
           end
  end.
(** algebra.py:519-560: [generate_lie_algebra] on a Basis. *)
Definition generate_lie_algebra (fuel : nat) (tol : Qc) (b : Basis) : option (res Basis) :=
  lie_run fuel tol (mkLie (basis_iadd basis_empty b) [] 0 0).
