(** Model of qosy/algebra.py:122-151,561-673 for Operators whose coefficients are results of floating
    point calculations: the commutator, and [generate_lie_algebra] of a list of Operators.  No proofs. *)
From Coq Require Import List ZArith Bool Arith Reals Qcanon.
From Coquelicot Require Import Complex.
From Verif Require Import GC Exn M_OpString M_Algebra M_Basis M_OpAlg M_LinAlg M_Core M_Greedy.
Import ListNotations.

(* --------------------------------------------------------- the commutator *)

(** algebra.py:133-142: the innermost loop body, see M_OpAlg.oo_step. *)
Definition coo_step (m : mode) (a : C) (A : OS) (d : list (OS * C)) (tb : C * OS) : res (list (OS * C)) :=
  let! (k, oc) := operation_opstring m A (snd tb) in
  let coeff := Cmult (Cmult a (fst tb)) (to_C k) in
  if lt_dec (Cmod coeff) tol16r then Ok d
  else match oc with
       | None => Err AttributeError  (* unreachable: the coefficient is zero then *)
       | Some c => match dget os_key d c with
                   | Some v => Ok (dset os_key d c (Cplus v coeff))
                   | None => Ok (dset os_key d c coeff)
                   end
       end.
(** algebra.py:122-151: [_operation_operator]. *)
Definition cop_operation (m : mode) (A B : COp) : res COp :=
  if optype_eqb (c_type A) (c_type B)
  then let! d := rfold (fun d ta => rfold (coo_step m (fst ta) (snd ta)) (c_terms B) d) (c_terms A) [] in
       cop_new (map snd d) (map fst d) (Some (c_type A))
  else Err ValueError.

(* --------------------------------------------------- generate_lie_algebra *)

(** algebra.py:568-583: the columns of the matrix of coefficients; at most [tol] counts as zero. *)
Definition lie_column (b : Basis) (tol : R) (o : COp) : res vec :=
  let! ts := rmap (fun t => let! i := basis_index b (snd t) in Ok (i, fst t)) (c_terms o) in
  let kept := filter (fun p => lt_dec tol (Cmod (snd p))) ts in
  Ok (map (fun i => csum (map (fun p => if Nat.eqb (fst p) i then snd p else RtoC 0) kept)) (seq 0 (basis_len b))).

(** tools.py:423-489: [gram_schmidt] of a sparse matrix.  At 470 a first column without entries is
    divided by its norm zero, which leaves it without entries (the division acts on the stored
    entries); the zeros are not stored at 574-577. *)
Definition gram_schmidt_sparse (n : nat) (tol : R) (cols : list vec) : list vec :=
  match cols with
  | [] => []
  | c :: rest =>
      if Nat.eqb n 0 then cols
      else gs_loop tol [match unit_vec c with Some u => u | None => c end] rest
  end.

(** algebra.py:598,650,668: the product of the projector Σ_v v v† with a vector.  The code keeps the
    matrix and adds v v† to it (668) whenever it adds v to [vectors] (665). *)
Definition projected (n : nat) (vs : list vec) (w : vec) : vec :=
  fold_right (fun v acc => vadd (vscale (vdot v w) v) acc) (vzero n) vs.
(** algebra.py:642-644: zeros for the new strings. *)
Definition pad (k : nat) (v : vec) : vec := v ++ vzero k.

(** The variables of the loops at 608-671. *)
Record lo_st : Type := mkLo { lo_ops : list COp; lo_basis : Basis; lo_vecs : list vec;
                              lo_done : list (nat * nat); lo_a : nat; lo_b : nat }.
Inductive lo_out : Type := LoMore (s : lo_st) | LoDone (l : list COp) | LoNaN.

(** algebra.py:632-638: the strings of [opC] are added to the Basis. *)
Definition lo_extend (b : Basis) (l : list OS) : Basis :=
  fold_left (fun b s => if basis_mem b s then b else basis_iadd_string b s) l b.

(** algebra.py:632-668: what is done with a normalised commutator [oc]; the Operators, the Basis and
    the vectors.  [None] stands for not-a-number entries (662). *)
Definition lo_add (tol : R) (ops : list COp) (b : Basis) (vs : list vec) (oc : COp) : res (option (list COp * Basis * list vec)) :=
  let b' := lo_extend b (b_strings (c_basis oc)) in
  let vs' := map (pad (basis_len b' - basis_len b)) vs in
  let! v := coeff_column b' oc in
  let overlaps := projected (basis_len b') vs' v in
  if lt_dec tol (Cmod (Cminus (vdot v overlaps) (RtoC 1)))
  then match unit_vec (vsub v overlaps) with
       | Some u => Ok (Some (ops ++ [oc], b', vs' ++ [u]))
       | None => Ok None
       end
  else Ok (Some (ops, b', vs')).

(** algebra.py:608-671: one step of the nested while loops.  [opC.remove_zeros] at 623 returns a new
    Operator that is not used. *)
Definition lo_step (tol : R) (st : lo_st) : res lo_out :=
  let '(mkLo ops b vs don ia ib) := st in
  if (ia <? length ops) then
    if (ib <? length ops) then
      if Nat.eqb ia ib || pair_mem (ia, ib) don || pair_mem (ib, ia) don then Ok (LoMore (mkLo ops b vs don ia (S ib)))
      else
        let! A := of_option IndexError (nth_error ops ia) in
        let! B := of_option IndexError (nth_error ops ib) in
        let! D := cop_operation MCommutator A B in
        let! D' := cop_scale (Copp Ci) D in
        if lt_dec tol (vnorm (c_coeffs D'))
        then match cop_normalize D' with
             | None => Ok LoNaN
             | Some oc =>
                 let! r := lo_add tol ops b vs oc in
                 match r with
                 | None => Ok LoNaN
                 | Some (ops', b', vs') => Ok (LoMore (mkLo ops' b' vs' ((ia, ib) :: don) ia (S ib)))
                 end
             end
        else Ok (LoMore (mkLo ops b vs ((ia, ib) :: don) ia (S ib)))
    else Ok (LoMore (mkLo ops b vs don (S ia) 0))
  else Ok (LoDone ops).

(** The while loops: [None] is running out of fuel, [Some (Ok None)] that a number is not-a-number. *)
Fixpoint lo_run (fuel : nat) (tol : R) (st : lo_st) : option (res (option (list COp))) :=
  match fuel with
  | O => None
  | S f => match lo_step tol st with
           | Err e => Some (Err e)
           | Ok (LoDone l) => Some (Ok (Some l))
           | Ok LoNaN => Some (Ok None)
           | Ok (LoMore st') => lo_run f tol st'
           end
  end.

(** algebra.py:561-673: [generate_lie_algebra] on a list of Operators.  [operators[0]] fails on the
    empty list; [gram_schmidt] is called with its default tolerance zero. *)
Definition generate_lie_operators (fuel : nat) (tol : R) (ops : list COp) : option (res (option (list COp))) :=
  match ops with
  | [] => Some (Err IndexError)
  | _ =>
      let b := ccombined ops in
      match rmap (lie_column b tol) ops with
      | Err e => Some (Err e)
      | Ok cols => lo_run fuel tol (mkLo ops b (gram_schmidt_sparse (basis_len b) 0 cols) [] 0 0)
      end
  end.
