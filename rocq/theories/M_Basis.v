(** Model of qosy/basis.py: Basis and Operator (cluster_basis and distance_basis are in
    M_Cluster.v). *)
From Coq Require Import String List ZArith Bool Arith QArith Qcanon.
From Verif Require Import GC Exn M_OpString.
Import ListNotations.
Local Open Scope nat_scope.

(* ------------------------------------------------------------------ dict *)

(** Python dict with key test [keq] (equal hash and [==]): entries in order of insertion. *)
Section Dict.
  Context {K V : Type}.
  Variable keq : K -> K -> bool.
  (** [d.get(k)]. *)
  Fixpoint dget (d : list (K * V)) (k : K) : option V :=
    match d with
    | [] => None
    | (k', v) :: r => if keq k' k then Some v else dget r k
    end.
  (** [d[k] = v]: an existing key object is kept. *)
  Fixpoint dset (d : list (K * V)) (k : K) (v : V) : list (K * V) :=
    match d with
    | [] => [(k, v)]
    | (k', v') :: r => if keq k' k then (k', v) :: r else (k', v') :: dset r k v
    end.
  (** [k in d]. *)
  Definition dmem (d : list (K * V)) (k : K) : bool :=
    match dget d k with Some _ => true | None => false end.
End Dict.

(* ----------------------------------------------------------------- Basis *)

(** basis.py:51,55: the attributes [op_strings] and [_indices]. *)
Record Basis : Set := mkBasis { b_strings : list OS; b_idx : list (OS * nat) }.

(** basis.py:57-59: [self._indices[op_string] = ind_os] for all positions. *)
Fixpoint index_strings (k : nat) (l : list OS) (d : list (OS * nat)) : list (OS * nat) :=
  match l with
  | [] => d
  | s :: r => index_strings (S k) r (dset os_key d s k)
  end.

(** basis.py:35-62: the constructor (value semantics; the reference kept at line 51 is
    modelled in M_Heap.v). *)
Definition basis_new (l : list OS) : res Basis :=
  let d := index_strings 0 l [] in
  if (length d =? length l) then Ok (mkBasis l d) else Err ValueError.
Definition basis_empty : Basis := mkBasis [] [].

(** basis.py:64-82: [index]. *)
Definition basis_index (b : Basis) (s : OS) : res nat := of_option KeyError (dget os_key (b_idx b) s).
(** basis.py:155-174: [__contains__]. *)
Definition basis_mem (b : Basis) (s : OS) : bool := dmem os_key (b_idx b) s.
(** basis.py:121-133: [__len__]. *)
Definition basis_len (b : Basis) : nat := length (b_strings b).

(** Python list indexing [l[i]] with negative indices. *)
Definition py_nth {T} (l : list T) (i : Z) : res T :=
  let j := if (i <? 0)%Z then (i + Z.of_nat (length l))%Z else i in
  if (j <? 0)%Z then Err IndexError else of_option IndexError (nth_error l (Z.to_nat j)).
(** basis.py:100-119: [__getitem__] for an integer. *)
Definition basis_get (b : Basis) (i : Z) : res OS := py_nth (b_strings b) i.

(** basis.py:198-208: [__add__] with a Basis. *)
Definition basis_add (b other : Basis) : res Basis :=
  basis_new (b_strings b ++ filter (fun s => negb (basis_mem b s)) (b_strings other)).
(** basis.py:200-208: [__add__] with an OperatorString. *)
Definition basis_add_string (b : Basis) (s : OS) : res Basis :=
  basis_new (b_strings b ++ (if basis_mem b s then [] else [s])).

(** basis.py:234-238: the loop of [__iadd__] over the strings of the other Basis. *)
Fixpoint iadd_loop (b : Basis) (ind : nat) (l : list OS) : Basis :=
  match l with
  | [] => b
  | s :: r =>
      if basis_mem b s then iadd_loop b ind r
      else iadd_loop (mkBasis (b_strings b ++ [s]) (dset os_key (b_idx b) s ind)) (S ind) r
  end.
(** basis.py:232-238: [__iadd__] with a Basis. *)
Definition basis_iadd (b other : Basis) : Basis :=
  iadd_loop b (length (b_strings b)) (b_strings other).
(** basis.py:239-243: [__iadd__] with an OperatorString. *)
Definition basis_iadd_string (b : Basis) (s : OS) : Basis :=
  if basis_mem b s then b
  else mkBasis (b_strings b ++ [s]) (dset os_key (b_idx b) s (length (b_idx b))).

(** basis.py:264: [__eq__]: equal lists and equal dictionaries. *)
Definition basis_eqb (a b : Basis) : bool :=
  list_eqb os_eqb (b_strings a) (b_strings b) &&
  ((length (b_idx a) =? length (b_idx b)) &&
   forallb (fun e => match dget os_key (b_idx b) (fst e) with
                     | Some v => Nat.eqb v (snd e) | None => false end) (b_idx a)).

(* -------------------------------------------------------------- Operator *)

(** basis.py:327,333-338: the attributes [coeffs], [_basis], [op_type]. *)
Record Operator : Set := mkOperator { o_coeffs : list GC; o_basis : Basis; o_type : optype }.

(** basis.py:334-343: constructor with a Basis. *)
Definition op_of_basis (coeffs : list GC) (b : Basis) (ty : option optype) : res Operator :=
  match b_strings b with
  | s :: _ => Ok (mkOperator coeffs b (os_type s))
  | [] => match ty with Some t => Ok (mkOperator coeffs b t) | None => Err ValueError end
  end.
(** basis.py:294-343: constructor with a list.  There is no check that there are as many
    coefficients as strings, nor that all strings have the same type. *)
Definition op_new (coeffs : list GC) (l : list OS) (ty : option optype) : res Operator :=
  let! b := basis_new l in op_of_basis coeffs b ty.

(** basis.py:670: [__iter__]: pairs of coefficient and string. *)
Definition op_terms (o : Operator) : list (GC * OS) := combine (o_coeffs o) (b_strings (o_basis o)).
(** basis.py:690: [__len__]. *)
Definition op_len (o : Operator) : nat := basis_len (o_basis o).

(** basis.py:345: default tolerance 1e-16, also algebra.py:122,243. *)
Definition tol16 : Qc := Q2Qc (1 # 10000000000000000).

(** basis.py:360,366: positions and coefficients with [abs(coeff) > tol]. *)
Fixpoint nonzero_inds (tol : Qc) (k : nat) (cs : list GC) : list (nat * GC) :=
  match cs with
  | [] => []
  | c :: r => if abs_gtb c tol then (k, c) :: nonzero_inds tol (S k) r else nonzero_inds tol (S k) r
  end.
(** basis.py:345-372: [remove_zeros]. *)
Definition op_remove_zeros (tol : Qc) (o : Operator) : res Operator :=
  let nz := nonzero_inds tol 0 (o_coeffs o) in
  let! strs := rmap (fun p => of_option IndexError (nth_error (b_strings (o_basis o)) (fst p))) nz in
  op_new (map snd nz) strs (Some (o_type o)).

(** [v[i] = x] on a list. *)
Fixpoint list_set {T} (l : list T) (i : nat) (x : T) : list T :=
  match l, i with
  | [], _ => []
  | _ :: r, O => x :: r
  | y :: r, S j => y :: list_set r j x
  end.

(** basis.py:457-464: [to_vector] with fmt='numpy'. *)
Definition op_to_vector (o : Operator) (b : Basis) : res (list GC) :=
  rfold (fun v t => let! i := basis_index b (snd t) in
                    if (i <? length v)%nat then Ok (list_set v i (fst t)) else Err IndexError)
        (op_terms o) (repeat g0 (basis_len b)).

(** basis.py:517,521: [coeffs[inds] += vals] (numpy fancy indexing): gather, add with
    broadcasting of a single value, scatter. *)
Fixpoint scatter (cs : list GC) (inds : list nat) (vals : list GC) : list GC :=
  match inds, vals with
  | i :: is', v :: vs => scatter (list_set cs i v) is' vs
  | _, _ => cs
  end.
Definition fancy_iadd (cs : list GC) (inds : list nat) (vals : list GC) : res (list GC) :=
  let! old := rmap (fun i => of_option IndexError (nth_error cs i)) inds in
  let! vals' := (if (length vals =? length inds) then Ok vals
                 else match vals with [v] => Ok (repeat v (length inds)) | _ => Err ValueError end) in
  Ok (scatter cs inds (map (fun p => gadd (fst p) (snd p)) (combine old vals'))).

(** basis.py:508-521, also 543-558: enlarge the basis, pad the coefficients, add. *)
Definition op_add_into (coeffs : list GC) (b : Basis) (ty : optype) (other : Operator) : res Operator :=
  let b' := basis_iadd b (o_basis other) in
  let cs := coeffs ++ repeat g0 (basis_len b' - basis_len b) in
  let! inds := rmap (basis_index b') (b_strings (o_basis other)) in
  let! cs' := fancy_iadd cs inds (o_coeffs other) in
  Ok (mkOperator cs' b' ty).

(** basis.py:481-523: [__add__].  The copy at 506 is built by the constructor. *)
Definition op_add (o other : Operator) : res Operator :=
  if optype_eqb (o_type o) (o_type other)
  then let! c := op_new (o_coeffs o) (b_strings (o_basis o)) (Some (o_type o)) in
       op_add_into (o_coeffs c) (o_basis c) (o_type c) other
  else Err ValueError.
(** basis.py:525-560: [__iadd__], as a function returning the new value of [self]
    (sharing of the Basis with other objects is modelled in M_Heap.v). *)
Definition op_iadd (o other : Operator) : res Operator :=
  if optype_eqb (o_type o) (o_type other)
  then op_add_into (o_coeffs o) (o_basis o) (o_type o) other
  else Err ValueError.

(** basis.py:562-604: [__mul__], [__rmul__] with a number. *)
Definition op_scale (z : GC) (o : Operator) : res Operator :=
  op_new (map (fun c => gmul c z) (o_coeffs o)) (b_strings (o_basis o)) (Some (o_type o)).
(** basis.py:645-654: [__neg__]. *)
Definition op_neg (o : Operator) : res Operator := op_scale gm1 o.
(** basis.py:606-626: [__sub__]. *)
Definition op_sub (o other : Operator) : res Operator :=
  let! m := op_scale gm1 other in op_add o m.
(** basis.py:628-643: [__isub__]. *)
Definition op_isub (o other : Operator) : res Operator :=
  let! m := op_scale gm1 other in op_iadd o m.

(** basis.py:747: [__eq__]. *)
Definition op_eqb_op (a b : Operator) : bool :=
  optype_eqb (o_type a) (o_type b) &&
  ((length (o_coeffs a) =? length (o_coeffs b)) &&
   (list_eqb gc_eqb (o_coeffs a) (o_coeffs b) && basis_eqb (o_basis a) (o_basis b))).

(** basis.py:374-414 with the default order: the squared norm (the code takes its root). *)
Definition op_norm2 (o : Operator) : Qc := fold_right Qcplus 0%Qc (map norm2 (o_coeffs o)).
