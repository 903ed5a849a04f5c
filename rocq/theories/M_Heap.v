(** Model of object identity in qosy/basis.py: a Basis keeps a reference to the list it is
    built from (basis.py:51) and an Operator keeps a reference to the Basis it is built from
    (basis.py:336). *)
From Coq Require Import String List ZArith Bool Arith.
From Verif Require Import GC Exn M_OpString M_Basis.
Import ListNotations.
Local Open Scope nat_scope.

(** Lists of strings; Basis objects (address of [op_strings], contents of [_indices]);
    Operator objects ([coeffs], address of [_basis], [op_type]).  Addresses are positions. *)
Record heap : Set := mkHeap {
  h_lists : list (list OS);
  h_bases : list (nat * list (OS * nat));
  h_ops : list (list GC * nat * optype) }.
Definition h_empty : heap := mkHeap [] [] [].

(** What the user sees of a Basis and of an Operator. *)
Definition list_view (h : heap) (a : nat) : res (list OS) := of_option NameError (nth_error (h_lists h) a).
Definition basis_view (h : heap) (b : nat) : res Basis :=
  let! (a, d) := of_option NameError (nth_error (h_bases h) b) in
  let! l := list_view h a in
  Ok (mkBasis l d).
Definition op_view (h : heap) (o : nat) : res Operator :=
  let! (cs, b, ty) := of_option NameError (nth_error (h_ops h) o) in
  let! v := basis_view h b in
  Ok (mkOperator cs v ty).

(** In-place change of a Basis (basis.py:236-237,242-243) and of [coeffs] (basis.py:549,558). *)
Definition set_basis (h : heap) (b : nat) (v : Basis) : res heap :=
  let! (a, _) := of_option NameError (nth_error (h_bases h) b) in
  Ok (mkHeap (list_set (h_lists h) a (b_strings v)) (list_set (h_bases h) b (a, b_idx v)) (h_ops h)).
Definition set_coeffs (h : heap) (o : nat) (cs : list GC) : res heap :=
  let! (_, b, ty) := of_option NameError (nth_error (h_ops h) o) in
  Ok (mkHeap (h_lists h) (h_bases h) (list_set (h_ops h) o (cs, b, ty))).

(** Python statements.  New objects get the next address of their kind. *)
Inductive cmd : Set :=
| CList (l : list OS)                                (* l = [...] *)
| CBasis (a : nat)                                   (* Basis(l) *)
| COpList (cs : list GC) (a : nat) (ty : option optype)   (* Operator(cs, l, op_type) *)
| COpBasis (cs : list GC) (b : nat) (ty : option optype)  (* Operator(cs, basis, op_type) *)
| CBasisIadd (b c : nat)                             (* basis += basis *)
| CBasisIaddString (b : nat) (s : OS)                (* basis += string *)
| COpAdd (o p : nat)                                 (* op + op *)
| COpScale (z : GC) (o : nat)                        (* z * op *)
| COpIadd (o p : nat)                                (* op += op *)
| COpIsub (o p : nat).                               (* op -= op *)

(** basis.py:294-343 with a list: the list is copied, a new Basis is made. *)
Definition alloc_op (h : heap) (v : Operator) : heap :=
  mkHeap (h_lists h ++ [b_strings (o_basis v)])
         (h_bases h ++ [(length (h_lists h), b_idx (o_basis v))])
         (h_ops h ++ [(o_coeffs v, length (h_bases h), o_type v)]).

(** basis.py:540-560: [__iadd__], with the in-place changes in order; the argument may be a
    temporary Operator (given by value) or an object sharing parts with [self]. *)
Definition h_iadd (h : heap) (o : nat) (other : heap -> res Operator) : res heap :=
  let! v := op_view h o in
  let! w := other h in
  if optype_eqb (o_type v) (o_type w) then
    let! (_, b, _) := of_option NameError (nth_error (h_ops h) o) in
    let b' := basis_iadd (o_basis v) (o_basis w) in
    let! h1 := set_basis h b b' in
    let! w1 := other h1 in
    let cs := o_coeffs v ++ repeat g0 (basis_len b' - basis_len (o_basis v)) in
    let! inds := rmap (basis_index b') (b_strings (o_basis w1)) in
    let! cs' := fancy_iadd cs inds (o_coeffs w1) in
    set_coeffs h1 o cs'
  else Err ValueError.

(** One statement.  A statement that raises ends the history (what it changed before raising
    is not modelled). *)
Definition step (h : heap) (c : cmd) : res heap :=
  match c with
  | CList l => Ok (mkHeap (h_lists h ++ [l]) (h_bases h) (h_ops h))
  | CBasis a =>
      let! l := list_view h a in
      let! v := basis_new l in
      Ok (mkHeap (h_lists h) (h_bases h ++ [(a, b_idx v)]) (h_ops h))
  | COpList cs a ty =>
      let! l := list_view h a in
      let! v := op_new cs l ty in
      Ok (alloc_op h v)
  | COpBasis cs b ty =>
      let! w := basis_view h b in
      let! v := op_of_basis cs w ty in
      Ok (mkHeap (h_lists h) (h_bases h) (h_ops h ++ [(o_coeffs v, b, o_type v)]))
  | CBasisIadd b c =>
      let! v := basis_view h b in
      let! w := basis_view h c in
      set_basis h b (basis_iadd v w)
  | CBasisIaddString b s =>
      let! v := basis_view h b in
      set_basis h b (basis_iadd_string v s)
  | COpAdd o p =>
      let! v := op_view h o in
      let! w := op_view h p in
      let! r := op_add v w in
      Ok (alloc_op h r)
  | COpScale z o =>
      (* basis.py:583,604: the list of strings is copied by the constructor *)
      let! v := op_view h o in
      let! r := op_scale z v in
      Ok (alloc_op h r)
  | COpIadd o p => h_iadd h o (fun h' => op_view h' p)
  | COpIsub o p =>
      (* basis.py:643: the temporary [-1.0*other] is made before *)
      let! w := op_view h p in
      let! m := op_scale gm1 w in
      h_iadd h o (fun _ => Ok m)
  end.
Definition run (cs : list cmd) (h : heap) : res heap := rfold step cs h.
