(** Model of qosy/diagonalization.py, lines 245-469: the single-particle matrices of quadratic
    Operators.  The eigensolvers are treated in M_Schur.v and M_Modes.v. *)
From Coq Require Import List ZArith Bool Arith QArith Qcanon.
From Verif Require Import GC Exn M_OpString M_Basis M_Conversion.
Import ListNotations.
Local Open Scope Z_scope.

(** [ss.csr_matrix((data, (row_inds, col_inds)), shape=(n, n))]: indices outside the shape raise
    ValueError; values at the same position add up.  Simplification: exact numbers. *)
Definition triple : Set := (Z * Z * GC)%type.
Record zmat : Set := mkZMat { z_dim : nat; z_data : list triple }.
Definition inside (n : nat) (i : Z) : bool := (0 <=? i) && (i <? Z.of_nat n).
Definition zcsr (n : nat) (d : list triple) : res zmat :=
  if forallb (fun t => inside n (fst (fst t)) && inside n (snd (fst t))) d then Ok (mkZMat n d) else Err ValueError.
Definition zentry (M : zmat) (i j : Z) : GC :=
  fold_right gadd g0 (map (fun t => if (fst (fst t) =? i) && (snd (fst t) =? j) then snd t else g0) (z_data M)).

(** diagonalization.py:269-279: 2l for a_l, 2l+1 for b_l. *)
Definition maj_index (o : op) (l : Z) : Z := match o with OA => 2 * l | _ => 2 * l + 1 end.

(** diagonalization.py:258-291: the two entries of one term.  [os.orbital_labels[k]] raises IndexError
    if there is no such label.  0.5*4.0 is 2. *)
Definition quad_entries (i j : Z) (sign : GC) (c : GC) : list triple :=
  [(i, j, gmul (gmul g2 (gq (re c))) sign); (j, i, gmul (gmul (gopp g2) (gq (re c))) sign)].
Definition quad_term (t : GC * OS) : res (list triple) :=
  let s := snd t in
  match os_ops s with
  | [OD] =>
      match os_labels s with
      | l :: _ => Ok (quad_entries (2 * l) (2 * l + 1) gm1 (fst t))
      | [] => Err IndexError
      end
  | [o1; o2] =>
      if is_ab o1 && is_ab o2 then
        match os_labels s with
        | l1 :: l2 :: _ => Ok (quad_entries (maj_index o1 l1) (maj_index o2 l2) g1 (fst t))
        | _ => Err IndexError
        end
      else Err ValueError
  | _ => Err ValueError
  end.
Definition concat_terms (f : GC * OS -> res (list triple)) (ts : list (GC * OS)) : res (list triple) :=
  let! l := rmap f ts in Ok (concat l).
(** diagonalization.py:247-296: the matrix A of [diagonalize_quadratic]; [n] is num_orbitals. *)
Definition quadratic_matrix (o : Operator) (n : nat) : res zmat :=
  let! op := match o_type o with
             | Fermion => convert (COperator o) Majorana false
             | Majorana => Ok o
             | Pauli => Err ValueError
             end in
  let! d := concat_terms quad_term (op_terms op) in
  zcsr (2 * n) d.

(** diagonalization.py:375-393: the entries of one term of [diagonalize_quadratic_tightbinding]. *)
Definition tb_term (t : GC * OS) : res (list triple) :=
  let s := snd t in
  match os_ops s with
  | [OCDag; OC] =>
      match os_labels s with
      | l1 :: l2 :: _ =>
          let x := gmul (fst t) (pval (os_pref s)) in
          Ok (if l1 =? l2 then [(l1, l2, gq (re x))] else [(l1, l2, x); (l2, l1, gconj x)])
      | _ => Err IndexError
      end
  | _ => Err ValueError
  end.
(** diagonalization.py:367-394: its matrix. *)
Definition tightbinding_matrix (o : Operator) (n : nat) : res zmat :=
  let! op := convert (COperator o) Fermion false in
  let! d := concat_terms tb_term (op_terms op) in
  zcsr n d.

(** diagonalization.py:418-448: the entries of one term of [diagonalize_bdg]. *)
Definition bdg_term (n : nat) (t : GC * OS) : res (list triple) :=
  let s := snd t in
  let x := gmul (fst t) (pval (os_pref s)) in
  let N := Z.of_nat n in
  match os_ops s with
  | [OCDag; OC] =>
      match os_labels s with
      | i :: j :: _ =>
          Ok (if i =? j then [(i, i, x); (i + N, i + N, gopp (gconj x))]
              else [(i, j, x); (j, i, gconj x); (i + N, j + N, gopp (gconj x)); (j + N, i + N, gopp x)])
      | _ => Err IndexError
      end
  | [OCDag; OCDag] =>
      match os_labels s with
      | i :: j :: _ =>
          if i =? j then Err ValueError
          else Ok [(i, j + N, x); (j, i + N, gopp x); (i + N, j, gopp (gconj x)); (j + N, i, gconj x)]
      | _ => Err IndexError
      end
  | _ => Err ValueError
  end.
(** diagonalization.py:404-450: its matrix. *)
Definition bdg_matrix (o : Operator) (n : nat) : res zmat :=
  let! op := match o_type o with
             | Majorana => convert (COperator o) Fermion false
             | Fermion => Ok o
             | Pauli => Err ValueError
             end in
  let! d := concat_terms (bdg_term n) (op_terms op) in
  zcsr (2 * n) d.
