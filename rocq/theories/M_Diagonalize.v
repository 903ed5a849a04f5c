(** Model of qosy/diagonalization.py:222-241, [diagonalize].  No proofs. *)
From Coq Require Import List ZArith NArith Bool Arith Reals.
From Coquelicot Require Import Complex.
From Verif Require Import GC Exn M_OpString M_Basis M_Conversion M_Diag M_LinAlg M_Core M_Greedy.
Import ListNotations.

(** The eigensolvers and [np.argsort]: [dg_eigh None] is [nla.eigh], [dg_eigh (Some k)] is
    [ssla.eigsh(matrix, k=k, which='SA')], [dg_eig] are [nla.eig] and [ssla.eigs]. *)
Record dgoracles : Type := mkDg { dg_eigh : option nat -> list vec -> list (R * vec);
                                  dg_eig : option nat -> list vec -> list (C * vec);
                                  dg_sort : list R -> list nat }.
(** [matrix.toarray()], the rows of the matrix. *)
Definition to_array (M : cmat) : list vec :=
  map (fun r => map (fun c => to_C (M_Diag.entry M r c)) (confs (m_orbitals M))) (confs (m_orbitals M)).

(** The result in the two modes. *)
Inductive levels : Type := Hermitian (ps : list (R * vec)) | General (ps : list (C * vec)).
(** diagonalization.py:223-241: [diagonalize]; [herm] is [mode == 'Hermitian'].  The conversion leaves
    out the identity (include_identity is False by default). *)
Definition diagonalize (Or : dgoracles) (a : convert_arg) (n : nat) (herm : bool) (nv : option nat) : res levels :=
  let! o := convert a Pauli false in
  let! M := to_matrix (MOperator o) n in
  if herm then
    let ps := dg_eigh Or nv (to_array M) in
    let! qs := take ps (dg_sort Or (map fst ps)) in
    Ok (Hermitian qs)
  else Ok (General (dg_eig Or nv (to_array M))).
