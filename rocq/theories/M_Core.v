(** Model of qosy/core.py: commuting_operators, invariant_operators and the class
    SymmetricOperatorGenerator, with tools.py:534-588 (sparsify).
    Simplifications: floating point numbers are modelled by exact real and complex numbers;
    printing is not modelled; the eigensolvers, the LU decomposition, the pseudo-inverse and
    the order that argsort gives to equal numbers are parameters. *)
From Coq Require Import String List ZArith Bool Arith Reals QArith Qreals Qcanon.
From Coquelicot Require Import Complex.
From Verif Require Import GC Exn M_OpString M_Tools M_Algebra M_Basis M_OpAlg M_Transform M_LinAlg.
Import ListNotations.
Local Open Scope nat_scope.

(* ---------------------------------------------------- complex numbers *)

Definition to_C (z : GC) : C := (Q2R (this (re z)), Q2R (this (im z))).
(** [M.toarray()], as the list of rows and as the list of columns. *)
Definition dense_rows (M : smat) : list vec :=
  map (fun i => map (fun j => to_C (sm_entry M i j)) (seq 0 (sm_cols M))) (seq 0 (sm_rows M)).
Definition dense_cols (M : smat) : list vec :=
  map (fun j => map (fun i => to_C (sm_entry M i j)) (seq 0 (sm_rows M))) (seq 0 (sm_cols M)).
(** Row i, column j of a matrix given by its columns. *)
Definition entry (cols : list vec) (i j : nat) : C := nth i (nth j cols []) (RtoC 0).

Definition lt_dec (x y : R) : bool := if Rlt_dec x y then true else false.

(** An Operator whose coefficients are results of floating point calculations (the outputs of
    the generator); see M_Basis.Operator. *)
Record COp : Type := mkCOp { c_coeffs : list C; c_basis : Basis; c_type : optype }.
Definition cop_of (o : Operator) : COp := mkCOp (map to_C (o_coeffs o)) (o_basis o) (o_type o).
Definition c_terms (o : COp) : list (C * OS) := combine (c_coeffs o) (b_strings (c_basis o)).

(** core.py:43-45: "Basis or list of Operators". *)
Inductive cbasis : Type := CBasis (b : Basis) | COps (l : list COp).
(** core.py:458: [len(basis)]. *)
Definition cbasis_len (b : cbasis) : nat := match b with CBasis b => basis_len b | COps l => length l end.

(** The values of [operation_mode]: 'commutator', 'anticommutator', 'product', the spellings
    of core.py:156 and 158, and any other string. *)
Inductive gmode : Set := GCommutator | GAnticommutator | GProduct | GCommute | GAnticommute | GOther.

(* ---------------------------------------------------- Liouvillian matrix *)

(** algebra.py:19-120,333-347: the Liouvillian matrix of a Basis.  Strings other than the three
    modes of [_operation_opstring] are not rejected: both tests at 92 and 102 fail, every
    coefficient is zero, and the extended Basis stays empty (with the same exceptions for
    unsupported types as the commutator). *)
Definition liouvillian_mode (gm : gmode) (b : Basis) (o : Operator) : res (smat * Basis) :=
  match gm with
  | GCommutator => liouvillian_strings MCommutator b o
  | GAnticommutator => liouvillian_strings MAnticommutator b o
  | GProduct => liouvillian_strings MProduct b o
  | _ => let! (_, _) := liouvillian_strings MCommutator b o in Ok (sm_zero 0 (basis_len b), basis_empty)
  end.

(** algebra.py:365-367, transformation.py:602-604: all strings of a list of Operators. *)
Definition ccombined (ops : list COp) : Basis :=
  fold_left (fun b o => basis_iadd b (c_basis o)) ops basis_empty.
(** algebra.py:374-382, transformation.py:609-618: the column of coefficients of an Operator in
    the combined Basis. *)
Definition coeff_column (b : Basis) (o : COp) : res vec :=
  let! ts := rmap (fun t => let! i := basis_index b (snd t) in Ok (i, fst t)) (c_terms o) in
  Ok (map (fun i => csum (map (fun p => if Nat.eqb (fst p) i then snd p else RtoC 0) ts)) (seq 0 (basis_len b))).

(** algebra.py:395-445: the columns of [liouvillian_matrix].  At 384-388 the code sums
    coeff * (N K) over the terms of the operator; here the sum of coeff * N is multiplied by K. *)
Definition liouvillian_columns (gm : gmode) (basis : cbasis) (o : Operator) : res (list vec) :=
  match basis with
  | CBasis b => let! (L, _) := liouvillian_mode gm b o in Ok (dense_cols L)
  | COps [] => Err IndexError
  | COps l =>
      let b := ccombined l in
      let! (L, _) := liouvillian_mode gm b o in
      let! K := rmap (coeff_column b) l in
      Ok (map (rows_vec (dense_rows L)) K)
  end.

(* ----------------------------------------------------- the two searches *)

(** [nla.eigh] (no argument k) and [ssla.eigsh] (k vectors): pairs of an eigenvalue and an
    eigenvector of a matrix given by its rows. *)
Definition eigensolver := option nat -> list vec -> list (R * vec).
(** The returned tuple, and whether the warning is issued. *)
Record found : Type := mkFound { f_ops : list vec; f_super : list vec; f_evals : list R; f_evecs : list vec; f_warn : bool }.

(** core.py:93-94,170-171,398-399: columns whose eigenvalue passes a test. *)
Definition keep (test : R -> bool) (ps : list (R * vec)) : list vec := map snd (filter (fun p => test (fst p)) ps).
(** core.py:96-97,173-174: the warning if all [num_vecs] vectors were kept. *)
Definition all_kept (nv : option nat) (vs : list vec) : bool :=
  match nv with Some k => Nat.eqb (length vs) k | None => false end.

(** core.py:33-102: [commuting_operators] with return_superoperator=True. *)
Definition commuting_operators (eig : eigensolver) (basis : cbasis) (o : Operator) (gm : gmode) (nv : option nat) (tol : R) : res found :=
  let! cols := liouvillian_columns gm basis o in
  let D := gram cols in
  let ps := eig nv D in
  let vs := keep (fun e => lt_dec (Rabs e) tol) ps in
  Ok (mkFound vs D (map fst ps) (map snd ps) (all_kept nv vs)).

(** core.py:156-161: the sign of an [operation_mode]. *)
Definition gsign (gm : gmode) : res R :=
  match gm with
  | GCommutator | GCommute => Ok 1%R
  | GAnticommutator | GAnticommute => Ok (-1)%R
  | _ => Err ValueError
  end.
(** transformation.py:632-672 with 563-630: the columns of [symmetry_matrix]. *)
Definition symmetry_columns (pinv : list vec -> list vec) (basis : cbasis) (T : rule) : res (list vec) :=
  match basis with
  | CBasis b => let! M := symmetry_matrix b T in Ok (dense_cols M)
  | COps [] => Err IndexError
  | COps l =>
      let b := ccombined l in
      let! K := rmap (coeff_column b) l in
      let! M := symmetry_matrix b T in
      Ok (map (fun k => rows_vec (pinv K) (rows_vec (dense_rows M) k)) K)
  end.
(** core.py:163: [0.5*(sym_matrix + sym_matrix.H)], by rows. *)
Definition hermitian_rows (n : nat) (cols : list vec) : list vec :=
  map (fun i => map (fun j => (RtoC (/ 2) * (entry cols i j + Cconj (entry cols j i)))%C) (seq 0 n)) (seq 0 n).
(** core.py:177: [ss.eye(len(basis)) - sign * matrix]. *)
Definition one_minus (n : nat) (sign : R) (rows : list vec) : list vec :=
  map (fun i => map (fun j => ((if Nat.eqb i j then RtoC 1 else RtoC 0) - RtoC sign * nth j (nth i rows []) (RtoC 0))%C) (seq 0 n)) (seq 0 n).
(** core.py:104-180: [invariant_operators] with return_superoperator=True. *)
Definition invariant_operators (eig : eigensolver) (pinv : list vec -> list vec) (basis : cbasis) (T : rule) (gm : gmode) (nv : option nat) (tol : R) : res found :=
  let! cols := symmetry_columns pinv basis T in
  let! sign := gsign gm in
  let n := cbasis_len basis in
  let H := hermitian_rows n cols in
  let ps := eig nv H in
  let vs := keep (fun e => lt_dec (Rabs (e - sign)) tol) ps in
  Ok (mkFound vs (one_minus n sign H) (map (fun p => 1 - sign * fst p)%R ps) (map snd ps) (all_kept nv vs)).

(* ------------------------------------------------------------- sparsify *)

(** [v /= norm(v)]; [None] stands for not-a-number entries. *)
Definition unit_vec (v : vec) : option vec :=
  if Req_EM_T (vnorm v) 0 then None else Some (vscale (RtoC (/ vnorm v)) v).
Fixpoint all_some {T} (l : list (option T)) : option (list T) :=
  match l with
  | [] => Some []
  | o :: r => match o, all_some r with Some x, Some y => Some (x :: y) | _, _ => None end
  end.
(** tools.py:582: the number of entries larger than the tolerance. *)
Definition sparsity (tol : R) (v : vec) : nat := length (filter (fun z => lt_dec tol (Cmod z)) v).
(** tools.py:534-588: [sparsify] of the columns [vs] of length [n].  [lu vs] are the columns of
    the matrix P L of scipy.linalg.lu (permute_l=True); [argsort] orders a list of numbers. *)
Definition sparsify (lu : list vec -> list vec) (argsort : list nat -> list nat) (n : nat) (orthogonalize : bool) (tol : R) (vs : list vec) : res (option (list vec)) :=
  if length vs <=? 1 then Ok (Some vs)
  else
    let rre := rev (lu vs) in
    match (if orthogonalize then gram_schmidt n 0 rre else Some rre) with
    | None => Ok None
    | Some q =>
        let! ws := rmap (fun i => of_option IndexError (nth_error q i)) (seq 0 (length vs)) in
        match all_some (map unit_vec ws) with
        | None => Ok None
        | Some us =>
            let! r := rmap (fun i => of_option IndexError (nth_error us i)) (argsort (map (sparsity tol) us)) in
            Ok (Some r)
        end
    end.

(* ----------------------------------------------- the class, common parts *)

(** core.py:194-196: "list of Operators and Transformations". *)
Inductive symmetry : Type := SymOperator (o : Operator) | SymTransformation (T : rule) | SymOther.
(** core.py:285-311: [add_symmetry] appends a symmetry, its mode and its num_vecs. *)
Record entry_sym : Type := mkSym { y_sym : symmetry; y_mode : gmode; y_num : option nat }.

(** The numerical routines. *)
Record oracles : Type := mkOracles {
  or_eig : eigensolver;
  or_pinv : list vec -> list vec;
  or_lu : list vec -> list vec;
  or_argsort : list nat -> list nat
}.

(** core.py:332-343,470-481: search for one symmetry. *)
Definition search (Or : oracles) (basis : cbasis) (y : entry_sym) (tol : R) : res found :=
  match y_sym y with
  | SymOperator o => commuting_operators (or_eig Or) basis o (y_mode y) (y_num y) tol
  | SymTransformation T => invariant_operators (or_eig Or) (or_pinv Or) basis T (y_mode y) (y_num y) tol
  | SymOther => Err ValueError
  end.

(** tools.py:534: the default tolerance of [sparsify]; tools.py:491: of [intersection]. *)
Definition tol12r : R := (/ 10 ^ 12)%R.
Definition tol10r : R := (/ 10 ^ 10)%R.

(* --------------------------------------------------- noncumulative mode *)

(** core.py:263-283: the attributes filled in by the noncumulative mode; [n_inter] are the
    matrices diagonalised by the calls of [intersection] (a local variable of tools.py:519, kept
    for the statements). *)
Record nstate : Type := mkN {
  n_super : list (list vec); n_evals : list (list R); n_evecs : list (list vec); n_out : list (list vec);
  n_psuper : list (list vec); n_pevals : list (list R); n_pevecs : list (list vec); n_pout : list (list vec);
  n_inter : list (list vec) }.
Definition n_fresh : nstate := mkN [] [] [] [] [] [] [] [] [].

(** core.py:324-348: the first loop. *)
Definition n_generate (Or : oracles) (b : cbasis) (tol : R) (st : nstate) (y : entry_sym) : res nstate :=
  let! f := search Or b y tol in
  Ok (mkN (n_super st ++ [f_super f]) (n_evals st ++ [f_evals f]) (n_evecs st ++ [f_evecs f]) (n_out st ++ [f_ops f])
          (n_psuper st) (n_pevals st) (n_pevecs st) (n_pout st) (n_inter st)).

(** core.py:381-382: P^H S P for the columns [P] and the rows of [S]. *)
Definition project_super (P : list vec) (S : list vec) : list vec :=
  map (fun p => map (fun q => vdot p (rows_vec S q)) P) P.

(** core.py:359-399: one iteration of the second loop; the [None] of [intersection] is
    not-a-number. *)
Definition n_project (Or : oracles) (n : nat) (tol : R) (st : nstate) (iy : nat * entry_sym) : res (option nstate) :=
  let (i, y) := iy in
  let! cur := of_option IndexError (nth_error (n_out st) i) in
  let! sup := of_option IndexError (nth_error (n_super st) i) in
  if Nat.eqb i 0 then
    let! ev := of_option IndexError (nth_error (n_evals st) i) in
    let! ew := of_option IndexError (nth_error (n_evecs st) i) in
    Ok (Some (mkN (n_super st) (n_evals st) (n_evecs st) (n_out st)
      (n_psuper st ++ [sup]) (n_pevals st ++ [ev]) (n_pevecs st ++ [ew]) (n_pout st ++ [cur]) (n_inter st)))
  else
    let! prev := of_option IndexError (nth_error (n_pout st) (i - 1)) in
    let! r := intersection (fun D => keep (fun e => lt_dec (Rabs e) tol10r) (or_eig Or None D)) n n cur prev in
    match r with
    | None => Ok None
    | Some P =>
        let S := project_super P sup in
        let ps := or_eig Or (y_num y) S in
        let lift := fun e => mat_vec n P e in
        Ok (Some (mkN (n_super st) (n_evals st) (n_evecs st) (n_out st)
          (n_psuper st ++ [S]) (n_pevals st ++ [map fst ps]) (n_pevecs st ++ [map (fun p => lift (snd p)) ps])
          (n_pout st ++ [map lift (keep (fun e => lt_dec (Rabs e) tol) ps)])
          (n_inter st ++ [gram (hstack_neg cur prev)])))
    end.

Definition set_pout (st : nstate) (l : list (list vec)) : nstate :=
  mkN (n_super st) (n_evals st) (n_evecs st) (n_out st) (n_psuper st) (n_pevals st) (n_pevecs st) l (n_inter st).
(** Threading not-a-number through a loop. *)
Definition ofold {St T} (f : St -> T -> res (option St)) (l : list T) (s : St) : res (option St) :=
  rfold (fun os x => match os with Some s => f s x | None => Ok None end) l (Some s).

(** core.py:405-411: sparsification of entry [i]. *)
Definition n_sparsify (Or : oracles) (n : nat) (st : nstate) (i : nat) : res (option nstate) :=
  let! cur := of_option IndexError (nth_error (n_pout st) i) in
  let! r := sparsify (or_lu Or) (or_argsort Or) n true tol12r cur in
  Ok (match r with Some vs => Some (set_pout st (list_set (n_pout st) i vs)) | None => None end).

(** core.py:422-432: Gram-Schmidt of entry [i-1] after overwriting its first columns by those
    of entry [i] (a ValueError if there are fewer). *)
Definition n_orthogonalize (n : nat) (st : nstate) (i : nat) : res (option nstate) :=
  let! cur := of_option IndexError (nth_error (n_pout st) i) in
  let! prev := of_option IndexError (nth_error (n_pout st) (i - 1)) in
  if length prev <? length cur then Err ValueError
  else Ok (match gram_schmidt n 0 (cur ++ skipn (length cur) prev) with
           | Some vs => Some (set_pout st (list_set (n_pout st) (i - 1) vs))
           | None => None
           end).

(** core.py:313-437: [_generate_noncumulative]; a second call finds the results of the first. *)
Definition generate_noncumulative (Or : oracles) (b : cbasis) (syms : list entry_sym) (sparsification orthogonalization : bool) (tol : R) (st : nstate) : res (option nstate) :=
  let n := cbasis_len b in
  let k := length syms in
  let! st1 := rfold (n_generate Or b tol) syms st in
  let! st2 := ofold (n_project Or n tol) (combine (seq 0 k) syms) st1 in
  let! st3 := match st2 with
              | Some s => if sparsification then ofold (n_sparsify Or n) (seq 0 k) s else Ok (Some s)
              | None => Ok None
              end in
  match st3 with
  | Some s => if orthogonalization then ofold (n_orthogonalize n) (rev (seq 1 (k - 1))) s else Ok (Some s)
  | None => Ok None
  end.

(* ------------------------------------------------------ cumulative mode *)

(** basis.py:294-343: the constructor, see M_Basis.op_new. *)
Definition cop_new (coeffs : list C) (l : list OS) (ty : option optype) : res COp :=
  let! b := basis_new l in
  match b_strings b with
  | s :: _ => Ok (mkCOp coeffs b (os_type s))
  | [] => match ty with Some t => Ok (mkCOp coeffs b t) | None => Err ValueError end
  end.
(** basis.py:562-604: [coeff * operator]. *)
Definition cop_scale (z : C) (o : COp) : res COp :=
  cop_new (map (fun c => Cmult c z) (c_coeffs o)) (b_strings (c_basis o)) (Some (c_type o)).
(** basis.py:525-560: [+=] of an Operator with as many coefficients as strings. *)
Definition cop_iadd (o other : COp) : res COp :=
  if optype_eqb (c_type o) (c_type other) then
    let b' := basis_iadd (c_basis o) (c_basis other) in
    let! ts := rmap (fun t => let! i := basis_index b' (snd t) in Ok (i, fst t)) (c_terms other) in
    Ok (mkCOp (map (fun i => (nth i (c_coeffs o) (RtoC 0) + csum (map (fun p => if Nat.eqb (fst p) i then snd p else RtoC 0) ts))%C)
                   (seq 0 (basis_len b'))) b' (c_type o))
  else Err ValueError.
(** basis.py:416-434: [normalize]; on an empty coefficient vector nothing is divided. *)
Definition cop_normalize (o : COp) : option COp :=
  match c_coeffs o with
  | [] => Some o
  | cs => match unit_vec cs with Some us => Some (mkCOp us (c_basis o) (c_type o)) | None => None end
  end.

Definition large (tol : R) (c : C) : bool := lt_dec tol (Cmod c).
(** core.py:500-521: the conversion of one vector to an Operator.  At 518 the result of
    [remove_zeros] is discarded. *)
Definition to_operator (basis : cbasis) (tol : R) (v : vec) : res (option COp) :=
  match basis with
  | CBasis b =>
      let ts := filter (fun t => large tol (fst t)) (combine v (b_strings b)) in
      let! o := cop_new (map fst ts) (map snd ts) None in Ok (Some o)
  | COps [] => Err ValueError
  | COps ((o0 :: _) as l) =>
      let! z := cop_new [] [] (Some (c_type o0)) in
      let! s := rfold (fun acc p => if large tol (fst p) then let! t := cop_scale (fst p) (snd p) in cop_iadd acc t else Ok acc) (combine v l) z in
      Ok (cop_normalize s)
  end.
Fixpoint to_operators (basis : cbasis) (tol : R) (vs : list vec) : res (option (list COp)) :=
  match vs with
  | [] => Ok (Some [])
  | v :: r =>
      let! o := to_operator basis tol v in
      let! os := to_operators basis tol r in
      Ok (match o, os with Some x, Some y => Some (x :: y) | _, _ => None end)
  end.

(** The attributes filled in by the cumulative mode; [c_used] are the vectors converted to
    Operators at 497-523 in each step (a local variable of the code, kept for the statements). *)
Record cstate : Type := mkC { cu_psuper : list (list vec); cu_pout : list (list COp); cu_used : list (list vec) }.
Definition c_fresh : cstate := mkC [] [] [].

(** core.py:489-495: sparsification, always first with orthogonalization. *)
Definition c_sparsify (Or : oracles) (n : nat) (sparsification orthogonalization : bool) (vs : list vec) : res (option (list vec)) :=
  if sparsification then
    let! r := sparsify (or_lu Or) (or_argsort Or) n true tol12r vs in
    match r with
    | None => Ok None
    | Some us => if orthogonalization then Ok (Some us) else sparsify (or_lu Or) (or_argsort Or) n false tol12r us
    end
  else Ok (Some vs).

(** core.py:446-525: one iteration. *)
Definition c_step (Or : oracles) (basis0 : cbasis) (sparsification orthogonalization : bool) (tol : R) (st : cstate) (iy : nat * entry_sym) : res (option cstate) :=
  let (i, y) := iy in
  let! basis := (if Nat.eqb i 0 then Ok basis0
                 else match rev (cu_pout st) with l :: _ => Ok (COps l) | [] => Err IndexError end) in
  if Nat.eqb (cbasis_len basis) 0 then Ok (Some st)
  else
    let! f := search Or basis y tol in
    let! r := c_sparsify Or (cbasis_len basis) sparsification orthogonalization (f_ops f) in
    match r with
    | None => Ok None
    | Some vs =>
        let! os := to_operators basis tol vs in
        Ok (match os with
            | Some l => Some (mkC (cu_psuper st ++ [f_super f]) (cu_pout st ++ [l]) (cu_used st ++ [vs]))
            | None => None
            end)
    end.
(** core.py:439-529: [_generate_cumulative]. *)
Definition generate_cumulative (Or : oracles) (b : cbasis) (syms : list entry_sym) (sparsification orthogonalization : bool) (tol : R) (st : cstate) : res (option cstate) :=
  ofold (c_step Or b sparsification orthogonalization tol) (combine (seq 0 (length syms)) syms) st.

(** core.py:531-582: [generate]; by default mode 'cumulative', sparsification, no
    orthogonalization, and tol=1e-10.  [sc] and [sn] are what earlier calls in the same mode left;
    calls in different modes on one object are not modelled. *)
Definition generate (Or : oracles) (b : cbasis) (syms : list entry_sym) (mode : string) (sparsification orthogonalization : bool) (tol : R) (sc : cstate) (sn : nstate) : res (option (cstate + nstate)) :=
  if String.eqb mode "cumulative"%string then
    let! r := generate_cumulative Or b syms sparsification orthogonalization tol sc in Ok (option_map inl r)
  else if String.eqb mode "noncumulative"%string then
    let! r := generate_noncumulative Or b syms sparsification orthogonalization tol sn in Ok (option_map inr r)
  else Err ValueError.
Definition generate_default (Or : oracles) (b : cbasis) (syms : list entry_sym) : res (option (cstate + nstate)) :=
  generate Or b syms "cumulative"%string true false tol10r c_fresh n_fresh.
