(** Model of qosy/lattice.py. *)
From Coq Require Import String List ZArith Bool Arith QArith Qcanon.
From Verif Require Import GC Exn M_Basis.
Import ListNotations.
Local Open Scope Qc_scope.

(** Positions: numpy vectors of length [dim].  Coordinates are rational numbers, as every
    finite float is; rounding of sums is not modelled.  Vectors of unequal length (which numpy
    broadcasts or rejects) are not modelled. *)
Notation pvec := (list Qc).
Definition qz (z : Z) : Qc := Q2Qc (inject_Z z).
Fixpoint padd (u v : pvec) : pvec :=
  match u, v with x :: u', y :: v' => (x + y) :: padd u' v' | _, _ => [] end.
Definition pscale (q : Qc) (v : pvec) : pvec := map (Qcmult q) v.
Definition popp (v : pvec) : pvec := map Qcopp v.
Definition pzero (d : nat) : pvec := repeat 0 d.
(** The square of [np.linalg.norm]. *)
Definition pnorm2 (v : pvec) : Qc := fold_right (fun x a => x * x + a) 0 v.

(** lattice.py:15-42: UnitCell. *)
Record UnitCell : Set := mkUC { uc_vectors : list pvec; uc_positions : list pvec; uc_orbitals : list (list string) }.
Definition uc_new (vs : list pvec) (ps : option (list pvec)) (os : option (list (list string))) : UnitCell :=
  mkUC vs (match ps with None => [] | Some l => l end) (match os with None => [] | Some l => l end).
(** lattice.py:44-61: [add_atom] (as a function returning the new value). *)
Definition add_atom (uc : UnitCell) (p : pvec) (orbs : option (list string)) : UnitCell :=
  mkUC (uc_vectors uc) (uc_positions uc ++ [p])
       (uc_orbitals uc ++ [match orbs with None => [EmptyString] | Some l => l end]).

(** lattice.py:102-103: the coordinates of the cells, [it.product] of ranges. *)
Definition zrange (n : Z) : list Z := map Z.of_nat (seq 0 (Z.to_nat n)).
Fixpoint cell_coords (ns : list Z) : list (list Z) :=
  match ns with
  | [] => [[]]
  | n :: r => flat_map (fun c => map (cons c) (cell_coords r)) (zrange n)
  end.

(** lattice.py:85-100,131: the attributes that matter: [_orbitals] (position, name, cell),
    [_indices_orbitals], [_boundary_vectors], [tol], [dim] and the arguments. *)
Definition orbital : Set := (pvec * string * list Z)%type.
Record Lattice : Set := mkLattice {
  l_cell : UnitCell; l_ncells : list Z; l_periodic : list bool; l_tol : Qc;
  l_orbitals : list orbital; l_indices : list (string * string * nat); l_bvecs : list pvec }.
Definition l_dim (L : Lattice) : nat := length (l_ncells L).
(** lattice.py:249-253: [__len__]; 233-247: [__iter__] runs over [l_orbitals]. *)
Definition l_len (L : Lattice) : nat := length (l_orbitals L).
Definition key_eqb (a b : string * string) : bool := String.eqb (fst a) (fst b) && String.eqb (snd a) (snd b).

(** lattice.py:120,168: entries of absolute value at most [tol] become zero. *)
Definition clean (tol : Qc) (p : pvec) : pvec :=
  map (fun x => if qc_ltb tol x || qc_ltb tol (- x) then x else 0) p.

(** lattice.py:114-117: the position of an atom in a cell. *)
Definition cell_position (vs : list pvec) (c : list Z) (atom : pvec) : res pvec :=
  if (length vs <? length c)%nat then Err IndexError
  else Ok (padd (fold_left (fun p t => padd p (pscale (qz (fst t)) (snd t))) (combine c vs) (pzero (length c))) atom).

(** lattice.py:123-126: append one orbital. *)
Definition add_orbital (pos : pvec) (key : string) (c : list Z) (st : list orbital * list (string * string * nat)) (name : string)
  : list orbital * list (string * string * nat) :=
  (fst st ++ [(pos, name, c)], dset key_eqb (snd st) (key, name) (length (fst st))).

(** lattice.py:128-139: the boundary vectors, one direction after the other. *)
Fixpoint boundary_loop (ns : list Z) (per : list bool) (vs : list pvec) (bvs : list pvec) : res (list pvec) :=
  match ns with
  | [] => Ok bvs
  | n :: ns' =>
      match per with
      | [] => Err IndexError
      | false :: per' => boundary_loop ns' per' (tl vs) bvs
      | true :: per' =>
          match vs with
          | [] => Err IndexError
          | v :: vs' =>
              let b := pscale (qz n) v in
              boundary_loop ns' per' vs' (bvs ++ map (padd b) bvs ++ map (padd (popp b)) bvs)
          end
      end
  end.

Section Show.
  (** [np.array2string(pos.flatten(), precision)] (lattice.py:121,170): the text is some
      function of the vector; what it must tell apart is a hypothesis of the theorems. *)
  Variable show : pvec -> string.

  (** lattice.py:113-126: the orbitals of one atom in one cell. *)
  Definition add_atom_orbitals (tol : Qc) (vs : list pvec) (c : list Z)
      (st : list orbital * list (string * string * nat)) (a : pvec * list string)
    : res (list orbital * list (string * string * nat)) :=
    let! p := cell_position vs c (fst a) in
    let pos := clean tol p in
    Ok (fold_left (add_orbital pos (show pos) c) (snd a) st).

  (** lattice.py:85-139: the constructor; [tol] is 10^-precision. *)
  Definition lattice_new (uc : UnitCell) (ns : list Z) (per : option (list bool)) (tol : Qc) : res Lattice :=
    let periodic := match per with None => repeat false (length ns) | Some l => l end in
    let! st := rfold (fun st c => rfold (add_atom_orbitals tol (uc_vectors uc) c) (combine (uc_positions uc) (uc_orbitals uc)) st)
                     (cell_coords ns) ([], []) in
    let! bvs := boundary_loop ns periodic (uc_vectors uc) [pzero (length ns)] in
    Ok (mkLattice uc ns periodic tol (fst st) (snd st) bvs).

  (** lattice.py:141-175: [index]. *)
  Fixpoint index_loop (L : Lattice) (p : pvec) (name : string) (bvs : list pvec) : Z :=
    match bvs with
    | [] => (-1)%Z
    | b :: r =>
        match dget key_eqb (l_indices L) (show (clean (l_tol L) (padd p b)), name) with
        | Some i => Z.of_nat i
        | None => index_loop L p name r
        end
    end.
  Definition l_index (L : Lattice) (p : pvec) (name : string) : Z := index_loop L p name (l_bvecs L).
End Show.

(** lattice.py:216-231: [position]. *)
Definition l_position (L : Lattice) (i : Z) : res pvec := let! o := py_nth (l_orbitals L) i in Ok (fst (fst o)).
(** lattice.py:203-211: an argument of [distance] is an int or a position. *)
Inductive pos_arg : Set := PosInt (i : Z) | PosVec (p : pvec).
Definition resolve (L : Lattice) (a : pos_arg) : res pvec :=
  match a with PosInt i => l_position L i | PosVec p => Ok p end.
Fixpoint qmin (l : list Qc) : res Qc :=
  match l with
  | [] => Err ValueError
  | [x] => Ok x
  | x :: r => let! m := qmin r in Ok (if qc_ltb m x then m else x)
  end.
(** lattice.py:177-214: the square of [distance] (the code takes the root of each term). *)
Definition l_dist2 (L : Lattice) (a1 a2 : pos_arg) : res Qc :=
  let! p1 := resolve L a1 in
  let! p2 := resolve L a2 in
  qmin (map (fun b => pnorm2 (padd (padd p1 b) (popp p2))) (l_bvecs L)).

(** lattice.py:310-317: the unit vectors. *)
Definition unit_vec (d i : nat) : pvec := map (fun j => if Nat.eqb j i then 1 else 0) (seq 0 d).
(** lattice.py:85: [tol] for the default precision 8. *)
Definition tol8 : Qc := Q2Qc (1 # 100000000).
(** lattice.py:275-326: [cubic] ([num_cells] with [d] entries). *)
Definition cubic (show : pvec -> string) (d : nat) (ns : list Z) (per : option (list bool)) (names : option (list string)) : res Lattice :=
  let periodic := match per with None => repeat false d | Some l => l end in
  let names := match names with None => [EmptyString] | Some l => l end in
  lattice_new show (add_atom (uc_new (map (unit_vec d) (seq 0 d)) None None) (pzero d) (Some names)) ns (Some periodic) tol8.
(** lattice.py:328-359: [square]; 361-387: [chain]. *)
Definition square (show : pvec -> string) (n1 n2 : Z) (per : option (list bool)) (names : option (list string)) : res Lattice :=
  cubic show 2 [n1; n2] per names.
Definition chain (show : pvec -> string) (n : Z) (periodic : bool) (names : option (list string)) : res Lattice :=
  cubic show 1 [n] (Some [periodic]) names.
(** lattice.py:389-445: [kagome]; [h] is the float [np.sqrt(3.0)/2.0]. *)
Definition kagome (show : pvec -> string) (h : Qc) (n1 n2 : Z) (per : option (list bool)) (names : option (list string)) : res Lattice :=
  let periodic := match per with None => [false; false] | Some l => l end in
  let half := Q2Qc (1 # 2) in
  let a1 := [1; 0] in
  let a2 := [half; h] in
  let uc := fold_left (fun uc p => add_atom uc p names) [pzero 2; pscale half a1; pscale half a2] (uc_new [a1; a2] None None) in
  lattice_new show uc [n1; n2] (Some periodic) tol8.
