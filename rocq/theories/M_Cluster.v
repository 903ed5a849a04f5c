(** Model of qosy/basis.py:749-956: cluster_basis and distance_basis. *)
From Coq Require Import List ZArith Bool Arith.
From Verif Require Import GC Exn M_OpString M_Tools M_Basis.
Import ListNotations.
Local Open Scope nat_scope.

(** [itertools.combinations(l, m)]: in lexicographic order of positions. *)
Fixpoint combinations {T} (m : nat) (l : list T) : list (list T) :=
  match m, l with
  | O, _ => [[]]
  | S m', [] => []
  | S m', x :: r => map (cons x) (combinations m' r) ++ combinations m r
  end.
(** [itertools.product(l, repeat=m)]. *)
Fixpoint tuples {T} (m : nat) (l : list T) : list (list T) :=
  match m with
  | O => [[]]
  | S m' => flat_map (fun x => map (cons x) (tuples m' l)) l
  end.

(** basis.py:785-790: the argument [k]: an int, a list or array of ints, anything else. *)
Inductive karg : Set := KInt (k : Z) | KList (l : list Z) | KOther.
Definition allowed_nums (k : karg) : res (list Z) :=
  match k with
  | KInt k => Ok (map Z.of_nat (seq 0 (Z.to_nat (k + 1))))
  | KList l => Ok l
  | KOther => Err ValueError
  end.
(** basis.py:792: [np.max], which rejects an empty array. *)
Fixpoint zmax (l : list Z) : res Z :=
  match l with
  | [] => Err ValueError
  | [x] => Ok x
  | x :: r => let! m := zmax r in Ok (Z.max x m)
  end.
(** basis.py:792,799-801,815-817: the numbers of operators that are visited. *)
Definition visited_nums (k : karg) (n : nat) : res (list nat) :=
  let! al := allowed_nums k in
  let! mx := zmax al in
  Ok (filter (fun m => existsb (Z.eqb (Z.of_nat m)) al) (seq 1 (Z.to_nat (Z.min (Z.of_nat n) mx)))).

(** config.py:4-5 PAULI_OPS, MAJORANA_OPS. *)
Definition orbital_ops (ty : optype) : list op :=
  match ty with Pauli => [OX; OY; OZ] | Majorana => [OA; OB; OD] | Fermion => [] end.

(** basis.py:799-812: the Pauli and Majorana strings in the order they are made. *)
Definition spin_candidates (ty : optype) (cluster : list Z) (nums : list nat) : list (list op * list Z * pref) :=
  flat_map (fun m => flat_map (fun labels => map (fun ops => (ops, labels, p_one)) (tuples m (orbital_ops ty)))
                              (combinations m cluster)) nums.

(** basis.py:827-828,850-851: a Fermion string from creation and annihilation labels. *)
Definition fermion_candidate (p : pref) (fwd bwd : list Z) : list op * list Z * pref :=
  (repeat OCDag (length fwd) ++ repeat OC (length bwd), fwd ++ bwd, p).
(** basis.py:821-834: operators of type 1. *)
Definition type1_candidates (cluster : list Z) (m : nat) : list (list op * list Z * pref) :=
  map (fun labels => fermion_candidate p_one labels (rev labels)) (combinations m cluster).
(** basis.py:837-857: operators of type 2 and 3 with the [i]-th tuple of creation labels. *)
Definition type23_row (cluster : list Z) (m : nat) (i : nat) (fwd : list Z) : list (list op * list Z * pref) :=
  flat_map (fun l =>
    let bwds := combinations l cluster in
    let bwds' := if Nat.eqb l m then firstn i bwds else bwds in
    flat_map (fun p => map (fermion_candidate p fwd) bwds') [p_one; p_j]) (seq 0 (S m)).
Fixpoint type23_from (cluster : list Z) (m : nat) (i : nat) (fwds : list (list Z)) : list (list op * list Z * pref) :=
  match fwds with
  | [] => []
  | f :: r => type23_row cluster m i f ++ type23_from cluster m (S i) r
  end.
(** basis.py:813-857. *)
Definition fermion_candidates (cluster : list Z) (nums : list nat) : list (list op * list Z * pref) :=
  flat_map (fun m => type1_candidates cluster m ++ type23_from cluster m 0 (combinations m cluster)) nums.

(** basis.py:809-811 and the like: append unless already in the set of strings. *)
Definition add_new (l : list OS) (s : OS) : list OS :=
  if existsb (fun t => os_key t s) l then l else l ++ [s].

(** basis.py:749-861: [cluster_basis].  The text of op_type is one of the three known types,
    so the final ValueError is not needed. *)
Definition cluster_basis (k : karg) (cluster_labels : list Z) (ty : optype) (include_identity : bool) : res Basis :=
  let cluster := stable_sort Z.ltb cluster_labels in
  let! start := (if include_identity then let! s := os_new [] [] ty in Ok [s] else Ok []) in
  let! nums := visited_nums k (length cluster) in
  let! strs := rmap (fun c => os_make (fst (fst c)) (snd (fst c)) ty (snd c))
                    (match ty with
                     | Fermion => fermion_candidates cluster nums
                     | _ => spin_candidates ty cluster nums
                     end) in
  basis_new (fold_left add_new strs start).

(* -------------------------------------------------------- distance_basis *)

(** basis.py:915-922: [within i j] for [i < j] is the test
    [lattice.distance(i,j) <= R+tol]; the matrix of distances is filled symmetrically from
    the pairs [i < j]. *)
Definition near (within : nat -> nat -> bool) (i j : nat) : bool :=
  if i <? j then within i j else within j i.
(** basis.py:925: the adjacency lists. *)
Definition orbitals_within (within : nat -> nat -> bool) (n : nat) (allowed : list nat) : list (list nat) :=
  map (fun i => filter (fun j => near within i j && negb (Nat.eqb j i)) allowed) (seq 0 n).

(** basis.py:863-956: [distance_basis] of a lattice with [n] orbitals.  [allowed] is
    [np.arange(n)] by default.  The labels in [allowed] are taken to be below [n] (others make
    numpy raise or wrap around; not modelled).  [pick], [order] and [ordering] are the choices
    left open in [maximal_cliques]; include_identity is accepted and ignored. *)
Definition distance_basis (pick : list nat -> list nat -> list nat -> nat)
    (order : list nat -> list nat -> list nat -> list nat) (ordering : list nat)
    (within : nat -> nat -> bool) (n : nat) (k : karg) (ty : optype) (allowed : list nat)
    (include_identity : bool) : res Basis :=
  let! cliques := maximal_cliques (orbitals_within within n allowed) pick order ordering in
  let clusters := filter (forallb (fun v => memn v allowed)) cliques in
  let sorted_clusters := stable_sort (fun a b => Z.ltb (compare a b) 0) (map (map Z.of_nat) clusters) in
  rfold (fun b c => let! cb := cluster_basis k c ty false in Ok (basis_iadd b cb)) sorted_clusters basis_empty.
