(** Model of qosy/tools.py (discrete part; gram_schmidt and intersection are in
    M_LinAlg.v). *)
From Coq Require Import String Ascii List ZArith Bool Arith Qcanon.
From Verif Require Import GC Exn PyStr.
Import ListNotations.
Local Open Scope nat_scope.

(** Membership in a list of indices (Python [in] on sets of ints). *)
Definition memn (x : nat) (l : list nat) : bool := existsb (Nat.eqb x) l.

(* ------------------------------------------------------------------ sign *)

(** tools.py:44-47: the inner while loop, walking a cycle.  Fuel is the number of
    entries; the loop adds a new index to [visited] in every iteration. *)
Fixpoint walk_cycle (fuel : nat) (perm : list nat) (visited : list nat) (ind len : nat)
  : res (list nat * nat) :=
  if memn ind visited then Ok (visited, len)
  else match fuel with
       | O => Err IndexError
       | S f =>
           match nth_error perm ind with
           | None => Err IndexError
           | Some nxt => walk_cycle f perm (ind :: visited) nxt (S len)
           end
       end.

(** tools.py:39-50: one iteration of the outer loop. *)
Definition sign_step (perm : list nat) (st : list nat * Z) (ind : nat) : res (list nat * Z) :=
  let '(visited, sg) := st in
  if memn ind visited then Ok st
  else
    let! nxt := of_option IndexError (nth_error perm ind) in
    let! (visited', len) := walk_cycle (length perm) perm (ind :: visited) nxt 1 in
    Ok (visited', if Nat.even len then (- sg)%Z else sg).

(** tools.py:13-52: [sign]. Entries are natural numbers (numpy also accepts negative
    indices, which are not modelled). *)
Definition sign (perm : list nat) : res Z :=
  let! (_, sg) := rfold (sign_step perm) (seq 0 (length perm)) ([], 1%Z) in Ok sg.

(* ------------------------------------------------------------- sort_sign *)

Section InsertionSort.
  Context {T : Type}.
  (** tools.py:97: the test [abs(x - y) > tol and x > y]. *)
  Variable gtb : T -> T -> bool.

  (** tools.py:96-101: the inner while loop.  [rp] is the sorted prefix in reverse order,
      [x] the entry being moved down; returns the new reversed prefix and the swaps. *)
  Fixpoint bubble (rp : list T) (x : T) : list T * nat :=
    match rp with
    | [] => ([x], 0)
    | y :: rp' =>
        if gtb y x then let '(r, k) := bubble rp' x in (y :: r, S k) else (x :: rp, 0)
    end.

  (** tools.py:95-101: the outer loop over the remaining entries. *)
  Fixpoint isort_loop (rp : list T) (l : list T) (swaps : nat) : list T * nat :=
    match l with
    | [] => (rev rp, swaps)
    | x :: l' => let '(rp', k) := bubble rp x in isort_loop rp' l' (swaps + k)
    end.

  (** tools.py:88-106: insertion sort with sign. *)
  Definition isort_sign (l : list T) : list T * Z :=
    let '(s, swaps) := isort_loop [] l 0 in
    (s, if Nat.odd swaps then (-1)%Z else 1%Z).
End InsertionSort.

(** tools.py:54-108 with method='insertionsort' on integers: for integers the tolerance
    1e-10 is irrelevant ([abs(x-y) > 1e-10] iff [x <> y]). *)
Definition sort_sign (v : list Z) : list Z * Z := isort_sign Z.gtb v.

(** tools.py:54-108 with method='insertionsort' on arbitrary (rational) numbers. *)
Definition qc_gt_tol (tol x y : Qc) : bool :=
  (qc_ltb tol (x - y) || qc_ltb tol (y - x)) && qc_ltb y x.
Definition sort_sign_q (tol : Qc) (v : list Qc) : list Qc * Z := isort_sign (qc_gt_tol tol) v.

(** Stable insertion of one element, used to model stable library sorts
    ([np.argsort(kind='mergesort')], Python's [sorted]). *)
Fixpoint sinsert {T} (ltb : T -> T -> bool) (x : T) (l : list T) : list T :=
  match l with
  | [] => [x]
  | y :: r => if ltb y x then y :: sinsert ltb x r else x :: l
  end.
Fixpoint stable_sort {T} (ltb : T -> T -> bool) (l : list T) : list T :=
  match l with
  | [] => []
  | x :: r => sinsert ltb x (stable_sort ltb r)
  end.

(** tools.py:84: [np.argsort(vec, kind='mergesort')], the stable sorting permutation. *)
Definition argsort_stable (v : list Z) : list nat :=
  stable_sort (fun i j => Z.ltb (nth i v 0%Z) (nth j v 0%Z)) (seq 0 (length v)).

(** tools.py:80-87: method='mergesort'. *)
Definition sort_sign_merge (v : list Z) : res (list Z * Z) :=
  let p := argsort_stable v in
  let! sg := sign p in
  Ok (map (fun i => nth i v 0%Z) p, sg).

(* --------------------------------------------------------------- compare *)

(** tools.py:137-143: the lexicographic loop. *)
Fixpoint compare_lex (a b : list Z) : Z :=
  match a, b with
  | x :: a', y :: b' =>
      if Z.ltb x y then (-1)%Z else if Z.ltb y x then 1%Z else compare_lex a' b'
  | _, _ => 0%Z
  end.
(** tools.py:110-145: [compare]. *)
Definition compare (a b : list Z) : Z :=
  if (length a <? length b)%nat then (-1)%Z
  else if (length b <? length a)%nat then 1%Z
  else compare_lex a b.

(* ------------------------------------------------------- maximal_cliques *)

Definition inter (l m : list nat) : list nat := filter (fun x => memn x m) l.
Definition removen (x : nat) (l : list nat) : list nat := filter (fun y => negb (Nat.eqb x y)) l.
Definition adj_of (adj : list (list nat)) (v : nat) : list nat := nth v adj [].

Section MaximalCliques.
  Variable adj : list (list nat).
  (** Arbitrary choices made by Python's set iteration: [pick R P X] is
      [next(iter(P.union(X)))] (tools.py:189-190) and [order R P X] the order in which
      [for v in set(P)] (191) visits P.  R (as a list, in order of insertion) identifies
      the recursive call, so these functions describe any run. *)
  Variable pick : list nat -> list nat -> list nat -> nat.
  Variable order : list nat -> list nat -> list nat -> list nat.

  (** tools.py:183-195: BronKerbosch2.  Fuel bounds the recursion depth; running out of it
      is Python's RecursionError. *)
  Fixpoint bron_kerbosch (fuel : nat) (R P X : list nat) : res (list (list nat)) :=
    match fuel with
    | O => Err RecursionError
    | S f =>
        match P, X with
        | [], [] => Ok [R]
        | _, _ =>
            let u := pick R P X in
            (fix loop (vs P X : list nat) : res (list (list nat)) :=
               match vs with
               | [] => Ok []
               | v :: vs' =>
                   if memn v (adj_of adj u) then loop vs' P X
                   else
                     let! c1 := bron_kerbosch f (R ++ [v]) (inter P (adj_of adj v)) (inter X (adj_of adj v)) in
                     let! c2 := loop vs' (removen v P) (X ++ [v]) in
                     Ok (c1 ++ c2)
               end) (order R P X) P X
        end
    end.

  (** tools.py:197-200: the outer loop in the given node order. *)
  Fixpoint cliques_loop (fuel : nat) (vs P X : list nat) : res (list (list nat)) :=
    match vs with
    | [] => Ok []
    | v :: vs' =>
        let! c1 := bron_kerbosch fuel [v] (inter P (adj_of adj v)) (inter X (adj_of adj v)) in
        let! c2 := cliques_loop fuel vs' (removen v P) (X ++ [v]) in
        Ok (c1 ++ c2)
    end.

  (** tools.py:147-202: [maximal_cliques].  [ordering] is [np.argsort(degeneracies)[::-1]]
      (174-175), whose order among nodes of equal degree is unspecified; the theorems hold
      for any ordering of the nodes. *)
  Definition maximal_cliques (ordering : list nat) : res (list (list nat)) :=
    cliques_loop (S (length adj)) ordering (seq 0 (length adj)) [].
End MaximalCliques.

(* -------------------------------------------------- connected_components *)

Inductive search_mode : Set := DFS | BFS.

(** tools.py:237-240: [to_visit.pop()] or [to_visit.pop(0)]. *)
Definition pop_node (mode : search_mode) (l : list nat) : option (nat * list nat) :=
  match mode with
  | BFS => match l with [] => None | x :: r => Some (x, r) end
  | DFS => match rev l with [] => None | x :: r => Some (x, rev r) end
  end.

(** tools.py:248-251: pushing unseen neighbours. *)
Fixpoint push_neighbors (visited : list nat) (nbrs to_visit : list nat) : list nat :=
  match nbrs with
  | [] => to_visit
  | x :: r =>
      if memn x visited || memn x to_visit then push_neighbors visited r to_visit
      else push_neighbors visited r (to_visit ++ [x])
  end.

(** tools.py:236-251: the while loop. [to_visit_set] always has the same elements as
    [to_visit].  Fuel: each iteration visits a new node. *)
Fixpoint search_loop (fuel : nat) (mode : search_mode) (adj : list (list nat))
    (to_visit visited comp : list nat) : res (list nat * list nat) :=
  match pop_node mode to_visit with
  | None => Ok (visited, comp)
  | Some (x, rest) =>
      match fuel with
      | O => Err RecursionError
      | S f =>
          match nth_error adj x with
          | None => Err IndexError
          | Some nbrs =>
              let visited' := x :: visited in
              search_loop f mode adj (push_neighbors visited' nbrs rest) visited' (comp ++ [x])
          end
      end
  end.

(** tools.py:230-254: the loop over start nodes. *)
Fixpoint components_loop (mode : search_mode) (adj : list (list nat)) (nodes visited : list nat)
  : res (list (list nat)) :=
  match nodes with
  | [] => Ok []
  | x :: r =>
      if memn x visited then components_loop mode adj r visited
      else
        let! (visited', comp) := search_loop (S (length adj)) mode adj [x] visited [] in
        let! cs := components_loop mode adj r visited' in
        Ok (comp :: cs)
  end.

(** tools.py:204-256: [connected_components]. *)
Definition connected_components (mode : search_mode) (adj : list (list nat)) : res (list (list nat)) :=
  components_loop mode adj (seq 0 (length adj)) [].

(* ------------------------------------------------- argsort, duplicates *)

(** tools.py:301: [argsort(mylist)]: sorts indices by the element they point to. *)
Definition argsort {T} (ltb : T -> T -> bool) (d : T) (l : list T) : list nat :=
  stable_sort (fun i j => ltb (nth i l d) (nth j l d)) (seq 0 (length l)).

(** tools.py:258-278,303: [argsort(mylist, comp)].  [cmp_to_key(comp)] wraps the *indices*,
    so [comp] is called with indices; Python's sort only uses [<]. *)
Definition argsort_cmp {T} (comp : Z -> Z -> Z) (l : list T) : list nat :=
  stable_sort (fun i j => Z.ltb (comp (Z.of_nat i) (Z.of_nat j)) 0) (seq 0 (length l)).

(** tools.py:336-341: [remove_duplicates] with an equivalence test. *)
Fixpoint remove_dup_loop {T} (equiv : T -> T -> bool) (uniques l : list T) : list T :=
  match l with
  | [] => uniques
  | x :: r =>
      if existsb (fun u => equiv x u) uniques then remove_dup_loop equiv uniques r
      else remove_dup_loop equiv (uniques ++ [x]) r
  end.
Definition remove_duplicates {T} (equiv : T -> T -> bool) (l : list T) : list T :=
  remove_dup_loop equiv [] l.

(* --------------------------------------------------------- swap, replace *)

Local Open Scope string_scope.

(** Drop the first [n] characters. *)
Fixpoint sdrop (n : nat) (s : string) : string :=
  match n, s with
  | S m, String _ s' => sdrop m s'
  | _, _ => s
  end.

(** Python [s.replace(old, new)] for non-empty [old]: leftmost non-overlapping
    occurrences.  [skip] counts the characters of a match still to be dropped. *)
Fixpoint str_replace_go (skip : nat) (old new s : string) : string :=
  match s with
  | "" => ""
  | String c s' =>
      match skip with
      | S k => str_replace_go k old new s'
      | O => if prefix old s
             then new ++ str_replace_go (String.length old - 1) old new s'
             else String c (str_replace_go 0 old new s')
      end
  end.
(** Python [s.replace('', new)]. *)
Fixpoint str_replace_empty (new s : string) : string :=
  match s with
  | "" => new
  | String c s' => new ++ String c (str_replace_empty new s')
  end.
Definition str_replace (s old new : string) : string :=
  if String.eqb old "" then str_replace_empty new s else str_replace_go 0 old new s.

(** tools.py:343-372: [swap]. *)
Definition swap (s nameA nameB : string) : string :=
  let r1 := str_replace s nameA ("(" ++ nameA ++ ")") in
  let r2 := str_replace r1 nameB nameA in
  str_replace r2 ("(" ++ nameA ++ ")") nameB.

(** tools.py:397: the keys sorted by decreasing length (stable). *)
Definition sort_keys (d : list (string * string)) : list (string * string) :=
  stable_sort (fun a b => (String.length (fst b) <? String.length (fst a))%nat) d.

(** tools.py:398-400: first alternative of the regular expression that matches here. *)
Fixpoint first_match (d : list (string * string)) (s : string) : option (string * string) :=
  match d with
  | [] => None
  | (k, v) :: r => if prefix k s then Some (k, v) else first_match r s
  end.
Fixpoint re_sub_go (skip : nat) (d : list (string * string)) (s : string) : string :=
  match s with
  | "" => ""
  | String c s' =>
      match skip with
      | S k => re_sub_go k d s'
      | O => match first_match d s with
             | Some (k, v) => v ++ re_sub_go (String.length k - 1) d s'
             | None => String c (re_sub_go 0 d s')
             end
      end
  end.

(** tools.py:374-400: [replace].  With an empty dictionary the pattern is the empty
    regular expression, which matches the empty text and the lookup of '' fails.
    Simplification: empty keys are not modelled. *)
Definition replace (s : string) (d : list (string * string)) : res string :=
  match d with
  | [] => Err KeyError
  | _ => Ok (re_sub_go 0 (sort_keys d) s)
  end.

(* -------------------------------------------------- compose_permutations *)

(** tools.py:402-421: [pA[pB]]. *)
Definition compose_permutations (pA pB : list nat) : res (list nat) :=
  rmap (fun i => of_option IndexError (nth_error pA i)) pB.
