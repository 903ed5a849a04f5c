(** Model of qosy/algorithms.py: [selected_ci_greedy] and its helpers.
    Simplifications: floating point numbers are modelled by exact real and complex numbers;
    printing, [previous_basis], [return_final_params] and the parameters of the iteration of the
    sparse eigensolver are not modelled; target_operator and target_fidelity are left out (None, see M_Target);
    the eigensolvers and the order that argsort gives to equal numbers are parameters. *)
From Coq Require Import String List ZArith Bool Arith Reals QArith Qreals Qcanon.
From Coquelicot Require Import Complex.
From Verif Require Import GC Exn M_OpString M_Tools M_Algebra M_Basis M_OpAlg M_Transform M_LinAlg M_Explore M_Core.
Import ListNotations.
Local Open Scope nat_scope.

(** [nla.eigh] and [ssla.eigsh] as in M_Core; [np.argsort] of real numbers. *)
Record groracles : Type := mkGOr { gr_eig : eigensolver; gr_sort : list R -> list nat }.

(** The optional arguments.  A scalar [num_H_terms] or [max_basis_size] stands for a list of
    [num_steps] equal numbers (715-723). *)
Record gparams : Type := mkGP {
  gp_nH : list nat; gp_nO : nat; gp_sizes : list nat; gp_orth : option (list COp);
  gp_trans : option (list rule); gp_target : option R; gp_minrel : option R; gp_vecs : nat }.

(** [l[inds]] *)
Definition take {T} (l : list T) (inds : list nat) : res (list T) := rmap (fun i => of_option IndexError (nth_error l i)) inds.
(** [np.argsort(np.abs(v))[::-1]] *)
Definition largest_first (Or : groracles) (v : vec) : list nat := rev (gr_sort Or (map Cmod v)).

(* -------------------------------------------- 1st step: growing by [H,[H,O]] *)

(** algorithms.py:793-802: new strings of [ext] are added until there are [k] of them. *)
Fixpoint add_terms (k : nat) (ext : Basis) (inds : list nat) (n : nat) (b : Basis) : res Basis :=
  match inds with
  | [] => Ok b
  | i :: r =>
      let! s := of_option IndexError (nth_error (b_strings ext) i) in
      let '(b', n') := if basis_mem b s then (b, n) else (basis_iadd_string b s, S n) in
      if k <=? n' then Ok b' else add_terms k ext r n' b'
  end.
(** algorithms.py:780-802: one of the [com_ops]; [A] are the largest terms of [H,O], with the
    coefficients [cA]. *)
Definition grow_com (Or : groracles) (nH : nat) (A : Basis) (cA : vec) (acc : Basis * cache) (o : Operator) : res (Basis * cache) :=
  let! (L, ext, x) := explore A o (snd acc) None in
  let v := rows_vec (dense_rows L) cA in
  let! b := add_terms (Nat.min (length v) nH) ext (largest_first Or v) 0 (fst acc) in
  Ok (b, x).
(** algorithms.py:767-802. *)
Definition grow_commutators (Or : groracles) (H : Operator) (com_ops : list Operator) (nH : nat) (b : Basis) (o : COp) (x : cache) : res (Basis * cache) :=
  let! (L, ext, x1) := explore b H x None in
  if negb (length (c_coeffs o) =? sm_cols L) then Err ValueError
  else
    let v := rows_vec (dense_rows L) (c_coeffs o) in
    let inds := largest_first Or v in
    let indsA := firstn (Nat.min (length inds) nH) inds in
    let! sA := take (b_strings ext) indsA in
    let! A := basis_new sA in
    let! cA := take v indsA in
    rfold (grow_com Or nH A cA) com_ops (b, x1).

(* --------------------------------------------- 2nd step: growing by {O,O} *)

(** One pass of the inner loops at 822-838 and 849-862.  The state is the Basis, the strings
    that were added and whether the loops have been left; [explored_anticommutations] only
    stores values of a function and is left out. *)
Definition anti_add (k : nat) (acc : Basis * list OS * bool) (p : OS * OS) : res (Basis * list OS * bool) :=
  let '(b, added, stop) := acc in
  if stop then Ok acc
  else
    let! (c, os3) := operation_opstring MAnticommutator (fst p) (snd p) in
    let '(b', added') :=
      match os3 with
      | Some s => if abs_gtb c tol16 && negb (basis_mem b s) then (basis_iadd_string b s, added ++ [s]) else (b, added)
      | None => (b, added)
      end in
    Ok (b', added', k <=? length added').
(** algorithms.py:808-863. *)
Definition grow_anticommutators (Or : groracles) (nO : nat) (o : COp) (b : Basis) : res Basis :=
  let k := Nat.min (length (c_coeffs o)) nO in
  let! ss := take (b_strings (c_basis o)) (largest_first Or (c_coeffs o)) in
  if k =? 0 then Ok b
  else
    let iss := combine (seq 0 (length ss)) ss in
    let! r1 := rfold (anti_add k) (flat_map (fun p => flat_map (fun q => if fst q =? fst p then [] else [(snd p, snd q)]) iss) iss) (b, [], false) in
    let! r2 := rfold (anti_add k) (flat_map (fun s => map (fun t => (s, t)) (snd (fst r1))) ss) (fst (fst r1), [], false) in
    Ok (fst (fst r2)).

(* ----------------------------------- 3rd step: closing under transformations *)

(** algorithms.py:872-876. *)
Definition close_string (s : OS) (b : Basis) (T : rule) : res Basis :=
  let! o := T s in
  Ok (fold_left (fun b t => if abs_gtb (fst t) tol16 && negb (basis_mem b (snd t)) then basis_iadd_string b (snd t) else b) (op_terms o) b).
(** algorithms.py:866-878: the while loop, which need not end; running out of [fuel] is reported
    as a RecursionError. *)
Fixpoint close_basis (fuel : nat) (Ts : list rule) (i : nat) (b : Basis) : res Basis :=
  match nth_error (b_strings b) i with
  | None => Ok b
  | Some s =>
      match fuel with
      | 0 => Err RecursionError
      | S f => let! b' := rfold (close_string s) Ts b in close_basis f Ts (S i) b'
      end
  end.

(* -------------------------------------------------- the matrix and its vectors *)

(** [M.real], [M + N], [c * M] for matrices given by rows. *)
Definition rreal (M : list vec) : list vec := map (map (fun z => RtoC (fst z))) M.
Definition radd (M N : list vec) : list vec := zip_with vadd M N.
Definition rscale (c : R) (M : list vec) : list vec := map (vscale (RtoC c)) M.
Definition rzero (n : nat) : list vec := repeat (vzero n) n.
(** algorithms.py:905-912: the sum of the matrices of all [com_ops], and the one of the first. *)
Definition com_step (b : Basis) (acc : list vec * option (list vec) * cache) (o : Operator) : res (list vec * option (list vec) * cache) :=
  let '(M, MH, x) := acc in
  let! (L, _, x') := explore b o x None in
  let D := rreal (gram (dense_cols L)) in
  Ok (radd M D, match MH with None => Some D | _ => MH end, x').
(** algorithms.py:86-96: the coefficients of an Operator in the Basis. *)
Definition orth_vector (b : Basis) (o : COp) : res vec :=
  let! ts := rmap (fun t => let! i := basis_index b (snd t) in Ok (i, fst t)) (filter (fun t => basis_mem b (snd t)) (c_terms o)) in
  Ok (map (fun i => csum (map (fun p => if Nat.eqb (fst p) i then snd p else RtoC 0) ts)) (seq 0 (basis_len b))).
(** algorithms.py:97: [orth_vec.dot(orth_vec.H)]. *)
Definition outer_rows (v : vec) : list vec := map (fun a => map (fun b => (a * Cconj b)%C) v) v.
Definition large_number : R := (10 ^ 10)%R.
(** algorithms.py:77-103: [_orthogonalize_com_matrix]. *)
Definition orthogonalize_com_matrix (M : list vec) (b : Basis) (ops : list COp) : res (list vec) :=
  let! vs := rmap (orth_vector b) ops in
  Ok (rreal (radd M (rscale large_number (fold_left radd (map outer_rows vs) (rzero (basis_len b)))))).
(** algorithms.py:105-120: [_symmetrize_com_matrix]. *)
Definition symmetrize_com_matrix (M : list vec) (b : Basis) (Ts : list rule) : res (list vec) :=
  rfold (fun M T =>
    let! Sm := symmetry_matrix b T in
    Ok (radd M (rscale large_number (one_minus (basis_len b) 1 (hermitian_rows (basis_len b) (dense_cols Sm)))))) Ts M.
(** algorithms.py:931-933, 942-944: [np.argsort(np.abs(evals))] of the pairs. *)
Definition sort_pairs (Or : groracles) (ps : list (R * vec)) : res (list (R * vec)) :=
  take ps (gr_sort Or (map (fun p => Rabs (fst p)) ps)).
(** algorithms.py:939-940: the expectation value of the matrix of H. *)
Definition expectation (M : list vec) (v : vec) : R := fst (vdot v (rows_vec M v)).
(** algorithms.py:903-944. *)
Definition find_vectors (Or : groracles) (p : gparams) (com_ops : list Operator) (b : Basis) (x : cache) : res (list (R * vec) * cache) :=
  let n := basis_len b in
  let! (M0, MH, x') := rfold (com_step b) com_ops (rzero n, None, x) in
  let! M1 := match gp_orth p with Some ops => orthogonalize_com_matrix M0 b ops | None => Ok M0 end in
  let! M2 := match gp_trans p with Some Ts => symmetrize_com_matrix M1 b Ts | None => Ok M1 end in
  let! ps := if (n <? 20) || (n <=? gp_vecs p) then Ok (gr_eig Or None M2)
             else sort_pairs Or (gr_eig Or (Some (gp_vecs p)) M2) in
  let! qs := if (1 <? length com_ops) || (match gp_orth p with Some _ => true | None => false end)
             then match MH with
                  | Some MH => sort_pairs Or (map (fun q => (expectation MH (snd q), snd q)) ps)
                  | None => Err IndexError
                  end
             else Ok ps in
  Ok (qs, x').

(* --------------------------------------------------------------- the loop *)

(** algorithms.py:21-39: [_truncate_basis] without filter, see M_Explore.truncate_basis. *)
Definition gtruncate (Or : groracles) (b : Basis) (v : vec) (thr : R) (size : nat) : res Basis :=
  let! cs := rmap (fun i => let! c := of_option IndexError (nth_error v i) in Ok (i, c)) (largest_first Or v) in
  let inds := map fst (filter (fun p => lt_dec thr (Cmod (snd p))) cs) in
  let! l := take (b_strings b) (firstn size inds) in
  basis_new l.

(** The local variables; [g_bestn = None] is infinity. *)
Record gstate : Type := mkG {
  g_basis : Basis; g_op : COp; g_cache : cache; g_ops : list COp; g_norms : list R;
  g_best : COp; g_bestn : option R; g_thr : R; g_end : bool }.

Definition tol16r : R := (/ 10 ^ 16)%R.
(** [com_norm - best_com_norm > 1e-16] *)
Definition worse (e : R) (best : option R) : bool := match best with Some b => lt_dec tol16r (e - b) | None => false end.
(** [np.abs(com_norm - best_com_norm)/best_com_norm < m]; the quotient is not-a-number or
    infinite if the best norm is zero or infinite. *)
Definition slow (e : R) (best : option R) (m : R) : bool :=
  match best with
  | Some b => if Req_EM_T b 0 then false else lt_dec (Rabs (e - b) / b) m
  | None => false
  end.
Definition improves (e : R) (best : option R) : bool := match best with Some b => lt_dec (Rabs e) b | None => true end.

(** algorithms.py:762-1047: one step of the while loop. *)
Definition greedy_step (Or : groracles) (p : gparams) (fuel : nat) (H : Operator) (com_ops : list Operator) (step : nat) (st : gstate) : res gstate :=
  let! nH := of_option IndexError (nth_error (gp_nH p) step) in
  let! (b1, x1) := grow_commutators Or H com_ops nH (g_basis st) (g_op st) (g_cache st) in
  let! b2 := grow_anticommutators Or (gp_nO p) (g_op st) b1 in
  let! b3 := match gp_trans p with Some Ts => close_basis fuel Ts 0 b2 | None => Ok b2 end in
  let! (qs, x2) := find_vectors Or p com_ops b3 x1 in
  let! (e, v) := of_option IndexError (nth_error qs 0) in
  let thr := if worse e (g_bestn st) then (g_thr st / 2)%R else g_thr st in
  let early := match gp_minrel p with
               | Some m => (1 <=? step) && (worse e (g_bestn st) || slow e (g_bestn st) m)
               | None => false
               end in
  let! o := cop_new v (b_strings b3) None in
  let best := if improves e (g_bestn st) then o else g_best st in
  let bestn := if improves e (g_bestn st) then Some e else g_bestn st in
  let! size := of_option IndexError (nth_error (gp_sizes p) step) in
  let! b4 := gtruncate Or b3 v thr size in
  let! cs := rmap (fun s => let! i := basis_index b4 s in of_option IndexError (nth_error v i)) (b_strings b4) in
  let! o' := cop_new cs (b_strings b4) None in
  let reached := match gp_target p, bestn with Some t, Some e => lt_dec e t | _, _ => false end in
  Ok (mkG b4 o' x2 (g_ops st ++ [o]) (g_norms st ++ [e]) best bestn thr (early || reached)).
(** algorithms.py:761, 1031-1034: the loop ends early when the flag is set or the target is reached. *)
Fixpoint greedy_loop (Or : groracles) (p : gparams) (fuel : nat) (H : Operator) (com_ops : list Operator) (n step : nat) (st : gstate) : res gstate :=
  match n with
  | 0 => Ok st
  | S n' =>
      if g_end st then Ok st
      else let! st' := greedy_step Or p fuel H com_ops step st in greedy_loop Or p fuel H com_ops n' (S step) st'
  end.
(** algorithms.py:701-1051: [selected_ci_greedy]; [com_ops = [H]] if an Operator is given.  The
    result is (best_operator, best_com_norm, operators, com_norms). *)
Definition selected_ci_greedy (Or : groracles) (p : gparams) (fuel : nat) (init : COp) (com_ops : list Operator) (num_steps : nat) (thr : R) (x : cache)
  : res (COp * option R * list COp * list R) :=
  match com_ops with
  | [] => Err IndexError
  | H :: _ =>
      if forallb (fun s => match os_labels s with [] => true | _ => false end) (b_strings (o_basis H)) then Err ValueError
      else
        let b := basis_iadd basis_empty (c_basis init) in
        let! st := greedy_loop Or p fuel H com_ops num_steps 0 (mkG b init x [] [] init None thr false) in
        Ok (g_best st, g_bestn st, g_ops st, g_norms st)
  end.

(* --------------------------------------------------- highest_fidelity_operator *)

(** algorithms.py:660-696: [highest_fidelity_operator]: the vector, its commutator norm and the
    fidelity; [None] for the not-a-number entries after a division by zero. *)
Definition highest_fidelity_operator (target : COp) (ps : list (R * vec)) (b : Basis) : res (option (vec * R) * R) :=
  let! ts := rmap (fun t => let! i := basis_index b (snd t) in Ok (i, fst t)) (filter (fun t => basis_mem b (snd t)) (c_terms target)) in
  let tv := fold_left (fun v p => list_set v (fst p) (snd p)) ts (vzero (basis_len b)) in
  let overlap := fun v => vdot v tv in
  let w := fold_left (fun w q => vadd w (vscale (overlap (snd q)) (snd q))) ps (vzero (basis_len b)) in
  let e := fold_left (fun e q => (e + Cmod (overlap (snd q)) ^ 2 * Rabs (fst q))%R) ps 0%R in
  let n := vnorm w in
  Ok (if Req_EM_T n 0 then None else Some (vscale (RtoC (/ n)) w, (e / n ^ 2)%R), (n ^ 2)%R).
