(** Model of the options [target_operator] and [target_fidelity] of selected_ci_greedy.

    Simplifications, besides those of M_Greedy: the vector of highest fidelity has not-a-number
    entries if no vector overlaps with the target; such a run is reported as ZeroDivisionError
    here, the code goes on with them.  [return_final_params] is not modelled. *)
From Coq Require Import List ZArith Bool Arith Reals.
From Coquelicot Require Import Complex.
From Verif Require Import GC Exn M_OpString M_Algebra M_Basis M_OpAlg M_LinAlg M_Explore M_Core M_Greedy.
Import ListNotations.

(** algorithms.py:976: [num_vecs] is increased. *)
Definition with_vecs (p : gparams) (k : nat) : gparams :=
  mkGP (gp_nH p) (gp_nO p) (gp_sizes p) (gp_orth p) (gp_trans p) (gp_target p) (gp_minrel p) k.
(** The local variables, with the current [num_vecs].  [previous_basis] (algorithms.py:759,
    1036-1037) is the basis at the start of an iteration. *)
Record tstate : Type := mkT { t_g : gstate; t_vecs : nat }.

(** algorithms.py:968-979: [fidelity < target_fidelity]. *)
Definition too_low (tf : option R) (f : R) : bool := match tf with Some m => lt_dec f m | None => false end.

(** algorithms.py:761-1039: one iteration of the while loop, and whether [step] is increased;
    the [continue] of line 979 keeps the operator and goes back to the previous basis. *)
Definition target_step (Or : groracles) (p : gparams) (fuel : nat) (H : Operator) (com_ops : list Operator) (tgt : COp) (tf : option R)
  (step : nat) (ts : tstate) : res (tstate * bool) :=
  let st := t_g ts in
  let! nH := of_option IndexError (nth_error (gp_nH p) step) in
  let! (b1, x1) := grow_commutators Or H com_ops nH (g_basis st) (g_op st) (g_cache st) in
  let! b2 := grow_anticommutators Or (gp_nO p) (g_op st) b1 in
  let! b3 := match gp_trans p with Some Ts => close_basis fuel Ts 0 b2 | None => Ok b2 end in
  let! (qs, x2) := find_vectors Or (with_vecs p (t_vecs ts)) com_ops b3 x1 in
  let! (r, f) := highest_fidelity_operator (if step =? 0 then tgt else g_best st) qs b3 in
  if too_low tf f && negb (step =? 0) then
    Ok (mkT (mkG (g_basis st) (g_op st) x2 (g_ops st) (g_norms st) (g_best st) (g_bestn st) (g_thr st) (g_end st)) (S (t_vecs ts)), false)
  else
    let! (v, e) := of_option ZeroDivisionError r in
    let thr := if worse e (g_bestn st) then (g_thr st / 2)%R else g_thr st in
    let early := match gp_minrel p with
                 | Some m => (1 <=? step) && (worse e (g_bestn st) || slow e (g_bestn st) m)
                 | None => false
                 end in
    let! o := cop_new v (b_strings b3) None in
    let best := if improves e (g_bestn st) then o else g_best st in
    let bestn := if improves e (g_bestn st) then Some e else g_bestn st in
    let! size := of_option IndexError (nth_error (gp_sizes p) step) in
    let! (_, v0) := of_option IndexError (nth_error qs 0) in
    let! b4 := gtruncate Or b3 v0 thr size in
    let! cs := rmap (fun s => let! i := basis_index b4 s in of_option IndexError (nth_error v i)) (b_strings b4) in
    let! o' := cop_new cs (b_strings b4) None in
    let reached := match gp_target p, bestn with Some t, Some e => lt_dec e t | _, _ => false end in
    Ok (mkT (mkG b4 o' x2 (g_ops st ++ [o]) (g_norms st ++ [e]) best bestn thr (too_low tf f || early || reached)) (t_vecs ts), true).
(** algorithms.py:761: the while loop; [None] if it has not ended after [k] iterations. *)
Fixpoint target_loop (Or : groracles) (p : gparams) (fuel : nat) (H : Operator) (com_ops : list Operator) (tgt : COp) (tf : option R)
  (k n step : nat) (ts : tstate) : res (option gstate) :=
  if (n <=? step) || g_end (t_g ts) then Ok (Some (t_g ts))
  else match k with
       | 0 => Ok None
       | S k' =>
           let! (ts', counted) := target_step Or p fuel H com_ops tgt tf step ts in
           target_loop Or p fuel H com_ops tgt tf k' n (if counted : bool then S step else step) ts'
       end.
(** algorithms.py:701-1051 with [target_operator]; the result after at most [k] iterations. *)
Definition selected_ci_target (Or : groracles) (p : gparams) (fuel : nat) (init : COp) (com_ops : list Operator) (tgt : COp) (tf : option R)
  (k num_steps : nat) (thr : R) (x : cache) : res (option (COp * option R * list COp * list R)) :=
  match com_ops with
  | [] => Err IndexError
  | H :: _ =>
      if forallb (fun s => match os_labels s with [] => true | _ => false end) (b_strings (o_basis H)) then Err ValueError
      else
        let b := basis_iadd basis_empty (c_basis init) in
        let! st := target_loop Or p fuel H com_ops tgt tf k num_steps 0 (mkT (mkG b init x [] [] init None thr false) (gp_vecs p)) in
        Ok (match st with Some st => Some (g_best st, g_bestn st, g_ops st, g_norms st) | None => None end)
  end.
