(** Model of qosy/algorithms.py: [selected_ci_greedy_many_ops2].

    Simplifications: those of M_Greedy; [explored_data] is None; [num_H_terms] is given for each
    step; the random numbers are an oracle.  [basis] and [new_os_to_add] are kept together: a
    string is added if it is in neither of them, and both are joined at the end (1201). *)
From Coq Require Import List ZArith Bool Arith Reals.
From Coquelicot Require Import Complex.
From Verif Require Import GC Exn M_OpString M_Algebra M_Basis M_OpAlg M_LinAlg M_Explore M_Core M_Greedy M_SelectedCI.
Import ListNotations.

(** algorithms.py:1146-1148: the union of the Bases. *)
Definition union_basis (ops : list COp) : Basis := fold_left basis_iadd (map c_basis ops) basis_empty.
(** algorithms.py:1152-1158: an Operator written in the Basis. *)
Definition in_basis (b : Basis) (o : COp) : res COp :=
  let! ts := rmap (fun t => let! i := basis_index b (snd t) in Ok (i, fst t)) (c_terms o) in
  cop_new (fold_left (fun v p => list_set v (fst p) (snd p)) ts (vzero (basis_len b))) (b_strings b) None.

(** algorithms.py:1170-1200: growing by the terms of one Operator; [b] is basis and [acc] the
    strings of basis and new_os_to_add, with the cache. *)
Definition grow_many (Or : groracles) (H : Operator) (nH : nat) (b : Basis) (acc : Basis * cache) (o : COp) : res (Basis * cache) :=
  let! (L, ext, x1) := explore b H (snd acc) None in
  if negb (length (c_coeffs o) =? sm_cols L) then Err ValueError
  else
    let v := rows_vec (dense_rows L) (c_coeffs o) in
    let inds := largest_first Or v in
    let indsA := firstn (Nat.min (length inds) nH) inds in
    let! sA := take (b_strings ext) indsA in
    let! A := basis_new sA in
    let! cA := take v indsA in
    grow_com Or nH A cA (fst acc, x1) H.

(** algorithms.py:1216-1243: the matrix and its vectors; lines 1234-1243, which compute the
    numbers again, use the matrix WITH the penalty for [orth_ops]. *)
Definition many_vectors (Or : groracles) (H : Operator) (orth : option (list COp)) (num_ops : nat) (b : Basis) (x : cache) : res (list (R * vec) * cache) :=
  let! (L, _, x') := explore b H x None in
  let D := rreal (gram (dense_cols L)) in
  let! M := match orth with Some ops => orthogonalize_com_matrix D b ops | None => Ok D end in
  let! ps := if (basis_len b <? 20) && (num_ops <? 20) then Ok (gr_eig Or None M) else sort_pairs Or (gr_eig Or (Some num_ops) M) in
  let! qs := match orth with
             | Some _ => sort_pairs Or (map (fun q => (expectation M (snd q), snd q)) ps)
             | None => Ok ps
             end in
  Ok (qs, x').

(** The local variables. *)
Record mstate : Type := mkM {
  m_basis : Basis; m_cur : list COp; m_cache : cache; m_prev : Basis; m_prevprev : option Basis }.
(** algorithms.py:1165-1268: the remaining [n] steps.  [rand step i] is [2.0*np.random.rand()-1.0]. *)
Fixpoint many2_steps (Or : groracles) (rand : nat -> nat -> R) (H : Operator) (orth : option (list COp)) (nHs : list nat) (thr : R) (size num_ops : nat)
  (n step : nat) (st : mstate) : res (list (list COp) * list (list R)) :=
  match n with
  | 0 => Ok ([], [])
  | S k =>
      let! (b1, x1) :=
        match m_cur st with
        | [] => Ok (m_basis st, m_cache st)
        | _ => let! nH := of_option IndexError (nth_error nHs step) in
               rfold (grow_many Or H nH (m_basis st)) (m_cur st) (m_basis st, m_cache st)
        end in
      if negb (step =? 0) && (same_set b1 (m_prev st) || match m_prevprev st with Some p => same_set b1 p | None => false end) then Ok ([], [])
      else
        let! (qs, x2) := many_vectors Or H orth num_ops b1 x1 in
        let! _ := of_option IndexError (nth_error qs 0) in
        let! vs := take (map snd qs) (seq 0 num_ops) in
        let! ops := rmap (fun v => cop_new v (b_strings b1) None) vs in
        let norms := firstn num_ops (map fst qs) in
        let r := fold_left (fun w p => vadd w (vscale (RtoC (rand step (fst p))) (snd p))) (combine (seq 0 num_ops) vs) (vzero (basis_len b1)) in
        let! b2 := gtruncate Or b1 (vscale (RtoC (/ vnorm r)) r) thr size in
        let! cur := rmap (fun v =>
                      let! cs := rmap (fun s => let! i := basis_index b2 s in of_option IndexError (nth_error v i)) (b_strings b2) in
                      cop_new cs (b_strings b2) None) vs in
        let! (rops, rnorms) := many2_steps Or rand H orth nHs thr size num_ops k (S step) (mkM b2 cur x2 b1 (Some (m_prev st))) in
        Ok (ops :: rops, norms :: rnorms)
  end.
(** algorithms.py:1123-1270. *)
Definition many_ops2 (Or : groracles) (rand : nat -> nat -> R) (inits : list COp) (H : Operator) (num_steps : nat) (nHs : list nat) (thr : R) (size : nat)
  (orth : option (list COp)) : res (list (list COp) * list (list R)) :=
  let! _ := np_max (all_labels (o_basis H)) in
  let b := union_basis inits in
  let! cur := rmap (in_basis b) inits in
  many2_steps Or rand H orth nHs thr size (length inits) num_steps 0 (mkM b cur cache_empty b None).
