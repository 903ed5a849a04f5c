(** Model of the linear algebra helpers of tools.py: gram_schmidt and intersection.
    Simplification: floating point numbers are modelled by exact real and complex numbers. *)
From Coq Require Import List Reals Bool Arith.
From Coquelicot Require Import Complex.
From Verif Require Import Exn.
Import ListNotations.
Local Open Scope C_scope.

(** Column vectors are lists of complex numbers; numpy broadcasting is elementwise. *)
Definition vec := list C.
Fixpoint zip_with {A B D} (f : A -> B -> D) (l : list A) (m : list B) : list D :=
  match l, m with
  | a :: l', b :: m' => f a b :: zip_with f l' m'
  | _, _ => []
  end.
Definition vadd (u v : vec) : vec := zip_with Cplus u v.
Definition vsub (u v : vec) : vec := zip_with Cminus u v.
Definition vscale (c : C) (v : vec) : vec := map (Cmult c) v.
Definition csum (l : list C) : C := fold_right Cplus (RtoC 0) l.

(** tools.py:459-460,466-467: [_vdot], conjugating the first argument. *)
Definition vdot (u v : vec) : C := csum (zip_with (fun x y => Cconj x * y) u v).
(** tools.py:457-458,464-465: [_norm], the Euclidean norm. *)
Definition vnorm (v : vec) : R := sqrt (fold_right Rplus 0%R (map (fun z => (fst z * fst z + snd z * snd z)%R) v)).

(** tools.py:475-476: the inner loop, subtracting one projection after the other. *)
Definition gs_project (qs : list vec) (w : vec) : vec :=
  fold_left (fun w q => vsub w (vscale (vdot q w) q)) qs w.

(** tools.py:472-484: the loop over the remaining columns.  [qs] are the columns
    0..ind_col-1 of [new_matrix]; a rejected column is overwritten by the next one. *)
Fixpoint gs_loop (tol : R) (qs : list vec) (cols : list vec) : list vec :=
  match cols with
  | [] => qs
  | c :: rest =>
      let w := gs_project qs c in
      if Rlt_dec tol (vnorm w)
      then gs_loop tol (qs ++ [vscale (RtoC (/ vnorm w)) w]) rest
      else gs_loop tol qs rest
  end.

(** tools.py:423-489: [gram_schmidt] on an n x k matrix given by its columns.  [None]
    stands for the not-a-number entries that arise at 470 when the first column is zero. *)
Definition gram_schmidt (n : nat) (tol : R) (cols : list vec) : option (list vec) :=
  match cols with
  | [] => Some []
  | c :: rest =>
      if Nat.eqb n 0 then Some cols
      else if Req_EM_T (vnorm c) 0 then None
      else Some (gs_loop tol [vscale (RtoC (/ vnorm c)) c] rest)
  end.

(** Matrix times vector, columns of [A] weighted by the entries of [x]. *)
Definition vzero (n : nat) : vec := repeat (RtoC 0) n.
Fixpoint mat_vec (n : nat) (A : list vec) (x : vec) : vec :=
  match A, x with
  | a :: A', c :: x' => vadd (vscale c a) (mat_vec n A' x')
  | _, _ => vzero n
  end.

(** tools.py:517: [np.hstack((A, -B))]. *)
Definition hstack_neg (A B : list vec) : list vec := A ++ map (vscale (RtoC (-1))) B.
(** tools.py:519: row [i] of [np.dot(np.conj(C.T), C)]. *)
Definition gram (M : list vec) : list vec := map (fun ci => map (vdot ci) M) M.
(** A matrix given by rows, times a vector. *)
Definition rows_vec (rows : list vec) (x : vec) : vec := map (fun r => csum (zip_with Cmult r x)) rows.

(** tools.py:491-532: [intersection].  [eigh D] is the list of eigenvectors of [D] returned
    by [nla.eigh] (521) whose eigenvalues are below [tol] (522), an oracle.  [Ok None] stands
    for the not-a-number entries produced when a vector of norm zero is normalised (528-530). *)
Definition intersection (eigh : list vec -> list vec) (n m : nat) (A B : list vec) : res (option (list vec)) :=
  if negb (Nat.eqb n m) then Err ValueError
  else
    let D := gram (hstack_neg A B) in
    let vs := map (fun e => mat_vec n A (firstn (length A) e)) (eigh D) in
    if existsb (fun v => if Req_EM_T (vnorm v) 0 then true else false) vs then Ok None
    else Ok (Some (map (fun v => vscale (RtoC (/ vnorm v)) v) vs)).
