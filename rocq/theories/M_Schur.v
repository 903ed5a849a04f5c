(** Model of qosy/diagonalization.py, lines 245-364: diagonalize_quadratic after its matrix is built
    (M_Quad.v).  Simplification: exact real numbers; arrays are functions of their indices, of which
    only those below the dimensions matter. *)
From Coq Require Import List ZArith Bool Reals QArith Qreals Qcanon.
From Coquelicot Require Import Complex.
From Verif Require Import GC Exn M_OpString M_Basis M_Quad.
Import ListNotations.
Local Open Scope Z_scope.

Definition rarr : Type := Z -> Z -> R.
Definition carr : Type := Z -> Z -> C.
(** range(N) *)
Definition zrange (n : nat) : list Z := map Z.of_nat (seq 0 n).

(** diagonalization.py:330-332: exchanging two columns. *)
Definition swap_cols (M : rarr) (p q : Z) : rarr :=
  fun i j => if j =? p then M i q else if j =? q then M i p else M i j.
Definition rupd (f : Z -> R) (k : Z) (x : R) : Z -> R := fun j => if j =? k then x else f j.
(** diagonalization.py:328: the condition, with np.abs. *)
Definition negative_mode (thr e : R) : bool :=
  (if Rlt_dec thr (Rabs e) then true else false) && (if Rlt_dec e (- thr) then true else false).
(** diagonalization.py:327-332: one step of the loop; the state is (eigvals, Z), Z called W here. *)
Definition mode_step (thr : R) (T : rarr) (st : (Z -> R) * rarr) (n : Z) : (Z -> R) * rarr :=
  if negative_mode thr (fst st n)
  then (rupd (fst st) n (T (2 * n + 1) (2 * n)), swap_cols (snd st) (2 * n) (2 * n + 1))
  else st.
(** diagonalization.py:323-332. *)
Definition modes (thr : R) (T W : rarr) (N : nat) : (Z -> R) * rarr :=
  fold_left (mode_step thr T) (zrange N) (fun n => T (2 * n) (2 * n + 1), W).

(** diagonalization.py:340-359: the assignments of the double loop, in order. *)
Definition write : Type := (Z * Z * C)%type.
Definition fermion_writes (N : nat) (W : rarr) : list write :=
  flat_map (fun m => flat_map (fun n =>
    let z := fun i j => RtoC (W i j) in
    let h := RtoC (1 / 2) in
    [(m, n, (h * (z (2*m)%Z (2*n)%Z + Ci * z (2*m)%Z (2*n+1)%Z - Ci * z (2*m+1)%Z (2*n)%Z + z (2*m+1)%Z (2*n+1)%Z))%C);
     (m, 2 * n + 1, (h * (z (2*m)%Z (2*n)%Z + Ci * z (2*m)%Z (2*n+1)%Z + Ci * z (2*m+1)%Z (2*n)%Z - z (2*m+1)%Z (2*n+1)%Z))%C);
     (2 * m + 1, n, (h * (z (2*m)%Z (2*n)%Z - Ci * z (2*m)%Z (2*n+1)%Z - Ci * z (2*m+1)%Z (2*n)%Z - z (2*m+1)%Z (2*n+1)%Z))%C);
     (2 * m + 1, 2 * n + 1, (h * (z (2*m)%Z (2*n)%Z + Ci * z (2*m)%Z (2*n+1)%Z - Ci * z (2*m+1)%Z (2*n)%Z + z (2*m+1)%Z (2*n+1)%Z))%C)])
    (zrange N)) (zrange N).
Definition do_write (E : carr) (w : write) : carr :=
  fun i j => if (i =? fst (fst w)) && (j =? snd (fst w)) then snd w else E i j.
Definition eigvecs_fermion (N : nat) (W : rarr) : carr :=
  fold_left do_write (fermion_writes N W) (fun _ _ => RtoC 0).

(** diagonalization.py:245-364: [diagonalize_quadratic].  [schur] is scipy.linalg.schur(output='real'),
    [lattice] is None or its periodic_boundaries: 308 reads the undefined name [momenta], 312 raises. *)
Definition diagonalize_quadratic (schur : zmat -> rarr * rarr) (o : Operator) (n : nat) (lattice : option (list bool)) (thr : R)
  : res (R * list R * carr * rarr) :=
  let! A := quadratic_matrix o n in
  match lattice with
  | Some per => if existsb (fun b => b) per then Err NameError else Err NotImplementedError
  | None =>
      let (T, W) := schur A in
      let (ev, W') := modes thr T W n in
      let e := map ev (zrange n) in
      Ok ((- (1 / 2) * fold_right Rplus 0 e)%R, e, eigvecs_fermion n W', W')
  end.
