(** Specifications for the normal modes of quadratic Operators. *)
From Coq Require Import List ZArith Bool Arith Reals.
From Coquelicot Require Import Complex.
From Verif Require Import GC S_Alg M_OpString M_Core S_RScal S_CScal S_LinAlg S_Core S_Quad.
Import ListNotations.
Local Open Scope alg_scope.

(** The component j of a vector. *)
Definition at_ (v : list C) (j : Z) : C := nth (Z.to_nat j) v (RtoC 0).
(** Σ_(j<m) v_j x_j, and the operator Σ_(j<m) conj(v_j) x_j of the mode v. *)
Definition combine_with {A : StarAlg} (S : RScal A) (m : nat) (v : Z -> C) (x : Z -> A) : A :=
  asum (map (fun j => cs S (v j) (x j)) (below m)).
Definition mode_of {A : StarAlg} (S : RScal A) (m : nat) (v : list C) (x : Z -> A) : A :=
  combine_with S m (fun j => Cconj (at_ v j)) x.

(** The rows of a matrix of size m; the solver is exact on it, if it is Hermitian. *)
Definition rows_z (m : nat) (F : Z -> Z -> GC) : list (list C) :=
  map (fun i => map (fun j => to_C (F i j)) (below m)) (below m).
Definition exact_solution (m : nat) (F : Z -> Z -> GC) (ps : list (R * list C)) : Prop :=
  S_Quad.hermitian F -> full_solution (rows_z m F) ps /\ orthonormal (map snd ps).

(** [H, x] = e x *)
Definition ladder {A : StarAlg} (S : RScal A) (H : A) (e : R) (x : A) : Prop := H * x == x * H + rs S e x.
(** Anticommutation relations of a list. *)
Definition fermion_list {A : StarAlg} (fs : list A) : Prop := forall i j f g, nth_error fs i = Some f -> nth_error fs j = Some g ->
  f * g + g * f == azero /\ f * g^* + g^* * f == (if Nat.eqb i j then g1 else g0) · aone.
(** Σ_k e_k f_k^* f_k and Σ_k e_k f_k f_k^* *)
Definition occupation {A : StarAlg} (S : RScal A) (l : list (R * A)) : A := asum (map (fun p => rs S (fst p) ((snd p)^* * snd p)) l).
Definition emptiness {A : StarAlg} (S : RScal A) (l : list (R * A)) : A := asum (map (fun p => rs S (fst p) (snd p * (snd p)^*)) l).
Definition rtotal (l : list R) : R := fold_right Rplus 0%R l.
(** The operator Σ_j conj(u_j) c_j + conj(v_j) c^*_j *)
Definition bogoliubov {A : StarAlg} (S : RScal A) (n : nat) (u v : list C) (c : Z -> A) : A :=
  mode_of S n u c + mode_of S n v (fun j => (c j)^*).
