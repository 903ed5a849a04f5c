(** Specifications for conversions between Pauli, Majorana and Fermion strings. *)
From Coq Require Import String List ZArith Bool Arith Sorted Permutation.
From Verif Require Import GC S_Alg S_Den S_Basis M_OpString M_Basis.
Import ListNotations.
Local Open Scope alg_scope.

(** Creation and annihilation operators. *)
Definition gferm {A : StarAlg} (c : Z -> A) (o : op) (l : Z) : A :=
  match o with OCDag => (c l)^* | OC => c l | _ => azero end.

(** The Majorana operators of fermions: a = c + c^*, b = -i (c - c^* ), d = 1 - 2 c^* c
    (operatorstring.py, class documentation). *)
Definition gmaj {A : StarAlg} (c : Z -> A) (o : op) (l : Z) : A :=
  match o with
  | OA => c l + (c l)^*
  | OB => gopp gi · asub (c l) ((c l)^*)
  | OD => asub aone (g2 · ((c l)^* * c l))
  | _ => azero
  end.

(** The product x_0 x_1 ... x_(n-1). *)
Definition chain {A : StarAlg} (x : Z -> A) (n : nat) : A := aprod (map (fun k => x (Z.of_nat k)) (seq 0 n)).

(** Jordan-Wigner: the Pauli operators made of Majorana operators,
    X_l = d_0 ... d_(l-1) a_l, Y_l = d_0 ... d_(l-1) b_l, Z_l = d_l. *)
Definition gpauli {A : StarAlg} (g : op -> Z -> A) (o : op) (l : Z) : A :=
  match o with
  | OX => chain (g OD) (Z.to_nat l) * g OA l
  | OY => chain (g OD) (Z.to_nat l) * g OB l
  | OZ => g OD l
  | _ => azero
  end.

(** Jordan-Wigner: the Majorana operators made of Pauli operators,
    a_l = Z_0 ... Z_(l-1) X_l, b_l = Z_0 ... Z_(l-1) Y_l, d_l = Z_l. *)
Definition gmajw {A : StarAlg} (g : op -> Z -> A) (o : op) (l : Z) : A :=
  match o with
  | OA => chain (g OZ) (Z.to_nat l) * g OX l
  | OB => chain (g OZ) (Z.to_nat l) * g OY l
  | OD => g OZ l
  | _ => azero
  end.

(** A Fermion string c^*_{i1}..c^*_{im} c_{jl}..c_{j1} with labels I = (i1,..,im) and
    J = (j1,..,jl). *)
Definition fermion_form (I J : list Z) (s : OS) : Prop :=
  os_type s = Fermion /\
  os_ops s = repeat OCDag (length I) ++ repeat OC (length J) /\
  os_labels s = I ++ rev J /\
  (pval (os_pref s) = g1 \/ pval (os_pref s) = gi).

(** The operator denoted by a Fermion string: the product, plus its adjoint unless the
    labels are equal (operatorstring.py, class documentation). *)
Definition fden {A : StarAlg} (c : Z -> A) (s : OS) : A :=
  let w := den (gferm c) s in
  let labs o := map snd (filter (fun p => op_eqb (fst p) o) (combine (os_ops s) (os_labels s))) in
  if list_eq_dec Z.eq_dec (labs OCDag) (rev (labs OC)) then w else w + w^*.

(** The operator denoted by a string of any type, given fermions [c]. *)
Definition meaning {A : StarAlg} (c : Z -> A) (s : OS) : A :=
  match os_type s with
  | Fermion => fden c s
  | Majorana => den (gmaj c) s
  | Pauli => den (gpauli (gmaj c)) s
  end.
(** ... and by a list of terms. *)
Definition means {A : StarAlg} (c : Z -> A) (ts : list (GC * OS)) : A :=
  asum (map (fun t => fst t · meaning c (snd t)) ts).

(** The terms other than the identity string. *)
Definition without_identity (ts : list (GC * OS)) : list (GC * OS) :=
  filter (fun t => match os_ops (snd t) with [] => false | _ => true end) ts.

(** Well-formed strings: for Fermion strings distinct creation labels and distinct
    annihilation labels; for Pauli strings non-negative labels. *)
Definition convertible (s : OS) : Prop :=
  match os_type s with
  | Fermion => exists I J, fermion_form I J s /\ NoDup I /\ NoDup J
  | ty => string_ok ty s
  end.
Definition nonneg (s : OS) : Prop := forall l, In l (os_labels s) -> (0 <= l)%Z.

(** The number of different orbitals of a Fermion string. *)
Definition orbitals (I J : list Z) : nat := length (nodup Z.eq_dec (I ++ J)).

(** A Fermion string whose conversion has at least one term: not the identity unless the
    identity is requested, and not one of the forms 1j c^*_I c_J with J a reordering of I
    (which, plus the adjoint, denotes zero). *)
Definition produces (I J : list Z) (p : GC) (incl : bool) : Prop :=
  (I = [] -> J = [] -> incl = true) /\ (I = J \/ p = g1 \/ ~ Permutation I J).

(** The strings [convert] is specified for.  Line 299 of conversion.py compares the
    imaginary part of a coefficient of size 2^-n with 2^-52, which limits the number n of
    orbitals of a non-diagonal Fermion string to 51 (with 2^n terms more are out of reach). *)
Definition conv_dom (s : OS) (ty : optype) : Prop :=
  match os_type s with
  | Fermion => exists I J, fermion_form I J s /\ NoDup I /\ NoDup J /\ (I = J \/ (orbitals I J <= 51)%nat)
  | ty' => string_ok ty' s
  end /\
  (os_type s <> ty -> os_type s = Pauli \/ ty = Pauli -> nonneg s).
Definition conv_prod (s : OS) (ty : optype) (incl : bool) : Prop :=
  os_type s = Fermion -> ty <> Fermion -> forall I J, fermion_form I J s -> produces I J (pval (os_pref s)) incl.
