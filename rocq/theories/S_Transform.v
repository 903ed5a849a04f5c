(** Specifications for transformations of operator strings. *)
From Coq Require Import List ZArith Bool Arith Qcanon.
From Verif Require Import GC Exn S_Alg S_Den S_Basis S_Built S_OpAlg M_OpString M_Algebra M_Basis M_OpAlg.
Import ListNotations.
Local Open Scope alg_scope.

(** The image of the operator denoted by a string under a multiplicative map, linear or
    antilinear ([conj]), that sends the generator o_l to [h o l]. *)
Definition image {A : StarAlg} (conj : bool) (h : op -> Z -> A) (s : OS) : A :=
  (if conj then gconj (pval (os_pref s)) else pval (os_pref s)) ·
  aprod (map (fun p => h (fst p) (snd p)) (combine (os_ops s) (os_labels s))).

(** Images of the generators.  Renaming of orbitals: *)
Definition renamed {A : StarAlg} (f : Z -> Z) (g : op -> Z -> A) (o : op) (l : Z) : A := g o (f l).
(** time reversal (Pauli operators change sign; b changes sign, a and d do not): *)
Definition reversed {A : StarAlg} (ty : optype) (g : op -> Z -> A) (o : op) (l : Z) : A :=
  match ty, o with
  | Pauli, _ => gm1 · g o l
  | _, OB => gm1 · g o l
  | _, _ => g o l
  end.
(** particle-hole (b and d change sign): *)
Definition conjugated {A : StarAlg} (g : op -> Z -> A) (o : op) (l : Z) : A :=
  match o with OB | OD => gm1 · g o l | _ => g o l end.
(** spin parity (a and b of down orbitals change sign): *)
Definition parity_flipped {A : StarAlg} (dn : Z -> Prop) (dec : forall l, {dn l} + {~ dn l}) (g : op -> Z -> A) (o : op) (l : Z) : A :=
  match o with OA | OB => if dec l then gm1 · g o l else g o l | _ => g o l end.
(** spinful time reversal: a_up to a_dn, a_dn to - a_up, b_up to - b_dn, b_dn to b_up, d_up to
    d_dn and d_dn to d_up, where [f] exchanges the up and down orbitals. *)
Definition reversed_spin {A : StarAlg} (f : Z -> Z) (dn : Z -> Prop) (dec : forall l, {dn l} + {~ dn l}) (g : op -> Z -> A) (o : op) (l : Z) : A :=
  match o with
  | OA => if dec l then gm1 · g OA (f l) else g OA (f l)
  | OB => if dec l then g OB (f l) else gm1 · g OB (f l)
  | _ => g o (f l)
  end.

(** [perm] lists a permutation of 0 .. n-1 and [f] is the function l |-> perm[l]. *)
Definition permutes (perm : list Z) (f : Z -> Z) : Prop :=
  NoDup perm /\ (forall l, In l perm -> (0 <= l < Z.of_nat (length perm))%Z) /\
  (forall l, (0 <= l < Z.of_nat (length perm))%Z -> nth_error perm (Z.to_nat l) = Some (f l)).
Definition in_range (n : nat) (s : OS) : Prop := forall l, In l (os_labels s) -> (0 <= l < Z.of_nat n)%Z.

(** An Operator with exactly one term. *)
Definition one_term (r : res Operator) (k : GC) (t : OS) : Prop :=
  exists o, r = Ok o /\ o_type o = os_type t /\ op_terms o = [(k, t)].

(** On the string [s] the transformation [T] acts as the multiplicative map that sends o_l to
    [h o l]: the result is one string with coefficient 1 or -1, and it denotes the image. *)
Definition acts_as (ty : optype) (T : OS -> res Operator) (conj : bool)
    (h : forall A : StarAlg, (op -> Z -> A) -> op -> Z -> A) (s : OS) : Prop :=
  exists k t, one_term (T s) k t /\ (k = g1 \/ k = gm1) /\ string_ok ty t /\ (canonical s -> canonical t) /\
    forall (A : StarAlg) (g : op -> Z -> A), rep ty g -> image conj (h A g) s == k · den g t.

(** The transformation of a product is the product of the transformations; commutators that
    vanish still do, and the others are transformed into commutators. *)
Definition respects_products (T : OS -> res Operator) (conj : bool) (S1 S2 : OS) : Prop :=
  exists k C k1 t1 k2 t2 k3 t3 k',
    product S1 S2 = Ok (k, Some C) /\
    one_term (T S1) k1 t1 /\ one_term (T S2) k2 t2 /\ one_term (T C) k3 t3 /\
    product t1 t2 = Ok (k', Some t3) /\
    gmul (gmul k1 k2) k' = gmul (if conj then gconj k else k) k3 /\
    ((commutator S1 S2 = Ok (g0, None) /\ commutator t1 t2 = Ok (g0, None)) \/
     (commutator S1 S2 = Ok (gmul g2 k, Some C) /\ commutator t1 t2 = Ok (gmul g2 k', Some t3))).

(** The coefficient of [u] in the sum of the x_a T(S_a). *)
Inductive combined_rule (T : OS -> res Operator) (u : OS) : list (GC * OS) -> GC -> Prop :=
| cr_nil : combined_rule T u [] g0
| cr_cons x s ts o c d : T s = Ok o -> has_coeff (op_terms o) u c -> combined_rule T u ts d ->
    combined_rule T u ((x, s) :: ts) (gadd (gmul x c) d).

(** A Basis of strings of one type with default spelled prefactors, and an Operator of it. *)
Definition proper (o : Operator) : Prop :=
  built (o_basis o) /\ length (o_coeffs o) = length (b_strings (o_basis o)) /\
  forall s, In s (b_strings (o_basis o)) -> os_type s = o_type o /\ std s.
(** A rule that maps strings of type [ty] to proper Operators of type [ty]. *)
Definition keeps_type (ty : optype) (T : OS -> res Operator) : Prop :=
  forall s n, os_type s = ty -> std s -> T s = Ok n -> proper n /\ o_type n = ty.
(** Two Operators with the same coefficients. *)
Definition same_coeffs (o r : Operator) : Prop := forall u c, has_coeff (op_terms o) u c <-> has_coeff (op_terms r) u c.
(** [r] is [o] with the terms replaced one by one. *)
Definition term_by_term (T : OS -> res Operator) (o r : Operator) : Prop :=
  Forall2 (fun t u => exists k, one_term (T (snd t)) k (snd u) /\ (k = g1 \/ k = gm1) /\ fst u = gmul (fst t) k) (op_terms o) (op_terms r).

(** A linear ([conj = false]) or antilinear multiplicative map of an algebra to itself. *)
Record mult_map {A : StarAlg} (conj : bool) (f : A -> A) : Prop := {
  mm_eq : forall x y, x == y -> f x == f y;
  mm_add : forall x y, f (x + y) == f x + f y;
  mm_mul : forall x y, f (x * y) == f x * f y;
  mm_one : f aone == aone;
  mm_scal : forall z x, f (z · x) == (if conj then gconj z else z) · f x
}.
(** All coefficients are real. *)
Definition real_coeffs (o : Operator) : Prop := forall c, In c (o_coeffs o) -> gconj c = c.

(** An Operator of canonical strings of type [ty]. *)
Definition good_operator (ty : optype) (o : Operator) : Prop :=
  built (o_basis o) /\ length (o_coeffs o) = length (b_strings (o_basis o)) /\ o_type o = ty /\
  forall s, In s (b_strings (o_basis o)) -> string_ok ty s /\ canonical s.
(** The sum of the images of the terms. *)
Definition image_sum {A : StarAlg} (conj : bool) (h : op -> Z -> A) (ts : list (GC * OS)) : A :=
  asum (map (fun t => fst t · image conj h (snd t)) ts).

(** No product of a coefficient of C(s) with one of D of its strings is nonzero but of modulus
    at most 1e-12. *)
Definition no_small_products (C D : OS -> res Operator) (s : OS) : Prop := forall oC oD t u, C s = Ok oC ->
  In t (op_terms oC) -> D (snd t) = Ok oD -> In u (op_terms oD) ->
  gmul (fst t) (fst u) = g0 \/ (tol12 * tol12 < norm2 (gmul (fst t) (fst u)))%Qc.
(** Applying [T] n times to [s], with every result a single string with coefficient 1 or -1. *)
Inductive iterated (T : OS -> res Operator) : nat -> OS -> GC -> OS -> Prop :=
| it_0 s : iterated T 0 s g1 s
| it_S n s k1 t1 k2 t2 : one_term (T s) k1 t1 -> (k1 = g1 \/ k1 = gm1) -> iterated T n t1 k2 t2 ->
    iterated T (S n) s (gmul k1 k2) t2.
Definition iterate {X} (f : X -> X) (n : nat) (x : X) : X := Nat.iter n f x.

(** Every string of the list becomes one string times 1 or -1, different ones different strings. *)
Definition monomial_on (T : OS -> res Operator) (l : list OS) : Prop :=
  (forall s, In s l -> exists k t, one_term (T s) k t /\ (k = g1 \/ k = gm1)) /\
  (forall s s' k k' t t', In s l -> In s' l -> one_term (T s) k t -> one_term (T s') k' t' -> same_key t t' -> s = s').
(** An eigenvector of a square matrix. *)
Definition eigenpair (H : smat) (lam : Qc) (v : list GC) : Prop :=
  length v = sm_cols H /\ matvec H v = map (gmul (gq lam)) v.
