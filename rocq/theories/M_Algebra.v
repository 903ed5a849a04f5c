(** Model of qosy/algebra.py:19-120: binary operations between operator strings. *)
From Coq Require Import List ZArith Bool Arith QArith Qcanon.
From Verif Require Import GC Exn M_OpString M_Tools.
Import ListNotations.
Local Open Scope nat_scope.

(** algebra.py:22-24: operation_mode. *)
Inductive mode : Set := MProduct | MCommutator | MAnticommutator.

(** algebra.py:38-39: sorted list of the distinct elements ([np.sort] of a set). *)
Fixpoint insert_uniq (x : Z) (l : list Z) : list Z :=
  match l with
  | [] => [x]
  | y :: r => if Z.ltb x y then x :: l else if Z.eqb x y then l else y :: insert_uniq x r
  end.
Definition sort_uniq (l : list Z) : list Z := fold_right insert_uniq [] l.

(** algebra.py:61-64,73,76,78-79: the operator of a string at a label, if any. *)
Definition op_at (s : OS) (l : Z) : res (option op) :=
  match label_index s l with
  | None => Ok None
  | Some i => let! o := of_option IndexError (nth_error (os_ops s) i) in Ok (Some o)
  end.

(** algebra.py:36,56-59: state of the loop over labels. *)
Record comb : Set := mkComb { cb_coeff : GC; cb_ndiff : nat; cb_ops : list op; cb_labels : list Z }.

(** algebra.py:60-87: one iteration of the loop over possible labels. *)
Definition comb_step (A B : OS) (st : comb) (l : Z) : res comb :=
  let! oa := op_at A l in
  let! ob := op_at B l in
  match oa, ob with
  | Some a, None => Ok (mkComb (cb_coeff st) (cb_ndiff st) (cb_ops st ++ [a]) (cb_labels st ++ [l]))
  | None, Some b => Ok (mkComb (cb_coeff st) (cb_ndiff st) (cb_ops st ++ [b]) (cb_labels st ++ [l]))
  | Some a, Some b =>
      if op_eqb a b then Ok st
      else match product_dict a b with
           | None => Err KeyError
           | Some (const, c) =>
               Ok (mkComb (gmul (cb_coeff st) const) (S (cb_ndiff st))
                          (cb_ops st ++ [c]) (cb_labels st ++ [l]))
           end
  | None, None => Err IndexError (* unreachable: the label comes from A or B *)
  end.

(** algebra.py:19: default tolerance 1e-12. *)
Definition tol12 : Qc := Q2Qc (1 # 1000000000000).

(** algebra.py:113-120: build the resulting string and finish the coefficient. *)
Definition finish_op (m : mode) (ty : optype) (coeff : GC) (st : comb) : res (GC * option OS) :=
  if abs_ltb coeff tol12 then Ok (g0, None)
  else
    let! C := os_new (cb_ops st) (cb_labels st) ty in
    let c := gdiv coeff (pval (os_pref C)) in
    match m with
    | MProduct => Ok (c, Some C)
    | _ => Ok (gmul c g2, Some C)
    end.

(** algebra.py:50-51: the sign returned by [sort_sign], as a number. *)
Definition sgn_num (l : list Z) : GC := gz (snd (sort_sign l)).

(** algebra.py:19-120: [_operation_opstring].  Only the type of the first argument is
    inspected (27-29); for a Majorana first argument line 47 needs the attribute
    [_labels_ab_operators] of the second, which only Majorana strings have. *)
Definition operation_opstring (m : mode) (A B : OS) : res (GC * option OS) :=
  match os_type A with
  | Fermion => Err NotImplementedError
  | ty =>
      if match m with MProduct => os_eqb A B | _ => false end
      then let! idC := os_new [] [] ty in Ok (g1, Some idC)
      else
        let possible := sort_uniq (os_labels A ++ os_labels B) in
        match ty with
        | Majorana =>
            match os_type B with
            | Majorana =>
                let labA := labels_ab (os_ops A) (os_labels A) in
                let labB := labels_ab (os_ops B) (os_labels B) in
                let p := gmul (pval (os_pref A)) (pval (os_pref B)) in
                let c1 := gmul p (sgn_num (labA ++ labB)) in
                let c2 := gmul p (sgn_num (labB ++ labA)) in
                let! st := rfold (comb_step A B) possible (mkComb g1 0 [] []) in
                let coeff1 := gmul c1 (cb_coeff st) in
                let coeff2 := gmul c2 (gconj (cb_coeff st)) in
                let keep := match m with
                            | MProduct => true
                            | MCommutator => abs_gtb (gsub coeff1 coeff2) tol12
                            | MAnticommutator => abs_ltb (gsub coeff1 coeff2) tol12
                            end in
                finish_op m ty (if keep then coeff1 else g0) st
            | _ => Err AttributeError
            end
        | _ =>
            let! st := rfold (comb_step A B) possible (mkComb g1 0 [] []) in
            let keep := match m with
                        | MProduct => true
                        | MCommutator => Nat.odd (cb_ndiff st)
                        | MAnticommutator => Nat.even (cb_ndiff st)
                        end in
            finish_op m ty (if keep then cb_coeff st else g0) st
        end
  end.

(** algebra.py:153-241: the string cases of [product], [commutator], [anticommutator]. *)
Definition product (A B : OS) := operation_opstring MProduct A B.
Definition commutator (A B : OS) := operation_opstring MCommutator A B.
Definition anticommutator (A B : OS) := operation_opstring MAnticommutator A B.
