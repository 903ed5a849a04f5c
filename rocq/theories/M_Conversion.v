(** Model of qosy/conversion.py. *)
From Coq Require Import List ZArith Bool Arith QArith Qcanon.
From Verif Require Import GC Exn M_OpString M_Tools M_Algebra M_Basis M_OpAlg M_Cluster.
Import ListNotations.
Local Open Scope nat_scope.

(** conversion.py:197,201,302: [np.finfo(float).eps], 2^-52. *)
Definition eps52 : Qc := Q2Qc (1 # (2 ^ 52)).
(** [np.imag(z)] and [np.real(z)]. *)
Definition re_part (z : GC) : GC := mkGC (re z) 0.
Definition im_part (z : GC) : GC := mkGC (im z) 0.

(* ------------------------------------------------------- _jordan_wigner *)

(** [np.arange(l+1)]: 0, 1, ..., l; empty for negative [l+1]. *)
Definition arange1 (l : Z) : list Z := map Z.of_nat (seq 0 (Z.to_nat (l + 1))).

(** conversion.py:44-60: the Majorana string of one Pauli operator.  ['D']*l is empty for
    negative [l]. *)
Definition jw_pauli (o : op) (l : Z) : res OS :=
  match o with
  | OX => os_new (repeat OD (Z.to_nat l) ++ [OA]) (arange1 l) Majorana
  | OY => os_new (repeat OD (Z.to_nat l) ++ [OB]) (arange1 l) Majorana
  | OZ => os_new [OD] [l] Majorana
  | _ => Err ValueError
  end.
(** conversion.py:69-85: the Pauli string of one Majorana operator. *)
Definition jw_majorana (o : op) (l : Z) : res OS :=
  match o with
  | OA => os_new (repeat OZ (Z.to_nat l) ++ [OX]) (arange1 l) Pauli
  | OB => os_new (repeat OZ (Z.to_nat l) ++ [OY]) (arange1 l) Pauli
  | OD => os_new [OZ] [l] Pauli
  | _ => Err ValueError
  end.

(** conversion.py:43-62 and 68-87: the loop.  If [product] returned no string the next
    product or the Operator constructor would fail on [None] with AttributeError. *)
Fixpoint jw_loop (jw : op -> Z -> res OS) (w : list (op * Z)) (total : GC) (result : OS) : res (GC * OS) :=
  match w with
  | [] => Ok (total, result)
  | (o, l) :: r =>
      let! s := jw o l in
      let! (k, c) := product result s in
      match c with
      | None => Err AttributeError
      | Some c => jw_loop jw r (gmul total k) c
      end
  end.

(** conversion.py:26-90: [_jordan_wigner].  The loops run over the operators; a missing
    label raises IndexError (46,70; here before any other error of the loop). *)
Definition jordan_wigner (s : OS) : res (GC * OS) :=
  match os_type s with
  | Fermion => Err ValueError
  | _ => if (length (os_labels s) <? length (os_ops s)) then Err IndexError else
  match os_type s with
  | Pauli => let! e := os_new [] [] Majorana in
             jw_loop jw_pauli (combine (os_ops s) (os_labels s)) (pval (os_pref s)) e
  | Majorana => let! e := os_new [] [] Pauli in
             jw_loop jw_majorana (combine (os_ops s) (os_labels s)) (pval (os_pref s)) e
  | Fermion => Err ValueError
  end
  end.

(* --------------------------------------------- _convert_majorana_string *)

(** conversion.py:92-102: [_fermion_string_from_cdag_c_labels]. *)
Definition fermion_string_from (p : pref) (cdag c : list Z) : res OS :=
  os_make (repeat OCDag (length cdag) ++ repeat OC (length c)) (cdag ++ rev c) Fermion p.

(** conversion.py:146-172: the factor, the entries of [fermion_labels] and the number of
    creation operators contributed by one operator, for term choice 0 (false) or 1 (true). *)
Definition maj_letter (large : Z) (o : op) (l : Z) (choice : bool) : GC * list Z * nat :=
  match o, choice with
  | OA, false => (g1, [(- l + large)%Z], 0)
  | OA, true => (g1, [l], 1)
  | OB, false => (gopp gi, [(- l + large)%Z], 0)
  | OB, true => (gi, [l], 1)
  | OD, false => (gmul gm1 g2, [l; (- l + large)%Z], 1)
  | OD, true => (g1, [], 0)
  | _, _ => (g1, [], 0)
  end.

(** conversion.py:138-172: the coefficient, [fermion_labels] and [num_cdags] of one list of
    term choices. *)
Fixpoint maj_expand (large : Z) (w : list (op * Z)) (t : list bool) (coeff : GC) : GC * list Z * nat :=
  match w, t with
  | (o, l) :: w', b :: t' =>
      let '(z, ls, n) := maj_letter large o l b in
      let '(c, r, m) := maj_expand large w' t' (gmul coeff z) in
      (c, ls ++ r, n + m)
  | _, _ => (coeff, [], 0)
  end.

(** conversion.py:178-205: ordering the operators and adding the term; [None] is
    [continue]. *)
Definition maj_emit (large : Z) (coeff : GC) (flabels : list Z) (ncd : nat) : res (option (GC * OS)) :=
  let '(sorted, sg) := sort_sign flabels in
  let coeff := gmul coeff (gz sg) in
  let cdag := firstn ncd sorted in
  let c := rev (map (fun x => (large - x)%Z) (skipn ncd sorted)) in
  let lex := compare cdag c in
  if (lex <? 0)%Z then Ok None
  else if (lex =? 0)%Z then
    let! s := fermion_string_from p_one cdag c in Ok (Some (coeff, s))
  else if abs_ltb (im_part coeff) eps52 then
    let! s := fermion_string_from p_one cdag c in Ok (Some (re_part coeff, s))
  else if abs_ltb (re_part coeff) eps52 then
    let! s := fermion_string_from p_j cdag c in Ok (Some (re_part (gdiv coeff gi), s))
  else Err ValueError.

(** [len(l) == 0] *)
Definition is_nil {T} (l : list T) : bool := match l with [] => true | _ => false end.

(** conversion.py:174-205: one term choice; the identity is skipped unless requested. *)
Definition maj_term (incl : bool) (large : Z) (w : list (op * Z)) (p : GC) (t : list bool) : res (option (GC * OS)) :=
  let '(coeff, flabels, ncd) := maj_expand large w t p in
  if is_nil flabels && negb incl then Ok None else maj_emit large coeff flabels ncd.

(** The entries that are not [continue]d. *)
Fixpoint somes {T} (l : list (option T)) : list T :=
  match l with
  | [] => []
  | Some x :: r => x :: somes r
  | None :: r => somes r
  end.

(** [itertools.product([0,1], repeat=n)] (conversion.py:137,253). *)
Definition choices (n : nat) : list (list bool) := tuples n [false; true].

(** [Operator(coeffs, op_strings)] from the collected terms. *)
Definition op_of_terms (ts : list (GC * OS)) (ty : option optype) : res Operator :=
  op_new (map fst ts) (map snd ts) ty.

(** conversion.py:104-207: [_convert_majorana_string].  [np.max] of no labels raises
    ValueError (124), a missing label IndexError (147). *)
Definition convert_majorana_string (s : OS) (incl : bool) : res Operator :=
  match os_type s with
  | Majorana =>
      match os_ops s with
      | [] =>
          if incl then let! e := os_new [] [] Fermion in op_of_terms [(g1, e)] None
          else op_of_terms [] (Some Fermion)
      | _ =>
          let! mx := zmax (os_labels s) in
          let large := (4 * Z.max 1 mx + 4)%Z in
          if (length (os_labels s) <? length (os_ops s)) then Err IndexError
          else
            let w := combine (os_ops s) (os_labels s) in
            let! ts := rmap (maj_term incl large w (pval (os_pref s))) (choices (length (os_ops s))) in
            op_of_terms (somes ts) None
      end
  | _ => Err ValueError
  end.

(* ---------------------------------------------- _convert_fermion_string *)

(** conversion.py:220-228: the entries of [label_types]. *)
Inductive ftype : Set := FCDag | FC | FCDagC.
Definition ftype_eqb (a b : ftype) : bool :=
  match a, b with FCDag, FCDag | FC, FC | FCDagC, FCDagC => true | _, _ => false end.
(** conversion.py:221-228. *)
Definition label_types (cdag c : list Z) : list (Z * ftype) :=
  let d := fold_left (fun d l => dset Z.eqb d l FCDag) cdag [] in
  fold_left (fun d l => match dget Z.eqb d l with
                        | Some _ => dset Z.eqb d l FCDagC
                        | None => dset Z.eqb d l FC
                        end) c d.

(** conversion.py:238-244: (operator, label) pairs, each once. *)
Fixpoint ferm_ops (types : list (Z * ftype)) (labels : list Z) (ops : list (ftype * Z)) : res (list (ftype * Z)) :=
  match labels with
  | [] => Ok ops
  | l :: r =>
      let! f := of_option KeyError (dget Z.eqb types l) in
      if existsb (fun p => ftype_eqb (fst p) f && Z.eqb (snd p) l) ops then ferm_ops types r ops
      else ferm_ops types r (ops ++ [(f, l)])
  end.

(** conversion.py:262-285: factor and operators contributed by one pair. *)
Definition ferm_letter (f : ftype) (l : Z) (choice : bool) : GC * list (op * Z) :=
  match f, choice with
  | FCDag, false => (half, [(OA, l)])
  | FCDag, true => (gopp (gmul half gi), [(OB, l)])
  | FC, false => (half, [(OA, l)])
  | FC, true => (gmul half gi, [(OB, l)])
  | FCDagC, false => (gopp half, [(OD, l)])
  | FCDagC, true => (half, [])
  end.
(** conversion.py:255-285: coefficient and operators of one list of term choices. *)
Fixpoint ferm_expand (ops : list (ftype * Z)) (t : list bool) (coeff : GC) : GC * list (op * Z) :=
  match ops, t with
  | (f, l) :: r, b :: t' =>
      let '(z, w) := ferm_letter f l b in
      let '(c, v) := ferm_expand r t' (gmul coeff z) in
      (c, w ++ v)
  | _, _ => (coeff, [])
  end.

(** conversion.py:287-308: one term choice. *)
Definition ferm_term (incl herm : bool) (ops : list (ftype * Z)) (sg : Z) (p : GC) (t : list bool) : res (option (GC * OS)) :=
  let '(coeff, w) := ferm_expand ops t g1 in
  if is_nil w && negb incl then Ok None else
  let! m := os_new (map fst w) (map snd w) Majorana in
  let coeff := gmul (gmul (gdiv coeff (pval (os_pref m))) (gz sg)) p in
  if herm then
    (if abs_gtb (im_part coeff) eps52 then Ok None else Ok (Some (gmul coeff g2, m)))
  else Ok (Some (coeff, m)).

(** conversion.py:215-217: the labels of the operators named [o]. *)
Definition labels_of (o : op) (s : OS) : list Z :=
  map snd (filter (fun p => op_eqb (fst p) o) (combine (os_ops s) (os_labels s))).

(** conversion.py:210-310: [_convert_fermion_string]. *)
Definition convert_fermion_string (s : OS) (incl : bool) : res Operator :=
  let cdag := labels_of OCDag s in
  let c := rev (labels_of OC s) in
  let types := label_types cdag c in
  let '(sorted, sg) := sort_sign (cdag ++ rev c) in
  let! ops := ferm_ops types sorted [] in
  let! ts := rmap (ferm_term incl (negb (list_eqb Z.eqb cdag c)) ops sg (pval (os_pref s))) (choices (length ops)) in
  op_of_terms (somes ts) None.

(* ---------------------------------------------------------------- convert *)

(** conversion.py:312-346: [_convert_operator_string]. *)
Definition convert_string (s : OS) (ty : optype) (incl : bool) : res Operator :=
  if optype_eqb (os_type s) ty then op_of_terms [(g1, s)] None else
  match os_type s, ty with
  | Majorana, Fermion => convert_majorana_string s incl
  | Fermion, Majorana => convert_fermion_string s incl
  | Majorana, Pauli => let! (k, t) := jordan_wigner s in op_of_terms [(k, t)] (Some Pauli)
  | Pauli, Majorana => let! (k, t) := jordan_wigner s in op_of_terms [(k, t)] (Some Majorana)
  | Fermion, Pauli =>
      let! m := convert_fermion_string s incl in
      let! ts := rmap (fun t => let! (k, u) := jordan_wigner (snd t) in Ok (gmul k (fst t), u)) (op_terms m) in
      op_of_terms ts (Some Pauli)
  | Pauli, Fermion =>
      let! (k, m) := jordan_wigner s in
      let! f := convert_majorana_string m incl in
      op_scale k f
  | _, _ => Err NotImplementedError
  end.

(** conversion.py:348-364: [_convert_operator].  [operator.coeffs[ind]] (355) raises
    IndexError when there are fewer coefficients than strings. *)
Definition convert_operator (o : Operator) (ty : optype) (incl : bool) : res Operator :=
  let! z := op_new [] [] (Some ty) in
  let! r := rfold (fun acc t =>
      let! n := convert_string (snd t) ty incl in
      let! m := op_scale (fst t) n in
      op_iadd acc m) (op_terms o) z in
  if (length (o_coeffs o) <? op_len o) then Err IndexError else Ok r.

(** conversion.py:366-416: [convert], its first argument an OperatorString, an Operator or
    anything else. *)
Inductive convert_arg : Set := CString (s : OS) | COperator (o : Operator) | COther.
Definition convert (a : convert_arg) (ty : optype) (incl : bool) : res Operator :=
  match a with
  | CString s => convert_string s ty incl
  | COperator o => convert_operator o ty incl
  | COther => Err TypeError
  end.

(** conversion.py:481-491: the entries of one column. *)
Definition conv_column (tol : Qc) (to : Basis) (j : nat) (o : Operator) : res (list (nat * nat * GC)) :=
  rmap (fun t => let! i := basis_index to (snd t) in Ok (i, j, fst t))
       (filter (fun t => abs_gtb (fst t) tol) (op_terms o)).
Fixpoint conv_columns (tol : Qc) (ty : optype) (to : Basis) (j : nat) (l : list OS) : res (list (nat * nat * GC)) :=
  match l with
  | [] => Ok []
  | s :: r =>
      let! o := convert_string s ty false in
      let! ts := conv_column tol to j o in
      let! us := conv_columns tol ty to (S j) r in
      Ok (ts ++ us)
  end.

(** conversion.py:418-498: [conversion_matrix] (the warning at 469 has no effect).  For an
    empty [basis_from] line 472 calls [csr_matrix] without its required first argument,
    which raises TypeError. *)
Definition conversion_matrix (tol : Qc) (from to : Basis) : res smat :=
  match b_strings from with
  | [] => Err TypeError
  | l =>
      match b_strings to with
      | [] => Err IndexError
      | t :: _ =>
          let! ts := conv_columns tol (os_type t) to 0 l in
          sm_make (basis_len to) (basis_len from) ts
      end
  end.
