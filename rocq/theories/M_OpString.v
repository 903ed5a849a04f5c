(** Model of qosy/operatorstring.py and qosy/config.py. *)
From Coq Require Import String Ascii List ZArith Bool Arith.
From Verif Require Import GC Exn PyStr.
Import ListNotations.
Local Open Scope string_scope.

(** config.py:4-7, the names of orbital operators.  [OOther] stands for any other text:
    the constructor accepts arbitrary names. *)
Inductive op : Set := OX | OY | OZ | OA | OB | OD | OCDag | OC | OOther (s : string).

(** The text of an operator name (config.py:4-6). *)
Definition op_name (o : op) : string :=
  match o with
  | OX => "X" | OY => "Y" | OZ => "Z" | OA => "A" | OB => "B" | OD => "D"
  | OCDag => "CDag" | OC => "C" | OOther s => s
  end.

(** Reading an operator name (config.py:4-7). *)
Definition op_of_string (s : string) : op :=
  if String.eqb s "X" then OX else if String.eqb s "Y" then OY else if String.eqb s "Z" then OZ
  else if String.eqb s "A" then OA else if String.eqb s "B" then OB else if String.eqb s "D" then OD
  else if String.eqb s "CDag" then OCDag else if String.eqb s "C" then OC else OOther s.

(** Comparison of operator names. *)
Definition op_eqb (a b : op) : bool :=
  match a, b with
  | OX, OX | OY, OY | OZ, OZ | OA, OA | OB, OB | OD, OD | OCDag, OCDag | OC, OC => true
  | OOther s, OOther t => String.eqb s t
  | _, _ => false
  end.

(** The op_type strings 'Pauli', 'Majorana', 'Fermion' (operatorstring.py:105-107).
    Other texts are not modelled. *)
Inductive optype : Set := Pauli | Majorana | Fermion.
Definition optype_eqb (a b : optype) : bool :=
  match a, b with
  | Pauli, Pauli | Majorana, Majorana | Fermion, Fermion => true
  | _, _ => false
  end.

(** config.py:4-7: membership in PAULI_OPS, MAJORANA_OPS, FERMION_OPS, VALID_OPS. *)
Definition is_pauli_op (o : op) : bool := match o with OX | OY | OZ => true | _ => false end.
Definition is_majorana_op (o : op) : bool := match o with OA | OB | OD => true | _ => false end.
Definition is_fermion_op (o : op) : bool := match o with OCDag | OC => true | _ => false end.
Definition is_valid_op (o : op) : bool := is_pauli_op o || is_majorana_op o || is_fermion_op o.
Definition is_op_of (ty : optype) (o : op) : bool :=
  match ty with Pauli => is_pauli_op o | Majorana => is_majorana_op o | Fermion => is_fermion_op o end.
(** operatorstring.py:140: the operator is 'A' or 'B'. *)
Definition is_ab (o : op) : bool := match o with OA | OB => true | _ => false end.

(** config.py:12-21: PRODUCT_DICT; [None] is a missing key. *)
Definition product_dict (a b : op) : option (GC * op) :=
  match a, b with
  | OX, OY => Some (gi, OZ) | OY, OX => Some (gopp gi, OZ)
  | OX, OZ => Some (gopp gi, OY) | OZ, OX => Some (gi, OY)
  | OY, OZ => Some (gi, OX) | OZ, OY => Some (gopp gi, OX)
  | OA, OB => Some (gi, OD) | OB, OA => Some (gopp gi, OD)
  | OA, OD => Some (gopp gi, OB) | OD, OA => Some (gi, OB)
  | OB, OD => Some (gi, OA) | OD, OB => Some (gopp gi, OA)
  | _, _ => None
  end.

(** A Python number used as prefactor: its value and its [str()] text
    (operatorstring.py:108,155).  [1.0], [1j] and [complex('1')]. *)
Record pref : Set := mkPref { pval : GC; ptext : string }.
Definition p_one : pref := mkPref g1 "1.0".
Definition p_j : pref := mkPref gi "1j".
Definition p_cplx1 : pref := mkPref g1 "(1+0j)".

(** operatorstring.py:121-128: the stored attributes of an OperatorString.  The derived
    attributes [_indices_orbital_labels], [_labels_ab_operators] and [name] are functions
    of these below. *)
Record OS : Set := mkOS { os_ops : list op; os_labels : list Z; os_type : optype; os_pref : pref }.

(** operatorstring.py:132-134: [_indices_orbital_labels]; later labels overwrite earlier
    ones, so the last index with the label is found. *)
Fixpoint label_index_from (k : nat) (labels : list Z) (l : Z) : option nat :=
  match labels with
  | [] => None
  | x :: r =>
      match label_index_from (S k) r l with
      | Some j => Some j
      | None => if Z.eqb x l then Some k else None
      end
  end.
Definition label_index (s : OS) (l : Z) : option nat := label_index_from 0 (os_labels s) l.

(** operatorstring.py:140: [_labels_ab_operators] (for equally long lists). *)
Definition labels_ab (ops : list op) (labels : list Z) : list Z :=
  map snd (filter (fun p => is_ab (fst p)) (combine ops labels)).

(** operatorstring.py:141-148: the automatic prefactor of a Majorana string. *)
Definition majorana_pref (ops : list op) (labels : list Z) (p : pref) : pref :=
  let n := length (labels_ab ops labels) in
  if Nat.odd (n * (n - 1) / 2) then p_j else p.

(** operatorstring.py:150-153: the prefactor check. *)
Definition pref_ok (ty : optype) (p : pref) : bool :=
  match ty with
  | Pauli => gc_eqb (pval p) g1
  | Majorana | Fermion => gc_eqb (pval p) g1 || gc_eqb (pval p) gi
  end.

(** operatorstring.py:94-159: the constructor.  Line 126 builds a ValueError for lists of
    different length but does not raise it, so there is no such check here.  For Majorana
    strings line 140 indexes the operators by the label positions, which raises IndexError
    if there are more labels than operators. *)
Definition os_make (ops : list op) (labels : list Z) (ty : optype) (p : pref) : res OS :=
  match ty with
  | Majorana =>
      if (length ops <? length labels)%nat then Err IndexError
      else let p' := majorana_pref ops labels p in
           if pref_ok ty p' then Ok (mkOS ops labels ty p') else Err ValueError
  | _ => if pref_ok ty p then Ok (mkOS ops labels ty p) else Err ValueError
  end.

(** The constructor with the default prefactor 1.0 (operatorstring.py:94). *)
Definition os_new (ops : list op) (labels : list Z) (ty : optype) : res OS :=
  os_make ops labels ty p_one.

(** operatorstring.py:155-159: the [name] attribute, also returned by [__str__] (177). *)
Fixpoint name_body (w : list (op * Z)) : string :=
  match w with
  | [] => ""
  | (o, l) :: r => op_name o ++ " " ++ string_of_Z l ++ " " ++ name_body r
  end.
Definition os_name (s : OS) : string :=
  ptext (os_pref s) ++ " " ++ name_body (combine (os_ops s) (os_labels s)).

Fixpoint list_eqb {A} (eqb : A -> A -> bool) (l m : list A) : bool :=
  match l, m with
  | [], [] => true
  | a :: l', b :: m' => eqb a b && list_eqb eqb l' m'
  | _, _ => false
  end.

(** operatorstring.py:212: [__eq__].  The prefactor is not compared.  Label arrays of
    different length are modelled as unequal (numpy may broadcast or warn there). *)
Definition os_eqb (s t : OS) : bool :=
  list_eqb op_eqb (os_ops s) (os_ops t) && list_eqb Z.eqb (os_labels s) (os_labels t)
  && optype_eqb (os_type s) (os_type t).

(** operatorstring.py:179-188 with 190-214: the test a dict or set performs, equal hash
    and [==].  The hash is modelled as the hashed text. *)
Definition os_hash (s : OS) : string := os_name s.
Definition os_key (s t : OS) : bool := String.eqb (os_hash s) (os_hash t) && os_eqb s t.

(** operatorstring.py:227-296: [opstring]. *)
Definition is_identity_token (t : string) : bool :=
  String.eqb t "1" || String.eqb t "1.0" || String.eqb t "I".
Definition pref_of_token (t : string) : option pref :=
  if String.eqb t "1" || String.eqb t "1.0" then Some p_cplx1
  else if String.eqb t "1j" then Some p_j else None.

(** operatorstring.py:284-291: the type deduced from the last operator. *)
Definition deduce_type (ops : list op) : res optype :=
  match rev ops with
  | [] => Err IndexError
  | o :: _ =>
      if is_pauli_op o then Ok Pauli else if is_majorana_op o then Ok Majorana
      else if is_fermion_op o then Ok Fermion else Err ValueError
  end.

(** operatorstring.py:275,279: [np.array(tokens, dtype=int)]. *)
Definition parse_labels (ts : list string) : res (list Z) :=
  rmap (fun t => of_option ValueError (Z_of_string t)) ts.

(** operatorstring.py:284-296: common tail of both branches. *)
Definition opstring_tail (otoks ltoks : list string) (p : pref) (ty : option optype) : res OS :=
  let! labels := parse_labels ltoks in
  let ops := map op_of_string otoks in
  let! dt := deduce_type ops in
  match ty with
  | Some t => if optype_eqb dt t then os_make ops labels dt p else Err ValueError
  | None => os_make ops labels dt p
  end.

Definition opstring (name : string) (ty : option optype) : res OS :=
  let toks := tokens name in
  let identity := match ty with None => Err ValueError | Some t => os_new [] [] t end in
  match toks with
  | [] => identity
  | t0 :: rest =>
      if match rest with [] => is_identity_token t0 | _ => false end then identity
      else if is_valid_op (op_of_string t0)
      then opstring_tail (evens toks) (odds toks) p_one ty
      else match pref_of_token t0 with
           | None => Err ValueError
           | Some p =>
               match rest with
               | [] => Err IndexError
               | t1 :: _ =>
                   if is_valid_op (op_of_string t1)
                   then opstring_tail (evens rest) (odds rest) p ty
                   else Err ValueError
               end
           end
  end.
