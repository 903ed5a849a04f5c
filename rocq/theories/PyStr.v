(** Text helpers used by the model: Python [str.split], [int(...)], [str(int)]. *)
From Coq Require Import String Ascii List ZArith Bool.
From Coq Require Import Decimal DecimalString DecimalZ.
Import ListNotations.
Local Open Scope string_scope.

(** ASCII characters Python's [str.split()] treats as whitespace. *)
Definition is_space (c : ascii) : bool :=
  let n := nat_of_ascii c in
  ((9 <=? n)%nat && (n <=? 13)%nat) || ((28 <=? n)%nat && (n <=? 32)%nat).

Definition snoc (s : string) (c : ascii) : string := s ++ String c "".

(** [s.split()]: tokens separated by runs of whitespace ([cur] is the token being
    read).  [s.strip().split()] is the same list. *)
Fixpoint split_ws (cur : string) (s : string) : list string :=
  match s with
  | "" => if (cur =? "")%string then [] else [cur]
  | String c s' =>
      if is_space c
      then if (cur =? "")%string then split_ws "" s' else cur :: split_ws "" s'
      else split_ws (snoc cur c) s'
  end.
Definition tokens (s : string) : list string := split_ws "" s.

(** [str(n)] for an integer. *)
Definition string_of_Z (z : Z) : string := NilZero.string_of_int (Z.to_int z).

(** [int(s)] for a decimal literal with optional sign (underscores, non-ASCII digits
    and surrounding blanks are not modelled). *)
Definition Z_of_string (s : string) : option Z :=
  match s with
  | String "+" s' => option_map Z.of_uint (NilZero.uint_of_string s')
  | _ => option_map Z.of_int (NilZero.int_of_string s)
  end.

(** Python slices [l[0::2]] and [l[1::2]]. *)
Fixpoint evens {A} (l : list A) : list A :=
  match l with
  | [] => []
  | [a] => [a]
  | a :: _ :: l' => a :: evens l'
  end.
Definition odds {A} (l : list A) : list A := evens (tl l).
