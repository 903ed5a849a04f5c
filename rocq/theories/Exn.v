(** Python exceptions as values. *)

Inductive exn : Set :=
| ValueError | KeyError | IndexError | TypeError | AttributeError
| NameError | NotImplementedError | ZeroDivisionError | RecursionError.

(** Result of a Python call: a value or a raised exception. *)
Inductive res (A : Type) : Type :=
| Ok : A -> res A
| Err : exn -> res A.
Arguments Ok {A} _.
Arguments Err {A} _.

Definition rbind {A B} (x : res A) (f : A -> res B) : res B :=
  match x with Ok a => f a | Err e => Err e end.

Notation "'let!' x := a 'in' b" := (rbind a (fun x => b))
  (at level 200, x pattern, a at level 100, b at level 200).

(** Python list comprehension / loop over a list where each step may raise. *)
Fixpoint rmap {A B} (f : A -> res B) (l : list A) : res (list B) :=
  match l with
  | nil => Ok nil
  | cons a l' => let! b := f a in let! bs := rmap f l' in Ok (cons b bs)
  end.

(** Left fold where each step may raise. *)
Fixpoint rfold {A S} (f : S -> A -> res S) (l : list A) (s : S) : res S :=
  match l with
  | nil => Ok s
  | cons a l' => let! s' := f s a in rfold f l' s'
  end.

(** Turn a failed lookup into an exception. *)
Definition of_option {A} (e : exn) (o : option A) : res A :=
  match o with Some a => Ok a | None => Err e end.
