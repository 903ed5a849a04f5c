(** A concrete injective text for positions, used in the examples. *)
From Coq Require Import String Ascii List ZArith Bool QArith Qcanon Eqdep_dec.
Import ListNotations.
Local Open Scope string_scope.

Fixpoint enc_pos (p : positive) (rest : string) : string :=
  match p with
  | xH => String "." rest
  | xO q => String "0" (enc_pos q rest)
  | xI q => String "1" (enc_pos q rest)
  end.
Definition enc_Z (z : Z) (rest : string) : string :=
  match z with
  | Z0 => String "=" rest
  | Zpos p => String "+" (enc_pos p rest)
  | Zneg p => String "-" (enc_pos p rest)
  end.
Definition enc_Qc (q : Qc) (rest : string) : string := enc_Z (Qnum (this q)) (enc_pos (Qden (this q)) rest).
Fixpoint show_exact (l : list Qc) : string :=
  match l with [] => "" | q :: r => String "," (enc_Qc q (show_exact r)) end.

Lemma enc_pos_inj p : forall q r s, enc_pos p r = enc_pos q s -> p = q /\ r = s.
Proof.
  induction p as [p IH|p IH|]; intros [q|q|] r s H; simpl in H; try discriminate; injection H as H; auto.
  - destruct (IH _ _ _ H); subst; auto.
  - destruct (IH _ _ _ H); subst; auto.
Qed.
Lemma enc_Z_inj x y r s : enc_Z x r = enc_Z y s -> x = y /\ r = s.
Proof.
  destruct x as [|p|p], y as [|q|q]; simpl; intros H; try discriminate; injection H as H; auto;
    destruct (enc_pos_inj _ _ _ _ H); subst; auto.
Qed.
Lemma enc_Qc_inj x y r s : enc_Qc x r = enc_Qc y s -> x = y /\ r = s.
Proof.
  unfold enc_Qc. intros H. apply enc_Z_inj in H. destruct H as [H1 H]. apply enc_pos_inj in H. destruct H as [H2 H3].
  split; auto. apply Qc_is_canon. destruct x as [[a b] ?], y as [[c d] ?]. simpl in *. subst. reflexivity.
Qed.
Lemma show_exact_inj l : forall m, show_exact l = show_exact m -> l = m.
Proof.
  induction l as [|x l IH]; intros [|y m] H; simpl in H; try discriminate; auto.
  injection H as H. apply enc_Qc_inj in H. destruct H as [-> H]. f_equal; auto.
Qed.
