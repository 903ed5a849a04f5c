(** Printing and parsing of operator strings. *)
From Coq Require Import Decimal DecimalString DecimalFacts DecimalZ.
From Coq Require Import String Ascii List ZArith Bool Arith Lia.
From Verif Require Import GC Exn PyStr M_OpString S_Den L_StrAlg.
Import ListNotations.
Local Open Scope string_scope.

Fixpoint no_space (s : string) : bool :=
  match s with "" => true | String c r => negb (is_space c) && no_space r end.

Lemma append_nil_r s : s ++ "" = s.
Proof. induction s; simpl; congruence. Qed.
Lemma append_assoc' a b c : (a ++ b) ++ c = a ++ (b ++ c).
Proof. induction a; simpl; congruence. Qed.

Lemma append_nonnil a b : b <> "" -> a ++ b <> "".
Proof. destruct a; simpl; [auto | discriminate]. Qed.

Lemma eqb_nil s : s <> "" -> String.eqb s "" = false.
Proof. destruct s; [congruence | reflexivity]. Qed.

Lemma split_word w : forall cur rest, no_space w = true -> cur ++ w <> "" ->
  split_ws cur (w ++ String " " rest) = (cur ++ w) :: split_ws "" rest.
Proof.
  induction w as [|c w IH]; intros cur rest Hw Hne; simpl.
  - rewrite append_nil_r in *. rewrite eqb_nil; auto.
  - simpl in Hw. apply andb_true_iff in Hw. destruct Hw as [Hc Hw]. apply negb_true_iff in Hc. rewrite Hc.
    rewrite IH; auto.
    + unfold snoc. rewrite append_assoc'. reflexivity.
    + unfold snoc. rewrite append_assoc'. auto.
Qed.

Lemma tokens_word w rest : no_space w = true -> w <> "" -> tokens (w ++ " " ++ rest) = w :: tokens rest.
Proof. intros. unfold tokens. simpl. rewrite split_word; auto. Qed.

Lemma no_space_uint d : no_space (NilEmpty.string_of_uint d) = true.
Proof. induction d; simpl; auto. Qed.

Lemma no_space_Z z : no_space (string_of_Z z) = true.
Proof.
  unfold string_of_Z. destruct (Z.to_int z) as [d|d]; unfold NilZero.string_of_int, NilZero.string_of_uint;
    destruct d; simpl; auto using no_space_uint.
Qed.

Lemma string_of_Z_nonnil z : string_of_Z z <> "".
Proof.
  unfold string_of_Z. destruct (Z.to_int z) as [d|d]; unfold NilZero.string_of_int, NilZero.string_of_uint;
    destruct d; simpl; discriminate.
Qed.

Lemma Z_to_int_shape z : Z.to_int z <> Pos Nil /\ Z.to_int z <> Neg Nil.
Proof.
  destruct z; simpl; split; try discriminate; intros H; injection H as H.
  - apply (DecimalPos.Unsigned.to_uint_nonnil p). auto.
  - apply (DecimalPos.Unsigned.to_uint_nonnil p). auto.
Qed.

Lemma parse_print_Z z : Z_of_string (string_of_Z z) = Some z.
Proof.
  destruct (Z_to_int_shape z) as [H1 H2].
  assert (E : NilZero.int_of_string (string_of_Z z) = Some (Z.to_int z)) by (apply NilZero.isi; auto).
  assert (R : option_map Z.of_int (NilZero.int_of_string (string_of_Z z)) = Some z).
  { rewrite E. simpl. rewrite DecimalZ.of_to. reflexivity. }
  unfold Z_of_string. destruct (string_of_Z z) as [|c r] eqn:Es; auto.
  destruct (ascii_dec c "+") as [->|Hc].
  - (* a printed integer never starts with a plus sign *)
    exfalso. clear - Es. unfold string_of_Z in Es.
    destruct (Z.to_int z) as [d|d]; unfold NilZero.string_of_int, NilZero.string_of_uint in Es;
      destruct d; simpl in Es; discriminate.
  - destruct c as [[] [] [] [] [] [] [] []]; auto; exfalso; apply Hc; reflexivity.
Qed.

Lemma op_roundtrip o : is_valid_op o = true -> op_of_string (op_name o) = o.
Proof. destruct o; simpl; try discriminate; reflexivity. Qed.
Lemma op_name_word o : is_valid_op o = true -> no_space (op_name o) = true /\ op_name o <> "".
Proof. destruct o; simpl; try discriminate; split; auto; discriminate. Qed.

Fixpoint toks (w : list (op * Z)) : list string :=
  match w with [] => [] | (o, l) :: r => op_name o :: string_of_Z l :: toks r end.

Lemma tokens_body w : (forall p, In p w -> is_valid_op (fst p) = true) -> tokens (name_body w) = toks w.
Proof.
  induction w as [|[o l] w IH]; intros H; [reflexivity|].
  cbn [name_body toks]. destruct (op_name_word o) as [H1 H2]; [apply (H (o, l)); left; auto|].
  rewrite tokens_word by auto. f_equal.
  rewrite tokens_word by auto using no_space_Z, string_of_Z_nonnil. f_equal.
  apply IH. intros; apply H; right; auto.
Qed.

Lemma evens_toks w : evens (toks w) = map (fun p => op_name (fst p)) w.
Proof. induction w as [|[o l] w IH]; simpl; congruence. Qed.
Lemma odds_toks w : odds (toks w) = map (fun p => string_of_Z (snd p)) w.
Proof.
  unfold odds. induction w as [|[o l] w IH]; simpl in *; auto.
  rewrite <- IH. destruct w as [|[p m] w]; simpl; auto.
Qed.

Lemma parse_labels_toks (ls : list Z) : parse_labels (map string_of_Z ls) = Ok ls.
Proof.
  induction ls as [|l ls IH]; [reflexivity|]. unfold parse_labels in *. simpl. rewrite parse_print_Z. simpl.
  rewrite IH. reflexivity.
Qed.

Lemma deduce_ok ty ops : ops <> [] -> (forall o, In o ops -> is_op_of ty o = true) -> deduce_type ops = Ok ty.
Proof.
  intros Hne Hv. unfold deduce_type. destruct (rev ops) as [|o r] eqn:E.
  - apply (f_equal (@rev op)) in E. rewrite rev_involutive in E. simpl in E. congruence.
  - assert (Ho : is_op_of ty o = true) by (apply Hv, in_rev; rewrite E; left; auto).
    destruct ty, o; simpl in *; try discriminate; reflexivity.
Qed.

Theorem parse_print ty ops labels p s :
  (p = p_one \/ p = p_j) -> length ops = length labels -> ops <> [] ->
  (forall o, In o ops -> is_op_of ty o = true) ->
  os_make ops labels ty p = Ok s ->
  exists s', opstring (os_name s) None = Ok s' /\
             os_ops s' = os_ops s /\ os_labels s' = os_labels s /\ os_type s' = os_type s /\
             pval (os_pref s') = pval (os_pref s).
Proof.
  intros Hp Hl Hne Hv Hs.
  assert (Hf : os_ops s = ops /\ os_labels s = labels /\ os_type s = ty /\
               (os_pref s = p_one \/ os_pref s = p_j) /\ os_make ops labels ty (os_pref s) = Ok s).
  { unfold os_make in Hs |- *. destruct ty.
    - destruct (pref_ok Pauli p) eqn:E; [|discriminate]. injection Hs as <-. cbn [os_ops os_labels os_type os_pref]. rewrite E. tauto.
    - destruct (length ops <? length labels)%nat; [discriminate|].
      destruct (pref_ok Majorana (majorana_pref ops labels p)) eqn:E; [|discriminate]. injection Hs as <-. cbn [os_ops os_labels os_type os_pref].
      assert (Em : majorana_pref ops labels (majorana_pref ops labels p) = majorana_pref ops labels p).
      { unfold majorana_pref. destruct (Nat.odd _); auto. }
      rewrite Em, E. repeat split; auto. unfold majorana_pref. destruct (Nat.odd _); auto.
    - destruct (pref_ok Fermion p) eqn:E; [|discriminate]. injection Hs as <-. cbn [os_ops os_labels os_type os_pref]. rewrite E. tauto. }
  destruct Hf as (E1 & E2 & E3 & Ep & Em).
  unfold os_name. rewrite E1, E2.
  set (w := combine ops labels).
  assert (Hw : forall q, In q w -> is_valid_op (fst q) = true).
  { intros [o l] H. apply in_combine_l in H. apply Hv in H. simpl. unfold is_valid_op. destruct ty; simpl in H; rewrite H, ?orb_true_r; auto. }
  assert (Ht : tokens (ptext (os_pref s) ++ " " ++ name_body w) = ptext (os_pref s) :: toks w).
  { rewrite tokens_word; [rewrite tokens_body; auto | |]; destruct Ep as [-> | ->]; simpl; auto; discriminate. }
  assert (Hex : exists o l w', w = (o, l) :: w' /\ is_valid_op o = true).
  { unfold w in *. destruct ops as [|o ops], labels as [|l labels]; try discriminate; [congruence|].
    exists o, l, (combine ops labels). split; auto. apply (Hw (o, l)). left; auto. }
  destruct Hex as (o & l & w' & Ew & Ho).
  unfold opstring. rewrite Ht.
  assert (Hne2 : toks w <> []) by (rewrite Ew; discriminate).
  destruct (toks w) as [|t1 tr] eqn:Etk; [congruence|].
  assert (t1 = op_name o) as -> by (rewrite Ew in Etk; injection Etk; auto).
  assert (Hnv : is_valid_op (op_of_string (ptext (os_pref s))) = false) by (destruct Ep as [-> | ->]; reflexivity).
  rewrite Hnv.
  assert (Hpt : exists p', pref_of_token (ptext (os_pref s)) = Some p' /\ pval p' = pval (os_pref s)).
  { destruct Ep as [-> | ->]; [exists p_cplx1 | exists p_j]; split; reflexivity. }
  destruct Hpt as (p' & -> & Hpv).
  rewrite op_roundtrip, Ho by auto. rewrite <- Etk.
  unfold opstring_tail. rewrite evens_toks, odds_toks.
  assert (Eo : map op_of_string (map (fun p => op_name (fst p)) w) = ops).
  { rewrite map_map. transitivity (map fst w); [|apply map_fst_combine; auto].
    apply map_ext_in. intros q Hq. apply op_roundtrip; auto. }
  assert (El : map (fun p => string_of_Z (snd p)) w = map string_of_Z labels).
  { rewrite <- (map_snd_combine ops labels) by auto. fold w. rewrite map_map. reflexivity. }
  rewrite El, parse_labels_toks. cbn [rbind]. rewrite Eo, (deduce_ok ty) by auto. cbn [rbind].
  (* same prefactor value gives the same acceptance *)
  unfold os_make in Em |- *. destruct ty.
  - unfold pref_ok in *. rewrite Hpv. destruct (gc_eqb (pval (os_pref s)) g1); [|discriminate].
    eexists; split; [reflexivity|]. rewrite ?E1, ?E2, ?E3. simpl. auto.
  - destruct (length ops <? length labels)%nat; [discriminate|].
    unfold majorana_pref in *. destruct (Nat.odd _).
    + destruct (pref_ok Majorana p_j); [|discriminate]. eexists; split; [reflexivity|].
      assert (Es : s = mkOS ops labels Majorana p_j) by congruence. rewrite Es. auto.
    + unfold pref_ok in *. rewrite Hpv. destruct (_ || _)%bool; [|discriminate].
      eexists; split; [reflexivity|]. rewrite ?E1, ?E2, ?E3. simpl. auto.
  - unfold pref_ok in *. rewrite Hpv. destruct (_ || _)%bool; [|discriminate].
    eexists; split; [reflexivity|]. rewrite ?E1, ?E2, ?E3. simpl. auto.
Qed.
