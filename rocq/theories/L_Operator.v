(** Lemmas on Operators: arithmetic, remove_zeros, to_vector. *)
From Coq Require Import String List ZArith Bool Arith Lia.
From Verif Require Import GC Exn PyStr M_OpString M_Basis S_Alg S_Den S_Basis L_StrAlg L_Alg L_Basis.
Import ListNotations.
Local Open Scope nat_scope.
Local Open Scope list_scope.

(** A well-formed Operator: valid basis, as many coefficients as strings, the type of the
    first string. *)
Definition op_ok (o : Operator) : Prop :=
  basis_ok (o_basis o) /\ length (o_coeffs o) = length (b_strings (o_basis o)) /\
  (forall s r, b_strings (o_basis o) = s :: r -> o_type o = os_type s).

(* ------------------------------------------------------------- generic lists *)

Lemma rmap_ok {T U} (f : T -> res U) l m : rmap f l = Ok m <-> Forall2 (fun x y => f x = Ok y) l m.
Proof.
  revert m. induction l as [|x l IH]; intros m; simpl.
  - split; [intros H; injection H as <-; auto | intros H; inversion H; auto].
  - destruct (f x) as [y|e] eqn:E; simpl.
    + destruct (rmap f l) as [ys|e] eqn:F; simpl.
      * split.
        -- intros H; injection H as <-. constructor; auto. apply IH; auto.
        -- intros H; inversion H; subst. apply IH in H4. congruence.
      * split; [discriminate|]. intros H; inversion H; subst. apply IH in H4. discriminate.
    + split; [discriminate|]. intros H; inversion H; subst. congruence.
Qed.
Lemma rmap_total {T U} (f : T -> res U) l : (forall x, In x l -> exists y, f x = Ok y) -> exists m, rmap f l = Ok m.
Proof.
  induction l as [|x l IH]; intros H; simpl; eauto.
  destruct (H x) as (y & Hy); simpl; auto. rewrite Hy. simpl.
  destruct IH as (m & Hm); [intros; apply H; simpl; auto|]. rewrite Hm. simpl. eauto.
Qed.
Lemma Forall2_nth {T U} (R : T -> U -> Prop) l m : Forall2 R l m <->
  length l = length m /\ forall i x y, nth_error l i = Some x -> nth_error m i = Some y -> R x y.
Proof.
  split.
  - intros H; induction H as [|x y l m Hxy H [IH1 IH2]]; simpl.
    + split; auto. intros [|i]; discriminate.
    + split; auto. intros [|i] a b; simpl; [|eauto]. intros Ha Hb; injection Ha as <-; injection Hb as <-; auto.
  - revert m; induction l as [|x l IH]; intros [|y m] [H1 H2]; simpl in *; try discriminate; constructor.
    + apply (H2 0); auto.
    + apply IH. split; auto. intros i; apply (H2 (S i)).
Qed.

Lemma list_set_length {T} (l : list T) i x : length (list_set l i x) = length l.
Proof. revert i; induction l; intros [|i]; simpl; auto. Qed.
Lemma list_set_nth {T} (l : list T) i x j : nth_error (list_set l i x) j =
  if Nat.eqb i j && (i <? length l) then Some x else nth_error l j.
Proof.
  revert i j; induction l as [|y l IH]; intros i j; simpl.
  - destruct i; simpl; rewrite andb_false_r; auto.
  - destruct i; simpl.
    + destruct j; auto.
    + destruct j; simpl; auto. rewrite IH. reflexivity.
Qed.
Lemma scatter_length cs inds vals : length (scatter cs inds vals) = length cs.
Proof.
  revert cs vals; induction inds as [|i is IH]; intros cs [|v vs]; simpl; auto. rewrite IH, list_set_length; auto.
Qed.
Lemma scatter_out inds : forall cs vals i, ~ In i inds -> nth_error (scatter cs inds vals) i = nth_error cs i.
Proof.
  induction inds as [|k ks IH]; intros cs [|v vs] i H; simpl in *; auto.
  rewrite IH by tauto. rewrite list_set_nth. destruct (Nat.eqb_spec k i); [tauto|]. auto.
Qed.
Lemma scatter_in inds : NoDup inds -> forall cs vals j i v, nth_error inds j = Some i -> nth_error vals j = Some v ->
  i < length cs -> nth_error (scatter cs inds vals) i = Some v.
Proof.
  induction 1 as [|k ks Hk Hn IH]; intros cs vals j i v Hj Hv Hi.
  - destruct j; discriminate.
  - destruct vals as [|w vs]; [destruct j; discriminate|]. simpl. destruct j; simpl in *.
    + injection Hj as ->. injection Hv as ->. rewrite scatter_out by auto. rewrite list_set_nth, Nat.eqb_refl.
      apply Nat.ltb_lt in Hi. rewrite Hi. auto.
    + eapply IH; eauto. rewrite list_set_length; auto.
Qed.
Lemma map2_nth (l m : list GC) j a b : nth_error l j = Some a -> nth_error m j = Some b ->
  nth_error (map (fun p => gadd (fst p) (snd p)) (combine l m)) j = Some (gadd a b).
Proof. intros Ha Hb. rewrite nth_error_map, (combine_nth_error _ _ _ _ _ Ha Hb). reflexivity. Qed.

(* ------------------------------------------------------------- coefficients *)

Lemma op_terms_nth o i c s : nth_error (op_terms o) i = Some (c, s) <->
  nth_error (o_coeffs o) i = Some c /\ nth_error (b_strings (o_basis o)) i = Some s.
Proof.
  unfold op_terms. split.
  - generalize (o_coeffs o) (b_strings (o_basis o)). intros l m. revert m i.
    induction l as [|x l IH]; intros [|y m] [|i] H; simpl in *; try discriminate; eauto.
    injection H as -> ->; auto.
  - intros [H1 H2]. apply combine_nth_error; auto.
Qed.
Lemma nth_len {T} (l : list T) i : i < length l -> exists x, nth_error l i = Some x.
Proof. intros H. destruct (nth_error l i) eqn:E; eauto. apply nth_error_None in E. lia. Qed.

Lemma has_coeff_at o s : op_ok o -> forall i t, nth_error (b_strings (o_basis o)) i = Some t -> same_key t s ->
  forall c, has_coeff (op_terms o) s c <-> nth_error (o_coeffs o) i = Some c.
Proof.
  intros [Hb [Hl _]] i t Ht K c. split.
  - intros [(u & Hu & Ku)|[-> H]].
    + apply In_nth_error in Hu. destruct Hu as (j & Hj). apply op_terms_nth in Hj. destruct Hj as [Hc Hs].
      assert (i = j); [|subst; auto]. apply (proj1 Hb i j t u); auto. eapply same_key_trans; eauto. apply same_key_sym; auto.
    + exfalso. destruct (nth_len (o_coeffs o) i) as (c & Hc).
      { rewrite Hl. apply nth_error_Some. congruence. }
      apply (H c t); auto. eapply nth_error_In. apply op_terms_nth; eauto.
  - intros Hc. left. exists t. split; auto. eapply nth_error_In, op_terms_nth; eauto.
Qed.
Lemma has_coeff_absent o s : op_ok o -> (~ exists t, In t (b_strings (o_basis o)) /\ same_key t s) ->
  forall c, has_coeff (op_terms o) s c <-> c = g0.
Proof.
  intros _ H c. assert (N : forall d t, In (d, t) (op_terms o) -> ~ same_key t s).
  { intros d t Ht K. apply H. exists t. split; auto. eapply in_combine_r; eauto. }
  split.
  - intros [(t & Ht & K)|[-> _]]; auto. exfalso. eapply N; eauto.
  - intros ->. right. auto.
Qed.
Lemma key_in_dec (l : list OS) s : (exists i t, nth_error l i = Some t /\ same_key t s) \/ ~ exists t, In t l /\ same_key t s.
Proof.
  induction l as [|x l IH].
  - right. intros (t & [] & _).
  - destruct (os_key_dec x s) as [K|K].
    + left. exists 0, x. auto.
    + destruct IH as [(i & t & Hi & Ht)|N].
      * left. exists (S i), t. auto.
      * right. intros (t & [<-|Ht] & Kt); auto. apply N; eauto.
Qed.
Lemma has_coeff_total o s : op_ok o -> exists c, has_coeff (op_terms o) s c.
Proof.
  intros H. destruct (key_in_dec (b_strings (o_basis o)) s) as [(i & t & Hi & K)|N].
  - destruct (nth_len (o_coeffs o) i) as (c & Hc).
    { destruct H as (_ & -> & _). apply nth_error_Some. congruence. }
    exists c. eapply has_coeff_at; eauto.
  - exists g0. apply has_coeff_absent; auto.
Qed.
Lemma has_coeff_fun o s c d : op_ok o -> has_coeff (op_terms o) s c -> has_coeff (op_terms o) s d -> c = d.
Proof.
  intros H Hc Hd. destruct (key_in_dec (b_strings (o_basis o)) s) as [(i & t & Hi & K)|N].
  - apply (has_coeff_at o s H i t Hi K) in Hc, Hd. congruence.
  - apply (has_coeff_absent o s H N) in Hc, Hd. congruence.
Qed.

(* ------------------------------------------------------------- constructors *)

Lemma op_of_basis_ok cs b ty : basis_ok b -> length cs = length (b_strings b) ->
  (b_strings b <> [] \/ ty <> None) ->
  exists o, op_of_basis cs b ty = Ok o /\ op_ok o /\ o_coeffs o = cs /\ o_basis o = b /\
    (b_strings b = [] -> Some (o_type o) = ty).
Proof.
  intros Hb Hl Hty. unfold op_of_basis. destruct (b_strings b) as [|s r] eqn:E.
  - destruct ty as [t|]; [|destruct Hty; congruence]. eexists. split; [reflexivity|]. simpl. repeat split; simpl; auto; try apply Hb.
    + rewrite E; auto.
    + rewrite E. discriminate.
  - eexists. split; [reflexivity|]. simpl. repeat split; simpl; auto; try apply Hb.
    + rewrite E; auto.
    + rewrite E. intros u v H; injection H as -> _; auto.
    + discriminate.
Qed.
Lemma op_new_ok cs l ty : distinct_keys l -> length cs = length l -> (l <> [] \/ ty <> None) ->
  exists o, op_new cs l ty = Ok o /\ op_ok o /\ o_coeffs o = cs /\ b_strings (o_basis o) = l /\
    (l = [] -> Some (o_type o) = ty).
Proof.
  intros Hd Hl Hty. destruct (proj1 (basis_new_spec l) Hd) as (b & Hb & Es & Hok).
  unfold op_new. rewrite Hb. simpl. subst l.
  destruct (op_of_basis_ok cs b ty Hok Hl Hty) as (o & Ho & H1 & H2 & H3 & H4).
  exists o. rewrite H3. auto.
Qed.
Lemma op_type_first o l s r : op_ok o -> b_strings (o_basis o) = l -> l = s :: r -> o_type o = os_type s.
Proof. intros (_ & _ & H) <- E. eauto. Qed.

(* ------------------------------------------------------------- addition *)

Lemma op_add_into_ok cs b ty other : basis_ok b -> length cs = length (b_strings b) -> op_ok other ->
  exists cs' b', op_add_into cs b ty other = Ok (mkOperator cs' b' ty) /\ basis_ok b' /\
    length cs' = length (b_strings b') /\ append_new (b_strings b) (b_strings (o_basis other)) (b_strings b') /\
    exists inds vals, cs' = scatter (cs ++ repeat g0 (length (b_strings b') - length (b_strings b))) inds vals /\
      NoDup inds /\ length inds = length (b_strings (o_basis other)) /\
      (forall j i s, nth_error inds j = Some i -> nth_error (b_strings (o_basis other)) j = Some s ->
         exists t, nth_error (b_strings b') i = Some t /\ same_key t s) /\
      (forall j i c d, nth_error inds j = Some i -> nth_error (o_coeffs other) j = Some c ->
         nth_error (cs ++ repeat g0 (length (b_strings b') - length (b_strings b))) i = Some d ->
         nth_error vals j = Some (gadd d c)) /\ length vals = length inds.
Proof.
  intros Hb Hl (Hob & Hol & _). unfold op_add_into.
  set (b' := basis_iadd b (o_basis other)).
  destruct (basis_iadd_ok b (o_basis other) Hb) as [Hb' Ha]. fold b' in Hb', Ha.
  set (cs0 := cs ++ repeat g0 (basis_len b' - basis_len b)).
  assert (Hlen : length (b_strings b) <= length (b_strings b')).
  { destruct (append_new_prefix _ _ _ Ha) as (k & ->). rewrite app_length. lia. }
  assert (Hl0 : length cs0 = length (b_strings b')).
  { unfold cs0. rewrite app_length, repeat_length. unfold basis_len. lia. }
  destruct (rmap_total (basis_index b') (b_strings (o_basis other))) as (inds & Hi).
  { intros s Hs. destruct (append_new_right _ _ _ Ha s Hs) as (u & Hu & K).
    apply In_nth_error in Hu. destruct Hu as (i & Hu). exists i. apply basis_ok_index; eauto. }
  rewrite Hi. cbn [rbind]. apply rmap_ok in Hi. apply Forall2_nth in Hi. destruct Hi as [Hil Hin].
  assert (Hrel : forall j i s, nth_error inds j = Some i -> nth_error (b_strings (o_basis other)) j = Some s ->
     exists t, nth_error (b_strings b') i = Some t /\ same_key t s).
  { intros j i s Hj Hs. specialize (Hin j s i Hs Hj). apply basis_ok_index in Hin; auto. }
  assert (Hlt : forall i, In i inds -> i < length cs0).
  { intros i Hi. apply In_nth_error in Hi. destruct Hi as (j & Hj).
    destruct (nth_len (b_strings (o_basis other)) j) as (s & Hs); [rewrite Hil; apply nth_error_Some; congruence|].
    destruct (Hrel j i s Hj Hs) as (t & Ht & _). rewrite Hl0. apply nth_error_Some. congruence. }
  unfold fancy_iadd.
  destruct (rmap_total (fun i => of_option IndexError (nth_error cs0 i)) inds) as (old & Hold).
  { intros i Hi. destruct (nth_len cs0 i (Hlt i Hi)) as (x & Hx). rewrite Hx. simpl; eauto. }
  rewrite Hold. cbn [rbind]. apply rmap_ok in Hold. apply Forall2_nth in Hold. destruct Hold as [Hol' Ho].
  rewrite Hol, Hil, Nat.eqb_refl. cbn [rbind].
  eexists _, b'. split; [reflexivity|]. split; auto. split; [rewrite scatter_length; auto|]. split; auto.
  exists inds, (map (fun p => gadd (fst p) (snd p)) (combine old (o_coeffs other))). split; [reflexivity|].
  split; [|split; auto; split; auto; split].
  - apply NoDup_nth_error. intros j k Hj E. destruct (nth_len inds j Hj) as (i & Hji).
    assert (Hki : nth_error inds k = Some i) by congruence.
    assert (Hk : k < length inds) by (apply nth_error_Some; congruence).
    destruct (nth_len (b_strings (o_basis other)) j ltac:(lia)) as (s & Hs).
    destruct (nth_len (b_strings (o_basis other)) k ltac:(lia)) as (t & Ht).
    destruct (Hrel _ _ _ Hji Hs) as (u & Hu & Ku). destruct (Hrel _ _ _ Hki Ht) as (v & Hv & Kv).
    apply (proj1 Hob j k s t); auto. assert (u = v) by congruence. subst v.
    eapply same_key_trans; [apply same_key_sym; eauto | auto].
  - intros j i c d Hj Hc Hd. fold basis_len in Hd. change (nth_error cs0 i = Some d) in Hd.
    assert (Hjo : j < length old) by (rewrite <- Hol'; apply nth_error_Some; congruence).
    destruct (nth_len old j Hjo) as (x & Hx). specialize (Ho j i x Hj Hx). rewrite Hd in Ho. simpl in Ho. injection Ho as ->.
    apply map2_nth; auto.
  - rewrite map_length, combine_length. lia.
Qed.

Lemma op_add_into_coeff o other : op_ok o -> op_ok other -> o_type o = o_type other ->
  exists r, op_add_into (o_coeffs o) (o_basis o) (o_type o) other = Ok r /\ op_ok r /\ o_type r = o_type o /\
    append_new (b_strings (o_basis o)) (b_strings (o_basis other)) (b_strings (o_basis r)) /\
    forall s c d, has_coeff (op_terms o) s c -> has_coeff (op_terms other) s d -> has_coeff (op_terms r) s (gadd c d).
Proof.
  intros Ho Hother Hty. pose proof Ho as (Hb & Hl & Ht).
  destruct (op_add_into_ok (o_coeffs o) (o_basis o) (o_type o) other Hb Hl Hother)
    as (cs' & b' & E & Hb' & Hl' & Ha & inds & vals & Ecs & Hnd & Hli & Hrel & Hval & Hlv).
  exists (mkOperator cs' b' (o_type o)). split; auto.
  assert (Hr : op_ok (mkOperator cs' b' (o_type o))).
  { split; auto. split; auto. simpl. intros s r Es. destruct (append_new_prefix _ _ _ Ha) as (k & Ek).
    destruct (b_strings (o_basis o)) as [|s0 r0] eqn:Eo.
    - rewrite Es in Ha. destruct (b_strings (o_basis other)) as [|s1 r1] eqn:Eother.
      + inversion Ha.
      + inversion Ha as [|? ? ? ? Hin Hap|? ? ? ? Hin Hap]; subst; try (destruct Hin as (? & [] & _)).
        destruct (append_new_prefix _ _ _ Hap) as (k' & Ek'). simpl in Ek'. injection Ek' as -> _.
        rewrite Hty. destruct Hother as (_ & _ & Hot). eapply Hot; eauto.
    - rewrite Ek in Es. simpl in Es. injection Es as <- _. eapply Ht; eauto. }
  split; auto. split; auto. split; auto.
  set (cs0 := o_coeffs o ++ repeat g0 (length (b_strings b') - length (b_strings (o_basis o)))) in *.
  assert (Hl0 : length cs0 = length (b_strings b')).
  { rewrite <- Hl', Ecs, scatter_length. auto. }
  intros s c d Hc Hd.
  destruct (key_in_dec (b_strings b') s) as [(i & t & Hi & K)|N].
  - assert (Hli' : i < length cs0) by (rewrite Hl0; apply nth_error_Some; congruence).
    assert (Hci : nth_error cs0 i = Some c).
    { destruct (append_new_prefix _ _ _ Ha) as (k & Ek).
      destruct (Nat.lt_ge_cases i (length (b_strings (o_basis o)))) as [L|L].
      - unfold cs0. rewrite nth_error_app1 by lia.
        apply (has_coeff_at o s Ho i t); auto. rewrite Ek, nth_error_app1 in Hi by auto. auto.
      - assert (c = g0).
        { apply (has_coeff_absent o s Ho); auto. intros (u & Hu & Ku). apply In_nth_error in Hu. destruct Hu as (j & Hj).
          assert (Lj : j < length (b_strings (o_basis o))) by (apply nth_error_Some; congruence).
          assert (i = j); [|lia]. apply (proj1 Hb' i j t u); auto.
          - rewrite Ek, nth_error_app1 by auto. auto.
          - eapply same_key_trans; [eauto|]. apply same_key_sym; auto. }
        subst c. unfold cs0 in *. rewrite nth_error_app2 by lia. rewrite app_length, repeat_length in Hli'.
        apply nth_error_repeat. lia. }
    apply (has_coeff_at _ s Hr i t Hi K). simpl.
    destruct (key_in_dec (b_strings (o_basis other)) s) as [(j & u & Hj & Ku)|N].
    + apply (has_coeff_at other s Hother j u Hj Ku) in Hd.
      destruct (nth_len inds j) as (i' & Hi'). { rewrite Hli. apply nth_error_Some. congruence. }
      destruct (Hrel j i' u Hi' Hj) as (v & Hv & Kv).
      assert (i' = i).
      { apply (proj1 Hb' i' i v t); auto. eapply same_key_trans; [eauto|]. eapply same_key_trans; [eauto|]. apply same_key_sym; auto. }
      subst i'. rewrite Ecs. eapply scatter_in; eauto.
    + apply (has_coeff_absent other s Hother N) in Hd. subst d.
      replace (gadd c g0) with c by ring. rewrite Ecs, scatter_out; auto.
      intros Hin. apply In_nth_error in Hin. destruct Hin as (j & Hj).
      destruct (nth_len (b_strings (o_basis other)) j) as (u & Hu). { rewrite <- Hli. apply nth_error_Some. congruence. }
      destruct (Hrel j i u Hj Hu) as (v & Hv & Kv). assert (v = t) by congruence. subst v.
      apply N. exists u. split; [eapply nth_error_In; eauto|]. eapply same_key_trans; [apply same_key_sym; eauto|]. auto.
  - assert (c = g0).
    { apply (has_coeff_absent o s Ho); auto. intros (u & Hu & Ku). apply N. exists u. split; auto. eapply append_new_left; eauto. }
    assert (d = g0).
    { apply (has_coeff_absent other s Hother); auto. intros (u & Hu & Ku).
      destruct (append_new_right _ _ _ Ha u Hu) as (v & Hv & Kv). apply N. exists v. split; auto. eapply same_key_trans; eauto. }
    subst. replace (gadd g0 g0) with g0 by ring. apply has_coeff_absent; auto.
Qed.

Definition adds (o other r : Operator) : Prop :=
  op_ok r /\ o_type r = o_type o /\
  append_new (b_strings (o_basis o)) (b_strings (o_basis other)) (b_strings (o_basis r)) /\
  forall s c d, has_coeff (op_terms o) s c -> has_coeff (op_terms other) s d -> has_coeff (op_terms r) s (gadd c d).

Lemma optype_eqb_refl t : optype_eqb t t = true.
Proof. apply optype_eqb_eq; auto. Qed.

Lemma op_copy o : op_ok o -> op_new (o_coeffs o) (b_strings (o_basis o)) (Some (o_type o)) = Ok o.
Proof.
  intros (Hb & Hl & Ht). destruct (op_new_ok (o_coeffs o) (b_strings (o_basis o)) (Some (o_type o))) as (o' & E & Hok & Ec & Es & Ety).
  - apply Hb. - auto. - right; discriminate.
  - rewrite E. f_equal. destruct o as [cs b ty], o' as [cs' b' ty']. simpl in *. subst cs'.
    assert (b' = b) by (apply basis_ok_eq; auto; apply Hok). subst b'. f_equal.
    destruct (b_strings b) as [|s r] eqn:E0.
    + specialize (Ety eq_refl). congruence.
    + rewrite (Ht s r eq_refl). destruct Hok as (_ & _ & H). simpl in H. eapply H; eauto.
Qed.

Lemma op_iadd_ok o other : op_ok o -> op_ok other -> o_type o = o_type other ->
  exists r, op_iadd o other = Ok r /\ adds o other r.
Proof.
  intros H1 H2 E. unfold op_iadd. rewrite E, optype_eqb_refl, <- E. apply op_add_into_coeff; auto.
Qed.
Lemma op_add_iadd o other : op_ok o -> op_add o other = op_iadd o other.
Proof. intros H1. unfold op_add, op_iadd. rewrite op_copy by auto. reflexivity. Qed.

Lemma op_scale_ok z o : op_ok o -> exists r, op_scale z o = Ok r /\ op_ok r /\ o_type r = o_type o /\
  o_basis r = o_basis o /\ o_coeffs r = map (fun c => gmul c z) (o_coeffs o) /\
  forall s c, has_coeff (op_terms o) s c -> has_coeff (op_terms r) s (gmul z c).
Proof.
  intros Ho. pose proof Ho as (Hb & Hl & Ht). unfold op_scale.
  destruct (op_new_ok (map (fun c => gmul c z) (o_coeffs o)) (b_strings (o_basis o)) (Some (o_type o))) as (r & E & Hok & Ec & Es & Ety).
  - apply Hb. - rewrite map_length; auto. - right; discriminate.
  - exists r. split; auto. split; auto.
    assert (Eb : o_basis r = o_basis o) by (apply basis_ok_eq; auto; apply Hok).
    split; [|split; auto; split; auto].
    + destruct (b_strings (o_basis o)) as [|s q] eqn:E0.
      * specialize (Ety eq_refl). congruence.
      * rewrite (Ht s q eq_refl). destruct Hok as (_ & _ & H). eapply H; eauto.
    + intros s c Hc. destruct (key_in_dec (b_strings (o_basis o)) s) as [(i & t & Hi & K)|N].
      * apply (has_coeff_at o s Ho i t Hi K) in Hc. apply (has_coeff_at r s Hok i t); auto; [congruence|].
        rewrite Ec, nth_error_map, Hc. simpl. f_equal. ring.
      * apply (has_coeff_absent o s Ho N) in Hc. subst c. apply has_coeff_absent; [auto|rewrite Eb; auto|ring].
Qed.

Lemma op_sub_ok o other : op_ok o -> op_ok other -> o_type o = o_type other ->
  exists r, op_sub o other = Ok r /\ op_isub o other = Ok r /\ op_ok r /\ o_type r = o_type o /\
  append_new (b_strings (o_basis o)) (b_strings (o_basis other)) (b_strings (o_basis r)) /\
  forall s c d, has_coeff (op_terms o) s c -> has_coeff (op_terms other) s d -> has_coeff (op_terms r) s (gsub c d).
Proof.
  intros H1 H2 E. destruct (op_scale_ok gm1 other H2) as (m & Em & Hm & Tm & Bm & Cm & Km).
  unfold op_sub, op_isub. rewrite Em. simpl. rewrite op_add_iadd by auto.
  destruct (op_iadd_ok o m H1 Hm) as (r & Er & Hr & Tr & Ar & Kr); [congruence|].
  exists r. split; auto. split; auto. split; auto. split; auto. split; [rewrite <- Bm; auto|].
  intros s c d Hc Hd. replace (gsub c d) with (gadd c (gmul gm1 d)); auto. unfold gm1; ring.
Qed.

(* ------------------------------------------------------------- linear combinations *)

Section Lin.
  Context {A : StarAlg} (g : op -> Z -> A).
  Local Open Scope alg_scope.

  Lemma lincomb_app ts us : lincomb g (ts ++ us) == lincomb g ts + lincomb g us.
  Proof. unfold lincomb. rewrite map_app. apply asum_app. Qed.
  Lemma lincomb_cons c s ts : lincomb g ((c, s) :: ts) = c · den g s + lincomb g ts.
  Proof. reflexivity. Qed.
  Lemma lincomb_scal z ts : lincomb g (map (fun t => (gmul (fst t) z, snd t)) ts) == z · lincomb g ts.
  Proof.
    induction ts as [|[c s] ts IH]; simpl.
    - unfold lincomb; simpl. symmetry. apply ascal_zero.
    - rewrite !lincomb_cons, IH, ascal_add_r, ascal_ascal. apply aadd_proper; [|reflexivity].
      apply ascal_eq. simpl. ring.
  Qed.
  Lemma lincomb_perm ts us : Permutation.Permutation ts us -> lincomb g ts == lincomb g us.
  Proof. intros H. unfold lincomb. apply asum_perm. apply Permutation.Permutation_map; auto. Qed.

  Lemma lincomb_zero_pad cs m strs : lincomb g (combine (cs ++ repeat g0 m) strs) == lincomb g (combine cs strs).
  Proof.
    revert strs; induction cs as [|c cs IH]; intros strs; simpl.
    - revert strs; induction m as [|m IH]; intros [|s strs]; simpl; try reflexivity.
      rewrite lincomb_cons, IH, ascal_0. simpl. apply aadd_0_l.
    - destruct strs; [reflexivity|]. rewrite !lincomb_cons, IH. reflexivity.
  Qed.
  Lemma lincomb_pad_strs cs strs more : length cs = length strs -> lincomb g (combine cs (strs ++ more)) == lincomb g (combine cs strs).
  Proof.
    revert strs; induction cs as [|c cs IH]; intros [|s strs] H; simpl in *; try discriminate.
    - reflexivity.
    - rewrite !lincomb_cons, IH by lia. reflexivity.
  Qed.
  Lemma lincomb_list_set strs : forall cs i s old d, nth_error strs i = Some s -> nth_error cs i = Some old ->
    lincomb g (combine (list_set cs i (gadd old d)) strs) == lincomb g (combine cs strs) + d · den g s.
  Proof.
    induction strs as [|s0 strs IH]; intros cs i s old d Hs Hc.
    - destruct i; discriminate.
    - destruct cs as [|c cs]; [destruct i; discriminate|]. destruct i; simpl in *.
      + injection Hs as ->. injection Hc as ->. rewrite !lincomb_cons, ascal_add_l.
        rewrite <- !aadd_assoc. apply aadd_proper; [reflexivity|]. apply aadd_comm.
      + rewrite !lincomb_cons, (IH cs i s old d) by auto. apply aadd_assoc.
  Qed.
  Lemma lincomb_scatter strs : forall inds cs vals ds, NoDup inds -> length inds = length ds ->
    length vals = length inds ->
    (forall j i v d, nth_error inds j = Some i -> nth_error ds j = Some (d, v) ->
       exists old, nth_error strs i = Some v /\ nth_error cs i = Some old /\ nth_error vals j = Some (gadd old d)) ->
    lincomb g (combine (scatter cs inds vals) strs) == lincomb g (combine cs strs) + lincomb g ds.
  Proof.
    induction inds as [|i inds IH]; intros cs vals ds Hn Hl Hv H.
    - destruct ds; [|discriminate]. simpl. unfold lincomb at 3. simpl. symmetry. apply aadd_0_r.
    - destruct ds as [|[d v] ds]; [discriminate|]. destruct vals as [|w vals]; [discriminate|]. simpl.
      inversion Hn as [|? ? Hi Hn']; subst.
      destruct (H 0 i v d eq_refl eq_refl) as (old & Hs & Hc & Hw). simpl in Hw. injection Hw as ->.
      rewrite IH with (ds := ds); auto.
      + rewrite (lincomb_list_set strs cs i v old d) by auto. rewrite lincomb_cons. symmetry. apply aadd_assoc.
      + intros j k v' d' Hj Hd. destruct (H (S j) k v' d' Hj Hd) as (old' & Hs' & Hc' & Hw').
        exists old'. split; auto. split; auto. rewrite list_set_nth.
        destruct (Nat.eqb_spec i k); [|auto]. subst k. exfalso. apply Hi. eapply nth_error_In; eauto.
  Qed.

  Definition op_std (o : Operator) : Prop := forall s, In s (b_strings (o_basis o)) -> std s.

  Lemma op_add_lincomb o other r : op_ok o -> op_ok other -> op_std o -> op_std other -> o_type o = o_type other ->
    op_iadd o other = Ok r -> lincomb g (op_terms r) == lincomb g (op_terms o) + lincomb g (op_terms other).
  Proof.
    intros Ho Hother So Sother E. unfold op_iadd. rewrite E, optype_eqb_refl.
    pose proof Ho as (Hb & Hl & Ht). pose proof Hother as (_ & Hlo & _).
    destruct (op_add_into_ok (o_coeffs o) (o_basis o) (o_type other) other Hb Hl Hother)
      as (cs' & b' & Er & Hb' & Hl' & Ha & inds & vals & Ecs & Hnd & Hli & Hrel & Hval & Hlv).
    rewrite Er. intros H; injection H as <-. unfold op_terms; simpl. rewrite Ecs.
    set (cs0 := o_coeffs o ++ repeat g0 (length (b_strings b') - length (b_strings (o_basis o)))) in *.
    rewrite (lincomb_scatter (b_strings b') inds cs0 vals (op_terms other)); auto.
    - apply aadd_proper; [|reflexivity]. unfold cs0. rewrite lincomb_zero_pad.
      destruct (append_new_prefix _ _ _ Ha) as (k & ->). apply lincomb_pad_strs; auto.
    - unfold op_terms. rewrite combine_length, Hlo, Nat.min_id. auto.
    - intros j i v d Hj Hd. apply op_terms_nth in Hd. destruct Hd as [Hd Hv].
      destruct (Hrel j i v Hj Hv) as (t & Ht' & K).
      assert (t = v).
      { apply std_key; auto.
        - assert (In t (b_strings b')) by (eapply nth_error_In; eauto).
          destruct (append_new_in _ _ _ Ha t H); auto.
        - apply Sother. eapply nth_error_In; eauto. }
      subst t. assert (L : i < length cs0).
      { rewrite <- (scatter_length cs0 inds vals), <- Ecs, Hl'. apply nth_error_Some. congruence. }
      destruct (nth_len cs0 i L) as (old & Hold). exists old. split; auto. split; auto. eapply Hval; eauto.
  Qed.
  Lemma adds_std o other r : op_std o -> op_std other -> adds o other r -> op_std r.
  Proof. intros H1 H2 (_ & _ & Ha & _) s Hs. destruct (append_new_in _ _ _ Ha s Hs); auto. Qed.
End Lin.

(* ------------------------------------------------------------- remove_zeros *)

Lemma nonzero_inds_spec tol (strs : list OS) : forall cs k pre, length pre = k -> length cs = length strs ->
  rmap (fun p => of_option IndexError (nth_error (pre ++ strs) (fst p))) (nonzero_inds tol k cs) =
    Ok (map snd (filter (fun t => abs_gtb (fst t) tol) (combine cs strs))) /\
  map snd (nonzero_inds tol k cs) = map fst (filter (fun t => abs_gtb (fst t) tol) (combine cs strs)).
Proof.
  induction strs as [|s strs IH]; intros cs k pre Hk Hl; destruct cs as [|c cs]; simpl in Hl; try discriminate.
  - simpl. auto.
  - simpl. destruct (IH cs (S k) (pre ++ [s])) as [H1 H2].
    + rewrite app_length. simpl. lia.
    + lia.
    + rewrite <- app_assoc in H1. simpl in H1. destruct (abs_gtb c tol); simpl.
      * rewrite nth_error_app2, Hk, Nat.sub_diag by lia. simpl. rewrite H1. simpl. rewrite H2. auto.
      * auto.
Qed.

Lemma combine_split_eq {T U} (l : list (T * U)) : combine (map fst l) (map snd l) = l.
Proof. induction l as [|[a b] l IH]; simpl; auto. rewrite IH; auto. Qed.

Lemma distinct_sub l m : distinct_keys l -> (exists f : OS -> bool, m = filter f l) -> distinct_keys m.
Proof.
  intros H (f & ->). revert H. induction l as [|s l IH]; simpl; intros H; auto.
  change (s :: l) with ([s] ++ l) in H. apply distinct_app in H. destruct H as (_ & H & Hx).
  destruct (f s); auto. change (s :: filter f l) with ([s] ++ filter f l). apply distinct_app.
  split; [apply distinct_single|]. split; auto. intros a b Ha Hb. apply filter_In in Hb. apply Hx; tauto.
Qed.
Lemma distinct_terms (ts : list (GC * OS)) (f : GC * OS -> bool) : distinct_keys (map snd ts) -> distinct_keys (map snd (filter f ts)).
Proof.
  induction ts as [|[c s] ts IH]; simpl; auto. intros H.
  change (s :: map snd ts) with ([s] ++ map snd ts) in H. apply distinct_app in H. destruct H as (_ & H & Hx).
  destruct (f (c, s)); auto. simpl.
  change (s :: map snd (filter f ts)) with ([s] ++ map snd (filter f ts)). apply distinct_app.
  split; [apply distinct_single|]. split; auto. intros a b Ha Hb. apply in_map_iff in Hb. destruct Hb as (p & <- & Hp).
  apply filter_In in Hp. apply Hx; auto. apply in_map. tauto.
Qed.


Lemma op_terms_snd o : op_ok o -> map snd (op_terms o) = b_strings (o_basis o).
Proof. intros (_ & H & _). apply map_snd_combine; auto. Qed.
Lemma op_terms_fst o : op_ok o -> map fst (op_terms o) = o_coeffs o.
Proof. intros (_ & H & _). apply map_fst_combine; auto. Qed.

Lemma op_remove_zeros_ok tol o : op_ok o -> exists r, op_remove_zeros tol o = Ok r /\ op_ok r /\
  op_terms r = filter (fun t => abs_gtb (fst t) tol) (op_terms o).
Proof.
  intros Ho. pose proof Ho as (Hb & Hl & Ht). unfold op_remove_zeros.
  destruct (nonzero_inds_spec tol (b_strings (o_basis o)) (o_coeffs o) 0 [] eq_refl Hl) as [H1 H2].
  simpl in H1. rewrite H1. cbn [rbind]. rewrite H2. fold (op_terms o).
  set (ts := filter (fun t => abs_gtb (fst t) tol) (op_terms o)).
  destruct (op_new_ok (map fst ts) (map snd ts) (Some (o_type o))) as (r & E & Hok & Ec & Es & Ety).
  - apply distinct_terms. rewrite op_terms_snd by auto. apply Hb.
  - rewrite !map_length; auto.
  - right; discriminate.
  - exists r. split; auto. split; auto. unfold op_terms. rewrite Ec, Es. apply combine_split_eq.
Qed.

(* ------------------------------------------------------------- to_vector *)

Lemma to_vector_loop b (ts : list (GC * OS)) : basis_ok b -> forall v, length v = length (b_strings b) ->
  (forall c t, In (c, t) ts -> exists u, In u (b_strings b) /\ same_key u t) -> distinct_keys (map snd ts) ->
  exists w, rfold (fun v t => let! i := basis_index b (snd t) in
                    if (i <? length v)%nat then Ok (list_set v i (fst t)) else Err IndexError) ts v = Ok w /\
    length w = length v /\
    forall i u, nth_error (b_strings b) i = Some u ->
      (forall c t, In (c, t) ts -> same_key t u -> nth_error w i = Some c) /\
      ((forall c t, In (c, t) ts -> ~ same_key t u) -> nth_error w i = nth_error v i).
Proof.
  intros Hb. induction ts as [|[c t] ts IH]; intros v Hv Hm Hd.
  - simpl. exists v. split; auto. split; auto. intros i u Hu. split; auto. intros c t [].
  - simpl in Hd. change (t :: map snd ts) with ([t] ++ map snd ts) in Hd. apply distinct_app in Hd. destruct Hd as (_ & Hd & Hx).
    destruct (Hm c t) as (u0 & Hu0 & K0); [simpl; auto|].
    apply In_nth_error in Hu0. destruct Hu0 as (i0 & Hi0).
    cbn [rfold snd fst]. rewrite (proj2 (basis_ok_index b t i0 Hb)) by eauto. cbn [rbind].
    assert (L0 : i0 < length v) by (rewrite Hv; apply nth_error_Some; congruence).
    rewrite (proj2 (Nat.ltb_lt _ _) L0). cbn [rbind].
    destruct (IH (list_set v i0 c)) as (w & Hw & Lw & Sw).
    + rewrite list_set_length; auto.
    + intros; eapply Hm; simpl; eauto.
    + auto.
    + exists w. split; auto. split; [rewrite Lw, list_set_length; auto|].
      intros i u Hu. destruct (Sw i u Hu) as [S1 S2]. split.
      * intros c' t' [E|Hin] K; [|eauto]. injection E as <- <-.
        rewrite S2.
        -- assert (i0 = i).
           { apply (proj1 Hb i0 i u0 u); auto. eapply same_key_trans; eauto. }
           subst i. rewrite list_set_nth, Nat.eqb_refl, (proj2 (Nat.ltb_lt _ _) L0). auto.
        -- intros d t' Ht' K'. apply (Hx t t'); simpl; auto.
           ++ apply in_map_iff. exists (d, t'); auto.
           ++ eapply same_key_trans; [eauto|]. apply same_key_sym; auto.
      * intros Hno. rewrite S2 by (intros; eapply Hno; simpl; eauto).
        rewrite list_set_nth. destruct (Nat.eqb_spec i0 i); auto. subst i. exfalso.
        apply (Hno c t); [simpl; auto|]. assert (u0 = u) by congruence. subst. apply same_key_sym; auto.
Qed.

Lemma op_to_vector_ok o b : op_ok o -> basis_ok b ->
  (forall t, In t (b_strings (o_basis o)) -> exists u, In u (b_strings b) /\ same_key u t) ->
  exists v, op_to_vector o b = Ok v /\ length v = length (b_strings b) /\
    forall i s, nth_error (b_strings b) i = Some s -> exists c, nth_error v i = Some c /\ has_coeff (op_terms o) s c.
Proof.
  intros Ho Hb Hm. unfold op_to_vector.
  destruct (to_vector_loop b (op_terms o) Hb (repeat g0 (basis_len b))) as (w & Hw & Lw & Sw).
  - apply repeat_length.
  - intros c t Ht. apply Hm. eapply in_combine_r; eauto.
  - rewrite op_terms_snd by auto. apply Ho.
  - exists w. split; auto. rewrite repeat_length in Lw. split; auto.
    intros i s Hi. destruct (Sw i s Hi) as [S1 S2].
    destruct (key_in_dec (b_strings (o_basis o)) s) as [(j & t & Hj & K)|N].
    + destruct (nth_len (o_coeffs o) j) as (c & Hc).
      { destruct Ho as (_ & -> & _). apply nth_error_Some. congruence. }
      exists c. split; [|apply (has_coeff_at o s Ho j t); auto].
      apply (S1 c t); auto. eapply nth_error_In, op_terms_nth; eauto.
    + exists g0. split; [|apply has_coeff_absent; auto]. rewrite S2.
      * apply nth_error_repeat. unfold basis_len. apply nth_error_Some. congruence.
      * intros c t Ht K. apply N. exists t. split; auto. eapply in_combine_r; eauto.
Qed.
Lemma rfold_err_first {S T} (f : S -> T -> res S) (P : T -> Prop) e l : forall s,
  (forall s x, In x l -> P x -> f s x = Err e) -> (forall s x e', In x l -> f s x = Err e' -> e' = e) ->
  (exists x, In x l /\ P x) -> rfold f l s = Err e.
Proof.
  induction l as [|x l IH]; intros s HP He (y & Hy & Py).
  - destruct Hy.
  - simpl. destruct (f s x) as [s'|e'] eqn:E; simpl.
    + apply IH; [intros; apply HP; simpl; auto | intros s0 x0 e0 Hx0; apply He; simpl; auto |].
      destruct Hy as [<-|Hy]; [|eauto]. rewrite HP in E by (simpl; auto). discriminate.
    + f_equal. eapply He; [|eauto]. simpl; auto.
Qed.
Lemma op_to_vector_err o b : op_ok o -> basis_ok b ->
  (exists t, In t (b_strings (o_basis o)) /\ ~ exists u, In u (b_strings b) /\ same_key u t) ->
  op_to_vector o b = Err KeyError.
Proof.
  intros Ho Hb (t & Ht & N). unfold op_to_vector.
  assert (G : forall (ts : list (GC * OS)) (v : list GC), length v = length (b_strings b) -> In t (map snd ts) ->
    rfold (fun v t => let! i := basis_index b (snd t) in
                    if (i <? length v)%nat then Ok (list_set v i (fst t)) else Err IndexError) ts v = Err KeyError).
  { induction ts as [|[c u] ts IH]; intros v Hv Hin; [destruct Hin|]. cbn [rfold snd fst].
    destruct (dget os_key (b_idx b) u) as [i|] eqn:E.
    - unfold basis_index at 1. rewrite E. cbn [of_option rbind].
      apply (basis_ok_get b u i Hb) in E. destruct E as (x & Hx & K).
      assert (L : i < length v) by (rewrite Hv; apply nth_error_Some; congruence).
      rewrite (proj2 (Nat.ltb_lt _ _) L). cbn [rbind]. apply IH.
      + rewrite list_set_length; auto.
      + destruct Hin as [<-|Hin]; auto. exfalso. apply N. exists x. simpl. split; auto. eapply nth_error_In; eauto.
    - unfold basis_index at 1. rewrite E. reflexivity. }
  apply G.
  - apply repeat_length.
  - rewrite op_terms_snd; auto.
Qed.
