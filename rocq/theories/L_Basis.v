(** Lemmas on dictionaries, Basis and Operator. *)
From Coq Require Import String Ascii List ZArith Bool Arith Lia.
From Verif Require Import GC Exn PyStr M_OpString M_Basis S_Alg S_Den S_Basis L_StrAlg.
Import ListNotations.
Local Open Scope nat_scope.
Local Open Scope list_scope.

(* ---------------------------------------------------------------- keys *)

Lemma os_key_spec s t : os_key s t = true <-> same_key s t.
Proof.
  unfold os_key, same_key, os_hash. rewrite andb_true_iff, String.eqb_eq, os_eqb_spec. tauto.
Qed.
Lemma same_key_refl s : same_key s s.
Proof. repeat split. Qed.
Lemma same_key_sym s t : same_key s t -> same_key t s.
Proof. intros (A & B & C & D); repeat split; auto. Qed.
Lemma same_key_trans s t u : same_key s t -> same_key t u -> same_key s u.
Proof. intros (A & B & C & D) (A' & B' & C' & D'); repeat split; congruence. Qed.
Lemma os_key_refl s : os_key s s = true.
Proof. apply os_key_spec, same_key_refl. Qed.
Lemma os_key_sym s t : os_key s t = os_key t s.
Proof.
  destruct (os_key s t) eqn:E, (os_key t s) eqn:F; auto.
  - apply os_key_spec, same_key_sym, os_key_spec in E. congruence.
  - apply os_key_spec, same_key_sym, os_key_spec in F. congruence.
Qed.
Lemma os_key_cong s t u : os_key s t = true -> os_key s u = os_key t u.
Proof.
  intros H. apply os_key_spec in H.
  destruct (os_key s u) eqn:E, (os_key t u) eqn:F; auto.
  - apply os_key_spec in E. assert (K : same_key t u) by (eapply same_key_trans; [apply same_key_sym|]; eauto).
    apply os_key_spec in K. congruence.
  - apply os_key_spec in F. assert (K : same_key s u) by (eapply same_key_trans; eauto).
    apply os_key_spec in K. congruence.
Qed.
Lemma os_key_dec s t : {same_key s t} + {~ same_key s t}.
Proof.
  destruct (os_key s t) eqn:E; [left | right].
  - apply os_key_spec; auto.
  - intros H. apply os_key_spec in H. congruence.
Qed.

Lemma length_append (a b : string) : String.length (a ++ b) = String.length a + String.length b.
Proof. induction a; simpl; auto. Qed.
Lemma append_cancel_r (a b c : string) : (a ++ c = b ++ c)%string -> a = b.
Proof.
  revert b. induction a as [|x a IH]; intros [|y b] H; simpl in *; auto.
  - exfalso. apply (f_equal String.length) in H. simpl in H. rewrite length_append in H. lia.
  - exfalso. apply (f_equal String.length) in H. simpl in H. rewrite length_append in H. lia.
  - injection H as -> H. f_equal. auto.
Qed.

Lemma std_pref_text p q : std_pref p -> std_pref q -> ptext p = ptext q -> p = q.
Proof.
  intros Hp Hq.
  repeat (destruct Hp as [<-|Hp]; [repeat (destruct Hq as [<-|Hq]; [simpl; intros H; solve [reflexivity | discriminate]|]); destruct Hq|]).
  destruct Hp.
Qed.

Lemma std_key s t : std s -> std t -> same_key s t -> s = t.
Proof.
  intros Hs Ht (N & A & B & C). destruct s as [o l y p], t as [o' l' y' q]. simpl in *. subst.
  f_equal. unfold os_name in N. simpl in N. apply append_cancel_r in N.
  apply std_pref_text; auto.
Qed.

Lemma canonical_std s : canonical s -> std s.
Proof. intros [_ [H|H]]; unfold std, std_pref; rewrite H; simpl; auto. Qed.

(* ------------------------------------------------------- dictionaries *)

Section DictLemmas.
  Context {V : Type}.
  Implicit Types (d : list (OS * V)).

  Lemma dset_none d k v : dget os_key d k = None -> dset os_key d k v = d ++ [(k, v)].
  Proof.
    induction d as [|[k' v'] d IH]; simpl; intros H; auto.
    destruct (os_key k' k); [discriminate|]. rewrite IH; auto.
  Qed.
  Lemma dget_dset d k v k' : dget os_key (dset os_key d k v) k' =
    if os_key k k' then Some v else dget os_key d k'.
  Proof.
    induction d as [|[a w] d IH]; simpl.
    - reflexivity.
    - destruct (os_key a k) eqn:E; simpl.
      + rewrite (os_key_cong _ _ k' E). destruct (os_key k k'); reflexivity.
      + destruct (os_key a k') eqn:F.
        * destruct (os_key k k') eqn:G; auto. exfalso.
          rewrite (os_key_cong _ _ k F), os_key_sym in E. congruence.
        * rewrite IH. reflexivity.
  Qed.
  Lemma dget_app d e k : dget os_key (d ++ e) k =
    match dget os_key d k with Some v => Some v | None => dget os_key e k end.
  Proof. induction d as [|[a w] d IH]; simpl; auto. destruct (os_key a k); auto. Qed.
  Lemma dget_cong d k k' : same_key k k' -> dget os_key d k = dget os_key d k'.
  Proof.
    intros H. apply os_key_spec in H. induction d as [|[a w] d IH]; simpl; auto.
    rewrite (os_key_sym a k), (os_key_sym a k'), (os_key_cong _ _ a H), IH. reflexivity.
  Qed.
  Lemma dget_in d k v : dget os_key d k = Some v -> exists k', In (k', v) d /\ same_key k' k.
  Proof.
    induction d as [|[a w] d IH]; simpl; [discriminate|].
    destruct (os_key a k) eqn:E.
    - intros H; injection H as <-. exists a. split; auto. apply os_key_spec; auto.
    - intros H. destruct (IH H) as (k' & H1 & H2). exists k'; auto.
  Qed.
  Lemma dget_not_in d k : dget os_key d k = None <-> forall k' v, In (k', v) d -> ~ same_key k' k.
  Proof.
    induction d as [|[a w] d IH]; simpl.
    - split; auto.
    - destruct (os_key a k) eqn:E.
      + split; [discriminate|]. intros H. exfalso. apply (H a w); auto. apply os_key_spec; auto.
      + rewrite IH. split.
        * intros H k' v [F|F]; eauto. injection F as -> ->. intros K. apply os_key_spec in K. congruence.
        * intros H k' v F. eauto.
  Qed.
  Lemma dget_nth d i k v : distinct_keys (map fst d) -> nth_error d i = Some (k, v) -> dget os_key d k = Some v.
  Proof.
    intros Hd Hi. destruct (dget os_key d k) as [w|] eqn:E.
    - apply dget_in in E. destruct E as (k' & Hin & Hk). apply In_nth_error in Hin. destruct Hin as (j & Hj).
      assert (i = j).
      { apply (Hd i j k k'); [rewrite nth_error_map, Hi; auto | rewrite nth_error_map, Hj; auto | apply same_key_sym; auto]. }
      subst j. congruence.
    - exfalso. rewrite dget_not_in in E. apply (E k v); [eapply nth_error_In; eauto | apply same_key_refl].
  Qed.
End DictLemmas.

(* ------------------------------------------------------- Basis invariant *)

Lemma distinct_app l m : distinct_keys (l ++ m) <->
  distinct_keys l /\ distinct_keys m /\ (forall s t, In s l -> In t m -> ~ same_key s t).
Proof.
  split.
  - intros H. split; [|split].
    + intros i j s t Hi Hj K. apply (H i j s t); auto; rewrite nth_error_app1; auto; apply nth_error_Some; congruence.
    + intros i j s t Hi Hj K. cut (length l + i = length l + j); [lia|].
      apply (H _ _ s t); auto; rewrite nth_error_app2 by lia.
      * replace (length l + i - length l) with i by lia; auto.
      * replace (length l + j - length l) with j by lia; auto.
    + intros s t Hs Ht K. apply In_nth_error in Hs, Ht. destruct Hs as (i & Hi), Ht as (j & Hj).
      assert (Li : i < length l) by (apply nth_error_Some; congruence).
      assert (i = length l + j); [|lia]. apply (H _ _ s t); auto.
      * rewrite nth_error_app1; auto.
      * rewrite nth_error_app2 by lia. replace (length l + j - length l) with j by lia; auto.
  - intros (H1 & H2 & H3) i j s t Hi Hj K.
    destruct (Nat.lt_ge_cases i (length l)) as [Li|Li], (Nat.lt_ge_cases j (length l)) as [Lj|Lj].
    + rewrite nth_error_app1 in Hi, Hj by auto. eauto.
    + rewrite nth_error_app1 in Hi by auto. rewrite nth_error_app2 in Hj by auto.
      exfalso. apply (H3 s t); auto; eapply nth_error_In; eauto.
    + rewrite nth_error_app2 in Hi by auto. rewrite nth_error_app1 in Hj by auto.
      exfalso. apply (H3 t s); [eapply nth_error_In; eauto.. | apply same_key_sym; auto].
    + rewrite nth_error_app2 in Hi, Hj by auto. assert (i - length l = j - length l) by eauto. lia.
Qed.
Lemma distinct_nil : distinct_keys [].
Proof. intros i j s t H. destruct i; discriminate. Qed.
Lemma distinct_single s : distinct_keys [s].
Proof.
  intros i j a b Hi Hj _. destruct i as [|[|i]]; [|discriminate|discriminate].
  destruct j as [|[|j]]; [auto|discriminate|discriminate].
Qed.
Lemma distinct_snoc l s : distinct_keys (l ++ [s]) <-> distinct_keys l /\ ~ exists t, In t l /\ same_key t s.
Proof.
  rewrite distinct_app. split.
  - intros (H1 & _ & H3). split; auto. intros (t & Ht & K). apply (H3 t s); simpl; auto.
  - intros (H1 & H2). split; auto. split; [apply distinct_single|].
    intros a b Ha [<-|[]] K. apply H2. eauto.
Qed.
Lemma distinct_NoDup l : distinct_keys l -> NoDup l.
Proof.
  intros H. apply NoDup_nth_error. intros i j Hi E.
  destruct (nth_error l i) as [s|] eqn:Es; [|apply nth_error_None in Es; lia].
  apply (H i j s s); auto. apply same_key_refl.
Qed.
Lemma std_distinct l : (forall s, In s l -> std s) -> NoDup l -> distinct_keys l.
Proof.
  intros Hs Hn i j s t Hi Hj K.
  assert (s = t) by (apply std_key; auto; apply Hs; eapply nth_error_In; eauto). subst t.
  apply (NoDup_nth_error l); auto; [apply nth_error_Some|]; congruence.
Qed.

Definition basis_ok (b : Basis) : Prop :=
  distinct_keys (b_strings b) /\ b_idx b = combine (b_strings b) (seq 0 (length (b_strings b))).

Lemma map_fst_comb {T U} (l : list T) (m : list U) : length l = length m -> map fst (combine l m) = l.
Proof. revert m; induction l as [|x l IH]; intros [|y m] H; simpl in *; try discriminate; auto. f_equal; auto. Qed.

Lemma combine_snoc {T U} (l : list T) (m : list U) a b : length l = length m ->
  combine (l ++ [a]) (m ++ [b]) = combine l m ++ [(a, b)].
Proof. revert m; induction l as [|x l IH]; intros [|y m] H; simpl in *; try discriminate; auto. f_equal; auto. Qed.

Lemma basis_ok_get b s i : basis_ok b ->
  (dget os_key (b_idx b) s = Some i <-> exists t, nth_error (b_strings b) i = Some t /\ same_key t s).
Proof.
  intros [Hd Hi]. assert (Hd' : distinct_keys (map fst (b_idx b))).
  { rewrite Hi, map_fst_comb; auto. rewrite seq_length; auto. }
  assert (Hn : forall k t, nth_error (b_strings b) k = Some t -> nth_error (b_idx b) k = Some (t, k)).
  { intros k t Hk. rewrite Hi. apply combine_nth_error; auto.
    assert (k < length (b_strings b)) by (apply nth_error_Some; congruence).
    rewrite nth_error_nth' with (d := 0) by (rewrite seq_length; auto). rewrite seq_nth; auto. }
  split.
  - intros H. destruct (dget_in _ _ _ H) as (t & Hin & K). exists t. split; auto.
    rewrite Hi in Hin. apply In_nth_error in Hin. destruct Hin as (k & Hk).
    assert (Lk : k < length (b_strings b)).
    { assert (k < length (combine (b_strings b) (seq 0 (length (b_strings b))))) by (apply nth_error_Some; congruence).
      rewrite combine_length, seq_length in H0. lia. }
    destruct (nth_error (b_strings b) k) as [u|] eqn:Eu; [|apply nth_error_None in Eu; lia].
    rewrite <- Hi in Hk. rewrite (Hn _ _ Eu) in Hk. injection Hk as -> ->. auto.
  - intros (t & Ht & K). rewrite <- (dget_cong _ _ _ K). apply (dget_nth _ i); auto.
Qed.

Lemma basis_ok_mem b s : basis_ok b -> (basis_mem b s = true <-> exists t, In t (b_strings b) /\ same_key t s).
Proof.
  intros H. unfold basis_mem, dmem. destruct (dget os_key (b_idx b) s) as [i|] eqn:E.
  - apply (basis_ok_get b s i H) in E. destruct E as (t & Ht & K). split; auto. intros _.
    exists t. split; auto. eapply nth_error_In; eauto.
  - split; [discriminate|]. intros (t & Ht & K). apply In_nth_error in Ht. destruct Ht as (i & Hi).
    assert (dget os_key (b_idx b) s = Some i) by (apply (basis_ok_get b s i H); eauto). congruence.
Qed.
Lemma basis_ok_index b s i : basis_ok b ->
  (basis_index b s = Ok i <-> exists t, nth_error (b_strings b) i = Some t /\ same_key t s).
Proof.
  intros H. rewrite <- (basis_ok_get b s i H). unfold basis_index.
  destruct (dget os_key (b_idx b) s); simpl; split; congruence.
Qed.
Lemma basis_index_in b s : basis_ok b -> In s (b_strings b) ->
  exists i, basis_index b s = Ok i /\ nth_error (b_strings b) i = Some s.
Proof.
  intros H Hs. apply In_nth_error in Hs. destruct Hs as (i & Hi). exists i. split; auto.
  apply basis_ok_index; auto. exists s. split; auto. apply same_key_refl.
Qed.

Lemma basis_ok_snoc b s : basis_ok b -> basis_mem b s = false ->
  basis_ok (mkBasis (b_strings b ++ [s]) (dset os_key (b_idx b) s (length (b_strings b)))).
Proof.
  intros H Hm. pose proof H as [Hd Hi]. split; simpl.
  - apply distinct_snoc. split; auto. intros K. apply (basis_ok_mem b s H) in K. congruence.
  - unfold basis_mem, dmem in Hm. rewrite dset_none by (destruct (dget os_key (b_idx b) s); [discriminate|auto]).
    rewrite app_length, seq_app. simpl. rewrite combine_snoc by (rewrite seq_length; auto). rewrite Hi. reflexivity.
Qed.

Lemma basis_ok_empty : basis_ok basis_empty.
Proof. split; [apply distinct_nil | reflexivity]. Qed.

Lemma basis_ok_idx_length b : basis_ok b -> length (b_idx b) = length (b_strings b).
Proof. intros [_ ->]. rewrite combine_length, seq_length. lia. Qed.

Lemma index_strings_spec l : forall d0 k, distinct_keys (map fst d0 ++ l) -> 
  index_strings k l d0 = d0 ++ combine l (seq k (length l)).
Proof.
  induction l as [|s l IH]; intros d0 k H; simpl.
  - rewrite app_nil_r; auto.
  - assert (E : dset os_key d0 s k = d0 ++ [(s, k)]).
    { apply dset_none. apply dget_not_in. intros t v Ht K.
      rewrite distinct_app in H. destruct H as (_ & _ & H). apply (H t s); simpl; auto.
      apply in_map_iff. exists (t, v); auto. }
    rewrite E, IH.
    + rewrite <- app_assoc. reflexivity.
    + rewrite map_app. simpl. rewrite <- app_assoc. exact H.
Qed.

Lemma dset_length_le {V} (d : list (OS * V)) k v : length (dset os_key d k v) <= S (length d).
Proof. induction d as [|[a w] d IH]; simpl; auto. destruct (os_key a k); simpl; lia. Qed.
Lemma dset_length_mem {V} (d : list (OS * V)) k v w : dget os_key d k = Some w -> length (dset os_key d k v) = length d.
Proof. induction d as [|[a x] d IH]; simpl; [discriminate|]. destruct (os_key a k); simpl; auto. Qed.
Lemma index_strings_length l : forall d k, length (index_strings k l d) <= length d + length l.
Proof.
  induction l as [|s l IH]; intros d k; simpl; [lia|].
  pose proof (IH (dset os_key d s k) (S k)). pose proof (dset_length_le d s k). lia.
Qed.
Lemma index_strings_keys l : forall d k, distinct_keys (map fst d) -> length (index_strings k l d) = length d + length l ->
  distinct_keys (map fst d ++ l).
Proof.
  induction l as [|s l IH]; intros d k Hd H; simpl in *.
  - rewrite app_nil_r; auto.
  - destruct (dget os_key d s) as [w|] eqn:E.
    + exfalso. pose proof (index_strings_length l (dset os_key d s k) (S k)) as L.
      rewrite (dset_length_mem _ _ _ _ E) in L. lia.
    + rewrite dset_none in H by auto.
      assert (K : distinct_keys (map fst (d ++ [(s, k)]) ++ l)).
      { apply (IH _ (S k)).
        - rewrite map_app. simpl. apply distinct_snoc. split; auto. intros (t & Ht & K).
          apply in_map_iff in Ht. destruct Ht as ([t' v] & <- & Ht). rewrite dget_not_in in E. eapply E; eauto.
        - rewrite app_length. simpl. lia. }
      rewrite map_app, <- app_assoc in K. exact K.
Qed.

Lemma basis_new_spec l : (distinct_keys l -> exists b, basis_new l = Ok b /\ b_strings b = l /\ basis_ok b) /\
  (~ distinct_keys l -> basis_new l = Err ValueError).
Proof.
  unfold basis_new. split.
  - intros H. rewrite index_strings_spec by auto. simpl. rewrite combine_length, seq_length, Nat.min_id, Nat.eqb_refl.
    eexists. split; [reflexivity|]. split; [reflexivity|]. split; simpl; auto.
  - intros H. destruct (Nat.eqb_spec (length (index_strings 0 l [])) (length l)) as [E|E]; auto.
    exfalso. apply H. apply (index_strings_keys l [] 0); auto. apply distinct_nil.
Qed.
Lemma basis_new_ok l b : basis_new l = Ok b -> b_strings b = l /\ basis_ok b.
Proof.
  unfold basis_new. destruct (Nat.eqb_spec (length (index_strings 0 l [])) (length l)) as [E|E]; [|discriminate].
  intros H. assert (Hd : distinct_keys l) by (apply (index_strings_keys l [] 0); auto; apply distinct_nil).
  destruct (proj1 (basis_new_spec l) Hd) as (b' & H1 & H2 & H3).
  unfold basis_new in H1. rewrite E, Nat.eqb_refl in H1. rewrite H1 in H. injection H as <-. auto.
Qed.
Lemma distinct_dec l : {distinct_keys l} + {~ distinct_keys l}.
Proof.
  destruct (basis_new l) as [b|e] eqn:E.
  - left. apply basis_new_ok in E. destruct E as [<- [H _]]; auto.
  - right. intros H. destruct (proj1 (basis_new_spec l) H) as (b & Hb & _). congruence.
Qed.

Lemma iadd_loop_spec l : forall b, basis_ok b ->
  let b' := iadd_loop b (length (b_strings b)) l in
  basis_ok b' /\ append_new (b_strings b) l (b_strings b').
Proof.
  induction l as [|s l IH]; intros b H; simpl.
  - split; auto. constructor.
  - destruct (basis_mem b s) eqn:E.
    + destruct (IH b H) as [H1 H2]. split; auto. apply an_skip; auto. apply basis_ok_mem; auto.
    + pose proof (basis_ok_snoc b s H E) as H'.
      destruct (IH _ H') as [H1 H2]. simpl in H1, H2. rewrite app_length in H1, H2. simpl in H1, H2.
      rewrite Nat.add_1_r in H1, H2. split; auto. apply an_take; auto.
      intros K. apply (basis_ok_mem b s H) in K. congruence.
Qed.
Lemma basis_iadd_ok b c : basis_ok b -> basis_ok (basis_iadd b c) /\
  append_new (b_strings b) (b_strings c) (b_strings (basis_iadd b c)).
Proof. intros H. apply (iadd_loop_spec (b_strings c) b H). Qed.
Lemma basis_iadd_string_ok b s : basis_ok b -> basis_ok (basis_iadd_string b s) /\
  append_new (b_strings b) [s] (b_strings (basis_iadd_string b s)).
Proof.
  intros H. unfold basis_iadd_string. destruct (basis_mem b s) eqn:E.
  - split; auto. apply an_skip; [apply basis_ok_mem; auto | constructor].
  - rewrite basis_ok_idx_length by auto. split; [apply basis_ok_snoc; auto|].
    apply an_take; [|constructor]. intros K. apply (basis_ok_mem b s H) in K. congruence.
Qed.

Lemma append_new_fun l m r : append_new l m r -> forall r', append_new l m r' -> r = r'.
Proof.
  induction 1; intros r' H'; inversion H'; subst; auto; contradiction.
Qed.
Lemma append_new_prefix l m r : append_new l m r -> exists k, r = l ++ k.
Proof.
  induction 1.
  - exists []. rewrite app_nil_r; auto.
  - auto.
  - destruct IHappend_new as (k & ->). exists (s :: k). rewrite <- app_assoc; auto.
Qed.
Lemma append_new_in l m r : append_new l m r -> forall t, In t r -> In t l \/ In t m.
Proof.
  induction 1; intros t Ht; auto.
  - destruct (IHappend_new t Ht); simpl; auto.
  - destruct (IHappend_new t Ht) as [H1|H1]; simpl; auto. apply in_app_or in H1. simpl in H1. tauto.
Qed.
Lemma append_new_left l m r : append_new l m r -> forall t, In t l -> In t r.
Proof. intros H. destruct (append_new_prefix _ _ _ H) as (k & ->). intros; apply in_or_app; auto. Qed.
Lemma append_new_right l m r : append_new l m r -> forall t, In t m -> exists u, In u r /\ same_key u t.
Proof.
  induction 1; intros t Ht.
  - destruct Ht.
  - destruct Ht as [<-|Ht]; auto. destruct H as (u & Hu & K). exists u. split; auto. eapply append_new_left; eauto.
  - destruct Ht as [<-|Ht]; auto. exists s. split; [|apply same_key_refl]. eapply append_new_left; eauto.
    apply in_or_app; simpl; auto.
Qed.
Lemma append_new_distinct l m r : append_new l m r -> distinct_keys l -> distinct_keys r.
Proof. induction 1; auto. intros Hd. apply IHappend_new. apply distinct_snoc; auto. Qed.
Lemma append_new_filter l m : distinct_keys m -> forall f : OS -> bool, (forall s, f s = true <-> exists t, In t l /\ same_key t s) ->
  append_new l m (l ++ filter (fun s => negb (f s)) m).
Proof.
  revert l. induction m as [|s m IH]; intros l Hd f Hf; simpl.
  - rewrite app_nil_r. constructor.
  - change (s :: m) with ([s] ++ m) in Hd. apply distinct_app in Hd. destruct Hd as (_ & Hd & Hx).
    destruct (f s) eqn:E; simpl.
    + apply an_skip; [apply Hf; auto | apply IH; auto].
    + apply an_take; [intros K; apply Hf in K; congruence|].
      replace (l ++ s :: filter (fun s => negb (f s)) m) with ((l ++ [s]) ++ filter (fun s => negb (f s)) m) by (rewrite <- app_assoc; auto).
      assert (Ef : forall l0, (forall t, In t l0 -> ~ same_key s t) ->
         filter (fun s0 => negb (f s0)) l0 = filter (fun s0 => negb (f s0 || os_key s s0)) l0).
      { induction l0 as [|t l0 IHl]; intros Hl; simpl; auto.
        assert (K : os_key s t = false) by (destruct (os_key s t) eqn:Q; auto; exfalso; apply (Hl t); simpl; auto; apply os_key_spec; auto).
        rewrite K, orb_false_r. rewrite IHl by (intros; apply Hl; simpl; auto). auto. }
      rewrite Ef by (intros t Ht; apply (Hx s t); simpl; auto).
      apply (IH (l ++ [s]) Hd (fun s0 => f s0 || os_key s s0)).
      intros t. rewrite orb_true_iff, Hf, os_key_spec. split.
      * intros [(u & Hu & K)|K]; [exists u | exists s]; split; auto; apply in_or_app; simpl; auto.
      * intros (u & Hu & K). apply in_app_or in Hu. destruct Hu as [Hu|[<-|[]]]; eauto.
Qed.

Lemma basis_add_ok b c : basis_ok b -> basis_ok c -> basis_add b c = Ok (basis_iadd b c).
Proof.
  intros Hb Hc. destruct (basis_iadd_ok b c Hb) as [H1 H2].
  pose proof (append_new_filter (b_strings b) (b_strings c) (proj1 Hc) (basis_mem b) (fun s => basis_ok_mem b s Hb)) as H3.
  pose proof (append_new_fun _ _ _ H2 _ H3) as E.
  unfold basis_add. rewrite <- E.
  destruct (proj1 (basis_new_spec _) (proj1 H1)) as (b' & Eb & Es & Hok). rewrite Eb. f_equal.
  destruct b' as [l1 d1], (basis_iadd b c) as [l2 d2]. destruct Hok as [_ Hi], H1 as [_ Hi']. simpl in *. subst. auto.
Qed.
Lemma basis_ok_eq b c : basis_ok b -> basis_ok c -> b_strings b = b_strings c -> b = c.
Proof. destruct b as [l d], c as [l' d']. intros [_ H1] [_ H2]; simpl in *. intros; subst; auto. Qed.

Lemma basis_add_string_ok b s : basis_ok b -> basis_add_string b s = Ok (basis_iadd_string b s).
Proof.
  intros Hb. destruct (basis_iadd_string_ok b s Hb) as [H1 H2]. unfold basis_add_string.
  assert (E : b_strings b ++ (if basis_mem b s then [] else [s]) = b_strings (basis_iadd_string b s)).
  { unfold basis_iadd_string. destruct (basis_mem b s); simpl; auto. rewrite app_nil_r; auto. }
  rewrite E. destruct (proj1 (basis_new_spec _) (proj1 H1)) as (b' & Eb & Es & Hok). rewrite Eb. f_equal.
  apply basis_ok_eq; auto.
Qed.
