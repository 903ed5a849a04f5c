(** Proofs of the properties of the helper functions, in the form stated in P_Tools.v. *)
From Coq Require Import String Ascii List ZArith Bool Arith Lia Permutation Sorted.
From Verif Require Import GC Exn S_Alg S_Tools M_Tools L_Sort L_Perm L_Cliques L_Tools.
Import ListNotations.
Local Open Scope nat_scope.
Local Open Scope list_scope.

Lemma sort_sign_proof v : exists w,
  sort_sign v = (w, inv_sign v) /\ sort_sign_merge v = Ok (w, inv_sign v) /\
  Permutation w v /\ StronglySorted Z.le w.
Proof.
  destruct (sort_sign_spec v) as (A & B & C).
  exists (fst (sort_sign v)). split; [|split; [|split]]; auto.
  - apply sort_sign_sign.
  - destruct (sort_sign_merge_spec v) as (w & E & P & S). rewrite E. f_equal. f_equal.
    assert (Permutation w (fst (sort_sign v))) by (eapply Permutation_trans; [exact P | apply Permutation_sym; exact B]).
    clear - A S H. revert H A. generalize (fst (sort_sign v)) as u. induction S as [|a w S IH Hf]; intros u P Su.
    + apply Permutation_nil in P. auto.
    + destruct Su as [|b u Su Hu]; [apply Permutation_sym, Permutation_nil in P; discriminate|].
      assert (a = b).
      { rewrite Forall_forall in Hf, Hu.
        assert (In a (b :: u)) by (eapply Permutation_in; [exact P | left; auto]).
        assert (In b (a :: w)) by (eapply Permutation_in; [apply Permutation_sym; exact P | left; auto]).
        simpl in *. destruct H as [|H], H0 as [|H0]; auto. apply Hu in H. apply Hf in H0. lia. }
      subst. f_equal. apply IH; auto. eapply Permutation_cons_inv; eauto.
Qed.

Lemma sign_proof n p q : is_perm n p -> is_perm n q ->
  sign p = Ok (inv_sign (map Z.of_nat p)) /\
  sign p = Ok (snd (sort_sign (map Z.of_nat p))) /\
  exists c sp sq, compose_permutations p q = Ok c /\ sign p = Ok sp /\ sign q = Ok sq /\ sign c = Ok (sp * sq)%Z.
Proof.
  intros Hp Hq. pose proof (sign_spec n p Hp) as Ep. pose proof (sign_spec n q Hq) as Eq.
  split; [exact Ep|]. split; [rewrite Ep, sort_sign_sign; reflexivity|].
  exists (map (fun i => nth i p 0) q), (inv_sign (map Z.of_nat p)), (inv_sign (map Z.of_nat q)).
  split; [apply (compose_spec n); auto|]. split; [auto|]. split; [auto|].
  rewrite (sign_spec n) by (apply perm_compose; auto). f_equal. apply (inv_sign_mult n); auto.
Qed.

Lemma compare_proof a b c :
  compare b a = (- compare a b)%Z /\
  (compare a b <= 0 -> compare b c <= 0 -> compare a c <= 0)%Z /\
  (compare a b = 0%Z <-> a = b) /\
  (compare a b = (-1)%Z <->
     length a < length b \/
     (length a = length b /\ exists p x y a' b', a = p ++ x :: a' /\ b = p ++ y :: b' /\ (x < y)%Z)) /\
  (compare a b = (-1)%Z \/ compare a b = 0%Z \/ compare a b = 1%Z).
Proof.
  split; [apply compare_anti|]. split; [apply compare_trans|]. split; [apply compare_eq|].
  split; [apply compare_first_diff|]. unfold compare.
  destruct (_ <? _); auto. destruct (_ <? _); auto. apply compare_lex_range.
Qed.

Lemma components_proof mode adj :
  (forall u v, In v (nth u adj []) -> u < length adj /\ v < length adj) ->
  (forall u v, In v (nth u adj []) -> In u (nth v adj [])) ->
  exists cs, connected_components mode adj = Ok cs /\
    Permutation (concat cs) (seq 0 (length adj)) /\ ~ In [] cs /\
    forall u v, u < length adj -> v < length adj ->
      ((exists c, In c cs /\ In u c /\ In v c) <-> connected (fun x y => In y (nth x adj [])) u v).
Proof.
  intros H1 H2. unfold connected_components.
  destruct (components_spec adj H1 H2 mode 0 (length adj) []) as (cs & E & P & Q); auto.
  - intros u v _ [].
  - constructor.
  - intros a [].
  - intros i Hi; lia.
  - rewrite app_nil_r in P. exists cs. split; [exact E|]. split; [exact P|]. split.
    + intros Hc. apply Q in Hc. tauto.
    + intros u v Hu Hv. split.
      * intros (c & Hc & Huc & Hvc). apply Q in Hc. apply (proj1 (proj2 Hc u Huc v) Hvc).
      * intros Huv. assert (Hin : In u (concat cs)).
        { eapply Permutation_in; [apply Permutation_sym; exact P|]. apply in_seq. lia. }
        apply in_concat in Hin. destruct Hin as (c & Hc & Huc). exists c. split; auto. split; auto.
        apply (proj2 (Q c Hc) u Huc v). exact Huv.
Qed.

Lemma remove_dup_proof (T : Type) (equiv : T -> T -> bool) :
  (forall x, equiv x x = true) -> (forall x y, equiv x y = equiv y x) ->
  (forall x y z, equiv x y = true -> equiv y z = true -> equiv x z = true) ->
  remove_duplicates equiv [] = [] /\
  (forall l x, remove_duplicates equiv (l ++ [x])
     = remove_duplicates equiv l ++ (if existsb (equiv x) l then [] else [x])) /\
  (forall l, (forall x, In x (remove_duplicates equiv l) -> In x l) /\
     (forall x, In x l -> exists y, In y (remove_duplicates equiv l) /\ equiv x y = true) /\
     ForallOrdPairs (fun x y => equiv x y = false) (remove_duplicates equiv l)).
Proof.
  intros R S T0. split; [reflexivity|]. split.
  - intros l x. apply rd_snoc; auto.
  - intros l. split; [|split].
    + intros x Hx. apply rd_incl in Hx. destruct Hx as [[]|]; auto.
    + intros x Hx. apply rd_cover; auto.
    + induction l as [|x l IH] using rev_ind; [constructor|]. rewrite rd_snoc by auto.
      destruct (existsb (equiv x) l) eqn:Ex; [rewrite app_nil_r; auto|].
      assert (N : forall y, In y (remove_duplicates equiv l) -> equiv y x = false).
      { intros y Hy. apply rd_incl in Hy. destruct Hy as [[]|Hy]. rewrite S.
        destruct (equiv x y) eqn:E; auto. assert (existsb (equiv x) l = true) by (apply existsb_exists; eauto). congruence. }
      clear Ex. revert IH N. generalize (remove_duplicates equiv l). intros u Hu. induction Hu; intros N; simpl.
      * constructor; constructor.
      * constructor.
        -- apply Forall_app. split; auto. constructor; [apply N; left; auto | constructor].
        -- apply IHHu. intros; apply N; right; auto.
Qed.

Lemma swap_proof ha a hb b ts :
  ~ char_in ha a -> ~ char_in ha (String hb b) -> ~ char_in hb b -> ~ char_in hb (String ha a) ->
  (forall c, c = "("%char \/ c = ")"%char -> ~ char_in c (String ha a) /\ ~ char_in c (String hb b)) ->
  (forall c, In (TC c) ts -> c <> ha /\ c <> hb /\ c <> "("%char) ->
  let A := String ha a in let B := String hb b in
  swap (render A B ts) A B = render B A ts /\ swap (swap (render A B ts) A B) A B = render A B ts.
Proof.
  intros A1 A2 B1 B2 HP HT A B.
  assert (E : swap (render A B ts) A B = render B A ts) by (apply swap_tokens; auto).
  split; [exact E|]. rewrite E.
  set (flip := map (fun t => match t with TA => TB | TB => TA | TC c => TC c end)).
  assert (F : forall X Y l, render X Y (flip l) = render Y X l).
  { intros X Y. induction l as [|[| |c] l IH]; simpl; congruence. }
  rewrite <- (F A B ts). rewrite <- (F B A ts). apply swap_tokens; auto.
  intros c Hc. apply HT. unfold flip in Hc. apply in_map_iff in Hc.
  destruct Hc as ([| |c'] & Ec & Hc); try discriminate. injection Ec as ->. auto.
Qed.

Lemma replace_full d s : d <> [] -> (forall k v, In (k, v) d -> k <> ""%string) -> NoDup (map fst d) ->
  exists r, replace s d = Ok r /\ forall r', substituted d s r' <-> r' = r.
Proof.
  intros Hd Hk Hn. destruct (replace_proof d s Hd Hk) as (r & E & H). exists r. split; auto.
  intros r'. split.
  - intros H'. eapply substituted_det; eauto.
  - intros ->; auto.
Qed.

Lemma compose_proof n p q r : is_perm n p -> is_perm n q -> is_perm n r ->
  exists pq qr, compose_permutations p q = Ok pq /\ compose_permutations q r = Ok qr /\
    is_perm n pq /\ (forall i, i < n -> nth i pq 0 = nth (nth i q 0) p 0) /\
    compose_permutations pq r = compose_permutations p qr /\
    compose_permutations p (seq 0 n) = Ok p /\ compose_permutations (seq 0 n) p = Ok p.
Proof.
  intros Hp Hq Hr. exists (map (fun i => nth i p 0) q), (map (fun i => nth i q 0) r).
  assert (Hpq := perm_compose n p q Hp Hq). assert (Hqr := perm_compose n q r Hq Hr).
  split; [apply (compose_spec n); auto|]. split; [apply (compose_spec n); auto|]. split; [auto|].
  assert (N : forall i, i < n -> nth i (map (fun i => nth i p 0) q) 0 = nth (nth i q 0) p 0).
  { intros i Hi. rewrite (nth_indep _ 0 (nth 0 p 0)) by (rewrite map_length, (p_length n q Hq); auto).
    rewrite (map_nth (fun i => nth i p 0)). reflexivity. }
  split; [exact N|]. split; [|split].
  - rewrite !(compose_spec n) by auto. f_equal. rewrite map_map. apply map_ext_in. intros i Hi.
    apply N. apply (is_perm_in n r); auto.
  - rewrite (compose_spec n) by (auto; apply Permutation_refl). f_equal.
    rewrite <- (p_length n p Hp) at 1. apply map_nth_seq.
  - rewrite (compose_spec n) by (auto; apply Permutation_refl). f_equal.
    rewrite <- (map_id p) at 2. apply map_ext_in. intros i Hi. apply (is_perm_in n p i Hp) in Hi. rewrite seq_nth; auto.
Qed.

Lemma seq_lt_sorted n : forall k, StronglySorted lt (seq k n).
Proof.
  induction n; intros k; simpl; constructor; auto. apply Forall_forall. intros x Hx. apply in_seq in Hx. lia.
Qed.

Lemma argsort_proof (T : Type) (ltb : T -> T -> bool) (d : T) (l : list T) :
  (forall x y, ltb x y = true -> ltb y x = false) ->
  (forall x y z, ltb y x = false -> ltb z y = false -> ltb z x = false) ->
  let p := argsort ltb d l in
  is_perm (length l) p /\
  StronglySorted (fun x y => ltb y x = false) (map (fun i => nth i l d) p) /\
  StronglySorted (fun i j => ltb (nth i l d) (nth j l d) = false -> i < j) p.
Proof.
  intros H1 H2 p. split; [apply gstable_perm|]. split.
  - apply StronglySorted_map. apply (gstable_sorted (fun i j => ltb (nth i l d) (nth j l d))); eauto.
  - apply (gstable_stable (fun i j => ltb (nth i l d) (nth j l d))); eauto. apply seq_lt_sorted.
Qed.

Lemma argsort_cmp_proof :
  (forall (T : Type) (comp : Z -> Z -> Z) (l m : list T), length l = length m ->
     argsort_cmp comp l = argsort_cmp comp m) /\
  (exists (comp : Z -> Z -> Z) (l : list Z),
     (forall a b, comp a b = (a - b)%Z) /\
     ~ StronglySorted Z.le (map (fun i => nth i l 0%Z) (argsort_cmp comp l))).
Proof.
  split.
  - intros T comp l m H. unfold argsort_cmp. rewrite H. reflexivity.
  - exists (fun a b => a - b)%Z, [2; 1]%Z. split; [reflexivity|]. intros H. cbn in H.
    inversion H as [|? ? _ Hf]. inversion Hf. lia.
Qed.

Lemma maximal_cliques_proof : forall (adj : list (list nat)) pick order ordering,
  let n := length adj in
  let E := fun u v => In v (nth u adj []) in
  graph n E -> adj <> [] ->
  (forall R P X, P ++ X <> [] -> In (pick R P X) (P ++ X)) ->
  (forall R P X, Permutation (order R P X) P) ->
  Permutation ordering (seq 0 n) ->
  exists cs, maximal_cliques adj pick order ordering = Ok cs /\
    (forall c, In c cs -> maximal_clique n E c) /\
    (forall K, maximal_clique n E K -> exists c, In c cs /\ same_set c K) /\
    all_differ cs.
Proof.
  intros adj pick order ordering n E HG Hne Hp Ho Hord.
  apply maximal_cliques_spec; auto. destruct adj; [congruence | simpl; lia].
Qed.
