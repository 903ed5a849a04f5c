(** Lemmas about the remaining helper functions. *)
From Coq Require Import String Ascii List ZArith Bool Arith Lia Permutation Sorted.
From Verif Require Import GC Exn S_Alg S_Tools M_Tools L_Perm.
Import ListNotations.
Local Open Scope nat_scope.
Local Open Scope list_scope.

(* ----------------------------------------------------------------- compare *)

Lemma compare_lex_eq a : forall b, length a = length b -> (compare_lex a b = 0%Z <-> a = b).
Proof.
  induction a as [|x a IH]; intros [|y b]; simpl; intros H; try lia; try tauto.
  destruct (Z.ltb_spec x y), (Z.ltb_spec y x); try (split; [discriminate | intros E; injection E as -> ->; lia]).
  rewrite IH by lia. assert (x = y) by lia. subst. split; congruence.
Qed.
Lemma compare_lex_anti a : forall b, length a = length b -> compare_lex b a = (- compare_lex a b)%Z.
Proof.
  induction a as [|x a IH]; intros [|y b]; simpl; intros H; try lia.
  destruct (Z.ltb_spec x y), (Z.ltb_spec y x); try lia. apply IH; lia.
Qed.
Lemma compare_lex_trans a : forall b c, length a = length b -> length b = length c ->
  (compare_lex a b <= 0 -> compare_lex b c <= 0 -> compare_lex a c <= 0)%Z.
Proof.
  induction a as [|x a IH]; intros [|y b] [|z c]; simpl; intros H1 H2; try lia.
  destruct (Z.ltb_spec x y), (Z.ltb_spec y x); try lia;
  destruct (Z.ltb_spec y z), (Z.ltb_spec z y); try lia;
  destruct (Z.ltb_spec x z), (Z.ltb_spec z x); try lia.
  apply IH; lia.
Qed.
Lemma compare_lex_range a : forall b, compare_lex a b = (-1)%Z \/ compare_lex a b = 0%Z \/ compare_lex a b = 1%Z.
Proof.
  induction a as [|x a IH]; intros [|y b]; simpl; auto.
  destruct (Z.ltb x y); auto. destruct (Z.ltb y x); auto.
Qed.

Lemma compare_eq a b : compare a b = 0%Z <-> a = b.
Proof.
  unfold compare. destruct (Nat.ltb_spec (length a) (length b)).
  - split; [discriminate | intros ->; lia].
  - destruct (Nat.ltb_spec (length b) (length a)).
    + split; [discriminate | intros ->; lia].
    + apply compare_lex_eq; lia.
Qed.
Lemma compare_anti a b : compare b a = (- compare a b)%Z.
Proof.
  unfold compare. destruct (Nat.ltb_spec (length a) (length b)), (Nat.ltb_spec (length b) (length a)); try lia.
  apply compare_lex_anti; lia.
Qed.
Lemma compare_trans a b c : (compare a b <= 0 -> compare b c <= 0 -> compare a c <= 0)%Z.
Proof.
  unfold compare.
  destruct (Nat.ltb_spec (length a) (length b)), (Nat.ltb_spec (length b) (length a)),
    (Nat.ltb_spec (length b) (length c)), (Nat.ltb_spec (length c) (length b)),
    (Nat.ltb_spec (length a) (length c)), (Nat.ltb_spec (length c) (length a)); try lia.
  apply compare_lex_trans; lia.
Qed.

(** Lexicographic order on lists of the same length. *)
Lemma compare_lex_first p x y a b : (x < y)%Z -> compare_lex (p ++ x :: a) (p ++ y :: b) = (-1)%Z.
Proof.
  intros H. induction p as [|z p IH]; simpl.
  - rewrite (proj2 (Z.ltb_lt x y)); auto.
  - rewrite Z.ltb_irrefl. auto.
Qed.
Lemma compare_first_diff a b : (compare a b = -1)%Z <->
  length a < length b \/ (length a = length b /\
    exists p x y a' b', a = p ++ x :: a' /\ b = p ++ y :: b' /\ (x < y)%Z).
Proof.
  unfold compare. destruct (Nat.ltb_spec (length a) (length b)); [split; auto|].
  destruct (Nat.ltb_spec (length b) (length a)).
  - split; [discriminate|]. intros [|[]]; lia.
  - split.
    + intros Hc. right. split; [lia|]. revert b H H0 Hc. induction a as [|x a IH]; intros [|y b]; simpl; try discriminate.
      intros H1 H2. destruct (Z.ltb_spec x y).
      * intros _. exists [], x, y, a, b. auto.
      * destruct (Z.ltb_spec y x); [discriminate|]. intros Hc.
        destruct (IH b) as (p & u & v & a' & b' & -> & -> & Huv); try lia.
        assert (x = y) by lia. subst. exists (y :: p), u, v, a', b'. auto.
    + intros [|(_ & p & x & y & a' & b' & -> & -> & Hxy)]; [lia|]. apply compare_lex_first; auto.
Qed.

(* ------------------------------------------------------- remove_duplicates *)

Section RemoveDup.
  Context {T : Type} (equiv : T -> T -> bool).
  Hypothesis eqv_refl : forall x, equiv x x = true.
  Hypothesis eqv_sym : forall x y, equiv x y = equiv y x.
  Hypothesis eqv_trans : forall x y z, equiv x y = true -> equiv y z = true -> equiv x z = true.

  Lemma rd_app l : forall u m, remove_dup_loop equiv u (l ++ m) = remove_dup_loop equiv (remove_dup_loop equiv u l) m.
  Proof.
    induction l as [|x l IH]; intros u m; simpl; auto. destruct (existsb _ _); apply IH.
  Qed.

  Lemma rd_incl l : forall u x, In x (remove_dup_loop equiv u l) -> In x u \/ In x l.
  Proof.
    induction l as [|y l IH]; simpl; auto. intros u x H. destruct (existsb _ _); apply IH in H.
    - tauto.
    - rewrite in_app_iff in H. simpl in H. tauto.
  Qed.
  Lemma rd_grow l : forall u x, In x u -> In x (remove_dup_loop equiv u l).
  Proof.
    induction l as [|y l IH]; simpl; auto. intros u x H. destruct (existsb _ _); apply IH; auto.
    apply in_or_app; auto.
  Qed.
  Lemma rd_cover l : forall u x, In x l -> exists y, In y (remove_dup_loop equiv u l) /\ equiv x y = true.
  Proof.
    induction l as [|z l IH]; simpl; [tauto|]. intros u x [->|Hx].
    - destruct (existsb _ _) eqn:Ex.
      + apply existsb_exists in Ex. destruct Ex as (y & Hy & E). exists y. split; auto. apply rd_grow; auto.
      + exists x. split; auto. apply rd_grow, in_or_app. right; left; auto.
    - destruct (existsb _ _); apply IH; auto.
  Qed.

  Lemma rd_snoc l x : remove_duplicates equiv (l ++ [x])
    = remove_duplicates equiv l ++ (if existsb (equiv x) l then [] else [x]).
  Proof.
    unfold remove_duplicates. rewrite rd_app. simpl.
    assert (E : existsb (fun u => equiv x u) (remove_dup_loop equiv [] l) = existsb (equiv x) l).
    { apply eq_true_iff_eq. rewrite !existsb_exists. split.
      - intros (y & Hy & E). apply rd_incl in Hy. destruct Hy as [[]|Hy]. eauto.
      - intros (y & Hy & E). destruct (rd_cover l [] y Hy) as (z & Hz & E2). exists z. split; auto. eapply eqv_trans; eauto. }
    rewrite E. destruct (existsb (equiv x) l); [rewrite app_nil_r|]; auto.
  Qed.
End RemoveDup.

(* -------------------------------------------------------------------- swap *)

Local Open Scope string_scope.

Lemma prefix_app_iff p s : prefix p s = true <-> exists t, s = p ++ t.
Proof.
  revert s. induction p as [|c p IH]; intros s; simpl.
  - destruct s; (split; [intros _; eexists; reflexivity | auto]).
  - destruct s as [|d s]; simpl.
    + split; [discriminate | intros (t & E); discriminate].
    + destruct (ascii_dec c d) as [->|N].
      * rewrite IH. split; intros (t & E); exists t; congruence.
      * split; [discriminate | intros (t & E); congruence].
Qed.

Lemma prefix_self p s : prefix p (p ++ s) = true.
Proof. apply prefix_app_iff. eauto. Qed.

Lemma sapp_assoc (a b c : string) : (a ++ b) ++ c = a ++ b ++ c.
Proof. induction a; simpl; congruence. Qed.
Lemma sapp_nil_r (a : string) : a ++ "" = a.
Proof. induction a; simpl; congruence. Qed.
Lemma sapp_length (a b : string) : String.length (a ++ b) = String.length a + String.length b.
Proof. induction a; simpl; auto. Qed.

Lemma replace_skip old new p s :
  str_replace_go (String.length p) old new (p ++ s) = str_replace_go 0 old new s.
Proof. induction p; simpl; auto. Qed.

Lemma replace_hit h o new s :
  str_replace_go 0 (String h o) new (String h o ++ s) = new ++ str_replace_go 0 (String h o) new s.
Proof.
  change (String h o ++ s) with (String h (o ++ s)). cbn [str_replace_go].
  change (String h (o ++ s)) with (String h o ++ s) at 1. rewrite prefix_self.
  f_equal. change (String.length (String h o) - 1) with (S (String.length o) - 1).
  replace (S (String.length o) - 1) with (String.length o) by lia. apply replace_skip.
Qed.

Lemma replace_char h o new c s : c <> h ->
  str_replace_go 0 (String h o) new (String c s) = String c (str_replace_go 0 (String h o) new s).
Proof.
  intros H. cbn [str_replace_go]. replace (prefix (String h o) (String c s)) with false; auto.
  simpl. destruct (ascii_dec h c); congruence.
Qed.

Lemma replace_piece h o new p s : ~ char_in h p ->
  str_replace_go 0 (String h o) new (p ++ s) = p ++ str_replace_go 0 (String h o) new s.
Proof.
  induction p as [|c p IH]; intros H; [reflexivity|].
  change (String c p ++ s) with (String c (p ++ s)). rewrite replace_char.
  - rewrite IH; auto. intros Hp. apply H. right; auto.
  - intros ->. apply H. left; auto.
Qed.

Lemma char_in_app c a b : char_in c (a ++ b) <-> char_in c a \/ char_in c b.
Proof. induction a; simpl; tauto. Qed.

Lemma swap_tokens ha a hb b ts :
  ~ char_in ha a -> ~ char_in ha (String hb b) -> ~ char_in hb b -> ~ char_in hb (String ha a) ->
  (forall c, c = "("%char \/ c = ")"%char -> ~ char_in c (String ha a) /\ ~ char_in c (String hb b)) ->
  (forall c, In (TC c) ts -> c <> ha /\ c <> hb /\ c <> "("%char) ->
  swap (render (String ha a) (String hb b) ts) (String ha a) (String hb b)
  = render (String hb b) (String ha a) ts.
Proof.
  intros A1 A2 B1 B2 HP HT. unfold swap.
  set (A := String ha a) in *. set (B := String hb b) in *.
  unfold str_replace. change (String.eqb A "") with false. change (String.eqb B "") with false.
  change (String.eqb ("(" ++ A ++ ")") "") with false. cbv iota.
  assert (E1 : str_replace_go 0 A ("(" ++ A ++ ")") (render A B ts) = render ("(" ++ A ++ ")") B ts).
  { clear - A1 A2 HT. induction ts as [|[| |c] ts IH]; [reflexivity| | |]; cbn [render].
    - unfold A. rewrite replace_hit. fold A. rewrite IH; auto. intros; apply HT; right; auto.
    - unfold A. rewrite replace_piece by auto. fold A. rewrite IH; auto. intros; apply HT; right; auto.
    - unfold A. rewrite replace_char by (apply HT; left; auto). fold A. rewrite IH; auto. intros; apply HT; right; auto. }
  rewrite E1.
  assert (Np : ~ char_in hb ("(" ++ A ++ ")")).
  { rewrite !char_in_app. intros [[E|[]]|[H|[E|[]]]].
    - apply (proj2 (HP hb (or_introl E))). left; auto.
    - auto.
    - apply (proj2 (HP hb (or_intror E))). left; auto. }
  assert (E2 : str_replace_go 0 B A (render ("(" ++ A ++ ")") B ts) = render ("(" ++ A ++ ")") A ts).
  { clear - Np HT. set (PA := "(" ++ A ++ ")") in *. clearbody PA A.
    induction ts as [|[| |c] ts IH]; [reflexivity| | |]; cbn [render].
    - unfold B. rewrite replace_piece by auto. fold B. rewrite IH; auto. intros; apply HT; right; auto.
    - unfold B. rewrite replace_hit. fold B. rewrite IH; auto. intros; apply HT; right; auto.
    - unfold B. rewrite replace_char by (apply HT; left; auto). fold B. rewrite IH; auto. intros; apply HT; right; auto. }
  rewrite E2.
  change ("(" ++ A ++ ")") with (String "("%char (A ++ ")")).
  assert (NA : ~ char_in "("%char A) by (apply HP; auto).
  clear - NA HT. clearbody A B. induction ts as [|[| |c] ts IH]; [reflexivity| | |]; cbn [render].
  - rewrite replace_hit, IH; auto. intros; apply HT; right; auto.
  - rewrite replace_piece, IH; auto. intros; apply HT; right; auto.
  - rewrite replace_char, IH; auto; [intros; apply HT; right; auto | apply HT; left; auto].
Qed.

(* ----------------------------------------------------------------- replace *)

Section Sorting.
  Context {T : Type} (ltb : T -> T -> bool).
  Lemma gsinsert_perm x l : Permutation (sinsert ltb x l) (x :: l).
  Proof.
    induction l as [|y l IH]; simpl; auto. destruct (ltb y x); auto.
    eapply Permutation_trans; [apply perm_skip, IH|]. apply perm_swap.
  Qed.
  Lemma gstable_perm l : Permutation (stable_sort ltb l) l.
  Proof.
    induction l as [|x l IH]; simpl; auto.
    eapply Permutation_trans; [apply gsinsert_perm|]. apply perm_skip; auto.
  Qed.
  (** strict weak order: asymmetric, and incomparability-or-below is transitive *)
  Hypothesis asym : forall x y, ltb x y = true -> ltb y x = false.
  Hypothesis le_trans : forall x y z, ltb y x = false -> ltb z y = false -> ltb z x = false.
  Let le x y := ltb y x = false.
  Lemma gsinsert_sorted x l : StronglySorted le l -> StronglySorted le (sinsert ltb x l).
  Proof.
    induction 1 as [|y l Hs IH Hf]; simpl; [repeat constructor|].
    destruct (ltb y x) eqn:E.
    - constructor; auto. apply Forall_forall. intros z Hz.
      apply (Permutation_in _ (gsinsert_perm x l)) in Hz. destruct Hz as [<-|Hz]; [red; auto|].
      rewrite Forall_forall in Hf; auto.
    - constructor; [constructor; auto|]. constructor; [exact E|].
      eapply Forall_impl; [|exact Hf]. unfold le. intros; eapply le_trans; eauto.
  Qed.
  Lemma gstable_sorted l : StronglySorted le (stable_sort ltb l).
  Proof. induction l; simpl; [constructor | apply gsinsert_sorted; auto]. Qed.

  (** Stability: elements neither of which is below the other keep their order. *)
  Variable before : T -> T -> Prop.
  Lemma gsinsert_stable x l : (forall y, In y l -> before x y) -> StronglySorted le l ->
    StronglySorted (fun a b => ltb a b = false -> before a b) l ->
    StronglySorted (fun a b => ltb a b = false -> before a b) (sinsert ltb x l).
  Proof.
    intros Hb Hle. induction Hle as [|y l Hs IH Hf]; intros H; cbn [sinsert].
    - repeat constructor.
    - inversion H; subst. destruct (ltb y x) eqn:E.
      + constructor; [apply IH; auto; intros; apply Hb; right; auto|]. apply Forall_forall. intros z Hz.
        apply (Permutation_in _ (gsinsert_perm x l)) in Hz. destruct Hz as [<-|Hz]; [congruence|].
        rewrite Forall_forall in H3; auto.
      + constructor; auto. apply Forall_forall. auto.
  Qed.
  Lemma gstable_stable l : StronglySorted before l ->
    StronglySorted (fun a b => ltb a b = false -> before a b) (stable_sort ltb l).
  Proof.
    induction 1 as [|x l Hs IH Hf]; simpl; [constructor|]. apply gsinsert_stable; auto.
    - intros y Hy. apply (Permutation_in _ (gstable_perm l)) in Hy. rewrite Forall_forall in Hf; auto.
    - apply gstable_sorted.
  Qed.
End Sorting.

Lemma first_match_some d s k v : first_match d s = Some (k, v) ->
  StronglySorted (fun a b : string * string => String.length (fst b) <= String.length (fst a)) d ->
  In (k, v) d /\ prefix k s = true /\
  forall k' v', In (k', v') d -> prefix k' s = true -> String.length k' <= String.length k.
Proof.
  induction d as [|[k0 v0] d IH]; simpl; [discriminate|]. intros H Hs. inversion Hs as [|? ? Hs' Hf]; subst.
  destruct (prefix k0 s) eqn:E.
  - injection H as -> ->. repeat split; auto. intros k' v' [E2|Hin] _.
    + injection E2 as -> ->. auto.
    + rewrite Forall_forall in Hf. apply (Hf (k', v') Hin).
  - destruct (IH H Hs') as (A & B & C). repeat split; auto. intros k' v' [E2|Hin] Hp.
    + injection E2 as -> ->. congruence.
    + eauto.
Qed.
Lemma first_match_none d s : first_match d s = None -> forall k v, In (k, v) d -> prefix k s = false.
Proof.
  induction d as [|[k0 v0] d IH]; simpl; [tauto|]. destruct (prefix k0 s) eqn:E; [discriminate|].
  intros H k v [E2|Hin]; [injection E2 as -> ->; auto | eauto].
Qed.

Lemma resub_skip d p s : re_sub_go (String.length p) d (p ++ s) = re_sub_go 0 d s.
Proof. induction p; simpl; auto. Qed.

Lemma prefix_len p s : prefix p s = true -> String.length p <= String.length s.
Proof. intros H. apply prefix_app_iff in H. destruct H as (t & ->). rewrite sapp_length. lia. Qed.

Lemma replace_proof d s : d <> [] -> (forall k v, In (k, v) d -> k <> "") ->
  exists r, replace s d = Ok r /\ substituted d s r.
Proof.
  intros Hd Hk. unfold replace. destruct d as [|e d']; [congruence|]. set (d := e :: d') in *. clearbody d.
  eexists. split; [reflexivity|].
  set (sd := sort_keys d).
  assert (Hsort : StronglySorted (fun a b : string * string => String.length (fst b) <= String.length (fst a)) sd).
  { unfold sd, sort_keys.
    pose proof (gstable_sorted (fun a b : string * string => (String.length (fst b) <? String.length (fst a))%nat)) as G.
    assert (H := G ltac:(intros x y; rewrite Nat.ltb_lt, Nat.ltb_ge; lia)
                   ltac:(intros x y z; rewrite !Nat.ltb_ge; lia) d).
    clear G. induction H as [|a l H IH Hf]; constructor; auto.
    eapply Forall_impl; [|exact Hf]. intros b Hb. cbv beta in Hb. apply Nat.ltb_ge in Hb. auto. }
  assert (Hin : forall e, In e sd <-> In e d).
  { intros x. split; apply Permutation_in; [|apply Permutation_sym]; apply gstable_perm. }
  assert (Gen : forall n s, String.length s <= n -> substituted d s (re_sub_go 0 sd s)).
  { clear s. induction n as [|n IH]; intros [|c s]; cbn [String.length]; intros Hl; try lia; try constructor.
    cbn [re_sub_go]. destruct (first_match sd (String c s)) as [[k v]|] eqn:Em.
    - destruct (first_match_some _ _ _ _ Em Hsort) as (A & B & C).
      apply Hin in A. pose proof (Hk _ _ A) as Hne. destruct k as [|kc k]; [congruence|].
      apply prefix_app_iff in B. destruct B as (t & Et).
      change (String kc k ++ t) with (String kc (k ++ t)) in Et. injection Et as -> ->.
      replace (String.length (String kc k) - 1) with (String.length k) by (simpl; lia).
      rewrite resub_skip. change (String kc (k ++ t)) with (String kc k ++ t).
      apply sub_hit; auto.
      + intros k' v' t' Hi E. apply (C k' v'); [apply Hin; auto|]. apply prefix_app_iff. exists t'. exact E.
      + apply IH. rewrite sapp_length in Hl. lia.
    - pose proof (first_match_none _ _ Em) as N. apply sub_miss.
      + intros k v t Hi E. apply Hin in Hi. specialize (N k v Hi). rewrite E, prefix_self in N. discriminate.
      + apply IH; lia. }
  apply (Gen (String.length s)); auto.
Qed.

Lemma app_same_length (a b c d : string) : a ++ b = c ++ d -> String.length a = String.length c -> a = c /\ b = d.
Proof.
  revert c. induction a as [|x a IH]; intros [|y c]; simpl; intros E L; try lia; auto.
  injection E as -> E. destruct (IH c E) as [-> ->]; auto.
Qed.

Lemma substituted_det d s : (forall k v, In (k, v) d -> k <> "") -> NoDup (map fst d) ->
  forall r1 r2, substituted d s r1 -> substituted d s r2 -> r1 = r2.
Proof.
  intros Hk Hn r1 r2 H1. revert r2. induction H1 as [|k v s r Hin Hl Hs IH|c s r Hm Hs IH]; intros r2 H2.
  - inversion H2; auto; subst.
    destruct k; [exfalso; eapply Hk; eauto | discriminate].
  - inversion H2 as [E|k' v' s' r' Hin' Hl' Hs' E|c s' r' Hm' Hs' E]; subst.
    + destruct k; [exfalso; eapply Hk; eauto | discriminate].
    + assert (String.length k = String.length k').
      { apply Nat.le_antisymm; [eapply Hl' | eapply Hl]; eauto. }
      destruct (app_same_length _ _ _ _ E) as [-> ->]; auto.
      assert (v' = v).
      { clear - Hin Hin' Hn. induction d as [|[a b] d IH]; simpl in *; [tauto|]. inversion Hn; subst.
        destruct Hin as [Ea|Hin], Hin' as [Eb|Hin'].
        - congruence.
        - injection Ea as -> ->. exfalso. apply H1. apply in_map_iff. exists (k, v'); auto.
        - injection Eb as -> ->. exfalso. apply H1. apply in_map_iff. exists (k, v); auto.
        - auto. }
      subst. f_equal. auto.
    + exfalso. eapply Hm'; [exact Hin|]. exact E.
  - inversion H2 as [E|k' v' s' r' Hin' Hl' Hs' E|c' s' r' Hm' Hs' E]; subst.
    + exfalso. eapply Hm; [exact Hin'|]. symmetry. exact E.
    + f_equal. auto.
Qed.

(* ----------------------------------------------------- compose_permutations *)

Lemma compose_spec n p q : is_perm n p -> is_perm n q ->
  compose_permutations p q = Ok (map (fun i => nth i p 0) q).
Proof.
  intros Hp Hq. unfold compose_permutations.
  assert (H : forall i, In i q -> i < n) by (intros i; apply is_perm_in; auto). clear Hq.
  induction q as [|a q IH]; [reflexivity|]. cbn [rmap map].
  rewrite (p_nth n p Hp) by (apply H; left; auto). cbn [of_option rbind].
  rewrite IH by (intros; apply H; right; auto). reflexivity.
Qed.
