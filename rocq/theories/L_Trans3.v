(** What the rules of qosy/transformation.py do to a string. *)
From Coq Require Import List Arith Lia ZArith Bool Setoid Morphisms Sorted Permutation Qcanon Ring Field.
From Verif Require Import GC Exn S_Alg S_Den S_Basis S_Tools S_Transform S_Fock M_OpString M_Tools M_Algebra M_Basis M_Transform
  L_Alg L_Module L_StrAlg L_StrOp L_Fock L_Basis L_Operator L_PropStr L_Conversion L_ConvOrd L_Perm L_JW2 L_Trans1 L_Trans2.
Import ListNotations.
Local Open Scope nat_scope.
Local Open Scope alg_scope.

(* ------------------------------------------------------------ permutations *)

Lemma word_sorted ty {A : StarAlg} (g : op -> Z -> A) w w' : rep ty g ->
  (forall o l, In (o, l) w -> is_op_of ty o = true) -> Permutation w w' -> StronglySorted Z.lt (map snd w') ->
  word (lval g) w == gsgn (Nat.odd (inversions (map snd (filter (fun p => op_odd ty (fst p)) w)))) · word (lval g) w'.
Proof.
  intros Hr Hv Hp Hs.
  rewrite (graded_sort (lval g) snd (fun p => op_odd ty (fst p)) w (map snd w')); auto.
  - rewrite invpar_inversions. apply ascal_proper. unfold blocks. rewrite map_map. unfold word at 2. apply aprod_ext.
    intros x Hx. rewrite block_nodup.
    + unfold word. cbn [map]. rewrite aprod_cons. cbn [aprod fold_right]. apply amul_1_r.
    + apply (Permutation_NoDup (l := map snd w')); [apply Permutation_map; symmetry; auto | apply SSorted_NoDup; auto].
    + apply (Permutation_in x (Permutation_sym Hp)); auto.
  - intros x Hx. apply in_map. apply (Permutation_in x Hp); auto.
  - apply letters_gcomm; auto.
Qed.

Lemma combine_map_nth {T} (inds : list nat) (a : list T) (b : list Z) d :
  combine (map (fun i => nth i a d) inds) (map (fun i => nth i b 0%Z) inds) = map (fun i => (nth i a d, nth i b 0%Z)) inds.
Proof. induction inds as [|i inds IH]; cbn [map combine]; congruence. Qed.
Lemma combine_seq {T} (a : list T) (b : list Z) d : length a = length b ->
  combine a b = map (fun i => (nth i a d, nth i b 0%Z)) (seq 0 (length b)).
Proof.
  intros H. rewrite <- combine_map_nth. rewrite map_nth_seq. rewrite <- H, map_nth_seq. reflexivity.
Qed.
Lemma map_snd_combine {T U} (a : list T) (b : list U) : length a = length b -> map snd (combine a b) = b.
Proof. revert b. induction a as [|x a IH]; intros [|y b] H; cbn in *; try discriminate; auto. f_equal. apply IH. lia. Qed.
Lemma rmap_nth {T} (a : list T) d inds : (forall i, In i inds -> i < length a) ->
  rmap (fun i => of_option IndexError (nth_error a i)) inds = Ok (map (fun i => nth i a d) inds).
Proof.
  intros H. apply rmap_ok. induction inds as [|i inds IH]; cbn [map]; constructor.
  - rewrite (nth_error_nth' a d) by (apply H; left; auto). reflexivity.
  - apply IH. intros; apply H; right; auto.
Qed.
Lemma argsort_stable_sorted v : StronglySorted Z.le (map (fun i => nth i v 0%Z) (argsort_stable v)).
Proof. apply (StronglySorted_map Z.le (fun i => nth i v 0%Z)). apply (stable_sort_sorted (fun i => nth i v 0%Z)). Qed.

Lemma map_combine_r {T} (f : Z -> Z) (a : list T) b : combine a (map f b) = map (fun p => (fst p, f (snd p))) (combine a b).
Proof. revert b. induction a as [|x a IH]; intros [|y b]; cbn; auto. f_equal. apply IH. Qed.

Lemma permutation_acts ty perm (f : Z -> Z) s : ty <> Fermion -> (forall l m, f l = f m -> l = m) -> string_ok ty s ->
  (forall l, In l (os_labels s) -> py_nth perm l = Ok (f l)) ->
  exists k t, one_term (permutation_rule perm s) k t /\ (k = g1 \/ k = gm1) /\ string_ok ty t /\ canonical t /\
    Permutation (os_labels t) (map f (os_labels s)) /\
    forall (A : StarAlg) (g : op -> Z -> A), rep ty g -> image false (renamed f g) s == k · den g t.
Proof.
  intros Hty Hi Hs Hf. pose proof Hs as (Ht & Hl & Hv & Hn & Hpf).
  set (news := map f (os_labels s)).
  assert (En : rmap (py_nth perm) (os_labels s) = Ok news).
  { apply rmap_ok. unfold news. clear - Hf. induction (os_labels s) as [|l ls IH]; cbn [map]; constructor; [apply Hf; left; auto | apply IH; intros; apply Hf; right; auto]. }
  assert (Ln : length news = length (os_ops s)) by (unfold news; rewrite map_length; auto).
  assert (Nn : NoDup news).
  { unfold news. clear - Hn Hi. induction Hn as [|x l Hx Hn IH]; cbn [map]; constructor; auto.
    intros H. apply in_map_iff in H. destruct H as (y & E & H). apply Hi in E. subst. auto. }
  set (inds := argsort_stable news).
  assert (Pi : Permutation inds (seq 0 (length news))) by apply argsort_stable_perm.
  assert (Li : forall i, In i inds -> i < length news).
  { intros i H. apply (Permutation_in _ Pi) in H. apply in_seq in H. lia. }
  assert (Eo : rmap (fun i => of_option IndexError (nth_error (os_ops s) i)) inds = Ok (map (fun i => nth i (os_ops s) OA) inds)).
  { apply rmap_nth. intros i H. rewrite <- Ln. auto. }
  set (nops := map (fun i => nth i (os_ops s) OA) inds) in *. set (nlabs := map (fun i => nth i news 0%Z) inds).
  assert (Pl : Permutation nlabs news).
  { pose proof (Permutation_map (fun i => nth i news 0%Z) Pi) as X. rewrite map_nth_seq in X. exact X. }
  assert (Po : Permutation nops (os_ops s)).
  { pose proof (Permutation_map (fun i => nth i (os_ops s) OA) Pi) as X. rewrite Ln, map_nth_seq in X. exact X. }
  assert (Sl : StronglySorted Z.lt nlabs).
  { apply sorted_strict; [apply argsort_stable_sorted|]. apply (Permutation_NoDup (l := news)); auto. symmetry; auto. }
  assert (Pw : Permutation (combine (os_ops s) news) (combine nops nlabs)).
  { unfold nops, nlabs. rewrite combine_map_nth, (combine_seq _ _ OA) by auto. apply Permutation_map. symmetry; auto. }
  destruct (os_new_ok ty nops nlabs) as (t & Et & Ot & To & Tl & Tp); auto.
  { unfold nops, nlabs. rewrite !map_length. reflexivity. }
  { intros o H. apply Hv. apply (Permutation_in _ Po); auto. }
  { apply SSorted_NoDup; auto. }
  set (sg := gsgn (Nat.odd (inversions (map snd (filter (fun p => op_odd ty (fst p)) (combine (os_ops s) news)))))).
  assert (Ept : pval (os_pref t) = pval (os_pref s)).
  { destruct Ot as (_ & _ & _ & _ & Q). rewrite Q, Hpf, To. destruct ty; auto. f_equal.
    apply Permutation_length. clear - Po. induction Po; cbn [filter]; auto.
    - destruct (is_ab x); auto. - destruct (is_ab x), (is_ab y); auto using Permutation_refl. constructor. - etransitivity; eauto. }
  assert (Upf : gmul (pval (os_pref s)) (gconj (pval (os_pref s))) = g1) by (apply (pref_unit ty); auto).
  assert (Ec : one_term (permutation_rule perm s) sg t).
  { unfold permutation_rule. rewrite Ht, En. cbn [rbind]. fold inds. rewrite Eo. cbn [rbind]. fold nlabs.
    destruct ty; [| |congruence]; rewrite Et; cbn [rbind].
    - replace sg with g1; [apply single_one|]. unfold sg. cbn [op_odd].
      assert (F : filter (fun _ : op * Z => false) (combine (os_ops s) news) = []) by (generalize (combine (os_ops s) news) as w; induction w; auto).
      rewrite F. reflexivity.
    - replace (gq _) with sg; [apply single_one|]. rewrite Ept.
      replace (gdiv (pval (os_pref s)) (pval (os_pref s))) with g1.
      + rewrite zsort_sign. cbn [snd]. unfold sg, labels_ab.
        change (op_odd Majorana) with is_ab. destruct (Nat.odd _); apply GC_ext; apply Qc_is_canon; reflexivity.
      + symmetry. assert (P0 := unit_nonzero _ Upf). field. exact P0. }
  exists sg, t. split; auto. split; [unfold sg; destruct (Nat.odd _); auto|]. split; auto. split; [split; [rewrite Tl; auto | auto]|].
  split; [rewrite Tl; auto|].
  intros A g Hr. unfold image, den. rewrite Ept, ascal_ascal.
  replace (map (fun p => renamed f g (fst p) (snd p)) (combine (os_ops s) (os_labels s))) with (map (lval g) (combine (os_ops s) news)).
  2:{ unfold news. rewrite map_combine_r, map_map. apply map_ext. intros [o l]. reflexivity. }
  change (aprod (map (lval g) (combine (os_ops s) news))) with (word (lval g) (combine (os_ops s) news)).
  rewrite (word_sorted ty g _ (combine nops nlabs) Hr); auto.
  - fold sg. rewrite To, Tl, ascal_ascal. apply ascal_eq. ring.
  - intros o l H. apply Hv. eapply in_combine_l; eauto.
  - rewrite map_snd_combine; auto. unfold nops, nlabs. rewrite !map_length. reflexivity.
Qed.

(* ---------------------------------------------------- rules that change a sign *)

Lemma count_ops_spec s : string_ok Majorana s -> exists ab b d, count_ops (os_ops s) = Ok (ab, b, d) /\
  ab = length (filter is_ab (os_ops s)) /\
  Nat.odd b = par (fun p => match fst p with OB => true | _ => false end) (letters s) /\
  Nat.odd d = par (fun p => match fst p with OD => true | _ => false end) (letters s).
Proof.
  intros (_ & Hl & Hv & _). unfold letters. revert Hl Hv. generalize (os_labels s). induction (os_ops s) as [|o ops IH]; intros [|l ls] Hl Hv; try discriminate Hl.
  - exists 0, 0, 0. repeat split; reflexivity.
  - destruct (IH ls) as (ab & b & d & E & Ea & Eb & Ed); [cbn in Hl; lia | intros; apply Hv; right; auto|].
    specialize (Hv o (or_introl eq_refl)). cbn [count_ops combine]. cbn [par fst].
    destruct o; try discriminate Hv; rewrite E; cbn [rbind]; do 3 eexists; (split; [reflexivity|]); cbn [filter is_ab length];
      rewrite <- ?Eb, <- ?Ed, ?Nat.odd_succ, <- ?Nat.negb_odd; repeat split; auto; destruct (Nat.odd b), (Nat.odd d); reflexivity.
Qed.
Lemma flip_if_sgn c e : flip_if c (gsgn e) = gsgn (xorb c e).
Proof. destruct c, e; apply GC_ext; apply Qc_is_canon; reflexivity. Qed.

Lemma sign_acts ty (T : rule) (conj : bool) (h : forall A : StarAlg, (op -> Z -> A) -> op -> Z -> A) (e : op -> Z -> bool) s :
  string_ok ty s ->
  (forall (A : StarAlg) (g : op -> Z -> A) o l, In (o, l) (letters s) -> h A g o l == gsgn (e o l) · g o l) ->
  one_term (T s) (gsgn (xorb (if conj then pref_sign ty s else false) (par (fun p : op * Z => e (fst p) (snd p)) (letters s)))) s ->
  acts_as ty T conj h s.
Proof.
  intros Hs Hh H. eexists. exists s. split; [exact H|]. split; [destruct (xorb _ _); auto|]. split; auto. split; auto.
  intros A g Hr. rewrite (image_ext conj (h A g) (fun o l => gsgn (e o l) · g o l)) by (intros; apply Hh; auto).
  rewrite image_sign. destruct conj.
  - rewrite (image_conj ty) by auto. rewrite ascal_ascal. apply ascal_eq. rewrite gsgn_xorb. ring.
  - rewrite image_false, xorb_false_l. reflexivity.
Qed.

Definition is_b (o : op) : bool := match o with OB => true | _ => false end.
Definition is_d (o : op) : bool := match o with OD => true | _ => false end.

Lemma par_true {L} (w : list L) : par (fun _ => true) w = Nat.odd (length w).
Proof. rewrite par_odd_length. do 2 f_equal. induction w; cbn; congruence. Qed.
Lemma letters_length ty s : string_ok ty s -> length (letters s) = length (os_ops s).
Proof. intros (_ & H & _). unfold letters. rewrite combine_length, <- H. lia. Qed.

Lemma time_reversal_acts ty s : ty <> Fermion -> string_ok ty s -> acts_as ty time_reversal true (fun A g => reversed ty g) s.
Proof.
  intros Hty Hs. pose proof Hs as (Ht & _). destruct ty; [| |congruence].
  - apply (sign_acts Pauli _ true _ (fun _ _ => true)); auto.
    + intros A g o l _. reflexivity.
    + unfold time_reversal, time_reversal_rule. rewrite Ht, par_true, (letters_length Pauli) by auto. cbn [pref_sign].
      change g1 with (gsgn false) at 1. rewrite flip_if_sgn, xorb_false_r, xorb_false_l. apply single_one.
  - apply (sign_acts Majorana _ true _ (fun o _ => is_b o)); auto.
    + intros A g o l _. destruct o; cbn [reversed is_b gsgn]; rewrite ?ascal_1; reflexivity.
    + destruct (count_ops_spec s Hs) as (ab & b & d & E & Ea & Eb & Ed). unfold time_reversal, time_reversal_rule. rewrite Ht, E. cbn [rbind pref_sign].
      change g1 with (gsgn false) at 1. rewrite !flip_if_sgn, xorb_false_r, Eb, <- Ea. apply single_one.
Qed.
Lemma par_xor {L} (p q : L -> bool) w : par (fun x => xorb (p x) (q x)) w = xorb (par p w) (par q w).
Proof. induction w as [|x w IH]; cbn [par]; auto. rewrite IH. destruct (p x), (q x), (par p w), (par q w); reflexivity. Qed.
Lemma particle_hole_acts s : string_ok Majorana s -> acts_as Majorana particle_hole false (fun A g => conjugated g) s.
Proof.
  intros Hs. pose proof Hs as (Ht & _).
  apply (sign_acts Majorana _ false _ (fun o _ => xorb (is_d o) (is_b o))); auto.
  - intros A g o l _. destruct o; cbn [conjugated is_b is_d gsgn xorb]; rewrite ?ascal_1; reflexivity.
  - destruct (count_ops_spec s Hs) as (ab & b & d & E & Ea & Eb & Ed). unfold particle_hole, particle_hole_rule. rewrite Ht, E. cbn [rbind].
    change g1 with (gsgn false) at 1. rewrite !flip_if_sgn, xorb_false_r, xorb_false_l, Eb, Ed.
    rewrite <- par_xor. apply single_one.
Qed.
Lemma zmem_in l dn : zmem l dn = true <-> In l dn.
Proof. unfold zmem. rewrite existsb_exists. split; [intros (x & H & E); apply Z.eqb_eq in E; subst; auto | intros H; exists l; split; auto; apply Z.eqb_refl]. Qed.
Lemma count_down_spec dn s : string_ok Majorana s -> exists n, count_down dn (os_ops s) (os_labels s) = Ok n /\
  Nat.odd n = par (fun p => is_ab (fst p) && zmem (snd p) dn) (letters s).
Proof.
  intros (_ & Hl & Hv & _). unfold letters. revert Hl Hv. generalize (os_labels s). induction (os_ops s) as [|o ops IH]; intros [|l ls] Hl Hv; try discriminate Hl.
  - exists 0. auto.
  - destruct (IH ls) as (n & E & En); [cbn in Hl; lia | intros; apply Hv; right; auto|].
    specialize (Hv o (or_introl eq_refl)). cbn [count_down combine par fst snd]. rewrite E, <- En.
    destruct o; try discriminate Hv; cbn [is_ab rbind andb]; eexists; (split; [reflexivity|]); rewrite Nat.odd_add; destruct (zmem l dn); reflexivity.
Qed.
Lemma sz_acts dn s : string_ok Majorana s -> acts_as Majorana (sz_rule dn) false (fun A g => parity_flipped (fun l => In l dn) (fun l => in_dec Z.eq_dec l dn) g) s.
Proof.
  intros Hs. pose proof Hs as (Ht & _).
  apply (sign_acts Majorana _ false _ (fun o l => is_ab o && zmem l dn)); auto.
  - intros A g o l _. assert (Z : zmem l dn = if in_dec Z.eq_dec l dn then true else false).
    { destruct (in_dec Z.eq_dec l dn) as [i|n]; [apply zmem_in; auto|]. apply not_true_is_false. intros X. apply n, zmem_in; auto. }
    destruct o; cbn [parity_flipped is_ab andb]; rewrite ?Z; try destruct (in_dec Z.eq_dec l dn); cbn [gsgn]; rewrite ?ascal_1; reflexivity.
  - destruct (count_down_spec dn s Hs) as (n & E & En). unfold sz_rule. rewrite Ht, E. cbn [rbind]. rewrite xorb_false_l, <- En.
    change (if Nat.odd n then gm1 else g1) with (gsgn (Nat.odd n)). apply single_one.
Qed.
