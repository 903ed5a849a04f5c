(** Correctness of binary operations between operator strings. *)
From Coq Require Import List ZArith Bool Setoid Morphisms Arith Lia Sorted Permutation Field.
From Verif Require Import GC Exn S_Alg S_Den L_Alg L_Sort M_OpString M_Tools M_Algebra.
Import ListNotations.
Local Open Scope alg_scope.

(* ---------------------------------------------------------------- relations *)

Definition op_odd (ty : optype) (o : op) : bool :=
  match ty with Majorana => is_ab o | _ => false end.

Section Relations.
  Context {A : StarAlg} (ty : optype) (g : op -> Z -> A).
  Hypothesis Hrep : rep ty g.

  Lemma pauli_relations (sx sy sz : Z -> A) : PauliRel A sx sy sz -> forall l,
    sy l * sx l == (gopp gi) · sz l /\
    sx l * sz l == (gopp gi) · sy l /\ sz l * sx l == gi · sy l /\
    sy l * sz l == gi · sx l /\ sz l * sy l == (gopp gi) · sx l.
  Proof.
    intros [Sx Sy Sz Qx Qy Qz Pxy Pc] l.
    assert (Hyx : sy l * sx l == (gopp gi) · sz l).
    { rewrite <- (Sy l), <- (Sx l), <- astar_mul, Pxy, astar_scal, gconj_i, Sz. reflexivity. }
    assert (Hz : sz l == (gopp gi) · (sx l * sy l)).
    { rewrite Pxy, ascal_ascal. rewrite <- (ascal_1 A (sz l)) at 1.
      apply ascal_eq. apply GC_ext; reflexivity. }
    assert (Hz' : sz l == gi · (sy l * sx l)).
    { rewrite Hyx, ascal_ascal. rewrite <- (ascal_1 A (sz l)) at 1.
      apply ascal_eq. apply GC_ext; reflexivity. }
    repeat split; auto.
    - rewrite Hz, ascal_mul_r, amul_assoc, Qx, amul_1_l. reflexivity.
    - rewrite Hz', ascal_mul_l, <- amul_assoc, Qx, amul_1_r. reflexivity.
    - rewrite Hz', ascal_mul_r, amul_assoc, Qy, amul_1_l. reflexivity.
    - rewrite Hz, ascal_mul_l, <- amul_assoc, Qy, amul_1_r. reflexivity.
  Qed.

  Lemma maj_ba (ma mb md : Z -> A) : MajoranaRel A ma mb md -> forall l m,
    mb l * ma m == gm1 · (ma m * mb l).
  Proof. intros [Sa Sb Qa Qb Aa Ab Aab Dd] l m. rewrite (Aab m l), gm1_gm1. reflexivity. Qed.

  Lemma majorana_relations (ma mb md : Z -> A) : MajoranaRel A ma mb md -> forall l,
    (md l)^* == md l /\ md l * md l == aone /\
    ma l * mb l == gi · md l /\ mb l * ma l == (gopp gi) · md l /\
    ma l * md l == (gopp gi) · mb l /\ md l * ma l == gi · mb l /\
    mb l * md l == gi · ma l /\ md l * mb l == (gopp gi) · ma l.
  Proof.
    intros R l. pose proof (maj_ba _ _ _ R l l) as Hba. destruct R as [Sa Sb Qa Qb Aa Ab Aab Dd].
    assert (Hd' : md l == gi · (mb l * ma l)).
    { rewrite Dd, Aab, ascal_ascal. apply ascal_eq. apply GC_ext; reflexivity. }
    assert (Hab : ma l * mb l == gi · md l).
    { rewrite Dd, ascal_ascal. rewrite <- (ascal_1 A (ma l * mb l)) at 1.
      apply ascal_eq. apply GC_ext; reflexivity. }
    assert (Hda : md l * ma l == gi · mb l).
    { rewrite Hd', ascal_mul_l, <- amul_assoc, Qa, amul_1_r. reflexivity. }
    assert (Had : ma l * md l == (gopp gi) · mb l).
    { rewrite Dd, ascal_mul_r, amul_assoc, Qa, amul_1_l. reflexivity. }
    repeat split; auto.
    - rewrite Dd, astar_scal, astar_mul, Sa, Sb, Hba, ascal_ascal.
      apply ascal_eq. apply GC_ext; reflexivity.
    - rewrite Dd at 1. rewrite ascal_mul_l, <- amul_assoc, Hd', ascal_mul_r.
      rewrite (amul_assoc _ (mb l)), Qb, amul_1_l, ascal_mul_r, Qa, ascal_ascal.
      rewrite <- (ascal_1 A aone) at 2. apply ascal_eq. apply GC_ext; reflexivity.
    - rewrite Hba, Hab, ascal_ascal. apply ascal_eq. apply GC_ext; reflexivity.
    - rewrite Hd', ascal_mul_r, amul_assoc, Qb, amul_1_l. reflexivity.
    - rewrite Dd, ascal_mul_l, <- amul_assoc, Qb, amul_1_r. reflexivity.
  Qed.

  Lemma rep_star o l : is_op_of ty o = true -> (g o l)^* == g o l.
  Proof.
    destruct ty; simpl in *; [| |contradiction].
    - destruct Hrep. destruct o; simpl; try discriminate; intros _; auto.
    - pose proof (majorana_relations _ _ _ Hrep l) as H. destruct Hrep.
      destruct o; simpl; try discriminate; intros _; auto. apply H.
  Qed.

  Lemma rep_sq o l : is_op_of ty o = true -> g o l * g o l == aone.
  Proof.
    destruct ty; simpl in *; [| |contradiction].
    - destruct Hrep. destruct o; simpl; try discriminate; intros _; auto.
    - pose proof (majorana_relations _ _ _ Hrep l) as H. destruct Hrep.
      destruct o; simpl; try discriminate; intros _; auto. apply H.
  Qed.

  Lemma rep_table o p l c q : is_op_of ty o = true -> is_op_of ty p = true ->
    product_dict o p = Some (c, q) -> g o l * g p l == c · g q l.
  Proof.
    destruct ty; simpl in *; [| |contradiction].
    - pose proof (pauli_relations _ _ _ Hrep l) as H. pose proof (pxy _ _ _ _ Hrep l) as H0.
      intuition;
      destruct o, p; simpl in *; try discriminate;
      match goal with E : Some _ = Some _ |- _ => injection E; intros <- <-; assumption end.
    - pose proof (majorana_relations _ _ _ Hrep l) as H. intuition;
      destruct o, p; simpl in *; try discriminate;
      match goal with E : Some _ = Some _ |- _ => injection E; intros <- <-; assumption end.
  Qed.

  Lemma rep_gcomm o p l m : is_op_of ty o = true -> is_op_of ty p = true -> l <> m ->
    g o l * g p m == gsgn (op_odd ty o && op_odd ty p) · (g p m * g o l).
  Proof.
    intros Ho Hp Hlm. destruct ty; simpl in *; [| |contradiction].
    - simpl. rewrite ascal_1. destruct Hrep as [? ? ? ? ? ? ? Pc]. apply (Pc l m Hlm).
      + destruct o; simpl in *; try discriminate; auto.
      + destruct p; simpl in *; try discriminate; auto.
    - pose proof (maj_ba _ _ _ Hrep) as Hba.
      destruct Hrep as [Sa Sb Qa Qb Aa Ab Aab Dd].
      assert (Hm : m <> l) by auto.
      assert (DX : forall x : A, (x * g OA m == gm1 · (g OA m * x)) -> (x * g OB m == gm1 · (g OB m * x)) ->
                 x * g OD m == g OD m * x).
      { intros x Ha Hb. rewrite Dd, ascal_mul_r, ascal_mul_l. apply ascal_proper.
        rewrite amul_assoc, Ha, ascal_mul_l, <- amul_assoc, Hb, ascal_mul_r, gm1_gm1, amul_assoc. reflexivity. }
      assert (DX' : forall x : A, (g OA l * x == gm1 · (x * g OA l)) -> (g OB l * x == gm1 · (x * g OB l)) ->
                 g OD l * x == x * g OD l).
      { intros x Ha Hb. rewrite Dd, ascal_mul_r, ascal_mul_l. apply ascal_proper.
        rewrite <- amul_assoc, Hb, ascal_mul_r, amul_assoc, Ha, ascal_mul_l, gm1_gm1, amul_assoc. reflexivity. }
      destruct o; simpl in Ho; try discriminate; destruct p; simpl in Hp; try discriminate; simpl;
        rewrite ?ascal_1; auto.
      assert (Ca : g OD l * g OA m == g OA m * g OD l) by (apply DX'; auto).
      assert (Cb : g OD l * g OB m == g OB m * g OD l) by (apply DX'; auto).
      rewrite (Dd m), ascal_mul_r, ascal_mul_l. apply ascal_proper.
      rewrite amul_assoc, Ca, <- amul_assoc, Cb, amul_assoc. reflexivity.
  Qed.

End Relations.

(* ------------------------------------------------------------ small lemmas *)

Lemma op_eqb_eq a b : op_eqb a b = true <-> a = b.
Proof.
  split.
  - destruct a, b; simpl; try discriminate; auto. intros H; apply String.eqb_eq in H; congruence.
  - intros <-. destruct a; simpl; auto. apply String.eqb_refl.
Qed.
Lemma op_eqb_refl a : op_eqb a a = true.
Proof. apply op_eqb_eq; auto. Qed.

Lemma optype_eqb_eq a b : optype_eqb a b = true <-> a = b.
Proof. destruct a, b; simpl; split; congruence. Qed.

Lemma list_eqb_eq {T} (eqb : T -> T -> bool) (H : forall a b, eqb a b = true <-> a = b) l m :
  list_eqb eqb l m = true <-> l = m.
Proof.
  revert m; induction l as [|a l IH]; intros [|b m]; simpl; split; try congruence; auto.
  - intros E. apply andb_true_iff in E. destruct E as [E1 E2].
    apply H in E1. apply IH in E2. congruence.
  - intros E; injection E; intros <- <-. apply andb_true_iff; split; [apply H | apply IH]; auto.
Qed.

Lemma os_eqb_spec s t :
  os_eqb s t = true <-> os_ops s = os_ops t /\ os_labels s = os_labels t /\ os_type s = os_type t.
Proof.
  unfold os_eqb. rewrite !andb_true_iff, (list_eqb_eq _ op_eqb_eq), (list_eqb_eq _ Z.eqb_eq), optype_eqb_eq.
  tauto.
Qed.

Lemma insert_uniq_in x y l : In y (insert_uniq x l) <-> y = x \/ In y l.
Proof.
  induction l as [|z l IH]; simpl.
  - intuition.
  - destruct (Z.ltb x z); [simpl; intuition|].
    destruct (Z.eqb_spec x z); simpl; [subst; intuition | rewrite IH; intuition].
Qed.

Lemma insert_uniq_sorted x l : StronglySorted Z.lt l -> StronglySorted Z.lt (insert_uniq x l).
Proof.
  induction l as [|z l IH]; simpl; intros Hs.
  - repeat constructor.
  - inversion Hs as [|? ? Hs' Hall]; subst.
    destruct (Z.ltb_spec x z).
    + constructor; auto. rewrite Forall_forall in *. intros y [<-|Hy]; auto. specialize (Hall y Hy); lia.
    + destruct (Z.eqb_spec x z); auto.
      constructor; auto. rewrite Forall_forall in *. intros y Hy.
      apply insert_uniq_in in Hy. destruct Hy as [->|Hy]; [lia|]. auto.
Qed.

Lemma sort_uniq_sorted l : StronglySorted Z.lt (sort_uniq l).
Proof. induction l; simpl; [constructor | apply insert_uniq_sorted; auto]. Qed.

Lemma sort_uniq_in x l : In x (sort_uniq l) <-> In x l.
Proof. induction l; simpl; [tauto|]. rewrite insert_uniq_in, IHl. intuition. Qed.

(** The operator at a label, for strings with distinct labels. *)
Lemma label_index_from_spec labels l k :
  match label_index_from k labels l with
  | Some j => (k <= j)%nat /\ nth_error labels (j - k) = Some l
  | None => ~ In l labels
  end.
Proof.
  revert k; induction labels as [|x r IH]; intros k; simpl; auto.
  specialize (IH (S k)). destruct (label_index_from (S k) r l) as [j|].
  - destruct IH as [H1 H2]. split; [lia|].
    replace (j - k)%nat with (S (j - S k)) by lia. auto.
  - destruct (Z.eqb_spec x l) as [->|E].
    + split; auto. rewrite Nat.sub_diag. auto.
    + intros [H|H]; auto.
Qed.

Definition letters (s : OS) : list (op * Z) := combine (os_ops s) (os_labels s).

Lemma combine_nth_error {T U} (l : list T) (m : list U) i a b :
  nth_error l i = Some a -> nth_error m i = Some b -> nth_error (combine l m) i = Some (a, b).
Proof.
  revert m i; induction l as [|x l IH]; intros m [|i]; simpl; try discriminate; destruct m; simpl; try discriminate; auto.
  congruence.
Qed.

Lemma block_none (w : list (op * Z)) l : ~ In l (map snd w) -> block snd w l = [].
Proof.
  induction w as [|[o m] w IH]; simpl; auto. intros H. unfold block in *. simpl.
  destruct (Z.eqb_spec m l); [exfalso; auto|]. apply IH; auto.
Qed.

Lemma block_single (w : list (op * Z)) i o l : NoDup (map snd w) -> nth_error w i = Some (o, l) ->
  block snd w l = [(o, l)].
Proof.
  revert i; induction w as [|[p m] w IH]; intros [|i]; simpl; try discriminate; intros Hn He.
  - injection He; intros -> ->. inversion Hn; subst. unfold block; simpl. rewrite Z.eqb_refl.
    f_equal. apply block_none; auto.
  - inversion Hn; subst. unfold block in *; simpl. destruct (Z.eqb_spec m l) as [->|E].
    + exfalso. apply H1. apply nth_error_In in He. apply in_map_iff. exists (o, l); auto.
    + eapply IH; eauto.
Qed.

Lemma map_snd_combine {T U} (l : list T) (m : list U) : length l = length m -> map snd (combine l m) = m.
Proof. revert m; induction l; intros [|b m]; simpl; try discriminate; auto. intros H; f_equal; auto. Qed.
Lemma map_fst_combine {T U} (l : list T) (m : list U) : length l = length m -> map fst (combine l m) = l.
Proof. revert m; induction l; intros [|b m]; simpl; try discriminate; auto. intros H; f_equal; auto. Qed.

Lemma op_at_spec ty s l : string_ok ty s ->
  (op_at s l = Ok None /\ block snd (letters s) l = []) \/
  (exists o, op_at s l = Ok (Some o) /\ block snd (letters s) l = [(o, l)] /\ is_op_of ty o = true).
Proof.
  intros (Ht & Hlen & Hops & Hnd & Hp). unfold op_at, label_index.
  pose proof (label_index_from_spec (os_labels s) l 0) as H.
  assert (Hm : map snd (letters s) = os_labels s) by (apply map_snd_combine; auto).
  destruct (label_index_from 0 (os_labels s) l) as [j|].
  - destruct H as [_ H]. rewrite Nat.sub_0_r in H. right.
    destruct (nth_error (os_ops s) j) as [o|] eqn:E.
    + exists o. simpl. repeat split.
      * eapply block_single; [rewrite Hm; auto | apply combine_nth_error; eauto].
      * apply Hops. eapply nth_error_In; eauto.
    + exfalso. apply nth_error_None in E.
      assert (j < length (os_labels s))%nat by (apply nth_error_Some; congruence). lia.
  - left. split; auto. apply block_none. rewrite Hm; auto.
Qed.

Lemma product_dict_total ty a b : is_op_of ty a = true -> is_op_of ty b = true -> ty <> Fermion -> a <> b ->
  exists c q, product_dict a b = Some (c, q) /\ product_dict b a = Some (gconj c, q) /\
              is_op_of ty q = true /\ gconj c = gopp c /\ gmul c (gconj c) = g1.
Proof.
  intros Ha Hb Ht Hab.
  destruct ty; [| |congruence]; destruct a; simpl in Ha; try discriminate; destruct b; simpl in Hb;
    try discriminate; try congruence; simpl; do 2 eexists; repeat split; try reflexivity;
    try (f_equal; f_equal; apply GC_ext; reflexivity); apply GC_ext; reflexivity.
Qed.

Definition lval {A : StarAlg} (g : op -> Z -> A) (p : op * Z) : A := g (fst p) (snd p).

Lemma block_app (u v : list (op * Z)) l : block snd (u ++ v) l = block snd u l ++ block snd v l.
Proof. apply filter_app. Qed.

Lemma word_cons' {A : StarAlg} {T} (v : T -> A) x w : word v (x :: w) = v x * word v w.
Proof. reflexivity. Qed.

Lemma lval_pair {A : StarAlg} (g : op -> Z -> A) o l : lval g (o, l) = g o l.
Proof. reflexivity. Qed.

Lemma word_nil' {A : StarAlg} {T} (v : T -> A) : word v [] = aone.
Proof. reflexivity. Qed.

(** What the loop over labels adds to its state. *)
Lemma comb_loop ty S T : string_ok ty S -> string_ok ty T -> ty <> Fermion ->
  forall ks, (forall l, In l ks -> In l (os_labels S ++ os_labels T)) ->
  exists c n ops labs,
    (forall c0 n0 o0 l0, rfold (comb_step S T) ks (mkComb c0 n0 o0 l0) =
                         Ok (mkComb (gmul c0 c) (n0 + n) (o0 ++ ops) (l0 ++ labs))) /\
    length ops = length labs /\ (forall o, In o ops -> is_op_of ty o = true) /\
    (forall l, In l labs -> In l ks) /\ (StronglySorted Z.lt ks -> StronglySorted Z.lt labs) /\
    gconj c = gmul (gsgn (Nat.odd n)) c /\ gmul c (gconj c) = g1 /\
    (os_ops S = os_ops T -> os_labels S = os_labels T -> c = g1 /\ n = 0%nat /\ ops = [] /\ labs = []) /\
    (ops = [] -> forall l, In l ks -> block snd (letters S) l = block snd (letters T) l) /\
    (forall (A : StarAlg) (g : op -> Z -> A), rep ty g ->
       blocks (lval g) snd (letters S ++ letters T) ks == c · word (lval g) (combine ops labs) /\
       blocks (lval g) snd (letters T ++ letters S) ks == gconj c · word (lval g) (combine ops labs)).
Proof.
  intros HS HT Hty ks. induction ks as [|l ks IH]; intros Hin.
  - exists g1, 0%nat, [], []. split; [|split; [|split; [|split; [|split; [|split; [|split; [|split; [|split]]]]]]]].
    + intros. simpl. rewrite !app_nil_r, Nat.add_0_r. do 2 f_equal. ring.
    + auto.
    + simpl; tauto.
    + simpl; tauto.
    + auto.
    + apply GC_ext; reflexivity.
    + apply GC_ext; reflexivity.
    + auto.
    + simpl; tauto.
    + intros A g Hr. unfold blocks, word; simpl. rewrite gconj_1, !ascal_1. split; reflexivity.
  - assert (IHp : forall l0, In l0 ks -> In l0 (os_labels S ++ os_labels T)) by (intros; apply Hin; right; auto).
    destruct (IH IHp) as (c & n & ops & labs & Hf & Hlen & Hval & Hsub & Hsrt & Hcj & Hun & Heq & Hnil & Hsem). clear IH IHp.
    destruct (op_at_spec ty S l HS) as [[Sa Sb] | (a & Sa & Sb & Sv)];
    destruct (op_at_spec ty T l HT) as [[Ta Tb] | (b & Ta & Tb & Tv)].
    + exfalso.
      assert (Hl : In l (os_labels S ++ os_labels T)) by (apply Hin; left; auto).
      destruct HS as (_ & HSl & _), HT as (_ & HTl & _).
      assert (forall U, length (os_ops U) = length (os_labels U) -> block snd (letters U) l = [] -> ~ In l (os_labels U)).
      { intros U HU HB HI. rewrite <- (map_snd_combine _ _ HU) in HI. apply in_map_iff in HI.
        destruct HI as ((o, m) & E & HI). simpl in E. subst m.
        assert (In (o, l) (block snd (letters U) l)).
        { apply filter_In. split; auto. simpl. apply Z.eqb_refl. }
        rewrite HB in H. destruct H. }
      apply in_app_or in Hl. destruct Hl as [Hl|Hl]; [eapply (H S) | eapply (H T)]; eauto.
    + exists c, n, (b :: ops), (l :: labs).
      split; [|split; [|split; [|split; [|split; [|split; [|split; [|split; [|split]]]]]]]].
      * intros. simpl. unfold comb_step at 1. rewrite Sa, Ta. simpl. rewrite Hf. rewrite <- !app_assoc. reflexivity.
      * simpl; auto.
      * simpl. intros o [<-|Ho]; auto.
      * simpl. intros x [<-|Hx]; auto.
      * intros Hs. inversion Hs as [|? ? Hs' Hall]; subst. constructor; auto.
        rewrite Forall_forall in *. auto.
      * auto.
      * auto.
      * intros E1 E2. exfalso. unfold letters in *. rewrite E1, E2 in Sb. rewrite Sb in Tb. discriminate.
      * intros E; discriminate.
      * intros A g Hr. destruct (Hsem A g Hr) as [H1 H2]. unfold blocks in *. simpl map.
        rewrite !aprod_cons, !block_app, Sb, Tb, H1, H2. cbn [app combine]. rewrite !word_cons', !word_nil'.
        rewrite !amul_1_r, !ascal_mul_r. split; reflexivity.
    + exists c, n, (a :: ops), (l :: labs).
      split; [|split; [|split; [|split; [|split; [|split; [|split; [|split; [|split]]]]]]]].
      * intros. simpl. unfold comb_step at 1. rewrite Sa, Ta. simpl. rewrite Hf. rewrite <- !app_assoc. reflexivity.
      * simpl; auto.
      * simpl. intros o [<-|Ho]; auto.
      * simpl. intros x [<-|Hx]; auto.
      * intros Hs. inversion Hs as [|? ? Hs' Hall]; subst. constructor; auto.
        rewrite Forall_forall in *. auto.
      * auto.
      * auto.
      * intros E1 E2. exfalso. unfold letters in *. rewrite E1, E2 in Sb. rewrite Sb in Tb. discriminate.
      * intros E; discriminate.
      * intros A g Hr. destruct (Hsem A g Hr) as [H1 H2]. unfold blocks in *. simpl map.
        rewrite !aprod_cons, !block_app, Sb, Tb, H1, H2. cbn [app combine]. rewrite !word_cons', !word_nil'.
        rewrite !amul_1_r, !ascal_mul_r. split; reflexivity.
    + destruct (op_eqb a b) eqn:E.
      * apply op_eqb_eq in E. subst b.
        exists c, n, ops, labs.
        split; [|split; [|split; [|split; [|split; [|split; [|split; [|split; [|split]]]]]]]]; auto.
        -- intros. simpl. unfold comb_step at 1. rewrite Sa, Ta. simpl. rewrite op_eqb_refl. simpl. apply Hf.
        -- intros x Hx. right; auto.
        -- intros Hs. inversion Hs; subst; auto.
        -- intros E m [<-|Hm]; [congruence | auto].
        -- intros A g Hr. destruct (Hsem A g Hr) as [H1 H2]. unfold blocks in *. simpl map.
           rewrite !aprod_cons, !block_app, Sb, Tb, H1, H2. cbn [app combine]. rewrite ?word_cons', ?word_nil'.
           rewrite !lval_pair, !amul_1_r.
           rewrite (rep_sq ty g Hr a l Sv), !amul_1_l. split; reflexivity.
      * assert (Hab : a <> b) by (intros ->; rewrite op_eqb_refl in E; discriminate).
        destruct (product_dict_total ty a b Sv Tv Hty Hab) as (d & q & P1 & P2 & Pq & Pc & Pu).
        exists (gmul d c), (Datatypes.S n), (q :: ops), (l :: labs).
        split; [|split; [|split; [|split; [|split; [|split; [|split; [|split; [|split]]]]]]]].
        -- intros. simpl. unfold comb_step at 1. rewrite Sa, Ta. simpl. rewrite E, P1. simpl.
           rewrite Hf. rewrite <- !app_assoc. do 2 f_equal; [ring | lia].
        -- simpl; auto.
        -- simpl. intros o [<-|Ho]; auto.
        -- simpl. intros x [<-|Hx]; auto.
        -- intros Hs. inversion Hs as [|? ? Hs' Hall]; subst. constructor; auto.
           rewrite Forall_forall in *. auto.
        -- rewrite gconj_mul, Pc, Hcj, Nat.odd_succ, <- Nat.negb_odd.
           destruct (Nat.odd n); simpl; unfold gm1; ring.
        -- rewrite gconj_mul. replace (gmul (gmul d c) (gmul (gconj d) (gconj c))) with (gmul (gmul d (gconj d)) (gmul c (gconj c))) by ring.
           rewrite Pu, Hun. ring.
        -- intros E1 E2. exfalso. unfold letters in *. rewrite E1, E2 in Sb. rewrite Sb in Tb.
           injection Tb; auto.
        -- intros E'; discriminate.
        -- intros A g Hr. destruct (Hsem A g Hr) as [H1 H2]. unfold blocks in *. simpl map.
           rewrite !aprod_cons, !block_app, Sb, Tb, H1, H2. cbn [app combine]. rewrite ?word_cons', ?word_nil'.
           rewrite !lval_pair, !amul_1_r.
           rewrite (rep_table ty g Hr a b l d q Sv Tv P1), (rep_table ty g Hr b a l _ q Tv Sv P2).
           rewrite !ascal_mul_l, !ascal_mul_r, !ascal_ascal, gconj_mul. split; reflexivity.
Qed.

(** The constructor on well-formed lists with the default prefactor. *)
Lemma os_new_ok ty ops labs : ty <> Fermion -> length ops = length labs ->
  (forall o, In o ops -> is_op_of ty o = true) -> NoDup labs ->
  exists s, os_new ops labs ty = Ok s /\ string_ok ty s /\ os_ops s = ops /\ os_labels s = labs /\
            (os_pref s = p_one \/ os_pref s = p_j).
Proof.
  intros Hty Hlen Hval Hnd.
  assert (Hf : length (labels_ab ops labs) = length (filter is_ab ops)).
  { unfold labels_ab. rewrite map_length. clear - Hlen. revert labs Hlen.
    induction ops as [|o ops IH]; intros [|l labs] H; simpl; try discriminate; auto.
    simpl in H. injection H as H. destruct (is_ab o); simpl; auto. }
  unfold os_new, os_make. destruct ty; [| |congruence].
  - simpl. replace (gc_eqb g1 g1) with true by (symmetry; apply gc_eqb_eq; auto).
    eexists; split; [reflexivity|]. unfold string_ok; simpl. repeat split; auto.
  - replace (length ops <? length labs)%nat with false by (symmetry; apply Nat.ltb_ge; lia).
    assert (Hp : pref_ok Majorana (majorana_pref ops labs p_one) = true).
    { unfold majorana_pref. destruct (Nat.odd _); simpl.
      - replace (gc_eqb gi gi) with true by (symmetry; apply gc_eqb_eq; auto). rewrite ?orb_true_r. reflexivity.
      - replace (gc_eqb g1 g1) with true by (symmetry; apply gc_eqb_eq; auto). reflexivity. }
    rewrite Hp. eexists; split; [reflexivity|]. unfold string_ok; simpl. repeat split; auto.
    + unfold majorana_pref, majorana_phase. rewrite Hf. destruct (Nat.odd _); auto.
    + unfold majorana_pref. destruct (Nat.odd _); auto.
Qed.

Lemma SSorted_NoDup l : StronglySorted Z.lt l -> NoDup l.
Proof.
  induction 1; constructor; auto. intros Hin. rewrite Forall_forall in H0. specialize (H0 _ Hin). lia.
Qed.

Lemma letters_gcomm ty {A : StarAlg} (g : op -> Z -> A) w :
  rep ty g -> (forall o l, In (o, l) w -> is_op_of ty o = true) ->
  gcomm (lval g) snd (fun p => op_odd ty (fst p)) w.
Proof.
  intros Hr. induction w as [|[o l] w IH]; simpl; auto. intros H. split.
  - intros [p m] Hy Hlt. simpl in *. unfold gcomm1, lval; simpl.
    apply rep_gcomm; auto; [eapply H; left; eauto | eapply H; right; eauto | lia].
  - apply IH. intros; eapply H; right; eauto.
Qed.

Lemma letters_valid ty s o l : string_ok ty s -> In (o, l) (letters s) -> is_op_of ty o = true.
Proof. intros (_ & _ & H & _) Hin. apply H. eapply in_combine_l; eauto. Qed.

Lemma letters_label s o l : In (o, l) (letters s) -> In l (os_labels s).
Proof. intros Hin. eapply in_combine_r; eauto. Qed.

Lemma labels_ab_letters s :
  labels_ab (os_ops s) (os_labels s) = map snd (filter (fun p => is_ab (fst p)) (letters s)).
Proof. reflexivity. Qed.

Lemma pref_unit ty s : string_ok ty s -> gmul (pval (os_pref s)) (gconj (pval (os_pref s))) = g1.
Proof.
  intros (_ & _ & _ & _ & ->). destruct ty; try (apply GC_ext; reflexivity).
  unfold majorana_phase. destruct (Nat.odd _); apply GC_ext; reflexivity.
Qed.

Lemma den_word {A : StarAlg} (g : op -> Z -> A) s : den g s = pval (os_pref s) · word (lval g) (letters s).
Proof. reflexivity. Qed.

(** Sign of the permutation sorting the odd letters of two concatenated strings. *)
Definition cross_par (ty : optype) (S T : OS) : bool :=
  match ty with
  | Majorana => Nat.odd (inversions (labels_ab (os_ops S) (os_labels S) ++ labels_ab (os_ops T) (os_labels T)))
  | _ => false
  end.

Lemma word_two ty {A : StarAlg} (g : op -> Z -> A) S T ks : rep ty g -> string_ok ty S -> string_ok ty T ->
  StronglySorted Z.lt ks -> (forall l, In l (os_labels S) \/ In l (os_labels T) -> In l ks) ->
  word (lval g) (letters S) * word (lval g) (letters T) ==
  gsgn (cross_par ty S T) · blocks (lval g) snd (letters S ++ letters T) ks.
Proof.
  intros Hr HS HT Hs Hks. rewrite <- word_app.
  rewrite (graded_sort (lval g) snd (fun p => op_odd ty (fst p)) _ ks); auto.
  - apply ascal_eq. f_equal. unfold cross_par.
    rewrite invpar_inversions, filter_app, map_app. destruct ty.
    + assert (F : forall w : list (op * Z), filter (fun p => op_odd Pauli (fst p)) w = []) by (induction w; simpl; auto).
      rewrite !F. reflexivity.
    + reflexivity.
    + simpl in Hr. contradiction.
  - intros [o l] Hin. simpl. apply Hks. apply in_app_or in Hin. destruct Hin as [H|H]; apply letters_label in H; auto.
  - apply letters_gcomm; auto. intros o l Hin. apply in_app_or in Hin.
    destruct Hin as [H|H]; [eapply (letters_valid ty S) | eapply (letters_valid ty T)]; eauto.
Qed.

Lemma cross_count_self (l : list Z) : NoDup l ->
  Nat.odd (inversions (l ++ l)) = Nat.odd (length l * (length l - 1) / 2).
Proof.
  (* inversions (l ++ m) = inversions l + inversions m + number of (x in l, y in m, y < x) *)
  set (cross := fun l m : list Z => list_sum (map (fun x => length (filter (fun y => Z.ltb y x) m)) l)).
  assert (H1 : forall l m, inversions (l ++ m) = (inversions l + inversions m + cross l m)%nat).
  { clear. intros l m. induction l as [|x l IH]; simpl; [unfold cross; simpl; lia|].
    rewrite IH, filter_app, app_length. unfold cross; simpl. lia. }
  assert (H2 : NoDup l -> (2 * cross l l = length l * (length l - 1))%nat).
  { clear. induction l as [|x l IH]; intros Hn; [reflexivity|].
    inversion Hn as [|? ? Hx Hn']; subst. specialize (IH Hn').
    assert (C : cross (x :: l) (x :: l) =
                (length (filter (fun y => Z.ltb y x) l) + length (filter (fun y => Z.ltb x y) l) + cross l l)%nat).
    { unfold cross. simpl. rewrite Z.ltb_irrefl.
      assert (G : forall m k : list Z,
        list_sum (map (fun x0 => length (if Z.ltb x x0 then x :: filter (fun y => Z.ltb y x0) k else filter (fun y => Z.ltb y x0) k)) m)
        = (length (filter (fun y => Z.ltb x y) m) + list_sum (map (fun x0 => length (filter (fun y => Z.ltb y x0) k)) m))%nat).
      { clear. intros m k. induction m as [|y m IH]; simpl; auto.
        rewrite IH. destruct (Z.ltb x y); simpl; lia. }
      rewrite G. lia. }
    rewrite C.
    assert (D : (length (filter (fun y => Z.ltb y x) l) + length (filter (fun y => Z.ltb x y) l) = length l)%nat).
    { clear - Hx. induction l as [|y l IH]; simpl; auto.
      destruct (Z.ltb_spec y x), (Z.ltb_spec x y); simpl; try lia.
      - rewrite <- IH; [lia | intros H1; apply Hx; right; auto].
      - rewrite <- IH; [lia | intros H1; apply Hx; right; auto].
      - exfalso. apply Hx. left. lia. }
    simpl length. destruct (length l) as [|k]; simpl in *; nia. }
  intros Hn. specialize (H2 Hn). rewrite H1.
  replace (length l * (length l - 1) / 2)%nat with (cross l l).
  - rewrite !Nat.odd_add. destruct (Nat.odd (inversions l)), (Nat.odd (cross l l)); auto.
  - rewrite <- H2. rewrite Nat.mul_comm, Nat.div_mul; lia.
Qed.
