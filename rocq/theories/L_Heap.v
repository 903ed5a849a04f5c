(** Proofs about object identity. *)
From Coq Require Import String List ZArith Bool Arith Lia.
From Verif Require Import GC Exn M_OpString M_Basis M_Heap S_Basis S_Built L_StrAlg L_Basis L_Operator.
Import ListNotations.
Local Open Scope nat_scope.

Definition owned (h : heap) : list nat := map fst (h_bases h).
Record sep (h : heap) : Prop := {
  sep_own : NoDup (owned h);
  sep_lst : forall a, In a (owned h) -> a < length (h_lists h);
  sep_bas : forall o cs b ty, nth_error (h_ops h) o = Some (cs, b, ty) -> b < length (h_bases h);
  sep_ops : forall o p cs b ty cs' ty', nth_error (h_ops h) o = Some (cs, b, ty) ->
              nth_error (h_ops h) p = Some (cs', b, ty') -> o = p;
  sep_ok : forall o v, op_view h o = Ok v -> op_ok v
}.

Lemma rbind_ok {T U} (x : res T) (f : T -> res U) y : rbind x f = Ok y -> exists z, x = Ok z /\ f z = Ok y.
Proof. destruct x; simpl; [eauto | discriminate]. Qed.
Lemma of_option_ok {T} e (x : option T) y : of_option e x = Ok y -> x = Some y.
Proof. destruct x; simpl; congruence. Qed.

Ltac inv_bind H := 
  let z := fresh "z" in let E := fresh "E" in
  apply rbind_ok in H; destruct H as (z & E & H).

Lemma basis_view_inv h b v : basis_view h b = Ok v -> exists a, nth_error (h_bases h) b = Some (a, b_idx v) /\
  nth_error (h_lists h) a = Some (b_strings v).
Proof.
  unfold basis_view, list_view. intros H. inv_bind H. apply of_option_ok in E. destruct z as [a d].
  inv_bind H. apply of_option_ok in E0. injection H as <-. simpl. eauto.
Qed.
Lemma basis_view_make h b a d l : nth_error (h_bases h) b = Some (a, d) -> nth_error (h_lists h) a = Some l ->
  basis_view h b = Ok (mkBasis l d).
Proof. intros H1 H2. unfold basis_view, list_view. rewrite H1. simpl. rewrite H2. reflexivity. Qed.
Lemma op_view_inv h o v : op_view h o = Ok v -> exists b, nth_error (h_ops h) o = Some (o_coeffs v, b, o_type v) /\
  basis_view h b = Ok (o_basis v).
Proof.
  unfold op_view. intros H. inv_bind H. apply of_option_ok in E. destruct z as [[cs b] ty].
  inv_bind H. injection H as <-. simpl. eauto.
Qed.
Lemma op_view_make h o cs b ty v : nth_error (h_ops h) o = Some (cs, b, ty) -> basis_view h b = Ok v ->
  op_view h o = Ok (mkOperator cs v ty).
Proof. intros H1 H2. unfold op_view. rewrite H1. simpl. rewrite H2. reflexivity. Qed.

Lemma nth_app_last {T} (l : list T) x : nth_error (l ++ [x]) (length l) = Some x.
Proof. rewrite nth_error_app2, Nat.sub_diag by lia. reflexivity. Qed.

(** Existing objects are not affected by the allocation of a new Operator. *)
Lemma alloc_old_basis h v b w : basis_view h b = Ok w -> basis_view (alloc_op h v) b = Ok w.
Proof.
  intros H. destruct (basis_view_inv _ _ _ H) as (a & H1 & H2). destruct w as [l d].
  apply (basis_view_make _ _ a); simpl; rewrite nth_error_app1; auto; apply nth_error_Some; congruence.
Qed.
Lemma alloc_old_op h v o w : op_view h o = Ok w -> op_view (alloc_op h v) o = Ok w.
Proof.
  intros H. destruct (op_view_inv _ _ _ H) as (b & H1 & H2). destruct w as [cs bb ty].
  eapply op_view_make; [|apply alloc_old_basis; eauto]. simpl. rewrite nth_error_app1; eauto. apply nth_error_Some; congruence.
Qed.
Lemma alloc_new_op h v : op_view (alloc_op h v) (length (h_ops h)) = Ok v.
Proof.
  destruct v as [cs [l d] ty]. eapply op_view_make; [simpl; apply nth_app_last|].
  eapply basis_view_make; simpl; apply nth_app_last.
Qed.

Lemma nth_snoc {T} (l : list T) x i y : nth_error (l ++ [x]) i = Some y -> nth_error l i = Some y \/ (i = length l /\ x = y).
Proof.
  destruct (Nat.lt_ge_cases i (length l)) as [L|L].
  - rewrite nth_error_app1 by auto. auto.
  - rewrite nth_error_app2 by auto. destruct (i - length l) eqn:E; simpl.
    + intros H; injection H as ->. right. split; auto. lia.
    + destruct n; discriminate.
Qed.

Lemma op_view_alloc_cases h v o w : op_view (alloc_op h v) o = Ok w ->
  (exists w', op_view h o = Ok w') \/ o = length (h_ops h) \/ 
  (exists cs b ty, nth_error (h_ops h) o = Some (cs, b, ty) /\ forall u, basis_view h b <> Ok u).
Proof.
  intros H. destruct (op_view_inv _ _ _ H) as (b & H1 & H2). simpl in H1. apply nth_snoc in H1.
  destruct H1 as [H1|[-> _]]; auto. destruct (basis_view h b) as [u|e] eqn:E.
  - left. eexists. eapply op_view_make; eauto.
  - right; right. do 3 eexists. split; eauto. congruence.
Qed.

Lemma sep_view h : sep h -> forall b a d, nth_error (h_bases h) b = Some (a, d) -> exists w, basis_view h b = Ok w.
Proof.
  intros [H1 H2 _ _ _] b a d Hb. destruct (nth_len (h_lists h) a) as (l & Hl).
  - apply H2. unfold owned. apply in_map_iff. exists (a, d). split; auto. eapply nth_error_In; eauto.
  - eexists. eapply basis_view_make; eauto.
Qed.
Lemma sep_op_view h : sep h -> forall o cs b ty, nth_error (h_ops h) o = Some (cs, b, ty) -> exists w, op_view h o = Ok w.
Proof.
  intros H o cs b ty Ho. destruct (nth_len (h_bases h) b) as ([a d] & Hb); [eapply sep_bas; eauto|].
  destruct (sep_view h H b a d Hb) as (w & Hw). eexists. eapply op_view_make; eauto.
Qed.

Lemma sep_alloc h v : sep h -> op_ok v -> sep (alloc_op h v).
Proof.
  intros H Hv. pose proof H as [H1 H2 H3 H4 H5]. constructor.
  - unfold owned. simpl. rewrite map_app. simpl. fold (owned h).
    apply NoDup_nth_error. intros i j Hi E. rewrite app_length in Hi. simpl in Hi.
    destruct (nth_error (owned h ++ [length (h_lists h)]) i) as [x|] eqn:Ei; [|apply nth_error_None in Ei; rewrite app_length in Ei; simpl in Ei; lia].
    symmetry in E. apply nth_snoc in Ei, E.
    destruct Ei as [Ei|[-> Ex]], E as [Ej|[-> Ey]].
    + apply (NoDup_nth_error (owned h)); auto; [apply nth_error_Some|]; congruence.
    + exfalso. assert (x < length (h_lists h)) by (apply H2; eapply nth_error_In; eauto). lia.
    + exfalso. assert (x < length (h_lists h)) by (apply H2; eapply nth_error_In; eauto). lia.
    + auto.
  - unfold owned. simpl. rewrite map_app, app_length. simpl. intros a Ha. apply in_app_or in Ha.
    destruct Ha as [Ha|[<-|[]]]; [|lia]. specialize (H2 a Ha). lia.
  - simpl. intros o cs b ty Ho. rewrite app_length. simpl. apply nth_snoc in Ho. destruct Ho as [Ho|[-> Ho]].
    + specialize (H3 o cs b ty Ho). lia.
    + injection Ho as <- <- <-. lia.
  - simpl. intros o p cs b ty cs' ty' Ho Hp. apply nth_snoc in Ho, Hp.
    destruct Ho as [Ho|[-> Ho]], Hp as [Hp|[-> Hp]]; eauto.
    + injection Hp as <- <- <-. specialize (H3 _ _ _ _ Ho). lia.
    + injection Ho as <- <- <-. specialize (H3 _ _ _ _ Hp). lia.
  - intros o w Hw. destruct (op_view_alloc_cases _ _ _ _ Hw) as [(w' & Hw')|[->|(cs & b & ty & Ho & Hn)]].
    + rewrite (alloc_old_op _ _ _ _ Hw') in Hw. injection Hw as ->. eauto.
    + rewrite alloc_new_op in Hw. injection Hw as ->. auto.
    + destruct (sep_op_view h H o cs b ty Ho) as (u & Hu). apply op_view_inv in Hu. destruct Hu as (b' & Hb' & Hu).
      rewrite Ho in Hb'. injection Hb' as _ <- _. exfalso. eapply Hn; eauto.
Qed.

(** The effect of an in-place addition in a separated heap. *)
Lemma set_basis_view h o v b' h1 cs b ty : sep h -> op_view h o = Ok v -> nth_error (h_ops h) o = Some (cs, b, ty) ->
  set_basis h b b' = Ok h1 ->
  h_ops h1 = h_ops h /\ length (h_lists h1) = length (h_lists h) /\ owned h1 = owned h /\ basis_view h1 b = Ok b' /\
  (forall c, c <> b -> basis_view h1 c = basis_view h c) /\
  (forall a, ~ In a (owned h) -> list_view h1 a = list_view h a).
Proof.
  intros Hs Hv Ho H. unfold set_basis in H. inv_bind H. destruct z as [a d]. apply of_option_ok in E. injection H as <-. simpl.
  assert (La : a < length (h_lists h)).
  { apply (sep_lst h Hs). unfold owned. apply in_map_iff. exists (a, d). split; auto. eapply nth_error_In; eauto. }
  assert (Lb : b < length (h_bases h)) by (apply nth_error_Some; congruence).
  assert (Eo : map fst (list_set (h_bases h) b (a, b_idx b')) = map fst (h_bases h)).
  { clear -E. revert b E. generalize (h_bases h). intros l. induction l as [|[x y] l IH]; intros [|b] E; simpl in *; try discriminate; auto.
    - injection E as -> _. auto.
    - rewrite IH; auto. }
  split; auto. split; [apply list_set_length|]. split; [exact Eo|]. split; [|split].
  - destruct b' as [l d']. eapply basis_view_make; simpl.
    + rewrite list_set_nth, Nat.eqb_refl, (proj2 (Nat.ltb_lt _ _) Lb). reflexivity.
    + rewrite list_set_nth, Nat.eqb_refl, (proj2 (Nat.ltb_lt _ _) La). reflexivity.
  - intros c Hc. unfold basis_view, list_view. simpl. rewrite list_set_nth.
    destruct (Nat.eqb_spec b c); [congruence|]. simpl.
    destruct (nth_error (h_bases h) c) as [[a' d']|] eqn:Ec; simpl; auto.
    rewrite list_set_nth. destruct (Nat.eqb_spec a a'); simpl; auto. subst a'. exfalso. apply n.
    apply (proj1 (NoDup_nth_error (owned h)) (sep_own h Hs)).
    + unfold owned. rewrite map_length; auto.
    + unfold owned. rewrite !nth_error_map, E, Ec. reflexivity.
  - intros a' Ha'. unfold list_view. simpl. rewrite list_set_nth. destruct (Nat.eqb_spec a a'); auto. subst. exfalso. apply Ha'.
    unfold owned. apply in_map_iff. exists (a', d). split; auto. eapply nth_error_In; eauto.
Qed.

Lemma h_iadd_sep h o other h' w : sep h -> other h = Ok w -> op_ok w ->
  (forall h1 v, op_view h o = Ok v -> h_ops h1 = h_ops h ->
     (forall p, p <> o -> op_view h1 p = op_view h p) ->
     (forall cs b ty, nth_error (h_ops h) o = Some (cs, b, ty) ->
        basis_view h1 b = Ok (basis_iadd (o_basis v) (o_basis w))) ->
     other h1 = Ok w) ->
  h_iadd h o other = Ok h' ->
  exists v, op_view h o = Ok v /\ op_iadd v w = op_view h' o /\
    (forall p, p <> o -> op_view h' p = op_view h p) /\ sep h' /\
    (forall a, ~ In a (owned h) -> list_view h' a = list_view h a) /\ owned h' = owned h.
Proof.
  intros Hs Hw Okw Hother H. unfold h_iadd in H. inv_bind H. rename z into v. rename E into Hv. exists v. split; auto.
  rewrite Hw in H. cbn [rbind] in H. destruct (optype_eqb (o_type v) (o_type w)) eqn:Ety; [|discriminate].
  inv_bind H. apply of_option_ok in E. destruct z as [[cs b] ty].
  inv_bind H. rename z into h1. rename E0 into Hset.
  destruct (set_basis_view h o v _ h1 cs b ty Hs Hv E Hset) as (Eops & Ell & Eown & Vb & Vo & Vl).
  assert (Hp : forall p, p <> o -> op_view h1 p = op_view h p).
  { intros p Hp. unfold op_view. rewrite Eops. destruct (nth_error (h_ops h) p) as [[[cs' c] ty']|] eqn:Ep; simpl; auto.
    rewrite Vo; auto. intros ->. apply Hp. symmetry. eapply (sep_ops h Hs); eauto. }
  assert (Ho1 : other h1 = Ok w).
  { apply (Hother h1 v); auto. intros cs' b0 ty' Hn. rewrite E in Hn. injection Hn as _ <- _. auto. }
  rewrite Ho1 in H. cbn [rbind] in H.
  destruct (op_view_inv _ _ _ Hv) as (b0 & Hb0 & Hbv). rewrite E in Hb0. injection Hb0 as -> -> ->.
  unfold op_iadd. rewrite Ety. unfold op_add_into.
  inv_bind H. rename z into inds. rewrite E0. cbn [rbind].
  inv_bind H. rename z into cs'. rewrite E1. cbn [rbind].
  unfold set_coeffs in H. rewrite Eops, E in H. cbn [of_option rbind] in H. injection H as <-.
  assert (Lo : o < length (h_ops h)) by (apply nth_error_Some; congruence).
  assert (Vnew : op_view (mkHeap (h_lists h1) (h_bases h1) (list_set (h_ops h) o (cs', b0, o_type v))) o =
     Ok (mkOperator cs' (basis_iadd (o_basis v) (o_basis w)) (o_type v))).
  { eapply op_view_make; simpl.
    - rewrite list_set_nth, Nat.eqb_refl, (proj2 (Nat.ltb_lt _ _) Lo). reflexivity.
    - exact Vb. }
  assert (Vold : forall p, p <> o -> op_view (mkHeap (h_lists h1) (h_bases h1) (list_set (h_ops h) o (cs', b0, o_type v))) p = op_view h p).
  { intros p Hpo. rewrite <- (Hp p Hpo). unfold op_view. simpl. rewrite list_set_nth.
    destruct (Nat.eqb_spec o p); [congruence|]. simpl. rewrite Eops. reflexivity. }
  split; [symmetry; exact Vnew|]. split; auto.
  assert (Okv : op_ok v) by (eapply (sep_ok h Hs); eauto).
  assert (Hadd : op_iadd v w = Ok (mkOperator cs' (basis_iadd (o_basis v) (o_basis w)) (o_type v))).
  { unfold op_iadd. rewrite Ety. unfold op_add_into. rewrite E0. cbn [rbind]. rewrite E1. reflexivity. }
  split; [|split; auto].
  constructor.
  - unfold owned in *. simpl. rewrite Eown. apply (sep_own h Hs).
  - unfold owned in *. simpl. rewrite Eown, Ell. apply (sep_lst h Hs).
  - simpl. assert (El : length (h_bases h1) = length (h_bases h)).
    { rewrite <- (map_length fst (h_bases h1)), <- (map_length fst (h_bases h)). f_equal. exact Eown. }
    rewrite El. intros p cs0 c ty0. rewrite list_set_nth.
    destruct (Nat.eqb o p && (o <? length (h_ops h))) eqn:Q.
    + intros Q'; injection Q' as <- <- <-. eapply (sep_bas h Hs); eauto.
    + intros Q'. eapply (sep_bas h Hs); eauto.
  - simpl. intros p q cs0 c ty0 cs1 ty1. rewrite !list_set_nth, (proj2 (Nat.ltb_lt _ _) Lo), !andb_true_r.
    destruct (Nat.eqb_spec o p), (Nat.eqb_spec o q); try congruence.
    + intros Q1 Q2. injection Q1 as <- <- <-. subst. eapply (sep_ops h Hs); eauto.
    + intros Q1 Q2. injection Q2 as <- <- <-. subst. eapply (sep_ops h Hs); eauto.
    + apply (sep_ops h Hs).
  - intros p u Hu. destruct (Nat.eq_dec p o) as [->|Hpo].
    + rewrite Vnew in Hu. injection Hu as <-.
      destruct (op_iadd_ok v w Okv Okw) as (r & Hr & Hadds); [apply optype_eqb_eq; auto|].
      rewrite Hadd in Hr. injection Hr as <-. apply Hadds.
    + rewrite Vold in Hu by auto. eapply (sep_ok h Hs); eauto.
Qed.

Lemma h_iadd_op h o p h' : sep h -> h_iadd h o (fun h' => op_view h' p) = Ok h' ->
  exists v w, op_view h o = Ok v /\ op_view h p = Ok w /\ op_iadd v w = op_view h' o /\
    (forall q, q <> o -> op_view h' q = op_view h q) /\ sep h' /\
    (forall a, ~ In a (owned h) -> list_view h' a = list_view h a) /\ owned h' = owned h.
Proof.
  intros Hs H. pose proof H as H0. unfold h_iadd in H0. inv_bind H0. inv_bind H0. rename z0 into w. clear H0.
  assert (Okw : op_ok w) by (eapply (sep_ok h Hs); eauto).
  destruct (h_iadd_sep h o (fun h' => op_view h' p) h' w Hs E0 Okw) as (v & V1 & V2 & V3 & V4 & V5 & V6); auto.
  - intros h1 v Hv Eo Hq Hb. destruct (Nat.eq_dec p o) as [->|Hpo].
    + assert (v = w) by congruence. subst v.
      destruct (op_view_inv _ _ _ Hv) as (b & Hb1 & Hb2).
      specialize (Hb _ _ _ Hb1).
      assert (Eb : basis_iadd (o_basis w) (o_basis w) = o_basis w).
      { destruct Okw as (Hok & _ & _). destruct (basis_iadd_ok (o_basis w) (o_basis w) Hok) as [Hok' Ha].
        apply basis_ok_eq; auto.
        assert (G : forall l m r, append_new l m r -> (forall s, In s m -> In s l) -> r = l).
        { clear. intros l m r H. induction H; intros Hi; auto.
          - apply IHappend_new. intros; apply Hi; simpl; auto.
          - exfalso. apply H. exists s. split; [apply Hi; simpl; auto | apply same_key_refl]. }
        apply (G _ _ _ Ha). auto. }
      rewrite Eb in Hb. rewrite (op_view_make h1 o (o_coeffs w) b (o_type w) (o_basis w)); auto.
      * destruct w; reflexivity.
      * rewrite Eo. auto.
    + rewrite Hq; auto.
  - exists v, w. auto 10.
Qed.

Lemma op_new_inv cs l ty v : op_new cs l ty = Ok v -> length cs = length l -> op_ok v /\ o_coeffs v = cs /\ b_strings (o_basis v) = l.
Proof.
  unfold op_new. intros H Hl. inv_bind H. destruct (basis_new_ok _ _ E) as [Es Hok].
  assert (Hty : b_strings z <> [] \/ ty <> None).
  { unfold op_of_basis in H. destruct (b_strings z) eqn:Q; [|left; discriminate]. right. destruct ty; discriminate. }
  destruct (op_of_basis_ok cs z ty Hok) as (o & Ho & H1 & H2 & H3 & _); auto; [congruence|].
  rewrite Ho in H. injection H as <-. rewrite H3. auto.
Qed.

Lemma sep_empty : sep h_empty.
Proof.
  constructor; simpl.
  - constructor.
  - intros a [].
  - intros [|o]; discriminate.
  - intros [|o]; discriminate.
  - intros [|o]; discriminate.
Qed.

Lemma alloc_list_view h l o : op_view (mkHeap (h_lists h ++ [l]) (h_bases h) (h_ops h)) o = op_view h o \/
  exists cs b ty, nth_error (h_ops h) o = Some (cs, b, ty) /\ exists a d, nth_error (h_bases h) b = Some (a, d) /\ length (h_lists h) <= a.
Proof.
  unfold op_view, basis_view, list_view. simpl. destruct (nth_error (h_ops h) o) as [[[cs b] ty]|] eqn:E; simpl; auto.
  destruct (nth_error (h_bases h) b) as [[a d]|] eqn:F; simpl; auto.
  destruct (Nat.lt_ge_cases a (length (h_lists h))) as [L|L].
  - left. rewrite nth_error_app1 by auto. auto.
  - right. do 3 eexists. split; eauto.
Qed.
Lemma sep_list h l : sep h -> sep (mkHeap (h_lists h ++ [l]) (h_bases h) (h_ops h)) /\
  forall o, op_view (mkHeap (h_lists h ++ [l]) (h_bases h) (h_ops h)) o = op_view h o.
Proof.
  intros H. pose proof H as [H1 H2 H3 H4 H5].
  assert (V : forall o, op_view (mkHeap (h_lists h ++ [l]) (h_bases h) (h_ops h)) o = op_view h o).
  { intros o. destruct (alloc_list_view h l o) as [E|(cs & b & ty & Ho & a & d & Hb & L)]; auto.
    exfalso. assert (a < length (h_lists h)); [|lia]. apply H2. unfold owned. apply in_map_iff. exists (a, d).
    split; auto. eapply nth_error_In; eauto. }
  split; auto. constructor; simpl; auto.
  - unfold owned. simpl. intros a Ha. rewrite app_length. specialize (H2 a Ha). lia.
  - intros o v. rewrite V. apply H5.
Qed.

Lemma history_sep h : history h -> sep h.
Proof.
  induction 1 as [|h c h' Hh IH Hl Ha Hs]; [apply sep_empty|].
  destruct c; simpl in Hl; try contradiction; simpl in Hs.
  - injection Hs as <-. apply sep_list; auto.
  - inv_bind Hs. inv_bind Hs. injection Hs as <-. apply sep_alloc; auto.
    eapply op_new_inv; eauto.
  - inv_bind Hs. inv_bind Hs. inv_bind Hs. injection Hs as <-. apply sep_alloc; auto.
    assert (op_ok z) by (eapply sep_ok; eauto). assert (op_ok z0) by (eapply sep_ok; eauto).
    rewrite op_add_iadd in E1 by auto. destruct (optype_eqb (o_type z) (o_type z0)) eqn:Q.
    + destruct (op_iadd_ok z z0) as (r & Hr & Hadds); auto; [apply optype_eqb_eq; auto|].
      rewrite Hr in E1. injection E1 as <-. apply Hadds.
    + unfold op_iadd in E1. rewrite Q in E1. discriminate.
  - inv_bind Hs. inv_bind Hs. injection Hs as <-. apply sep_alloc; auto.
    destruct (op_scale_ok z z0) as (r & Hr & Hok & _); [eapply sep_ok; eauto|]. congruence.
  - destruct (h_iadd_op _ _ _ _ IH Hs) as (v & w & _ & _ & _ & _ & S & _). auto.
  - inv_bind Hs. inv_bind Hs. destruct (op_scale_ok gm1 z) as (r & Hr & Hok & _); [eapply sep_ok; eauto|].
    assert (r = z0) by congruence. subst r.
    destruct (h_iadd_sep h o (fun _ => Ok z0) h' z0 IH eq_refl Hok) as (v & _ & _ & _ & S & _); auto.
Qed.

Lemma history_iadd h o p h' : history h -> step h (COpIadd o p) = Ok h' ->
  (exists v w, op_view h o = Ok v /\ op_view h p = Ok w /\ op_view h' o = op_iadd v w) /\
  (forall q, q <> o -> op_view h' q = op_view h q) /\
  (forall q v, op_view h' q = Ok v -> length (o_coeffs v) = length (b_strings (o_basis v))).
Proof.
  intros Hh Hs. simpl in Hs. pose proof (history_sep h Hh) as S.
  destruct (h_iadd_op _ _ _ _ S Hs) as (v & w & V1 & V2 & V3 & V4 & S' & _).
  split; [exists v, w; auto|]. split; auto. intros q u Hu. apply (sep_ok h' S') in Hu. apply Hu.
Qed.
Lemma history_isub h o p h' : history h -> step h (COpIsub o p) = Ok h' ->
  (exists v w, op_view h o = Ok v /\ op_view h p = Ok w /\ op_view h' o = op_isub v w) /\
  (forall q, q <> o -> op_view h' q = op_view h q) /\
  (forall q v, op_view h' q = Ok v -> length (o_coeffs v) = length (b_strings (o_basis v))).
Proof.
  intros Hh Hs. simpl in Hs. pose proof (history_sep h Hh) as S.
  inv_bind Hs. inv_bind Hs. destruct (op_scale_ok gm1 z) as (r & Hr & Hok & _); [eapply sep_ok; eauto|].
  assert (r = z0) by congruence. subst r.
  destruct (h_iadd_sep h o (fun _ => Ok z0) h' z0 S eq_refl Hok) as (v & V1 & V2 & V3 & S' & _); auto.
  split; [exists v, z; split; auto; split; auto; unfold op_isub; rewrite Hr; simpl; auto|].
  split; auto. intros q u Hu. apply (sep_ok h' S') in Hu. apply Hu.
Qed.
