(** sparsify. *)
From Coq Require Import List Reals Bool Arith Lia Lra Sorting Permutation.
From Coquelicot Require Import Complex.
From Verif Require Import Exn M_LinAlg M_Core S_LinAlg S_Sparsify L_LinAlg L_Inter L_Herm.
Import ListNotations.
Local Open Scope C_scope.

Lemma span_nil n v : span n [] v -> v = vzero n.
Proof. destruct 1 as [|c w v Hw _]; auto. destruct Hw. Qed.
Lemma vectors_app n l m : vectors n (l ++ m) -> vectors n l /\ vectors n m.
Proof. intros H. split; intros v Hv; apply H, in_or_app; auto. Qed.
Lemma vectors_firstn n k l : vectors n l -> vectors n (firstn k l).
Proof. intros H v Hv. apply H. rewrite <- (firstn_skipn k l). apply in_or_app; auto. Qed.

Lemma span_snoc n l x v : vectors n (l ++ [x]) -> span n (l ++ [x]) v -> exists c w, span n l w /\ v = vadd (vscale c x) w.
Proof.
  intros Hv. destruct (vectors_app _ _ _ Hv) as [Hl Hx]. assert (Lx : length x = n) by (apply Hx; left; auto).
  induction 1 as [|c u w Hu Hw (d & y & Sy & ->)].
  - exists (RtoC 0), (vzero n). split; [apply span_zero|]. rewrite vscale_0, Lx, vadd_vzero. reflexivity.
  - apply in_app_or in Hu. destruct Hu as [Hu|[<-|[]]].
    + exists d, (vadd (vscale c u) y). split; [apply (span_add n l c u y); auto|].
      change (vadd (vscale c u) (vadd (vscale d x) y) = vadd (vscale d x) (vadd (vscale c u) y)). rewrite <- !vadd_assoc. f_equal. apply vadd_comm.
    + exists (c + d), y. split; auto. change (vadd (vscale c x) (vadd (vscale d x) y) = vadd (vscale (c + d) x) y). rewrite <- vadd_assoc, vscale_plus. reflexivity.
Qed.

(** Gram-Schmidt keeps independent vectors. *)
Lemma gs_loop_length n cols : forall seen qs, vectors n (seen ++ cols) -> independent n (seen ++ cols) -> gs_inv n 0 seen qs ->
  length (gs_loop 0 qs cols) = (length qs + length cols)%nat.
Proof.
  induction cols as [|c cols IH]; intros seen qs Hv Hi Hq; simpl; [lia|].
  destruct (vectors_app _ _ _ Hv) as [Hs Hc]. assert (Lc : length c = n) by (apply Hc; left; auto).
  pose proof (gs_step n 0 seen qs c (Rle_refl 0) Hs Lc Hq) as Hst.
  destruct (Rlt_dec 0 (vnorm (gs_project qs c))) as [H|H].
  - rewrite (IH (seen ++ [c])); auto; [rewrite app_length; simpl; lia | |]; rewrite <- app_assoc; auto.
  - exfalso. apply (Hi seen c cols eq_refl). destruct Hq as (A & _ & D & _).
    destruct (project_span n qs c A Lc) as (s & Ss & E). pose proof (vnorm_nonneg (gs_project qs c)).
    assert (Z : gs_project qs c = vzero n).
    { transitivity (vzero (length (gs_project qs c))); [apply vnorm_zero; lra | f_equal; apply project_length; auto]. }
    assert (Ec : c = s).
    { transitivity (vadd (gs_project qs c) s); [exact E|]. rewrite Z. apply vadd_0l. exact (L_LinAlg.span_length n qs A s Ss). }
    rewrite Ec. apply (span_sub n qs seen); auto.
Qed.

Lemma gram_schmidt_length n cols : (0 < n)%nat -> vectors n cols -> cols <> [] -> independent n cols ->
  exists qs, gram_schmidt n 0 cols = Some qs /\ length qs = length cols /\ vectors n qs /\ orthonormal qs /\ forall v, span n qs v <-> span n cols v.
Proof.
  intros Hn Hv Hne Hi. destruct cols as [|c cols]; [congruence|].
  assert (Hc : c <> vzero n). { intros E. apply (Hi [] c cols eq_refl). rewrite E. apply span_zero. }
  destruct (gram_schmidt_proof n 0 c cols (Rle_refl 0) Hn Hv Hc) as (qs & E & Q1 & Q2 & Q3 & _ & Q5).
  exists qs. split; auto. split; [|split; auto; split; auto; split; auto].
  assert (Lc : length c = n) by (apply Hv; left; auto).
  revert E. unfold gram_schmidt. rewrite (proj2 (Nat.eqb_neq n 0)) by lia. destruct (Req_EM_T (vnorm c) 0) as [N|N]; [discriminate|].
  intros E. injection E as <-. rewrite (gs_loop_length n cols [c]); auto. apply gs_first; auto. lra.
Qed.

(** The columns of L, from the last to the first, are independent. *)
Lemma span_entry n r vs : (forall v, In v vs -> nth r v (RtoC 0) = RtoC 0) -> vectors n vs -> forall w, span n vs w -> nth r w (RtoC 0) = RtoC 0.
Proof.
  intros H Hv w. induction 1 as [|c v w Hin Hw IH]; [apply nth_repeat|].
  assert (G : forall a b k, nth k (zip_with Cplus a b) (RtoC 0) = RtoC 0 \/ nth k (zip_with Cplus a b) (RtoC 0) = nth k a (RtoC 0) + nth k b (RtoC 0)).
  { clear. induction a as [|x a IH]; intros [|y b] [|k]; simpl; auto. }
  destruct (G (map (Cmult c) v) w r) as [E|E]; auto. rewrite E, IH.
  replace (nth r (map (Cmult c) v) (RtoC 0)) with (c * nth r v (RtoC 0)).
  - rewrite (H v Hin). ring.
  - clear. revert r. induction v as [|x v IH]; intros [|r]; simpl; auto; ring.
Qed.

Lemma lu_rev_independent n V L : lu_columns n V L -> independent n (rev L).
Proof.
  intros (_ & HL & Hp & _) l1 v l2 E Hs.
  assert (E' : L = rev l2 ++ v :: rev l1). { rewrite <- (rev_involutive L), E, rev_app_distr. simpl. rewrite <- app_assoc. reflexivity. }
  destruct (Hp (length l2) v) as (r & R1 & R0).
  { rewrite E', nth_error_app2, rev_length, Nat.sub_diag by (rewrite rev_length; lia). reflexivity. }
  assert (Z : nth r v (RtoC 0) = RtoC 0).
  { apply (span_entry n r l1); auto.
    - intros w Hw. apply in_rev in Hw. apply In_nth_error in Hw. destruct Hw as (i & Hi).
      apply (R0 (length l2 + S i)%nat); [lia|]. rewrite E', nth_error_app2, rev_length by (rewrite rev_length; lia).
      replace (length l2 + S i - length l2)%nat with (S i) by lia. exact Hi.
    - intros w Hw. apply HL. rewrite E'. apply in_or_app. right. right. apply in_rev in Hw. auto. }
  rewrite R1 in Z. apply RtoC_inj in Z. lra.
Qed.

Lemma firstn_snoc {T} (l : list T) j x : nth_error l j = Some x -> firstn (S j) l = firstn j l ++ [x].
Proof. revert j. induction l as [|y l IH]; intros [|j] H; try discriminate; [injection H as <-; reflexivity|]. simpl. f_equal. apply IH. auto. Qed.

Lemma lu_back n V L : vectors n V -> (length V <= n)%nat -> independent n V -> lu_columns n V L ->
  forall j c, nth_error L j = Some c -> span n (firstn (S j) V) c.
Proof.
  intros HV Hk Hi (HL & Hv & _ & Hs) j. induction j as [j IH] using lt_wf_ind. intros c Hc.
  assert (Hj : (j < length V)%nat). { rewrite Nat.min_r in HL by lia. rewrite <- HL. apply nth_error_Some. congruence. }
  destruct (nth_error V j) as [v|] eqn:Ev; [|apply nth_error_None in Ev; lia].
  pose proof (Hs j v Ev) as Sv. rewrite (firstn_snoc L j c Hc) in Sv.
  assert (Vf : vectors n (firstn (S j) L)) by (apply vectors_firstn; auto). rewrite (firstn_snoc L j c Hc) in Vf.
  destruct (span_snoc n _ c v Vf Sv) as (d & w & Sw & E).
  assert (Sw' : span n (firstn j V) w).
  { apply (span_sub n (firstn j L)); auto; [|apply vectors_firstn; auto]. intros u Hu. apply In_nth_error in Hu. destruct Hu as (i & Hi').
    assert (Hij : (i < j)%nat). { destruct (le_lt_dec j i); auto. exfalso. assert (nth_error (firstn j L) i = None); [|congruence].
      apply nth_error_None. rewrite firstn_length. lia. }
    assert (Hu : nth_error L i = Some u). { rewrite <- (firstn_skipn j L), nth_error_app1; auto. apply nth_error_Some. congruence. }
    apply (span_mono n (firstn (S i) V)); [|apply IH; auto].
    intros x Hx. rewrite <- (firstn_skipn (S i) (firstn j V)). apply in_or_app. left. rewrite firstn_firstn. replace (Nat.min (S i) j) with (S i) by lia. auto. }
  destruct (Ceq_dec d (RtoC 0)) as [->|Hd].
  - exfalso. apply (Hi (firstn j V) v (skipn (S j) V)).
    + rewrite <- (firstn_skipn j V) at 1. f_equal. clear - Ev. revert V Ev. induction j; intros [|x V] E; try discriminate; [injection E as <-; reflexivity|]. simpl. apply IHj; auto.
    + rewrite E, vscale_0. replace (length c) with n by (symmetry; apply Hv; eapply nth_error_In; eauto).
      rewrite vadd_0l; auto. exact (L_LinAlg.span_length n _ (vectors_firstn n j V HV) w Sw').
  - rewrite (firstn_snoc V j v Ev).
    assert (Lv : length v = n) by (apply HV; eapply nth_error_In; eauto).
    assert (VV : vectors n (firstn j V ++ [v])) by (rewrite <- (firstn_snoc V j v Ev); apply vectors_firstn; auto).
    assert (Lw : length w = n) by (exact (L_LinAlg.span_length n _ (vectors_firstn n j V HV) w Sw')).
    assert (Lc : length c = n) by (apply Hv; eapply nth_error_In; eauto).
    replace c with (vscale (/ d) (vsub v w)).
    + apply span_scale. apply (span_minus n _ VV); [apply span_in; auto; apply in_or_app; right; left; auto|].
      eapply span_mono; [|exact Sw']. intros x Hx. apply in_or_app; auto.
    + rewrite E, vsub_as_add, vadd_assoc. rewrite <- (vscale_one w) at 1. rewrite <- vscale_plus, <- RtoC_plus.
      replace (1 + -1)%R with 0%R by ring. rewrite vscale_0, Lw, vadd_0r by (rewrite vscale_length; auto). rewrite vscale_vscale, Cinv_l by auto. apply vscale_one.
Qed.

Lemma lu_span n V L : vectors n V -> (length V <= n)%nat -> lu_columns n V L ->
  (forall v, span n V v -> span n L v) /\ (independent n V -> forall v, span n L v -> span n V v).
Proof.
  intros HV Hk HL. destruct HL as (Ll & Hv & Hp & Hs). split.
  - apply span_sub; auto. intros v Hin. apply In_nth_error in Hin. destruct Hin as (j & Hj).
    eapply span_mono; [|apply (Hs j v Hj)]. intros x Hx. rewrite <- (firstn_skipn (S j) L). apply in_or_app; auto.
  - intros Hi. apply span_sub; auto. intros v Hin. apply In_nth_error in Hin. destruct Hin as (j & Hj).
    eapply span_mono; [|apply (lu_back n V L HV Hk Hi (conj Ll (conj Hv (conj Hp Hs))) j v Hj)].
    intros x Hx. rewrite <- (firstn_skipn (S j) V). apply in_or_app; auto.
Qed.

(* ------------------------------------------------------- normalisation *)

Lemma unit_vec_ok v : v <> vzero (length v) -> exists u, unit_vec v = Some u /\ length u = length v /\ inner u u = RtoC 1 /\
  u = vscale (RtoC (/ vnorm v)) v /\ v = vscale (RtoC (vnorm v)) u.
Proof.
  intros H. unfold unit_vec. destruct (Req_EM_T (vnorm v) 0) as [N|N]; [exfalso; apply H, vnorm_zero; auto|].
  eexists. split; [reflexivity|]. split; [apply vscale_length|]. split; [apply unit_normalised; auto|]. split; auto.
  rewrite vscale_vscale, <- RtoC_mult, Rinv_r by auto. symmetry. apply vscale_one.
Qed.
Lemma unit_vec_unit v : inner v v = RtoC 1 -> unit_vec v = Some v.
Proof.
  intros H. rewrite inner_self in H. apply RtoC_inj in H. unfold unit_vec.
  assert (N : vnorm v = 1%R). { unfold vnorm. unfold sqsum in H. rewrite H. apply sqrt_1. }
  rewrite N. destruct (Req_EM_T 1 0); [lra|]. rewrite Rinv_1, vscale_one. reflexivity.
Qed.
Lemma all_some_ok {T} (l : list (option T)) (m : list T) : Forall2 (fun o x => o = Some x) l m -> all_some l = Some m.
Proof. induction 1 as [|o x l m -> H IH]; simpl; auto. rewrite IH. reflexivity. Qed.

Lemma units_ok n ws : vectors n ws -> (forall w, In w ws -> w <> vzero n) ->
  exists us, all_some (map unit_vec ws) = Some us /\ length us = length ws /\ vectors n us /\ (forall u, In u us -> inner u u = RtoC 1) /\
    (orthonormal ws -> us = ws) /\ forall v, span n us v <-> span n ws v.
Proof.
  intros Hv Hn.
  induction ws as [|w ws IH]; simpl.
  - exists []. repeat split; auto; try tauto; intros ? [].
  - destruct IH as (us & E & Lu & Vu & Uu & Ou & Su); [intros x Hx; apply Hv; right; auto | intros x Hx; apply Hn; right; auto|].
    assert (Lw : length w = n) by (apply Hv; left; auto).
    destruct (unit_vec_ok w) as (u & Eu & Lu' & Iu & U1 & U2); [rewrite Lw; apply Hn; left; auto|].
    rewrite Eu, E. exists (u :: us). split; auto. split; [simpl; auto|].
    assert (Vu' : vectors n (u :: us)) by (intros x [<-|Hx]; [congruence | auto]).
    split; auto. split; [intros x [<-|Hx]; auto|]. split.
    + intros H. destruct (ortho_tail _ _ H) as (H1 & _ & H3). rewrite Ou by auto. pose proof (unit_vec_unit w H1) as Eu'. rewrite Eu in Eu'. injection Eu' as ->. reflexivity.
    + assert (Vw : vectors n (w :: ws)) by auto. intros v. split; apply span_sub; auto.
      * intros x [<-|Hx]; [rewrite U1; apply span_scale, span_in; simpl; auto|].
        apply (span_mono n ws); [intros y Hy; right; auto|]. apply Su, span_in; auto.
      * intros x [<-|Hx]; [rewrite U2; apply span_scale, span_in; simpl; auto|].
        apply (span_mono n us); [intros y Hy; right; auto|]. apply Su, span_in; auto. intros y Hy; apply Hv; right; auto.
Qed.

(* -------------------------------------------------------- permutations *)

Lemma span_perm n l m : Permutation l m -> forall v, span n l v -> span n m v.
Proof. intros P. apply span_mono. intros x. apply Permutation_in. auto. Qed.
Lemma ortho_cons v vs : inner v v = RtoC 1 -> (forall w, In w vs -> inner v w = RtoC 0) -> orthonormal vs -> orthonormal (v :: vs).
Proof.
  intros H1 H2 [H3 H4]. split.
  - intros w [<-|Hw]; auto.
  - intros [|i] [|j] a b; simpl; intros Ha Hb Hij; try congruence.
    + injection Ha as <-. apply H2. eapply nth_error_In; eauto.
    + injection Hb as <-. rewrite inner_sym, H2 by (eapply nth_error_In; eauto). apply Cconj_R.
    + apply (H4 i j); auto.
Qed.
Lemma ortho_perm l m : Permutation l m -> orthonormal l -> orthonormal m.
Proof.
  induction 1 as [|x l m P IH|x y l|l m k P1 IH1 P2 IH2]; intros H; auto.
  - destruct (ortho_tail _ _ H) as (H1 & H2 & H3). apply ortho_cons; auto.
    intros w Hw. apply H2. apply Permutation_in with m; auto. symmetry. auto.
  - destruct (ortho_tail _ _ H) as (H1 & H2 & H3). destruct (ortho_tail _ _ H3) as (H4 & H5 & H6).
    apply ortho_cons; auto; [|apply ortho_cons; auto].
    + intros w [<-|Hw]; [apply H2; simpl; auto | apply H5; auto].
    + intros w Hw. apply H2. simpl; auto.
Qed.

Lemma rmap_nth_error {T} (l : list T) (d : T) p : (forall i, In i p -> (i < length l)%nat) ->
  rmap (fun i => of_option IndexError (nth_error l i)) p = Ok (map (fun i => nth i l d) p).
Proof.
  induction p as [|i p IH]; intros H; simpl; auto. rewrite (nth_error_nth' l d) by (apply H; simpl; auto). simpl.
  rewrite IH by (intros; apply H; simpl; auto). reflexivity.
Qed.
Lemma map_nth_seq {T} (l : list T) d : map (fun i => nth i l d) (seq 0 (length l)) = l.
Proof.
  apply nth_ext with (d := d) (d' := d); [rewrite map_length, seq_length; auto|]. intros i Hi. rewrite map_length, seq_length in Hi.
  rewrite (nth_indep _ _ (nth 0 l d)) by (rewrite map_length, seq_length; auto).
  rewrite (map_nth (fun i => nth i l d)), seq_nth by auto. reflexivity.
Qed.
Lemma sparsity_weight tol v : sparsity tol v = weight tol v.
Proof.
  unfold sparsity. induction v as [|z v IH]; simpl; auto. unfold lt_dec at 1. destruct (Rlt_dec tol (Cmod z)); simpl; auto.
Qed.

Theorem sparsify_proof lu argsort n orth tol V : vectors n V -> (2 <= length V <= n)%nat -> lu_columns n V (lu V) ->
  (forall l, sorts l (argsort l)) ->
  exists W, sparsify lu argsort n orth tol V = Ok (Some W) /\ length W = length V /\ vectors n W /\
    (forall w, In w W -> inner w w = RtoC 1) /\ (orth = true -> orthonormal W) /\
    StronglySorted le (map (weight tol) W) /\
    (forall v, span n V v -> span n W v) /\ (independent n V -> forall v, span n W v -> span n V v) /\
    (forall v, span n (lu V) v -> span n W v).
Proof.
  intros HV Hk HL Ha. unfold sparsify, vec in *. destruct (Nat.leb_spec (length V) 1); [lia|].
  destruct (lu_span n V (lu V) HV (proj2 Hk) HL) as [S1 S2]. pose proof (lu_rev_independent n V _ HL) as Hi.
  destruct HL as (Ll & Lv & _ & _). rewrite Nat.min_r in Ll by lia. set (R := rev (lu V)) in *.
  assert (VR : vectors n R) by (intros v Hv; apply Lv; apply in_rev; auto).
  assert (LR : length R = length V) by (unfold R; rewrite rev_length; auto).
  assert (PR : Permutation (lu V) R) by apply Permutation_rev.
  assert (Hq : exists q, (if orth then gram_schmidt n 0 R else Some R) = Some q /\ length q = length V /\ vectors n q /\
     (forall w, In w q -> w <> vzero n) /\ (orth = true -> orthonormal q) /\ forall v, span n q v <-> span n R v).
  { destruct orth.
    - destruct (gram_schmidt_length n R) as (q & E & Lq & Vq & Oq & Sq); auto; [lia | intros E; rewrite E in LR; simpl in LR; lia|].
      exists q. split; auto. split; [congruence|]. split; auto. split; [|split; auto].
      intros w Hw E'. destruct Oq as [O1 _]. specialize (O1 w Hw). rewrite E', inner_zero_r in O1. apply RtoC_inj in O1. lra.
    - exists R. split; auto. split; auto. split; auto. split; [|split; [discriminate|tauto]].
      intros w Hw ->. apply in_split in Hw. destruct Hw as (l1 & l2 & E). apply (Hi l1 (vzero n) l2 E). apply span_zero. }
  destruct Hq as (q & Eq & Lq & Vq & Nq & Oq & Sq). cbv zeta. fold R. match goal with |- context [match ?x with Some _ => _ | None => _ end] => replace x with (Some q) end.
  rewrite (rmap_nth_error q []) by (intros i Hin; apply in_seq in Hin; lia). cbn [rbind].
  rewrite <- Lq, map_nth_seq.
  destruct (units_ok n q Vq Nq) as (us & Eus & Lu & Vu & Uu & Ou & Su).
  match goal with |- context [match ?x with Some _ => _ | None => _ end] => replace x with (Some us) by (symmetry; exact Eus) end.
  destruct (Ha (map (sparsity tol) us)) as [P Q]. rewrite map_length in P.
  rewrite (rmap_nth_error us []). 2:{ intros i Hin. apply (Permutation_in i (Permutation_sym P)) in Hin. apply in_seq in Hin. lia. }
  cbn [rbind]. eexists. split; [reflexivity|]. set (p := argsort (map (sparsity tol) us)) in *.
  assert (PW : Permutation us (map (fun i => nth i us []) p)).
  { rewrite <- (map_nth_seq us []) at 1. apply Permutation_map. auto. }
  split; [pose proof (Permutation_length PW) as PL; unfold vec in *; etransitivity; [symmetry; exact PL|congruence]|].
  split; [intros w Hw; apply Vu, (Permutation_in w (Permutation_sym PW)); auto|].
  split; [intros w Hw; apply Uu, (Permutation_in w (Permutation_sym PW)); auto|].
  split; [intros Ho; apply (ortho_perm us); auto; rewrite Ou; auto|].
  split; [|split; [|split]].
  - rewrite map_map. erewrite map_ext; [exact Q|].
    intros i. cbv beta. rewrite <- sparsity_weight. symmetry. change 0%nat with (sparsity tol []). apply map_nth.
  - intros v Hv. apply (span_perm n _ _ PW), Su, Sq. apply (span_perm n _ _ PR). auto.
  - intros HI v Hv. apply S2; auto. apply (span_perm n _ _ (Permutation_sym PR)), Sq, Su. apply (span_perm n _ _ (Permutation_sym PW)). auto.
  - intros v Hv. apply (span_perm n _ _ PW), Su, Sq. apply (span_perm n _ _ PR). auto.
Qed.
Lemma sparsify_superspan lu argsort n orth tol V L : vectors n V -> (2 <= length V <= n)%nat -> lu_columns n V L -> lu V = L ->
  (forall l, sorts l (argsort l)) -> exists W, sparsify lu argsort n orth tol V = Ok (Some W) /\ forall v, span n L v -> span n W v.
Proof.
  intros HV Hk HL <- Ha. destruct (sparsify_proof lu argsort n orth tol V HV Hk HL Ha) as (W & E & _ & _ & _ & _ & _ & _ & _ & H). exists W; auto.
Qed.

(** More vectors than components: the loop runs past the end. *)
Lemma rmap_index_error {T} (l : list T) k : (length l < k)%nat -> rmap (fun i => of_option IndexError (nth_error l i)) (seq 0 k) = Err IndexError.
Proof.
  intros H. enough (G : forall m, (length l < m + k)%nat -> (m <= length l)%nat -> rmap (fun i => of_option IndexError (nth_error l i)) (seq m k) = Err IndexError) by (apply (G 0%nat); lia).
  clear H. induction k as [|k IH]; intros m H1 H2; [lia|]. simpl. destruct (nth_error l m) eqn:E; simpl; auto.
  assert (m < length l)%nat by (apply nth_error_Some; congruence). rewrite (IH (S m)) by lia. reflexivity.
Qed.
Theorem sparsify_many lu argsort n orth tol V : vectors n V -> (0 < n < length V)%nat -> (2 <= length V)%nat -> lu_columns n V (lu V) ->
  sparsify lu argsort n orth tol V = Err IndexError.
Proof.
  intros HV Hn Hk HL. unfold sparsify, vec in *. destruct (Nat.leb_spec (length V) 1); [lia|].
  pose proof (lu_rev_independent n V _ HL) as Hi. destruct HL as (Ll & Lv & _ & _). rewrite Nat.min_l in Ll by lia.
  set (R := rev (lu V)) in *. assert (VR : vectors n R) by (intros v Hv; apply Lv; apply in_rev; auto).
  assert (LR : length R = n) by (unfold R; rewrite rev_length; auto). destruct orth.
  - destruct (gram_schmidt_length n R) as (q & -> & Lq & _); auto; [lia | intros E; rewrite E in LR; simpl in LR; lia|].
    unfold vec in *. rewrite rmap_index_error; auto; lia.
  - rewrite rmap_index_error; auto. unfold vec in *; lia.
Qed.
