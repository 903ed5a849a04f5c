(** Proofs of the Basis and Operator properties. *)
From Coq Require Import String List ZArith Bool Arith Lia.
From Verif Require Import GC Exn M_OpString M_Basis M_Heap S_Alg S_Den S_Basis S_Built L_StrAlg L_Alg L_Basis L_Operator L_Heap.
Import ListNotations.
Local Open Scope nat_scope.

Lemma built_ok b : built b -> basis_ok b.
Proof.
  induction 1 as [l b H|b c d Hb IHb Hc IHc H|b s d Hb IHb H|b c Hb IHb Hc IHc|b s Hb IHb].
  - apply basis_new_ok in H. tauto.
  - apply basis_new_ok in H. tauto.
  - apply basis_new_ok in H. tauto.
  - apply basis_iadd_ok; auto.
  - apply basis_iadd_string_ok; auto.
Qed.
Lemma ok_new b : basis_ok b -> basis_new (b_strings b) = Ok b.
Proof.
  intros H. destruct (proj1 (basis_new_spec _) (proj1 H)) as (b' & E & Es & Hok). rewrite E. f_equal. apply basis_ok_eq; auto.
Qed.
Lemma made_ok o : made o <-> op_ok o.
Proof.
  split.
  - intros (cs & l & ty & Hl & H). eapply op_new_inv; eauto.
  - intros H. exists (o_coeffs o), (b_strings (o_basis o)), (Some (o_type o)). split; [apply H|]. apply op_copy; auto.
Qed.

Lemma basis_get_nat b i s : basis_get b (Z.of_nat i) = Ok s <-> nth_error (b_strings b) i = Some s.
Proof.
  unfold basis_get, py_nth. destruct (Z.ltb_spec (Z.of_nat i) 0); [lia|].
  destruct (Z.ltb_spec (Z.of_nat i) 0); [lia|]. rewrite Nat2Z.id.
  destruct (nth_error (b_strings b) i); simpl; split; congruence.
Qed.
Lemma basis_get_neg b i : 0 < i <= basis_len b ->
  basis_get b (- Z.of_nat i) = basis_get b (Z.of_nat (basis_len b - i)).
Proof.
  intros H. unfold basis_get, py_nth, basis_len in *.
  destruct (Z.ltb_spec (- Z.of_nat i) 0); [|lia].
  destruct (Z.ltb_spec (Z.of_nat (length (b_strings b) - i)) 0); [lia|].
  replace (- Z.of_nat i + Z.of_nat (length (b_strings b)))%Z with (Z.of_nat (length (b_strings b) - i)) by lia.
  reflexivity.
Qed.

Lemma lookup_proof b : built b ->
  (forall i s, basis_get b (Z.of_nat i) = Ok s -> basis_index b s = Ok i) /\
  (forall s i, basis_index b s = Ok i -> exists t, basis_get b (Z.of_nat i) = Ok t /\ same_key t s) /\
  (forall s, basis_mem b s = true <-> exists i t, basis_get b (Z.of_nat i) = Ok t /\ same_key t s) /\
  (forall s, basis_mem b s = false <-> basis_index b s = Err KeyError) /\
  (forall i, (exists s, basis_get b (Z.of_nat i) = Ok s) <-> i < basis_len b) /\
  (forall i, 0 < i <= basis_len b -> basis_get b (- Z.of_nat i) = basis_get b (Z.of_nat (basis_len b - i))).
Proof.
  intros H. apply built_ok in H. split; [|split; [|split; [|split; [|split]]]].
  - intros i s Hs. apply basis_get_nat in Hs. apply basis_ok_index; auto. exists s. split; auto. apply same_key_refl.
  - intros s i Hi. apply basis_ok_index in Hi; auto. destruct Hi as (t & Ht & K). exists t. rewrite basis_get_nat. auto.
  - intros s. rewrite basis_ok_mem by auto. split.
    + intros (t & Ht & K). apply In_nth_error in Ht. destruct Ht as (i & Hi). exists i, t. rewrite basis_get_nat. auto.
    + intros (i & t & Hi & K). apply basis_get_nat in Hi. exists t. split; auto. eapply nth_error_In; eauto.
  - intros s. unfold basis_mem, dmem, basis_index. destruct (dget os_key (b_idx b) s); simpl; split; congruence.
  - intros i. unfold basis_len. split.
    + intros (s & Hs). apply basis_get_nat in Hs. apply nth_error_Some. congruence.
    + intros L. destruct (nth_len _ _ L) as (s & Hs). exists s. apply basis_get_nat; auto.
  - apply basis_get_neg.
Qed.

Lemma same_key_std s t : std s -> std t -> same_key s t -> s = t.
Proof. apply std_key. Qed.

Lemma shared_list_witness : exists h, run [CList []; CBasis 0; CBasis 0; CBasisIaddString 0 (mkOS [OX] [1%Z] Pauli p_one)] h_empty = Ok h /\
  exists b s, basis_view h 1 = Ok b /\ basis_get b 0 = Ok s /\ basis_mem b s = false /\ basis_index b s = Err KeyError.
Proof. eexists. split; [reflexivity|]. do 2 eexists. split; [reflexivity|]. split; [reflexivity|]. split; reflexivity. Qed.

(* ------------------------------------------------------------------ C20 *)

Lemma append_new_app l m r k q : append_new l m r -> append_new r k q -> append_new l (m ++ k) q.
Proof. induction 1; simpl; auto; intros; [apply an_skip|apply an_take]; auto. Qed.
Lemma append_new_drop l k r f : append_new l k r -> (forall s, f s = true -> exists t, In t l /\ same_key t s) ->
  append_new l (filter (fun s => negb (f s)) k) r.
Proof.
  induction 1; simpl; intros Hf.
  - constructor.
  - destruct (f s); simpl; auto. apply an_skip; auto.
  - destruct (f s) eqn:E; simpl.
    + exfalso. auto.
    + apply an_take; auto. apply IHappend_new. intros u Hu. destruct (Hf u Hu) as (t & Ht & K). exists t.
      split; auto. apply in_or_app; auto.
Qed.
Lemma append_new_all_in l m : (forall s, In s m -> exists t, In t l /\ same_key t s) -> append_new l m l.
Proof. induction m as [|s m IH]; intros H; [constructor|]. apply an_skip; [apply H|apply IH; intros; apply H]; simpl; auto. Qed.

Lemma basis_add_proof b c : built b -> built c ->
  basis_add b c = Ok (basis_iadd b c) /\
  append_new (b_strings b) (b_strings c) (b_strings (basis_iadd b c)) /\
  basis_iadd (basis_iadd b c) c = basis_iadd b c /\
  forall d, built d -> basis_iadd (basis_iadd b c) d = basis_iadd b (basis_iadd c d).
Proof.
  intros Hb Hc. apply built_ok in Hb, Hc. split; [apply basis_add_ok; auto|].
  destruct (basis_iadd_ok b c Hb) as [H1 H2]. split; auto. split.
  - destruct (basis_iadd_ok _ c H1) as [H3 H4]. apply basis_ok_eq; auto.
    apply (append_new_fun _ _ _ H4). apply append_new_all_in. intros s Hs. eapply append_new_right; eauto.
  - intros d Hd. apply built_ok in Hd.
    destruct (basis_iadd_ok _ d H1) as [H3 H4]. destruct (basis_iadd_ok c d Hc) as [H5 H6].
    destruct (basis_iadd_ok b (basis_iadd c d) Hb) as [H7 H8].
    apply basis_ok_eq; auto. symmetry. apply (append_new_fun _ _ _ H8).
    pose proof (append_new_filter (b_strings c) (b_strings d) (proj1 Hd) (basis_mem c) (fun s => basis_ok_mem c s Hc)) as H9.
    rewrite (append_new_fun _ _ _ H6 _ H9). eapply append_new_app; [exact H2|].
    apply append_new_drop; auto. intros s Hs. apply basis_ok_mem in Hs; auto. destruct Hs as (t & Ht & K).
    destruct (append_new_right _ _ _ H2 t Ht) as (u & Hu & Ku). exists u. split; auto. eapply same_key_trans; eauto.
Qed.
Lemma basis_add_string_proof b s : built b ->
  basis_add_string b s = Ok (basis_iadd_string b s) /\
  append_new (b_strings b) [s] (b_strings (basis_iadd_string b s)).
Proof.
  intros Hb. apply built_ok in Hb. split; [apply basis_add_string_ok; auto|]. apply basis_iadd_string_ok; auto.
Qed.
Lemma append_new_spec l m r : append_new l m r ->
  (exists k, r = l ++ k /\ (forall s, In s k -> In s m /\ ~ exists t, In t l /\ same_key t s)) /\
  (forall s, In s m -> exists t, In t r /\ same_key t s) /\ (distinct_keys l -> distinct_keys r).
Proof.
  intros H. split; [|split; [intros s Hs; eapply append_new_right; eauto | eapply append_new_distinct; eauto]].
  induction H.
  - exists []. rewrite app_nil_r. split; [reflexivity | intros s []].
  - destruct IHappend_new as (k & -> & Hk). exists k. split; auto. intros u Hu. destruct (Hk u Hu). simpl; auto.
  - destruct IHappend_new as (k & -> & Hk). exists (s :: k). rewrite <- app_assoc. split; auto.
    intros u [<-|Hu]; simpl; auto. destruct (Hk u Hu) as [H1 H2]. split; auto.
    intros (t & Ht & K). apply H2. exists t. split; auto. apply in_or_app; auto.
Qed.

(* ------------------------------------------------------------------ C21 *)

Lemma coeff_proof o s : made o -> exists c, has_coeff (op_terms o) s c /\ forall d, has_coeff (op_terms o) s d -> d = c.
Proof.
  intros H. apply made_ok in H. destruct (has_coeff_total o s H) as (c & Hc). exists c. split; auto.
  intros d Hd. eapply has_coeff_fun; eauto.
Qed.
Lemma add_proof o p : made o -> made p ->
  (o_type o <> o_type p -> op_add o p = Err ValueError /\ op_iadd o p = Err ValueError /\
     op_sub o p = Err ValueError /\ op_isub o p = Err ValueError) /\
  (o_type o = o_type p -> exists r q, op_add o p = Ok r /\ op_iadd o p = Ok r /\ op_sub o p = Ok q /\ op_isub o p = Ok q /\
     made r /\ made q /\ o_type r = o_type o /\ o_type q = o_type o /\
     append_new (b_strings (o_basis o)) (b_strings (o_basis p)) (b_strings (o_basis r)) /\
     append_new (b_strings (o_basis o)) (b_strings (o_basis p)) (b_strings (o_basis q)) /\
     forall s c d, has_coeff (op_terms o) s c -> has_coeff (op_terms p) s d ->
       has_coeff (op_terms r) s (gadd c d) /\ has_coeff (op_terms q) s (gsub c d)).
Proof.
  intros Ho Hp. apply made_ok in Ho, Hp. split.
  - intros N. assert (Q : forall x, o_type x = o_type p -> op_add o x = Err ValueError /\ op_iadd o x = Err ValueError).
    { intros x Hx. unfold op_add, op_iadd. rewrite Hx. destruct (optype_eqb (o_type o) (o_type p)) eqn:E; auto.
      apply optype_eqb_eq in E. contradiction. }
    destruct (Q p eq_refl) as [Q1 Q2]. split; auto. split; auto.
    destruct (op_scale_ok gm1 p Hp) as (m & Em & Hm & Tm & _). unfold op_sub, op_isub. rewrite Em. simpl. auto.
  - intros E. destruct (op_iadd_ok o p Ho Hp E) as (r & Hr & Or & Tr & Ar & Cr).
    destruct (op_sub_ok o p Ho Hp E) as (q & Hq & Hq' & Oq & Tq & Aq & Cq).
    exists r, q. rewrite op_add_iadd by auto. repeat (split; [solve [auto | apply made_ok; auto]|]). auto.
Qed.
Lemma scale_proof z o : made o ->
  exists r m, op_scale z o = Ok r /\ op_neg o = Ok m /\ made r /\ made m /\ o_type r = o_type o /\ o_type m = o_type o /\
    b_strings (o_basis r) = b_strings (o_basis o) /\ b_strings (o_basis m) = b_strings (o_basis o) /\
    forall s c, has_coeff (op_terms o) s c -> has_coeff (op_terms r) s (gmul z c) /\ has_coeff (op_terms m) s (gopp c).
Proof.
  intros Ho. apply made_ok in Ho. destruct (op_scale_ok z o Ho) as (r & Er & Or & Tr & Br & _ & Cr).
  destruct (op_scale_ok gm1 o Ho) as (m & Em & Om & Tm & Bm & _ & Cm).
  exists r, m. rewrite Br, Bm. do 8 (split; [solve [auto | apply made_ok; auto]|]).
  intros s c Hc. split; auto. replace (gopp c) with (gmul gm1 c); auto. unfold gm1; ring.
Qed.
Lemma add_den_proof ty o p r {A : StarAlg} (g : op -> Z -> A) : made o -> made p -> op_add o p = Ok r ->
  (forall s, In s (b_strings (o_basis o) ++ b_strings (o_basis p)) -> std s) -> rep ty g ->
  (lincomb g (op_terms r) == lincomb g (op_terms o) + lincomb g (op_terms p))%alg.
Proof.
  intros Ho Hp Hr Hs _. apply made_ok in Ho, Hp. rewrite op_add_iadd in Hr by auto.
  apply (op_add_lincomb g o p r); auto.
  - intros s Hin. apply Hs, in_or_app; auto.
  - intros s Hin. apply Hs, in_or_app; auto.
  - unfold op_iadd in Hr. destruct (optype_eqb (o_type o) (o_type p)) eqn:E; [|discriminate]. apply optype_eqb_eq; auto.
Qed.

(* ------------------------------------------------------------------ C22 *)

(** Two Operators on one Basis object; the first is updated in place. *)
Definition X1 := mkOS [OX] [1%Z] Pauli p_one.
Definition Z1 := mkOS [OZ] [1%Z] Pauli p_one.
Definition shared_history : list cmd :=
  [CList [X1]; CBasis 0; COpBasis [g1] 0 None; COpBasis [g1] 0 None; CList [Z1]; COpList [g1] 1 None; COpIadd 0 2].
Lemma shared_basis_witness : exists h h', run (firstn 6 shared_history) h_empty = Ok h /\ step h (COpIadd 0 2) = Ok h' /\
  (exists b b', basis_view h 0 = Ok b /\ basis_view h' 0 = Ok b' /\ basis_len b = 1 /\ basis_len b' = 2) /\
  (exists v, op_view h' 1 = Ok v /\ length (o_coeffs v) = 1 /\ op_len v = 2) /\
  step h (COpAdd 1 2) <> Err IndexError /\ (exists h2, step h (COpIadd 1 2) = Ok h2) /\
  step h' (COpIadd 1 2) = Err IndexError.
Proof.
  eexists. eexists. split; [vm_compute; reflexivity|]. split; [vm_compute; reflexivity|].
  split; [do 2 eexists; split; [vm_compute; reflexivity|]; split; [vm_compute; reflexivity|]; split; reflexivity|].
  split; [eexists; split; [vm_compute; reflexivity|]; split; reflexivity|].
  split; [vm_compute; discriminate|]. split; [eexists; vm_compute; reflexivity|]. vm_compute. reflexivity.
Qed.

(* ------------------------------------------------------------------ C23 *)

Lemma remove_zeros_proof tol o : made o -> exists r, op_remove_zeros tol o = Ok r /\ made r /\
  op_terms r = filter (fun t => abs_gtb (fst t) tol) (op_terms o) /\
  ((forall s, In s (b_strings (o_basis o)) -> os_type s = o_type o) -> o_type r = o_type o).
Proof.
  intros H. apply made_ok in H. destruct (op_remove_zeros_ok tol o H) as (r & E & Hr & Ht).
  exists r. split; auto. split; [apply made_ok; auto|]. split; auto.
  intros Hty. assert (Es : b_strings (o_basis r) = map snd (op_terms r)) by (symmetry; apply op_terms_snd; auto).
  destruct (b_strings (o_basis r)) as [|s q] eqn:Eb.
  - unfold op_remove_zeros in E. inv_bind E. unfold op_new in E. inv_bind E. unfold op_of_basis in E.
    apply basis_new_ok in E1. destruct E1 as [E1 _].
    destruct (b_strings z0) eqn:Ez; injection E as <-; auto. simpl in Eb. congruence.
  - destruct Hr as (_ & _ & Hr). rewrite (Hr s q Eb). apply Hty. rewrite Ht in Es.
    rewrite <- (op_terms_snd o H). assert (In s (map snd (filter (fun t => abs_gtb (fst t) tol) (op_terms o)))) by (rewrite <- Es; simpl; auto).
    apply in_map_iff in H0. destruct H0 as (t & <- & Hin). apply filter_In in Hin. apply in_map. tauto.
Qed.
Lemma to_vector_proof o b : made o -> built b ->
  ((forall t, In t (b_strings (o_basis o)) -> basis_mem b t = true) ->
   exists v, op_to_vector o b = Ok v /\ length v = basis_len b /\
     forall i s, basis_get b (Z.of_nat i) = Ok s -> exists c, nth_error v i = Some c /\ has_coeff (op_terms o) s c) /\
  ((exists t, In t (b_strings (o_basis o)) /\ basis_mem b t = false) -> op_to_vector o b = Err KeyError).
Proof.
  intros Ho Hb. apply made_ok in Ho. apply built_ok in Hb. split.
  - intros H. destruct (op_to_vector_ok o b Ho Hb) as (v & E & L & Hv).
    + intros t Ht. apply basis_ok_mem; auto.
    + exists v. split; auto. split; auto. intros i s Hs. apply Hv. apply basis_get_nat; auto.
  - intros (t & Ht & Hm). apply op_to_vector_err; auto. exists t. split; auto. intros K. apply basis_ok_mem in K; auto. congruence.
Qed.
