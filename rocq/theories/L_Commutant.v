(** Liouvillian of a list of Operators; commutant matrices. *)
From Coq Require Import String List ZArith Bool Arith Lia Sorted QArith Qcanon.
From Verif Require Import GC Exn S_Alg S_Den S_Basis S_Built S_OpAlg M_OpString M_Algebra M_Basis M_OpAlg
  L_Alg L_StrAlg L_StrOp L_Indep L_PropStr L_Basis L_Operator L_Heap L_PropBasis L_OpAlg L_Sum L_Struct.
Import ListNotations.
Local Open Scope nat_scope.
Local Open Scope alg_scope.

(** Well-formed strings with equal keys are equal. *)
Lemma key_string_ok ty s t : string_ok ty s -> string_ok ty t -> same_key s t -> s = t.
Proof.
  intros (_ & _ & _ & _ & Ps) (_ & _ & _ & _ & Pt) (Hn & Ho & Hl & Ht). destruct s as [o l y p], t as [o' l' y' p']; simpl in *.
  subst. unfold os_name in Hn. simpl in Hn. f_equal. destruct p as [v x], p' as [v' x']. simpl in *. f_equal; [congruence|].
  eapply append_cancel_r; eauto.
Qed.

Lemma combined_fold ty ops : (forall o, In o ops -> good_op ty o) -> forall b, basis_ok b ->
  (forall s, In s (b_strings b) -> string_ok ty s) ->
  let b' := fold_left (fun b o => basis_iadd b (o_basis o)) ops b in
  basis_ok b' /\ (forall s, In s (b_strings b') -> string_ok ty s) /\
  (forall s, In s (b_strings b') -> In s (b_strings b) \/ exists o, In o ops /\ In s (b_strings (o_basis o))) /\
  (forall s, In s (b_strings b) -> In s (b_strings b')) /\
  (forall o s, In o ops -> In s (b_strings (o_basis o)) -> exists t, In t (b_strings b') /\ same_key t s).
Proof.
  induction ops as [|o ops IH]; intros Hops b Hb Hs.
  - simpl. split; auto. split; auto. split; auto. split; auto. intros o s [].
  - simpl. pose proof (good_op_ok _ _ (Hops o (or_introl eq_refl))) as (Ho & _).
    destruct (basis_iadd_ok b (o_basis o) Hb) as [H1 H2].
    assert (H3 : forall s, In s (b_strings (basis_iadd b (o_basis o))) -> string_ok ty s).
    { intros s Hin. destruct (append_new_in _ _ _ H2 s Hin); auto. apply (Hops o); simpl; auto. }
    destruct (IH (fun o H => Hops o (or_intror H)) _ H1 H3) as (K1 & K2 & K3 & K4 & K5).
    split; auto. split; auto. split; [|split].
    + intros s Hin. destruct (K3 s Hin) as [Hin'|(o' & Ho' & Hin')].
      * destruct (append_new_in _ _ _ H2 s Hin'); auto. right. exists o. simpl; auto.
      * right. exists o'. simpl; auto.
    + intros s Hin. apply K4. eapply append_new_left; eauto.
    + intros o' s [<-|Ho'] Hin; [|eauto].
      destruct (append_new_right _ _ _ H2 s Hin) as (t & Ht & K). exists t; auto.
Qed.

Lemma coeff_triplets_ok ty b : basis_ok b -> (forall s, In s (b_strings b) -> string_ok ty s) -> forall ops ind,
  (forall o, In o ops -> good_op ty o) ->
  (forall o s, In o ops -> In s (b_strings (o_basis o)) -> exists t, In t (b_strings b) /\ same_key t s) ->
  exists ts, coeff_triplets b ind ops = Ok ts /\
    (forall e, In e ts -> fst (fst e) < basis_len b /\ ind <= snd (fst e) < ind + length ops) /\
    forall (A : StarAlg) (g : op -> Z -> A) j o, nth_error ops j = Some o ->
      colsum g (b_strings b) (ind + j) ts == lincomb g (op_terms o).
Proof.
  intros Hb Hstd. induction ops as [|o ops IH]; intros ind Hops Hin.
  - exists []. split; auto. split; [intros e []|]. intros A g [|j] o; discriminate.
  - destruct (IH (S ind)) as (us & Eu & Bu & Du); [intros; apply Hops; simpl; auto | intros; eapply Hin; eauto; simpl; auto|].
    assert (Ht : forall terms, (forall t, In t terms -> In (snd t) (b_strings (o_basis o))) ->
      exists ts, rmap (fun t => let! i := basis_index b (snd t) in Ok (i, ind, fst t)) terms = Ok ts /\
       (forall e, In e ts -> fst (fst e) < basis_len b /\ snd (fst e) = ind) /\
       forall (A : StarAlg) (g : op -> Z -> A), colsum g (b_strings b) ind ts == lincomb g terms).
    { induction terms as [|[c s] terms IHt]; intros Hterms.
      - exists []. split; auto. split; [intros e []|]. intros; reflexivity.
      - destruct IHt as (ts & Et & Bt & Dt); [intros; apply Hterms; simpl; auto|].
        assert (Hs : In s (b_strings (o_basis o))) by (apply (Hterms (c, s)); simpl; auto).
        destruct (Hin o s (or_introl eq_refl) Hs) as (t & Hbt & K).
        assert (t = s) by (apply (key_string_ok ty); auto; eapply Hops; eauto; simpl; auto). subst t.
        destruct (basis_index_in b s Hb Hbt) as (i & Hi & Hn).
        exists ((i, ind, c) :: ts). cbn [rmap snd fst]. rewrite Hi. cbn [rbind]. rewrite Et. split; auto. split.
        + intros e [<-|He]; auto. simpl. split; auto. unfold basis_len. apply nth_error_Some. congruence.
        + intros A g. rewrite colsum_cons, lincomb_cons, Dt. cbn [fst snd]. rewrite Nat.eqb_refl.
          unfold den_at. rewrite Hn. reflexivity. }
    destruct (Ht (op_terms o)) as (ts & Et & Bt & Dt).
    { intros [c s] H. eapply in_combine_r; eauto. }
    exists (ts ++ us). cbn [coeff_triplets]. rewrite Et. cbn [rbind]. rewrite Eu. cbn [rbind]. split; auto. split.
    + intros e He. apply in_app_or in He. simpl. destruct He as [He|He]; [destruct (Bt e He); lia | destruct (Bu e He); lia].
    + intros A g [|j] o' Ho'.
      * injection Ho' as <-. rewrite Nat.add_0_r, colsum_app, Dt, (colsum_none g _ ind us); [apply aadd_0_r|].
        intros e He. destruct (Bu e He). lia.
      * simpl in Ho'. rewrite colsum_app, (colsum_none g _ _ ts), aadd_0_l.
        -- replace (ind + S j)%nat with (S ind + j)%nat by lia. apply Du; auto.
        -- intros e He. destruct (Bt e He). lia.
Qed.

Lemma rfold_ext {St T} (f h : St -> T -> res St) l : (forall s x, f s x = h s x) -> forall s, rfold f l s = rfold h l s.
Proof. intros H. induction l as [|x l IH]; intros s; simpl; auto. rewrite H. destruct (h s x); simpl; auto. Qed.

Lemma exact_asum_l {A : StarAlg} m (y : A) {T} (f : T -> A) (l : list T) :
  exact m (asum (map f l)) y == asum (map (fun t => exact m (f t) y) l).
Proof. induction l as [|x l IH]; simpl; [apply exact_0_l|]. rewrite exact_add_l, IH. reflexivity. Qed.

Lemma liouvillian_operators_proof ty m ops o : ty <> Fermion -> ops <> [] -> (forall p, In p ops -> good_op ty p) -> good_op ty o ->
  exists L C, liouvillian_matrix m (AOperators ops) o = Ok (L, C) /\ canonical_basis ty C /\
    sm_rows L = basis_len C /\ sm_cols L = length ops /\ (forall e, In e (sm_trip L) -> fst (fst e) < sm_rows L /\ snd (fst e) < sm_cols L) /\
    forall a P, nth_error ops a = Some P -> forall (Al : StarAlg) (g : op -> Z -> Al), rep ty g ->
      exact m (lincomb g (op_terms P)) (lincomb g (op_terms o)) == lincomb g (combine (column L a) (b_strings C)).
Proof.
  intros Hty Hne Hops Ho. pose proof (good_op_ok _ _ Ho) as OO.
  destruct (combined_fold ty ops Hops basis_empty basis_ok_empty) as (Bb & Bs & Bin & _ & Ball); [intros s []|].
  fold (combined_basis ops) in Bb, Bs, Bin, Ball. set (b := combined_basis ops) in *.
  assert (Hob : good_basis ty (o_basis o)) by (split; [apply built_iff, OO | apply Ho]).
  assert (Hgb : good_basis ty b) by (split; [apply built_iff; auto | auto]).
  destruct (structure_constants_ok ty m tol16 b (o_basis o) Hty tol16_ok Hgb Hob) as (Ns & C & He & Hl & [HC HP] & HN).
  destruct (coeff_triplets_ok ty b Bb Bs ops 0) as (ts & Ets & Bts & Dts); auto.
  assert (EK : sm_make (basis_len b) (length ops) ts = Ok (mkSM (basis_len b) (length ops) ts)).
  { unfold sm_make. replace (forallb _ ts) with true; auto. symmetry. apply forallb_forall. intros e Hin.
    destruct (Bts e Hin). apply andb_true_iff. split; apply Nat.ltb_lt; lia. }
  assert (EL0 : liouvillian_matrix m (AOperators ops) o = liouvillian_operators m ops o) by (destruct ops; [congruence | reflexivity]).
  rewrite EL0. unfold liouvillian_operators. fold b. rewrite He. cbn [rbind]. rewrite Ets. cbn [rbind]. rewrite EK. cbn [rbind].
  set (F := fun T => let! N := of_option KeyError (dget os_key (combine (b_strings (o_basis o)) Ns) T) in
                     sm_dot N (mkSM (basis_len b) (length ops) ts)).
  rewrite (rfold_ext _ (fun L t => let! N := F (snd t) in sm_add L (sm_scale (fst t) N))).
  2:{ intros s x. unfold F. destruct (of_option KeyError _); reflexivity. }
  destruct (liouvillian_loop ty m (basis_len C) (length ops) F
     [] (b_strings C) (fun A g j => match nth_error ops j with Some P => lincomb g (op_terms P) | None => azero end) eq_refl (op_terms o)) with (L0 := sm_zero (basis_len C) (length ops))
     as (L & EL & RL & CL & BL & DL); auto.
  - intros [c T] Ht. cbn [snd]. assert (HT : In T (b_strings (o_basis o))) by (eapply in_combine_r; eauto).
    apply In_nth_error in HT. destruct HT as (i & Hi).
    assert (Li : i < length Ns) by (rewrite Hl; apply nth_error_Some; congruence).
    destruct (nth_len Ns i Li) as (N & HNi).
    pose proof (HN i T N Hi HNi) as (E1 & E2 & Hb1 & Hd).
    unfold F. rewrite (dget_nth _ i T N).
    2:{ rewrite map_fst_comb by (rewrite Hl; reflexivity). apply OO. }
    2:{ apply combine_nth_error; auto. }
    cbn [of_option rbind]. unfold sm_dot. rewrite E2. cbn [sm_rows sm_cols sm_trip].
    change (length (b_strings b)) with (basis_len b). rewrite Nat.eqb_refl.
    eexists. split; [reflexivity|]. cbn [sm_rows sm_cols sm_trip]. split; auto. split; auto. split.
    + intros e Hin. apply in_flat_map in Hin. destruct Hin as (t & Ht1 & Hin). apply in_flat_map in Hin.
      destruct Hin as (u & Hu & Hin). destruct (Nat.eqb _ _); [|destruct Hin]. destruct Hin as [<-|[]]. simpl.
      split; [apply Hb1; auto|]. destruct (Bts u Hu). lia.
    + intros A g Hr j Hj. rewrite colsum_dot.
      destruct (nth_len ops j Hj) as (P & HPj). rewrite HPj. pose proof (Dts A g j P HPj) as D. simpl in D. rewrite <- D.
      unfold colsum at 2. rewrite exact_asum_l. apply asum_ext. intros u Hu. destruct (Nat.eqb (snd (fst u)) j).
      * rewrite exact_scal_l. apply ascal_proper; auto. destruct (Bts u Hu) as [Hlt _].
        destruct (nth_len (b_strings b) (fst (fst u)) Hlt) as (S & HS). unfold den_at. rewrite HS. apply Hd; auto.
      * rewrite exact_0_l. reflexivity.
  - intros e [].
  - rewrite EL. cbn [rbind].
    exists L, C. split; auto. split; [split; [apply built_iff; auto | intros s Hs; destruct (HP s Hs) as (? & ? & _); auto]|].
    split; auto. split; auto. split; [rewrite RL, CL; auto|].
    intros a P Ha Al g Hr. destruct L as [r c us]. simpl in RL, CL, BL, DL. subst r c.
    rewrite column_colsum; [|reflexivity | intros t Ht; apply BL; auto].
    rewrite (DL Al g Hr a) by (apply nth_error_Some; congruence).
    rewrite Ha. unfold colsum; simpl. rewrite aadd_0_l. reflexivity.
Qed.

(* -------------------------------------------------------- commutant *)

Lemma asum_swap {A : StarAlg} {T U} (f : T -> U -> A) l m :
  asum (map (fun x => asum (map (f x) m)) l) == asum (map (fun y => asum (map (fun x => f x y) l)) m).
Proof.
  induction l as [|x l IH]; simpl.
  - symmetry. apply asum_zero. reflexivity.
  - rewrite IH, <- asum_map_add. reflexivity.
Qed.

Lemma den_gsum {A : StarAlg} {T} (f : T -> GC) (x : A) l : gsum (map f l) · x == asum (map (fun t => f t · x) l).
Proof. induction l as [|y l IH]; simpl; [apply ascal_0|]. rewrite ascal_add_l, IH. reflexivity. Qed.

Lemma combine_seq {T} (v : list GC) (l : list T) d : length v = length l ->
  combine v l = map (fun j => (vat v j, nth j l d)) (seq 0 (length v)).
Proof.
  revert l; induction v as [|c v IH]; intros [|x l] H; simpl in *; try discriminate; auto.
  f_equal. rewrite (IH l) by lia. rewrite <- seq_shift, map_map. reflexivity.
Qed.

(** The matrix applied to a vector gives the coefficients of the image. *)
Lemma matvec_meaning {A : StarAlg} (g : op -> Z -> A) m L Cs v (x : nat -> A) y :
  sm_rows L = length Cs -> length v = sm_cols L ->
  (forall j, j < sm_cols L -> exact m (x j) y == lincomb g (combine (column L j) Cs)) ->
  lincomb g (combine (matvec L v) Cs) == exact m (asum (map (fun j => vat v j · x j) (seq 0 (sm_cols L)))) y.
Proof.
  intros Er Hl H. rewrite exact_asum_l.
  transitivity (asum (map (fun j => vat v j · asum (map (fun i => sm_entry L i j · den_at g Cs i) (seq 0 (length Cs)))) (seq 0 (sm_cols L)))).
  - transitivity (lincomb g (combine (map (fun i => sg (sm_cols L) (fun j => gmul (sm_entry L i j) (vat v j))) (seq 0 (length Cs))) Cs)).
    + assert (E : matvec L v = map (fun i => sg (sm_cols L) (fun j => gmul (sm_entry L i j) (vat v j))) (seq 0 (length Cs))).
      { apply nth_ext with (d := g0) (d' := g0); [rewrite matvec_length, map_length, seq_length; auto|].
        intros i Hi. rewrite matvec_length in Hi. rewrite (nth_error_nth _ _ _ (matvec_nth L v i Hl Hi)).
        symmetry. apply nth_error_nth. rewrite nth_error_map, (nth_error_nth' _ 0), seq_nth by (rewrite ?seq_length; congruence).
        reflexivity. }
      rewrite E. reflexivity.
    + rewrite lincomb_seq. simpl.
      transitivity (asum (map (fun i => asum (map (fun j => gmul (sm_entry L i j) (vat v j) · den_at g Cs i) (seq 0 (sm_cols L)))) (seq 0 (length Cs)))).
      * apply asum_ext. intros i _. unfold sg. apply den_gsum.
      * rewrite asum_swap. apply asum_ext. intros j _. rewrite asum_scal, map_map. apply asum_ext. intros i _.
        rewrite ascal_ascal. apply ascal_eq. ring.
  - apply asum_ext. intros j Hj. apply in_seq in Hj. rewrite exact_scal_l, (H j) by lia. apply ascal_proper; auto.
    unfold column. rewrite Er. rewrite lincomb_seq. reflexivity.
Qed.

Lemma canonical_body ty C D : string_ok ty C -> string_ok ty D -> canonical C -> canonical D -> body C = body D -> C = D.
Proof.
  intros (Tc & _ & _ & _ & Pc) (Td & _ & _ & _ & Pd) [_ PC] [_ PD] HCD. unfold body in HCD.
  destruct C as [oc lc tc pc], D as [od ld td pd]. simpl in *. injection HCD as -> ->. subst.
  assert (pval pc = pval pd) by congruence.
  destruct PC as [-> | ->], PD as [-> | ->]; auto; exfalso; discriminate.
Qed.

Lemma canonical_NoDup_body ty l : NoDup l -> (forall s, In s l -> string_ok ty s /\ canonical s) -> NoDup (map body l).
Proof.
  induction 1 as [|s l Hs Hn IH]; intros H; simpl; constructor.
  - intros Hin. apply in_map_iff in Hin. destruct Hin as (t & E & Ht). apply Hs.
    assert (t = s); [|congruence]. destruct (H s), (H t); simpl; auto. eapply canonical_body; eauto.
  - apply IH. intros; apply H; simpl; auto.
Qed.

(** Coefficients of canonical strings are determined by the operator. *)
Lemma canonical_zero ty {A : StarAlg} (g : op -> Z -> A) C cs : rep ty g -> ~ (@aone A == azero) ->
  canonical_basis ty C -> length cs = basis_len C ->
  (lincomb g (combine cs (b_strings C)) == azero <-> cs = zeros (basis_len C)).
Proof.
  intros Hr Hnt [HC HS] Hl. apply built_ok in HC. split.
  - intros H. apply nth_ext with (d := g0) (d' := g0); [unfold zeros; rewrite repeat_length; auto|].
    intros i Hi. unfold zeros. rewrite nth_repeat. rewrite Hl in Hi.
    destruct (nth_len (b_strings C) i Hi) as (s & Hs). destruct (nth_len cs i) as (c & Hc); [rewrite Hl; auto|].
    rewrite (nth_error_nth _ _ _ Hc). 
    apply (strings_independent ty g Hr (combine cs (b_strings C)) Hnt) with (s := s); auto.
    + intros [c' s'] Ht. apply in_combine_r in Ht. simpl. destruct (HS s' Ht) as [H1 [H2 _]]. auto.
    + rewrite <- map_map with (f := snd) (g := body), (map_snd_combine cs (b_strings C)) by (rewrite Hl; reflexivity).
      eapply canonical_NoDup_body; eauto. apply distinct_NoDup, HC.
    + eapply nth_error_In. apply combine_nth_error; eauto.
  - intros ->. unfold zeros. clear. generalize (b_strings C). generalize (basis_len C). induction n as [|n IH]; intros [|s l]; simpl; try reflexivity.
    rewrite lincomb_cons, IH, ascal_0. apply aadd_0_l.
Qed.

Lemma commutant_general ty {A : StarAlg} (g : op -> Z -> A) m L C M v (x : nat -> A) y :
  rep ty g -> ~ (@aone A == azero) -> canonical_basis ty C -> sm_rows L = basis_len C ->
  (forall e, In e (sm_trip L) -> fst (fst e) < sm_rows L /\ snd (fst e) < sm_cols L) ->
  (forall j, j < sm_cols L -> exact m (x j) y == lincomb g (combine (column L j) (b_strings C))) ->
  sm_dot (sm_adj L) L = Ok M -> length v = sm_cols L ->
  matvec M v = zeros (sm_rows M) <-> exact m (asum (map (fun j => vat v j · x j) (seq 0 (sm_cols L)))) y == azero.
Proof.
  intros Hr Hnt HC Er HB Hx HM Hl.
  destruct (gram_kernel L M v HB HM Hl) as (_ & _ & ->).
  rewrite <- (matvec_meaning g m L (b_strings C) v x y) by auto.
  rewrite (canonical_zero ty g C) by (auto; rewrite matvec_length; auto). rewrite Er. reflexivity.
Qed.

Lemma commutant_total m b o L C : liouvillian_matrix m b o = Ok (L, C) ->
  exists M, sm_dot (sm_adj L) L = Ok M /\ commutant_matrix m b o = Ok (M, C) /\ sm_rows M = sm_cols L /\ sm_cols M = sm_cols L.
Proof.
  intros H. unfold commutant_matrix. rewrite H. cbn [rbind]. unfold sm_dot. cbn [sm_adj sm_rows sm_cols].
  rewrite Nat.eqb_refl. cbn [rbind]. eexists. split; [reflexivity|]. auto.
Qed.

Lemma asum_nth_den {A : StarAlg} (g : op -> Z -> A) v strs : length v = length strs ->
  asum (map (fun j => vat v j · den_at g strs j) (seq 0 (length v))) == lincomb g (combine v strs).
Proof.
  intros H. rewrite H. rewrite <- (lincomb_seq g (vat v) strs 0). f_equiv.
  assert (E : map (vat v) (seq 0 (length strs)) = v); [|rewrite E; reflexivity].
  rewrite <- H. clear. induction v as [|c v IH]; simpl; auto. f_equal. rewrite <- seq_shift, map_map. exact IH.
Qed.

Lemma commutant_strings_proof ty m b o : ty <> Fermion -> good_basis ty b -> good_op ty o ->
  exists M C, commutant_matrix m (ABasis b) o = Ok (M, C) /\ sm_rows M = basis_len b /\ sm_cols M = basis_len b /\
    forall (A : StarAlg) (g : op -> Z -> A), rep ty g -> ~ (@aone A == azero) -> forall v, length v = basis_len b ->
      (matvec M v = repeat g0 (basis_len b) <->
       exact m (lincomb g (combine v (b_strings b))) (lincomb g (op_terms o)) == azero).
Proof.
  intros Hty Hb Ho. destruct (liouvillian_strings_proof ty m b o Hty Hb Ho) as (L & C & HL & HC & RL & CL & BL & DL).
  destruct (commutant_total _ _ _ _ _ HL) as (M & HM & EM & RM & CM).
  exists M, C. split; auto. split; [congruence|]. split; [congruence|].
  intros A g Hr Hnt v Hl. replace (basis_len b) with (sm_rows M) by congruence. change (repeat g0) with zeros.
  rewrite (commutant_general ty g m L C M v (den_at g (b_strings b)) (lincomb g (op_terms o))); auto; try congruence.
  - rewrite CL, <- Hl, (asum_nth_den g v (b_strings b)) by auto. reflexivity.
  - intros j Hj. rewrite CL in Hj. destruct (nth_len (b_strings b) j Hj) as (S & HS). unfold den_at. rewrite HS. apply DL; auto.
Qed.

Lemma commutant_operators_proof ty m ops o : ty <> Fermion -> ops <> [] -> (forall p, In p ops -> good_op ty p) -> good_op ty o ->
  exists M C, commutant_matrix m (AOperators ops) o = Ok (M, C) /\ sm_rows M = length ops /\ sm_cols M = length ops /\
    forall (A : StarAlg) (g : op -> Z -> A), rep ty g -> ~ (@aone A == azero) -> forall v, length v = length ops ->
      (matvec M v = repeat g0 (length ops) <->
       exact m (op_sum g v ops) (lincomb g (op_terms o)) == azero).
Proof.
  intros Hty Hne Hops Ho. destruct (liouvillian_operators_proof ty m ops o Hty Hne Hops Ho) as (L & C & HL & HC & RL & CL & BL & DL).
  destruct (commutant_total _ _ _ _ _ HL) as (M & HM & EM & RM & CM).
  exists M, C. split; auto. split; [congruence|]. split; [congruence|].
  intros A g Hr Hnt v Hl. replace (length ops) with (sm_rows M) by congruence. change (repeat g0) with zeros.
  set (x := fun j => match nth_error ops j with Some P => lincomb g (op_terms P) | None => azero end).
  rewrite (commutant_general ty g m L C M v x (lincomb g (op_terms o))); auto; try congruence.
  - assert (D : exists o0 : Operator, True) by (exists o; auto). destruct D as (o0 & _).
    unfold op_sum. rewrite (combine_seq v ops o0) by auto. rewrite map_map, CL, <- Hl. cbn [fst snd].
    assert (E : asum (map (fun j => vat v j · x j) (seq 0 (length v))) ==
                asum (map (fun j => vat v j · lincomb g (op_terms (nth j ops o0))) (seq 0 (length v)))); [|rewrite E; reflexivity].
    apply asum_ext. intros j Hj. apply in_seq in Hj. unfold x. rewrite (nth_error_nth' ops o0 (n:=j)) by (rewrite <- Hl; apply Hj). reflexivity.
  - intros j Hj. rewrite CL in Hj. destruct (nth_len ops j Hj) as (P & HP). unfold x. rewrite HP. apply DL; auto.
Qed.
