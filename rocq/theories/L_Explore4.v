(** Proofs about exploring with a second Operator, and about truncation. *)
From Coq Require Import String List ZArith Bool Arith Lia Sorted Permutation QArith Qcanon.
From Verif Require Import GC Exn S_Alg S_Den S_Fock S_Basis S_Built S_OpAlg S_Explore M_OpString M_Algebra M_Basis M_OpAlg M_Explore
  L_Alg L_StrAlg L_StrOp L_Indep L_PropStr L_Basis L_Operator L_Heap L_PropBasis L_OpAlg L_Struct L_Fock L_Unique L_Explore L_Explore2 L_Explore3.
Import ListNotations.
Local Open Scope nat_scope.
Local Open Scope alg_scope.

(* -------------------------------------------------------- uniqueness of the result *)

Lemma canonical_basis_terms ty C cs : canonical_basis ty C -> length cs = basis_len C -> canonical_terms ty (combine cs (b_strings C)).
Proof.
  intros [HC HS] Hl. apply built_iff in HC. split.
  - rewrite map_snd_combine by (rewrite Hl; reflexivity). apply std_nodup; auto.
  - intros [c s] H. apply in_combine_r in H. cbn [snd]. auto.
Qed.
Lemma column_length L a : length (column L a) = sm_rows L.
Proof. unfold column. rewrite map_length, seq_length. reflexivity. Qed.

Lemma same_columns ty C D L M x : ty <> Fermion -> canonical_basis ty C -> canonical_basis ty D -> sm_rows L = basis_len C -> sm_rows M = basis_len D ->
  forall a, (forall (Al : StarAlg) (g : op -> Z -> Al), rep ty g -> x Al g == lincomb g (combine (column L a) (b_strings C))) ->
  (forall (Al : StarAlg) (g : op -> Z -> Al), rep ty g -> x Al g == lincomb g (combine (column M a) (b_strings D))) ->
  forall e c, has_coeff (combine (column L a) (b_strings C)) e c <-> has_coeff (combine (column M a) (b_strings D)) e c.
Proof.
  intros Hty HC HD RL RM a H1 H2. apply (terms_unique ty fock_gen); [apply fock_rep; auto | apply fock_nontrivial| | |].
  - apply canonical_basis_terms; auto. rewrite column_length; auto.
  - apply canonical_basis_terms; auto. rewrite column_length; auto.
  - rewrite <- (H1 Fock fock_gen (fock_rep ty Hty)). apply (H2 Fock fock_gen (fock_rep ty Hty)).
Qed.

(* -------------------------------------------------------- a second operator *)

Lemma explore_inv b H st allowed L ext st' : explore b H st allowed = Ok (L, ext, st') -> explore_update b H st = Ok st'.
Proof.
  unfold explore. destruct (explore_update b H st) as [s|]; [|discriminate]. cbn [rbind]. intros E.
  destruct (rmap _ _); [|discriminate]. cbn [rbind] in E. destruct (rfold _ _ _) as [[e i]|]; [|discriminate]. cbn [rbind] in E.
  destruct (rfold _ _ _); [|discriminate]. cbn [rbind] in E. destruct (sm_make _ _ _); [|discriminate]. cbn [rbind] in E. injection E as _ _ ->. auto.
Qed.
Lemma sc_outer_nil : forall Bs C md, distinct_keys (map fst md ++ Bs) ->
  sc_outer MCommutator tol16 [] Bs C md = Ok (C, md ++ map (fun B => (B, [])) Bs).
Proof.
  induction Bs as [|B Bs IH]; intros C md Hd; cbn [sc_outer sc_inner map].
  - rewrite app_nil_r. reflexivity.
  - cbn [rbind]. rewrite dset_none.
    + rewrite IH; [rewrite <- app_assoc; reflexivity|]. rewrite map_app, <- app_assoc. exact Hd.
    + apply dget_not_in. intros k v Hin K. apply distinct_app in Hd. destruct Hd as (_ & _ & Hd).
      apply (Hd k B); auto; [change k with (fst (k, v)); apply in_map; auto | left; auto].
Qed.
Lemma filter_none {T} (f : T -> bool) l : (forall x, In x l -> f x = false) -> filter f l = [].
Proof. induction l as [|x l IH]; intros H; auto. cbn [filter]. rewrite (H x (or_introl eq_refl)). apply IH. intros y Hy; apply H; right; auto. Qed.
Lemma dget_nils (Bs : list OS) s : In s Bs -> dget os_key (map (fun B => (B, @nil (nat * nat * GC))) Bs) s = Some [].
Proof.
  induction Bs as [|B Bs IH]; intros H; [destruct H|]. cbn [map dget]. destruct (os_key B s) eqn:K; auto. destruct H as [->|H]; auto.
  rewrite os_key_refl in K. discriminate.
Qed.

Lemma update_nil ud U UE X E : forall terms d, (forall t, In t terms -> dget os_key ud (snd t) = Some []) ->
  (forall t, In t terms -> old_data d (snd t) = []) ->
  exists d', rfold (update_data ud U UE X E) terms d = Ok d' /\ (forall s, dget os_key d s = Some [] -> dget os_key d' s = Some []) /\
    forall t, In t terms -> dget os_key d' (snd t) = Some [].
Proof.
  induction terms as [|t terms IH]; intros d Hu Ho; [exists d; split; [reflexivity|]; split; [auto | intros t []]|].
  cbn [rfold]. unfold update_data at 1. rewrite (Hu t (or_introl eq_refl)). cbn [of_option rbind rmap]. rewrite (Ho t (or_introl eq_refl)). cbn [app].
  destruct (IH (dset os_key d (snd t) [])) as (d' & E1 & E2 & E3).
  - intros u Hu'. apply Hu; right; auto.
  - intros u Hu'. unfold old_data. rewrite dget_dset. destruct (os_key _ _); auto. apply Ho. right; auto.
  - exists d'. split; auto. split.
    + intros s Hs. apply E2. rewrite dget_dset. destruct (os_key _ _); auto.
    + intros u [<-|Hu']; auto. apply E2. rewrite dget_dset, os_key_refl. reflexivity.
Qed.

Lemma second_operator ty H1 H2 b st allowed : ty <> Fermion -> std_op ty H1 -> std_op ty H2 -> std_basis ty b ->
  (forall s, In s (b_strings (o_basis H1)) -> ~ In s (b_strings (o_basis H2))) -> 
  forall L ext st1, explored ty H1 st -> (forall s, In s (b_strings (o_basis H2)) -> dget os_key (x_data st) s = None) -> explore b H1 st allowed = Ok (L, ext, st1) ->
  exists st2, explore b H2 st1 None = Ok (mkSM 0 (basis_len b) [], basis_empty, st2).
Proof.
  intros Hty HH1 HH2 Hb Hdis L ext st1 Hex Hnone E1. apply explore_inv in E1.
  destruct (explore_update_ok ty Hty H1 st b HH1 (explored_ok ty H1 Hty HH1 st Hex) Hb) as (st' & Eu & (HX & SX & HE & HD) & HbX & Hd & Hk).
  rewrite E1 in Eu. injection Eu as <-. unfold explore.
  destruct HH2 as [(Hm & HtH & HsH) HstdH]. destruct (made_terms H2 Hm) as [ET HbH].
  destruct Hb as [[Hb1 Hb2] Hb3]. apply built_iff in Hb1.
  assert (exists st2, explore_update b H2 st1 = Ok st2 /\ x_basis st2 = x_basis st1 /\ forall t, In t (op_terms H2) -> dget os_key (x_data st2) (snd t) = Some []) as (st2 & E2 & EX & Ed).
  { unfold explore_update. rewrite filter_none.
    2:{ intros s Hs. apply negb_false_iff. apply (mem_std _ s); auto. intros t Ht; apply SX; auto. }
    change (basis_new []) with (Ok basis_empty). cbn [rbind]. unfold structure_data. change (b_strings basis_empty) with (@nil OS).
    rewrite sc_outer_nil by apply HbH. cbn [rbind app].
    match goal with |- context [rfold (update_data ?ud ?U ?UE ?X ?E) ?terms ?d] => destruct (update_nil ud U UE X E terms d) as (d' & F1 & _ & F2) end.
    - intros t Ht. apply dget_nils. rewrite <- ET. apply in_map; auto.
    - intros t Ht. assert (Hs : In (snd t) (b_strings (o_basis H2))) by (rewrite <- ET; apply in_map; auto).
      unfold old_data. rewrite (Hk (snd t)), (Hnone (snd t) Hs); auto. intros u Hu K. apply (Hdis u Hu).
      apply std_key in K; [subst u; auto | apply HH1; auto | auto].
    - rewrite F1. cbn [rbind]. eexists. split; [reflexivity|]. cbn [x_basis x_data]. split; auto. }
  rewrite E2. cbn [rbind]. rewrite EX.
  assert (exists l, rmap (basis_index (x_basis st1)) (b_strings b) = Ok l) as (l & El).
  { clear - HbX HX. revert HbX. generalize (b_strings b). induction l as [|s l IH]; intros Hin; [exists []; reflexivity|].
    destruct (basis_index_in _ s HX (Hin s (or_introl eq_refl))) as (i & Ei & Ni). destruct (IH (fun t Ht => Hin t (or_intror Ht))) as (r & Er).
    exists (i :: r). cbn [rmap]. rewrite Ei. cbn [rbind]. rewrite Er. reflexivity. }
  rewrite El. cbn [rbind].
  assert (X1 : forall x acc terms, (forall t, In t terms -> dget os_key (x_data st2) (snd t) = Some []) -> rfold (extend_term None st2 x) terms acc = Ok acc).
  { intros x acc. induction terms as [|t terms IH]; intros Ht; auto. cbn [rfold]. unfold extend_term at 1. cbn [considered].
    rewrite (Ht t (or_introl eq_refl)). cbn [of_option rbind rfold]. apply IH. intros u Hu; apply Ht; right; auto. }
  rewrite X1 by auto. cbn [rbind].
  assert (X2 : forall x y acc terms, (forall t, In t terms -> dget os_key (x_data st2) (snd t) = Some []) -> rfold (matrix_term None st2 x y) terms acc = Ok acc).
  { intros x y acc. induction terms as [|t terms IH]; intros Ht; auto. cbn [rfold]. unfold matrix_term at 1. cbn [considered].
    rewrite (Ht t (or_introl eq_refl)). cbn [of_option rbind flat_map]. rewrite app_nil_r. apply IH. intros u Hu; apply Ht; right; auto. }
  rewrite X2 by auto. cbn [rbind]. exists st2. reflexivity.
Qed.

(* -------------------------------------------------------- truncation *)

Lemma sorted_rev {T} (R : T -> T -> Prop) l : StronglySorted R l -> StronglySorted (fun x y => R y x) (rev l).
Proof.
  induction 1 as [|x l Hs IH Hf]; cbn [rev]; [constructor|].
  assert (G : forall m, StronglySorted (fun x y => R y x) m -> Forall (fun y => R x y) m -> StronglySorted (fun x y => R y x) (m ++ [x])).
  { induction 1 as [|y m Hm IHm Hy]; intros Hx; cbn [app]; [repeat constructor|]. inversion Hx; subst. constructor; auto. apply Forall_app; split; auto. }
  apply G; auto. apply Forall_rev. auto.
Qed.
Lemma sorted_app {T} (R : T -> T -> Prop) l m : StronglySorted R (l ++ m) -> forall x y, In x l -> In y m -> R x y.
Proof.
  induction l as [|z l IH]; intros H x y Hx Hy; [destruct Hx|]. cbn [app] in H. inversion H as [|? ? H1 H2]; subst. destruct Hx as [->|Hx]; auto.
  rewrite Forall_forall in H2. apply H2. apply in_or_app; auto.
Qed.
Lemma sorted_of_nth {T} (R : T -> T -> Prop) l : (forall p q x y, p < q -> nth_error l p = Some x -> nth_error l q = Some y -> R x y) -> StronglySorted R l.
Proof.
  induction l as [|z l IH]; intros H; constructor.
  - apply IH. intros p q x y Hpq Hx Hy. apply (H (S p) (S q)); auto. lia.
  - apply Forall_forall. intros y Hy. apply In_nth_error in Hy. destruct Hy as (q & Hq). apply (H 0 (S q)); auto. lia.
Qed.
Lemma sorted_filter {T} (R : T -> T -> Prop) f l : StronglySorted R l -> StronglySorted R (filter f l).
Proof.
  induction 1 as [|x l Hs IH Hf]; cbn [filter]; [constructor|]. destruct (f x); auto. constructor; auto. rewrite Forall_forall in *. intros y Hy. apply filter_In in Hy. apply Hf, Hy.
Qed.

Lemma abs_gtb_large thr c : abs_gtb c thr = largeb thr c.
Proof.
  unfold abs_gtb, largeb. apply eq_true_iff_eq. rewrite qc_ltb_lt. destruct (Qclt_le_dec (thr * thr) (norm2 c)) as [H|H]; split; auto; try discriminate.
  intros F. exfalso. apply (Qclt_not_le _ _ F H).
Qed.
Lemma largeb_spec thr c : largeb thr c = true <-> large thr c.
Proof. unfold largeb, large. destruct (Qclt_le_dec _ _) as [H|H]; split; auto; try discriminate. intros F. exfalso. apply (Qclt_not_le _ _ F H). Qed.

Lemma perm_filter_length {T} (f : T -> bool) l m : Permutation l m -> length (filter f l) = length (filter f m).
Proof. induction 1; cbn [filter]; auto; repeat (match goal with |- context [f ?x] => destruct (f x) end); cbn [length]; auto; congruence. Qed.

Lemma truncate_inds_ok vec perm thr size : sorts vec perm -> exists inds, truncate_inds vec perm thr size = Ok inds /\ NoDup inds /\
  length inds = Nat.min size (length (filter (largeb thr) vec)) /\
  (forall i, In i inds -> exists c, nth_error vec i = Some c /\ large thr c) /\
  (forall i j c d, In i inds -> ~ In j inds -> nth_error vec i = Some c -> nth_error vec j = Some d -> large thr d -> (norm2 d <= norm2 c)%Qc).
Proof.
  intros [HP HS]. unfold truncate_inds.
  assert (Hb : forall i, In i (rev perm) -> i < length vec).
  { intros i Hi. apply in_rev in Hi. apply (Permutation_in _ HP) in Hi. apply in_seq in Hi. lia. }
  assert (Hr : forall l, (forall i, In i l -> i < length vec) ->
     rmap (fun i => let! c := of_option IndexError (nth_error vec i) in Ok (i, c)) l = Ok (map (fun i => (i, nth i vec g0)) l)).
  { induction l as [|i l IH]; intros H; auto. cbn [rmap map]. rewrite (nth_error_nth' vec g0 (H i (or_introl eq_refl))). cbn [of_option rbind].
    rewrite IH by (intros j Hj; apply H; right; auto). reflexivity. }
  rewrite (Hr _ Hb). cbn [rbind].
  assert (EF : map fst (filter (fun p => abs_gtb (snd p) thr) (map (fun i => (i, nth i vec g0)) (rev perm))) = filter (fun i => largeb thr (nth i vec g0)) (rev perm)).
  { generalize (rev perm). induction l as [|i l IH]; auto. cbn [map filter snd]. rewrite abs_gtb_large. destruct (largeb thr (nth i vec g0)); cbn [map fst]; rewrite IH; auto. }
  rewrite EF. set (K := filter (fun i => largeb thr (nth i vec g0)) (rev perm)).
  assert (NK : NoDup K).
  { apply NoDup_filter. apply NoDup_rev. apply (Permutation_NoDup (Permutation_sym HP)). apply seq_NoDup. }
  assert (LK : length K = length (filter (largeb thr) vec)).
  { unfold K. rewrite (perm_filter_length _ _ _ (Permutation_sym (Permutation_rev perm))), (perm_filter_length _ _ _ HP).
    clear. assert (G : forall l k, length (filter (fun i => largeb thr (nth (i - k) l g0)) (seq k (length l))) = length (filter (largeb thr) l)).
    { induction l as [|c l IH]; intros k; auto. cbn [length seq filter]. rewrite Nat.sub_diag. change (nth 0 (c :: l) g0) with c.
      assert (E : filter (fun i => largeb thr (nth (i - k) (c :: l) g0)) (seq (S k) (length l)) = filter (fun i => largeb thr (nth (i - S k) l g0)) (seq (S k) (length l))).
      { apply filter_ext_in. intros i Hi. apply in_seq in Hi. replace (i - k) with (S (i - S k)) by lia. reflexivity. }
      rewrite E. destruct (largeb thr c); cbn [length]; rewrite IH; auto. }
    rewrite <- (G vec 0). f_equal. apply filter_ext. intros i. rewrite Nat.sub_0_r. reflexivity. }
  assert (SK : StronglySorted (fun i j => (norm2 (nth j vec g0) <= norm2 (nth i vec g0))%Qc) K).
  { apply sorted_filter. apply (sorted_rev (fun i j => (norm2 (nth i vec g0) <= norm2 (nth j vec g0))%Qc)). apply sorted_of_nth. intros p q i j Hpq Hi Hj.
    assert (Li : i < length vec) by (apply Hb; rewrite <- in_rev; eapply nth_error_In; eauto). assert (Lj : j < length vec) by (apply Hb; rewrite <- in_rev; eapply nth_error_In; eauto).
    apply (HS p q i j); auto; apply nth_error_nth'; auto. }
  exists (firstn size K). split; [reflexivity|].
  assert (SP : K = firstn size K ++ skipn size K) by (symmetry; apply firstn_skipn).
  split; [|split; [|split] ].
  - rewrite SP in NK. clear - NK. revert NK. generalize (firstn size K) (skipn size K). induction l as [|x l IH]; intros m H; [constructor|]. cbn [app] in H. inversion H; subst. constructor; eauto.
    intros F. apply H2. apply in_or_app; auto.
  - rewrite firstn_length, LK. reflexivity.
  - intros i Hi. assert (Hk : In i K) by (rewrite SP; apply in_or_app; auto). apply filter_In in Hk. destruct Hk as [H1 H2].
    exists (nth i vec g0). split; [apply nth_error_nth'; auto | apply largeb_spec; auto].
  - intros i j c d Hi Hj Ec Ed Hd. assert (Hk : In j K).
    { apply filter_In. split.
      - apply in_rev. rewrite rev_involutive. apply (Permutation_in _ (Permutation_sym HP)). apply in_seq. split; [lia|]. apply nth_error_Some. congruence.
      - apply largeb_spec. rewrite (nth_error_nth _ _ g0 Ed). auto. }
    rewrite SP in Hk. apply in_app_or in Hk. destruct Hk as [Hk|Hk]; [tauto|]. rewrite SP in SK.
    pose proof (sorted_app _ _ _ SK i j Hi Hk) as G. cbn beta in G. rewrite (nth_error_nth _ _ g0 Ec), (nth_error_nth _ _ g0 Ed) in G. auto.
Qed.

Lemma rmap_nth {T} (l : list T) inds : (forall i, In i inds -> i < length l) -> exists r, rmap (fun i => of_option IndexError (nth_error l i)) inds = Ok r /\
  Forall2 (fun i x => nth_error l i = Some x) inds r.
Proof.
  induction inds as [|i inds IH]; intros H; [exists []; split; [reflexivity | constructor]|].
  destruct (nth_error l i) as [x|] eqn:E; [|exfalso; apply nth_error_None in E; specialize (H i (or_introl eq_refl)); lia].
  destruct IH as (r & Er & Fr); [intros j Hj; apply H; right; auto|]. exists (x :: r). cbn [rmap]. rewrite E. cbn [of_option rbind]. rewrite Er. split; [reflexivity | constructor; auto].
Qed.
Lemma forall2_distinct l inds r : distinct_keys l -> NoDup inds -> Forall2 (fun i x => nth_error l i = Some x) inds r -> distinct_keys r.
Proof.
  intros Hd Hn F. induction F as [|i x inds r E F IH]; [intros p q s t Ep; destruct p; discriminate|]. inversion Hn as [|? ? N1 N2]; subst.
  change (x :: r) with ([x] ++ r). apply distinct_app. split; [|split; auto].
  - intros p q s t Hp Hq K. destruct p as [|[|p]], q as [|[|q]]; auto; discriminate.
  - intros s t [<-|[] ] Ht K. apply N1. apply In_nth_error in Ht. destruct Ht as (k & Hk).
    assert (exists j, nth_error inds k = Some j /\ nth_error l j = Some t) as (j & Ej & Et).
    { clear - F Hk. revert k Hk. induction F as [|i y inds r E F IH]; intros [|k] Hk; try discriminate; [injection Hk as <-; exists i; auto | apply IH; auto]. }
    assert (i = j) as -> by (apply (Hd i j x t); auto). eapply nth_error_In; eauto.
Qed.
Lemma forall2_in {T U} (R : T -> U -> Prop) l m : Forall2 R l m -> forall y, In y m -> exists x, In x l /\ R x y.
Proof. induction 1 as [|x y l m H F IH]; intros z Hz; [destruct Hz|]. destruct Hz as [->|Hz]; [exists x; split; [left|]; auto|]. destruct (IH z Hz) as (w & Hw & Rw). exists w. split; [right|]; auto. Qed.
Lemma forall2_in_l {T U} (R : T -> U -> Prop) l m : Forall2 R l m -> forall x, In x l -> exists y, In y m /\ R x y.
Proof. induction 1 as [|x y l m H F IH]; intros z Hz; [destruct Hz|]. destruct Hz as [->|Hz]; [exists y; split; [left|]; auto|]. destruct (IH z Hz) as (w & Hw & Rw). exists w. split; [right|]; auto. Qed.
Lemma forall2_len {T U} (R : T -> U -> Prop) l m : Forall2 R l m -> length l = length m.
Proof. induction 1; cbn; auto. Qed.

Lemma truncate_basis_ok b vec perm thr size : built b -> length vec = basis_len b -> sorts vec perm ->
  exists r inds, truncate_basis b vec perm thr size = Ok r /\ built r /\ NoDup inds /\
    Forall2 (fun i s => nth_error (b_strings b) i = Some s) inds (b_strings r) /\
    length inds = Nat.min size (length (filter (largeb thr) vec)) /\
    (forall i, In i inds -> exists c, nth_error vec i = Some c /\ large thr c) /\
    (forall i j c d, In i inds -> ~ In j inds -> nth_error vec i = Some c -> nth_error vec j = Some d -> large thr d -> (norm2 d <= norm2 c)%Qc).
Proof.
  intros Hb Hl Hs. apply built_iff in Hb. destruct (truncate_inds_ok vec perm thr size Hs) as (inds & Ei & Ni & Li & Hi & Hj).
  unfold truncate_basis. rewrite Ei. cbn [rbind].
  destruct (rmap_nth (b_strings b) inds) as (l & El & Fl).
  { intros i H. destruct (Hi i H) as (c & Hc & _). fold (basis_len b). rewrite <- Hl. apply nth_error_Some. congruence. }
  rewrite El. cbn [rbind]. destruct (proj1 (basis_new_spec l)) as (r & Er & Sr & Or); [eapply forall2_distinct; eauto; apply Hb|].
  exists r, inds. rewrite Sr. split; auto. split; [apply built_iff; auto|]. auto 6.
Qed.

Lemma nth_distinct_index b i s : basis_ok b -> nth_error (b_strings b) i = Some s -> basis_index b s = Ok i.
Proof. intros Hb H. apply (basis_ok_index b s i Hb). exists s. split; auto. apply same_key_refl. Qed.

Lemma truncate_operator_ok o perm thr size : made o -> sorts (o_coeffs o) perm ->
  (size <> 0 -> (exists c, In c (o_coeffs o) /\ large thr c) -> exists r, truncate_operator o perm thr size = Ok r /\ made r /\
    op_len r = Nat.min size (length (filter (largeb thr) (o_coeffs o))) /\
    (forall c s, In (c, s) (op_terms r) -> In (c, s) (op_terms o) /\ large thr c) /\
    (forall c s d t, In (c, s) (op_terms r) -> In (d, t) (op_terms o) -> ~ In (d, t) (op_terms r) -> large thr d -> (norm2 d <= norm2 c)%Qc)) /\
  (size = 0 \/ (forall c, In c (o_coeffs o) -> ~ large thr c) -> truncate_operator o perm thr size = Err ValueError).
Proof.
  intros Hm Hs. pose proof (proj1 (made_ok o) Hm) as Ho. destruct (made_terms o Hm) as [ET Hbo].
  assert (Hl : length (o_coeffs o) = basis_len (o_basis o)).
  { destruct Hm as (cs & l & y & Hl & E). apply op_new_inv in E; auto. destruct E as (_ & -> & E). unfold basis_len. congruence. }
  destruct (truncate_basis_ok (o_basis o) (o_coeffs o) perm thr size (proj2 (built_iff _) Hbo) Hl Hs) as (b & inds & Eb & Hb & Ni & Fi & Li & H1 & H2).
  unfold truncate_operator. rewrite Eb. cbn [rbind].
  assert (Hc : exists cs, rmap (fun s => let! i := basis_index (o_basis o) s in of_option IndexError (nth_error (o_coeffs o) i)) (b_strings b) = Ok cs /\
     Forall2 (fun i c => nth_error (o_coeffs o) i = Some c) inds cs).
  { clear H2 Li Ni. revert H1. induction Fi as [|i s inds l Hi F IH]; intros H1; [exists []; split; [reflexivity | constructor]|].
    destruct IH as (cs & Ec & Fc); [intros j Hj; apply H1; right; auto|]. destruct (H1 i (or_introl eq_refl)) as (c & Hc & _).
    exists (c :: cs). cbn [rmap]. rewrite (nth_distinct_index _ _ _ Hbo Hi). cbn [rbind]. rewrite Hc. cbn [of_option rbind]. rewrite Ec. split; [reflexivity | constructor; auto]. }
  destruct Hc as (cs & Ec & Fc). rewrite Ec. cbn [rbind].
  assert (Lc : length cs = length (b_strings b)) by (rewrite <- (forall2_len _ _ _ Fc), <- (forall2_len _ _ _ Fi); reflexivity).
  assert (Lb : length (b_strings b) = Nat.min size (length (filter (largeb thr) (o_coeffs o)))) by (rewrite <- Li; symmetry; apply (forall2_len _ _ _ Fi)).
  apply built_iff in Hb. destruct (proj1 (basis_new_spec (b_strings b)) (proj1 Hb)) as (b' & Eb' & Sb' & Ob').
  split.
  - intros Hsz (c0 & Hc0 & Hl0).
    assert (NE : b_strings b <> []).
    { intros E. rewrite E in Lb. cbn [length] in Lb. assert (In c0 (filter (largeb thr) (o_coeffs o))) by (apply filter_In; split; auto; apply largeb_spec; auto).
      destruct (filter (largeb thr) (o_coeffs o)); [destruct H | cbn [length] in Lb; lia]. }
    destruct (op_new_ok cs (b_strings b) None (proj1 Hb) Lc (or_introl NE)) as (r & Er & Or & Rc & Rs & _). exists r. split; auto. split; [apply made_ok; auto|].
    assert (T : forall c s, In (c, s) (op_terms r) <-> exists i, In i inds /\ nth_error (o_coeffs o) i = Some c /\ nth_error (b_strings (o_basis o)) i = Some s).
    { intros c s. unfold op_terms. rewrite Rc, Rs. clear - Fi Fc. revert cs Fc. induction Fi as [|i x inds l Hi F IH]; intros cs Fc.
      - split; [destruct cs; intros [] | intros (i & [] & _)].
      - inversion Fc as [|? c' ? cs' Hc Fc']; subst. cbn [combine In]. rewrite (IH cs' Fc'). split.
        + intros [E|(j & Hj & E)]; [injection E as -> ->; exists i; split; [left|]; auto | exists j; split; [right|]; auto].
        + intros (j & [<-|Hj] & E1 & E2); [left; congruence | right; eauto]. }
    assert (TO : forall i c s, nth_error (o_coeffs o) i = Some c -> nth_error (b_strings (o_basis o)) i = Some s -> In (c, s) (op_terms o)).
    { intros i c s A1 A2. eapply nth_error_In. apply combine_nth_error; eauto. }
    split; [unfold op_len, basis_len; rewrite Rs; auto|]. split.
    + intros c s Hin. apply T in Hin. destruct Hin as (i & Hi & A1 & A2). split; eauto. destruct (H1 i Hi) as (c' & Hc' & Hlc). congruence.
    + intros c s d t Hin Ho' Hn Hd. apply T in Hin. destruct Hin as (i & Hi & A1 & A2). unfold op_terms in Ho'. apply In_nth_error in Ho'. destruct Ho' as (j & Hj).
      assert (nth_error (o_coeffs o) j = Some d /\ nth_error (b_strings (o_basis o)) j = Some t) as [B1 B2].
      { clear - Hj. revert j Hj. generalize (o_coeffs o) (b_strings (o_basis o)). induction l as [|x l IH]; intros m j Hj; [destruct j; discriminate|].
        destruct m as [|y m]; [destruct j; discriminate|]. destruct j as [|j]; cbn in *; [injection Hj as -> ->; auto | eauto]. }
      apply (H2 i j); auto. intros F. apply Hn. apply T. exists j. auto.
  - intros Hz. assert (NE : b_strings b = []).
    { apply length_zero_iff_nil. rewrite Lb. destruct Hz as [->|Hz]; [reflexivity|]. replace (filter (largeb thr) (o_coeffs o)) with (@nil GC); [apply Nat.min_0_r|].
      symmetry. apply filter_none. intros c Hc. destruct (largeb thr c) eqn:E; auto. exfalso. apply largeb_spec in E. apply (Hz c Hc E). }
    rewrite NE. destruct cs; [|rewrite NE in Lc; discriminate]. reflexivity.
Qed.

Lemma greedy_coeffs b vec perm thr size r o : greedy_truncate b vec perm thr size = Ok (r, o) ->
  truncate_basis b vec perm thr size = Ok r /\ o_coeffs o = firstn (basis_len r) vec.
Proof.
  unfold greedy_truncate. destruct (truncate_basis b vec perm thr size) as [b'|] eqn:Eb; [|discriminate]. cbn [rbind]. intros E.
  destruct (rmap _ (b_strings b')) as [cs|] eqn:Ec; [|discriminate]. cbn [rbind] in E. destruct (op_new cs (b_strings b') None) as [o'|] eqn:Eo; [|discriminate].
  cbn [rbind] in E. injection E as -> ->. split; auto.
  assert (Hb : basis_ok r).
  { unfold truncate_basis in Eb. destruct (truncate_inds _ _ _ _); [|discriminate]. cbn [rbind] in Eb. destruct (rmap _ l); [|discriminate]. cbn [rbind] in Eb.
    apply basis_new_ok in Eb. apply Eb. }
  assert (Co : o_coeffs o = cs).
  { unfold op_new in Eo. destruct (basis_new _) as [x|]; [|discriminate]. cbn [rbind] in Eo. unfold op_of_basis in Eo. destruct (b_strings x); [discriminate|]. injection Eo as <-. reflexivity. }
  rewrite Co. clear Co Eo Eb. apply rmap_ok in Ec. unfold basis_len.
  assert (G : forall l k ds, (forall p s, nth_error l p = Some s -> nth_error (b_strings r) (k + p) = Some s) ->
    Forall2 (fun s c => (let! i := basis_index r s in of_option IndexError (nth_error vec i)) = Ok c) l ds -> ds = firstn (length l) (skipn k vec)).
  { induction l as [|s l IH]; intros k ds Hl F; inversion F as [|? c ? ds' Hc F']; subst; [reflexivity|].
    rewrite (nth_distinct_index r k s Hb) in Hc by (rewrite <- (Nat.add_0_r k); apply Hl; reflexivity). cbn [rbind] in Hc.
    destruct (nth_error vec k) as [c'|] eqn:Ek; [|discriminate]. cbn [of_option] in Hc. injection Hc as ->.
    rewrite (IH (S k) ds'); auto.
    - cbn [length]. clear - Ek. revert vec Ek. induction k as [|k IH]; intros [|v vec] Ek; try discriminate; cbn in *; [injection Ek as ->; reflexivity | apply IH; auto].
    - intros p t Ht. replace (S k + p)%nat with (k + S p)%nat by lia. apply Hl. exact Ht. }
  apply (G (b_strings r) 0); auto.
Qed.
