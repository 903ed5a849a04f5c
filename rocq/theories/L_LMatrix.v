(** Lemmas for [_l_matrix] and [_com_matrix]. *)
From Coq Require Import List ZArith Bool Arith Lia.
From Verif Require Import GC Exn S_Alg S_Den S_Basis S_OpAlg M_OpString M_Algebra M_Basis M_OpAlg M_LMatrix S_LMatrix
  L_Alg L_Operator L_OpAlg L_Sum L_Struct L_Commutant.
Import ListNotations.
Local Open Scope nat_scope.
Local Open Scope alg_scope.

Definition in_range (strs U : list OS) (ts : list (nat * nat * GC)) : Prop :=
  forall t, In t ts -> fst (fst t) < length U /\ snd (fst t) < length strs.

Lemma fits_zip strs U e : entry_fits strs U e -> in_range strs U (sc_zip e).
Proof.
  destruct e as [[rs cs] ds]. intros (_ & _ & Hr & Hc) [[r c] d] Ht. unfold sc_zip in Ht. cbn in *.
  apply in_combine_l in Ht. split; [apply Hr; eapply in_combine_l; eauto | apply Hc; eapply in_combine_r; eauto].
Qed.

Lemma zip_sum {A : StarAlg} (f : nat -> nat -> GC -> A) : forall rs cs ds, length rs = length cs -> length cs = length ds ->
  asum (map (fun t => f (fst (fst t)) (snd (fst t)) (snd t)) (sc_zip (rs, cs, ds))) ==
  asum (map (fun k => f (nth k rs 0) (nth k cs 0) (nth k ds g0)) (seq 0 (length ds))).
Proof.
  induction rs as [|r rs IH]; intros [|c cs] [|d ds]; cbn [length]; intros H1 H2; try discriminate; [reflexivity|].
  cbn. apply aadd_proper; [reflexivity|]. rewrite <- seq_shift, map_map. apply IH; lia.
Qed.

Lemma right_zip {A : StarAlg} (g : op -> Z -> A) strs U t e a s : entry_fits strs U e -> entry_right g strs U t e ->
  nth_error strs a = Some s -> exact MCommutator (den g s) (den g t) == colsum g U a (sc_zip e).
Proof.
  destruct e as [[rs cs] ds]. intros (H1 & H2 & _) HR Hs. rewrite (HR a s Hs). symmetry.
  unfold colsum, den_at. apply (zip_sum (fun r c d => if Nat.eqb c a then d · match nth_error U r with Some u => den g u | None => azero end else azero)); auto.
Qed.

(** The loop of [_l_matrix]. *)
Lemma l_loop (sc : sc_dict) strs U : forall ts acc,
  (forall t, In t ts -> exists e, dget os_key sc (snd t) = Some e /\ entry_fits strs U e) -> in_range strs U acc ->
  exists rs, rfold (fun acc t => let! e := of_option KeyError (dget os_key sc (snd t)) in
      Ok (acc ++ map (fun x => (fst x, gmul (fst t) (snd x))) (sc_zip e))) ts acc = Ok rs /\ in_range strs U rs /\
    forall (A : StarAlg) (g : op -> Z -> A), (forall t e, In t ts -> dget os_key sc (snd t) = Some e -> entry_right g strs U (snd t) e) ->
      forall a s, nth_error strs a = Some s -> colsum g U a rs == colsum g U a acc + exact MCommutator (den g s) (lincomb g ts).
Proof.
  induction ts as [|[z t] ts IH]; intros acc Hs Ha.
  - exists acc. split; [reflexivity|]. split; auto. intros A g _ a s _.
    transitivity (colsum g U a acc + azero); [symmetry; apply aadd_0_r|]. apply aadd_proper; [reflexivity|].
    symmetry. apply exact_0_r.
  - destruct (Hs (z, t) (or_introl eq_refl)) as (e & Ee & Fe). cbn [snd] in Ee.
    destruct (IH (acc ++ map (fun x => (fst x, gmul z (snd x))) (sc_zip e))) as (rs & E & R & D).
    + intros; apply Hs; simpl; auto.
    + intros x Hx. apply in_app_or in Hx. destruct Hx as [Hx|Hx]; [auto|]. apply in_map_iff in Hx. destruct Hx as (y & <- & Hy).
      cbn. apply (fits_zip _ _ _ Fe); auto.
    + exists rs. split; [cbn [rfold fst snd]; rewrite Ee; exact E|]. split; auto. intros A g HR a s Ha'.
      rewrite (D A g) by (eauto; intros; eapply HR; simpl; eauto).
      rewrite colsum_app, colsum_scale, lincomb_cons, exact_add_r, exact_scal_r, <- aadd_assoc.
      apply aadd_proper; [reflexivity|]. apply aadd_proper; [|reflexivity]. rewrite <- (right_zip g strs U t e a s); auto; [reflexivity|].
      apply (HR (z, t)); simpl; auto.
Qed.
Lemma l_loop_err (sc : sc_dict) : forall ts acc, (exists t, In t ts /\ dget os_key sc (snd t) = None) ->
  rfold (fun acc t => let! e := of_option KeyError (dget os_key sc (snd t)) in
      Ok (acc ++ map (fun x => (fst x, gmul (fst t) (snd x))) (sc_zip e))) ts acc = Err KeyError.
Proof.
  induction ts as [|t ts IH]; intros acc (x & Hx & E); [contradiction|]. cbn [rfold].
  destruct (dget os_key sc (snd t)) as [e|] eqn:Et; [|reflexivity]. cbn [of_option rbind].
  apply IH. exists x. split; auto. destruct Hx as [->|]; [congruence | auto].
Qed.

Lemma list_max_in x l : In x l -> x <= list_max l.
Proof. intros H. pose proof (proj1 (list_max_le l (list_max l)) (le_n _)) as F. rewrite Forall_forall in F. auto. Qed.
Lemma list_max_lt l n : l <> [] -> (forall x, In x l -> x < n) -> list_max l < n.
Proof. intros H F. apply list_max_lt; auto. apply Forall_forall; auto. Qed.

Lemma combine_firstn_r {X Y} (l : list X) : forall m : list Y, combine l (firstn (length l) m) = combine l m.
Proof. induction l as [|x l IH]; intros [|y m]; cbn; auto. f_equal; auto. Qed.

(** [column_colsum] for a matrix with fewer rows than strings. *)
Lemma column_short {A : StarAlg} (g : op -> Z -> A) rows cols ts j Cs : rows <= length Cs -> (forall t, In t ts -> fst (fst t) < rows) ->
  lincomb g (combine (column (mkSM rows cols ts) j) Cs) == colsum g Cs j ts.
Proof.
  intros Hl H. assert (E : length (column (mkSM rows cols ts) j) = rows) by (unfold column; rewrite map_length, seq_length; reflexivity).
  rewrite <- (combine_firstn_r (column _ j) Cs), E.
  assert (F : length (firstn rows Cs) = rows) by (apply firstn_length_le; auto).
  rewrite column_colsum by auto. rewrite <- (firstn_skipn rows Cs) at 2. symmetry. apply colsum_extend. rewrite F. auto.
Qed.

Definition inside (L : smat) : Prop := forall e, In e (sm_trip L) -> fst (fst e) < sm_rows L /\ snd (fst e) < sm_cols L.
Lemma infer_inside ts L : sm_infer ts = Ok L -> sm_trip L = ts /\ inside L.
Proof.
  unfold sm_infer. destruct ts as [|t ts]; [discriminate|]. intros E. injection E as <-. split; [reflexivity|].
  intros e He. change (In e (t :: ts)) in He. split; unfold sm_rows, sm_cols, lt; apply le_n_S; [apply (list_max_in (fst (fst e)) (map (fun t => fst (fst t)) (t :: ts))), (in_map (fun t => fst (fst t))) | apply (list_max_in (snd (fst e)) (map (fun t => snd (fst t)) (t :: ts))), (in_map (fun t => snd (fst t)))]; auto.
Qed.
Lemma infer_le strs U ts L : in_range strs U ts -> sm_infer ts = Ok L -> sm_rows L <= length U /\ sm_cols L <= length strs.
Proof.
  intros H. unfold sm_infer. destruct ts as [|t ts]; [discriminate|]. intros E. injection E as <-. unfold sm_rows, sm_cols.
  split; [apply (list_max_lt (map (fun t => fst (fst t)) (t :: ts))) | apply (list_max_lt (map (fun t => snd (fst t)) (t :: ts)))]; try discriminate; intros x Hx; apply in_map_iff in Hx; destruct Hx as (y & <- & Hy); apply H; auto.
Qed.

Lemma l_matrix_ok (sc : sc_dict) o strs U : sc_fits strs U sc o ->
  (exists L, l_matrix sc o = Ok L /\ inside L /\ sm_rows L <= length U /\ sm_cols L <= length strs /\
     forall (A : StarAlg) (g : op -> Z -> A), sc_right g strs U sc o -> columns_are g strs U o L) \/
  (l_matrix sc o = Err ValueError /\
     forall (A : StarAlg) (g : op -> Z -> A), sc_right g strs U sc o -> forall s, In s strs -> exact MCommutator (den g s) (lincomb g (op_terms o)) == azero).
Proof.
  intros HF. destruct (l_loop sc strs U (op_terms o) [] HF ltac:(intros t [])) as (rs & E & R & D).
  unfold l_matrix. rewrite E. cbn [rbind]. destruct (sm_infer rs) as [L|x] eqn:EL.
  - left. exists L. split; [reflexivity|]. destruct (infer_inside _ _ EL) as [Et Hi]. split; auto.
    destruct (infer_le strs U rs L R EL) as [H1 H2]. split; auto. split; auto. intros A g HR a s Hs.
    assert (K : exact MCommutator (den g s) (lincomb g (op_terms o)) == colsum g U a rs).
    { rewrite (D A g HR a s Hs). symmetry. apply aadd_0_l. }
    destruct L as [nr nc ts]. cbn [sm_trip sm_rows sm_cols] in *. subst ts. split.
    + rewrite K. symmetry. apply column_short; auto. intros t Ht. apply (Hi t Ht).
    + intros Hc. rewrite K. apply colsum_none. intros t Ht. destruct (Hi t Ht) as [_ Q]. cbn in Q. lia.
  - right. destruct rs; [|discriminate]. injection EL as <-. split; [reflexivity|]. intros A g HR s Hs.
    apply In_nth_error in Hs. destruct Hs as (a & Ha). pose proof (D A g HR a s Ha) as K. unfold colsum in K. cbn [map asum fold_right] in K.
    rewrite aadd_0_l in K. symmetry. exact K.
Qed.

(** The entries of L^dagger L. *)
Lemma adj_dot_entries L : inside L -> exists D, sm_dot (sm_adj L) L = Ok D /\ sm_rows D = sm_cols L /\ sm_cols D = sm_cols L /\
  forall i j, sm_entry D i j = fold_right gadd g0 (map (fun k => gmul (gconj (sm_entry L k i)) (sm_entry L k j)) (seq 0 (sm_rows L))).
Proof.
  intros HI. unfold sm_dot. cbn [sm_adj sm_rows sm_cols sm_trip]. rewrite Nat.eqb_refl. eexists. split; [reflexivity|].
  split; [reflexivity|]. split; [reflexivity|]. intros i j.
  change (entry (flat_map (fun t => flat_map (fun u => if Nat.eqb (snd (fst t)) (fst (fst u))
           then [(fst (fst t), snd (fst u), gmul (snd t) (snd u))] else []) (sm_trip L)) (map (fun t => (snd (fst t), fst (fst t), gconj (snd t))) (sm_trip L))) i j =
    sg (sm_rows L) (fun k => gmul (gconj (entry (sm_trip L) k i)) (entry (sm_trip L) k j))).
  rewrite (entry_dot (sm_rows L)).
  - apply sg_ext. intros k _. rewrite entry_adj. reflexivity.
  - intros t Ht. apply in_map_iff in Ht. destruct Ht as (e & <- & He). cbn. apply HI; auto.
Qed.

(* ------------------------------------------------------------ kernel *)

Lemma lincomb_vat {A : StarAlg} (g : op -> Z -> A) : forall v strs, length v <= length strs ->
  lincomb g (combine v strs) == asum (map (fun j => vat v j · den_at g strs j) (seq 0 (length v))).
Proof.
  induction v as [|z v IH]; intros [|s strs] H; cbn [length] in H; try lia; [reflexivity | reflexivity |].
  cbn [combine length seq map]. rewrite lincomb_cons, IH by lia. rewrite <- seq_shift, map_map. reflexivity.
Qed.
Lemma lincomb_pad {A : StarAlg} (g : op -> Z -> A) n : forall v U, lincomb g (combine (v ++ zeros n) U) == lincomb g (combine v U).
Proof.
  induction v as [|z v IH]; intros U.
  - cbn [app]. revert U. induction n as [|n IH]; intros [|u U]; try reflexivity. unfold zeros in *. cbn [repeat combine].
    rewrite lincomb_cons, ascal_0, aadd_0_l. exact (IH U).
  - destruct U as [|u U]; [reflexivity|]. cbn [app combine]. rewrite !lincomb_cons, IH. reflexivity.
Qed.
Lemma canonical_zero_le ty {A : StarAlg} (g : op -> Z -> A) C cs : rep ty g -> ~ (@aone A == azero) ->
  canonical_basis ty C -> length cs <= basis_len C ->
  (lincomb g (combine cs (b_strings C)) == azero <-> cs = zeros (length cs)).
Proof.
  intros Hr Hn HC Hl. rewrite <- (lincomb_pad g (basis_len C - length cs)).
  assert (E : length (cs ++ zeros (basis_len C - length cs)) = basis_len C) by (unfold zeros; rewrite app_length, repeat_length; lia).
  rewrite (canonical_zero ty g C _ Hr Hn HC E).
  replace (zeros (basis_len C)) with (zeros (length cs) ++ zeros (basis_len C - length cs)) by (unfold zeros; rewrite <- repeat_app; f_equal; lia).
  split; [intros H; apply app_inv_tail in H; exact H | intros H; rewrite <- H; reflexivity].
Qed.

(** The kernel of L^dagger L for a matrix with fewer rows and columns than strings. *)
Lemma kernel_short ty {A : StarAlg} (g : op -> Z -> A) strs C o L D v : rep ty g -> ~ (@aone A == azero) -> canonical_basis ty C ->
  inside L -> sm_rows L <= basis_len C -> sm_cols L <= length strs -> columns_are g strs (b_strings C) o L ->
  sm_dot (sm_adj L) L = Ok D -> length v = sm_cols L ->
  (matvec D v = repeat g0 (sm_cols L) <-> exact MCommutator (lincomb g (combine v strs)) (lincomb g (op_terms o)) == azero).
Proof.
  intros Hr Hn HC HI H1 H2 HK HD Hv. destruct (gram_kernel L D v HI HD Hv) as (E1 & _ & K). unfold zeros in K at 1. rewrite E1 in K. rewrite K. clear K.
  rewrite (lincomb_vat g v strs) by lia. rewrite Hv.
  assert (F : length (firstn (sm_rows L) (b_strings C)) = sm_rows L) by (apply firstn_length_le; exact H1).
  rewrite <- (matvec_meaning g MCommutator L (firstn (sm_rows L) (b_strings C)) v (den_at g strs) (lincomb g (op_terms o))); auto.
  - rewrite <- (matvec_length L v) at 2. rewrite combine_firstn_r.
    rewrite (canonical_zero_le ty g C (matvec L v)) by (auto; rewrite matvec_length; auto). rewrite matvec_length. reflexivity.
  - intros j Hj. unfold den_at. destruct (nth_error strs j) as [s|] eqn:Es; [|apply nth_error_None in Es; lia].
    destruct (HK j s Es) as [-> _]. assert (G : length (column L j) = sm_rows L) by (unfold column; rewrite map_length, seq_length; auto).
    rewrite <- G, combine_firstn_r. reflexivity.
Qed.
