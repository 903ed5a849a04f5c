(** to_matrix and to_vector: theorems. *)
From Coq Require Import List Arith Lia ZArith NArith Bool Permutation Ring Sorted Setoid QArith Qcanon.
From Verif Require Import GC Exn S_Alg S_Den S_Basis S_Built M_OpString M_Algebra M_Basis M_OpAlg S_Fock S_Transform L_Alg L_Fock L_Sum L_StrAlg L_StrOp L_PropStr L_PropBasis L_Operator L_Trans1 M_Diag S_Diag L_Diag1 L_Diag2.
Import ListNotations.
Local Open Scope nat_scope.

Theorem matrix_string n s : string_ok Pauli s -> labels_in n s -> exists M, to_matrix (MString s) n = Ok M /\ m_orbitals M = n /\
  mat_eq n (entry M) (string_matrix n s) /\ mat_eq n (adjoint (entry M)) (entry M).
Proof.
  intros Hs Hl. destruct (string_entries n s (in_spins_of n s Hs Hl)) as (M & E & En & H). exists M. split; auto. split; auto. split; auto.
  intros r c Hr Hc. unfold adjoint. rewrite (H c r Hc Hr), (H r c Hr Hc). apply string_hermitian.
Qed.
Lemma canonical_ok s : Pauli <> Fermion -> os_new (os_ops s) (os_labels s) Pauli = Ok s -> StronglySorted Z.lt (os_labels s) -> length (os_ops s) = length (os_labels s) ->
  (forall o, In o (os_ops s) -> is_op_of Pauli o = true) -> string_ok Pauli s.
Proof.
  intros _ H1 H2 H3 H4. assert (ND : NoDup (os_labels s)).
  { clear - H2. induction H2 as [|x l Hl IH F]; constructor; auto. intros Hin. rewrite Forall_forall in F. specialize (F x Hin). lia. }
  destruct (os_new_ok Pauli (os_ops s) (os_labels s) ltac:(discriminate) H3 H4 ND) as (t & E & Ht & _). rewrite H1 in E. injection E as <-. exact Ht.
Qed.
Theorem matrix_product n s t : string_ok Pauli s -> string_ok Pauli t -> labels_in n s -> labels_in n t ->
  exists k u S T U, product s t = Ok (k, Some u) /\ to_matrix (MString s) n = Ok S /\ to_matrix (MString t) n = Ok T /\ to_matrix (MString u) n = Ok U /\
    mat_eq n (mat_mul n (entry S) (entry T)) (fun r c => gmul k (entry U r c)).
Proof.
  intros Hs Ht Ls Lt. destruct (product_proof Pauli s t ltac:(discriminate) Hs Ht) as (k & u & Ep & D).
  destruct (wf_proof Pauli s t ltac:(discriminate) Hs Ht MProduct) as [E|(k' & u' & E & E1 & E2 & E3 & E4 & E5 & _)].
  { change (operation_opstring MProduct s t) with (product s t) in E. rewrite Ep in E. discriminate. }
  change (operation_opstring MProduct s t) with (product s t) in E. rewrite Ep in E. injection E as <- <-.
  assert (Hu : string_ok Pauli u) by (apply canonical_ok; auto; discriminate).
  assert (Lu : labels_in n u) by (intros l Hl; destruct (E5 l Hl); auto).
  destruct (matrix_string n s Hs Ls) as (S & ES & _ & HS & _). destruct (matrix_string n t Ht Lt) as (T & ET & _ & HT & _). destruct (matrix_string n u Hu Lu) as (U & EU & _ & HU & _).
  exists k, u, S, T, U. do 4 (split; auto). intros r c Hr Hc. rewrite (HU r c Hr Hc).
  rewrite <- (product_matrix n s t k u) by (auto using in_spins_of). unfold mat_mul. apply sum_confs_ext. intros m Hm. rewrite HS, HT; auto.
Qed.

Lemma on_spins_terms n o : on_spins n o -> forall t, In t (op_terms o) -> in_spins n (snd t).
Proof.
  intros [H1 H2] t Ht. assert (In (snd t) (b_strings (o_basis o))) as Hin by (destruct t; apply in_combine_r in Ht; auto).
  destruct (H2 _ Hin) as (A & _ & C). apply in_spins_of; auto.
Qed.
Lemma lincomb_entry n ts r c : (forall t, In t ts -> in_spins n (snd t)) -> configuration n r -> configuration n c ->
  fo (lincomb (gn n) ts : Fock) (delta c) r = terms_matrix n ts r c.
Proof.
  intros H Hr Hc. induction ts as [|[k s] ts IH]; [reflexivity|].
  change (gadd (gmul k (fo (den (gn n) s : Fock) (delta c) r)) (fo (lincomb (gn n) ts : Fock) (delta c) r) = terms_matrix n ((k, s) :: ts) r c).
  rewrite IH by (intros; apply H; right; auto). rewrite fock_entry by (auto; apply (H (k, s)); left; auto). reflexivity.
Qed.
Theorem matrix_operator n o : on_spins n o -> exists M, to_matrix (MOperator o) n = Ok M /\ m_orbitals M = n /\
  mat_eq n (entry M) (fun r c => gsum (map (fun t => gmul (fst t) (string_matrix n (snd t) r c)) (op_terms o))).
Proof. intros H. apply operator_entries. apply on_spins_terms; auto. Qed.
Theorem matrix_add n o p r : on_spins n o -> on_spins n p -> op_add o p = Ok r ->
  exists O P R, to_matrix (MOperator o) n = Ok O /\ to_matrix (MOperator p) n = Ok P /\ to_matrix (MOperator r) n = Ok R /\
    mat_eq n (entry R) (fun x y => gadd (entry O x y) (entry P x y)).
Proof.
  intros Ho Hp Er. pose proof Ho as [Mo So]. pose proof Hp as [Mp Sp].
  assert (Et : o_type o = o_type p) by (unfold op_add in Er; destruct (optype_eqb (o_type o) (o_type p)) eqn:E; [apply optype_eqb_eq in E; auto | discriminate]).
  destruct (add_proof o p Mo Mp) as [_ A]. destruct (A Et) as (r' & q & E1 & _ & _ & _ & Mr & _ & _ & _ & An & _). rewrite Er in E1. injection E1 as <-.
  assert (Hr : on_spins n r).
  { split; auto. intros s Hs. assert (X : In s (b_strings (o_basis o)) \/ In s (b_strings (o_basis p))).
    { clear - An Hs. induction An as [l|l s' m r' Hk An IH|l s' m r' Hk An IH]; auto.
      - destruct (IH Hs); auto. right; right; auto.
      - destruct (IH Hs) as [H|H]; [|right; right; auto]. apply in_app_or in H. destruct H as [H|[->|[]]]; auto. right; left; auto. }
    destruct X; auto. }
  destruct (matrix_operator n o Ho) as (O & EO & _ & HO). destruct (matrix_operator n p Hp) as (P & EP & _ & HP). destruct (matrix_operator n r Hr) as (R & ER & _ & HR).
  exists O, P, R. do 3 (split; auto). intros x y Hx Hy. rewrite HO, HP, HR by auto.
  pose proof (add_den_proof Pauli o p r (gn n) Mo Mp Er ltac:(intros s Hs; apply in_app_or in Hs; destruct Hs as [Hs|Hs]; [apply (So s Hs) | apply (Sp s Hs)]) (gn_rep n)) as [D _].
  specialize (D (delta y) x). change (fo (lincomb (gn n) (op_terms r) : Fock) (delta y) x = gadd (fo (lincomb (gn n) (op_terms o) : Fock) (delta y) x) (fo (lincomb (gn n) (op_terms p) : Fock) (delta y) x)) in D.
  rewrite !lincomb_entry in D by (auto; apply on_spins_terms; auto). exact D.
Qed.
Theorem matrix_scale n z o r : on_spins n o -> op_scale z o = Ok r ->
  exists O R, to_matrix (MOperator o) n = Ok O /\ to_matrix (MOperator r) n = Ok R /\ mat_eq n (entry R) (fun x y => gmul z (entry O x y)).
Proof.
  intros Ho Er. pose proof Ho as [Mo So]. destruct (op_scale_ok z o (proj1 (made_ok o) Mo)) as (r' & E & Okr & Tr & Br & Cr & _). rewrite Er in E. injection E as <-.
  assert (Hr : on_spins n r) by (split; [apply made_ok; auto | rewrite Br; auto]).
  destruct (matrix_operator n o Ho) as (O & EO & _ & HO). destruct (matrix_operator n r Hr) as (R & ER & _ & HR).
  exists O, R. split; auto. split; auto. intros x y Hx Hy. rewrite HO, HR by auto. unfold op_terms. rewrite Br, Cr. rewrite <- gsum_map_mul.
  generalize (b_strings (o_basis o)). generalize (o_coeffs o). induction l as [|c l IH]; intros [|s m]; try reflexivity.
  cbn [map combine]. rewrite !gsum_cons, IH. cbn [fst snd]. f_equal. ring.
Qed.

(** Errors. *)
Theorem matrix_errors n s : (os_type s <> Pauli -> to_matrix (MString s) n = Err NotImplementedError) /\
  (string_ok Pauli s -> (exists l, In l (os_labels s) /\ (Z.of_nat n <= l)%Z) -> to_matrix (MString s) n = Err ValueError).
Proof.
  split.
  - intros H. cbn [to_matrix]. unfold to_matrix_opstring, opstring_triples. destruct (os_type s); auto; congruence.
  - intros (H1 & H2 & H3 & _) (l & Hl & Hn). cbn [to_matrix]. unfold to_matrix_opstring, opstring_triples. rewrite H1.
    assert (R : forall ol st, (exists o l, In (o, l) ol /\ (Z.of_nat n <= l)%Z) -> rfold (apply_step_conf n) ol st = Err ValueError).
    { induction ol as [|[o k] ol IH]; intros [q c] (o' & l' & Hin & Hl'); [destruct Hin|]. cbn [rfold]. unfold apply_step_conf at 1. cbn [fst snd]. unfold mask.
      destruct (Z.ltb_spec (Z.of_nat n - 1 - k) 0); [reflexivity|]. cbn [rbind]. destruct Hin as [E|Hin]; [injection E as -> ->; lia|].
      destruct o; cbn [rbind]; apply IH; eauto. }
    assert (C : confs n = 0%N :: map N.of_nat (seq 1 (2 ^ n - 1))).
    { unfold confs. assert (2 ^ n <> 0) by (apply Nat.pow_nonzero; lia). destruct (2 ^ n) as [|k]; [congruence|]. cbn [seq map]. f_equal. replace (S k - 1) with k by lia. reflexivity. }
    rewrite C. cbn [rmap]. unfold apply_opstring. rewrite H1, R; auto. apply (In_nth _ _ 0%Z) in Hl. destruct Hl as (i & Hi & Ei).
    exists (nth i (os_ops s) OX), l. split; auto. rewrite <- Ei, <- combine_nth by auto. apply nth_In. rewrite combine_length. lia.
Qed.

(* ---------------------------------------------------------------- to_vector *)

Definition hs (o p : option op) : GC := gadd (gadd (gmul (gconj (pauli2 o false false)) (pauli2 p false false)) (gmul (gconj (pauli2 o false true)) (pauli2 p false true)))
  (gadd (gmul (gconj (pauli2 o true false)) (pauli2 p true false)) (gmul (gconj (pauli2 o true true)) (pauli2 p true true))).
Definition pop (o : option op) : Prop := forall p, o = Some p -> is_op_of Pauli p = true.
Lemma hs_value o p : pop o -> pop p -> (o = p /\ hs o p = g2) \/ (o <> p /\ hs o p = g0).
Proof.
  intros Ho Hp. destruct o as [o|]; [specialize (Ho o eq_refl)|]; destruct p as [p|]; try (specialize (Hp p eq_refl));
  try (destruct o; try discriminate Ho); try (destruct p; try discriminate Hp);
  first [left; split; [reflexivity | apply GC_ext; apply Qc_is_canon; reflexivity] | right; split; [discriminate | apply GC_ext; apply Qc_is_canon; reflexivity]].
Qed.
Lemma op_at_pop n s l : in_spins n s -> pop (op_at s l).
Proof. intros [_ _ H _ _] o E. apply op_find_some in E. apply (H (o, l)); auto. Qed.
Definition ip (n : nat) (s t : OS) : GC := sum_confs n (fun c => sum_confs n (fun r => gmul (gconj (string_matrix n s r c)) (string_matrix n t r c))).
Lemma ip_prod n s t : ip n s t = gprod (map (fun i => hs (op_at s (Z.of_nat i)) (op_at t (Z.of_nat i))) (seq 0 n)).
Proof.
  unfold ip. rewrite sum_confs_swap. unfold hs. rewrite <- (sum_factor2 n (fun i x y => gmul (gconj (pauli2 (op_at s (Z.of_nat i)) x y)) (pauli2 (op_at t (Z.of_nat i)) x y))).
  apply sum_confs_ext. intros r _. apply sum_confs_ext. intros c _. unfold string_matrix, tensor. rewrite gprod_conj, <- gprod_mul. reflexivity.
Qed.
Definition two_pow (n : nat) : GC := gprod (map (fun _ => g2) (seq 0 n)).
Lemma opt_dec (o p : option op) : {o = p} + {o <> p}.
Proof. repeat decide equality. Qed.
Lemma ip_value n s t : in_spins n s -> in_spins n t ->
  ((forall i, i < n -> op_at s (Z.of_nat i) = op_at t (Z.of_nat i)) /\ ip n s t = two_pow n) \/
  ((exists i, i < n /\ op_at s (Z.of_nat i) <> op_at t (Z.of_nat i)) /\ ip n s t = g0).
Proof.
  intros Hs Ht. rewrite ip_prod.
  assert (D : (forall i, In i (seq 0 n) -> op_at s (Z.of_nat i) = op_at t (Z.of_nat i)) \/ (exists i, In i (seq 0 n) /\ op_at s (Z.of_nat i) <> op_at t (Z.of_nat i))).
  { induction (seq 0 n) as [|i l IH]; [left; intros i []|]. destruct (opt_dec (op_at s (Z.of_nat i)) (op_at t (Z.of_nat i))) as [E|E]; [|right; exists i; split; auto; left; auto].
    destruct IH as [IH|(j & H1 & H2)]; [left; intros j [<-|Hj]; auto | right; exists j; split; auto; right; auto]. }
  destruct D as [D|(i & Hi & D)].
  - left. split; [intros i Hi; apply D, in_seq; lia|]. unfold two_pow. apply gprod_ext. intros i Hi. destruct (hs_value _ _ (op_at_pop n s (Z.of_nat i) Hs) (op_at_pop n t (Z.of_nat i) Ht)) as [[_ E]|[N _]]; auto. exfalso; auto.
  - right. split; [exists i; split; auto; apply in_seq in Hi; lia|]. apply (gprod_zero _ _ i); auto.
    destruct (hs_value _ _ (op_at_pop n s (Z.of_nat i) Hs) (op_at_pop n t (Z.of_nat i) Ht)) as [[E _]|[_ E]]; auto. contradiction.
Qed.
(** Sorted strings with the same operators at all labels are the same. *)
Lemma find_notin (l : list (op * Z)) x : ~ In x (map snd l) -> op_find l x = None.
Proof. apply op_find_none. Qed.
Lemma find_head o x l : op_find ((o, x) :: l) x = Some o.
Proof. rewrite op_find_cons, Z.eqb_refl. reflexivity. Qed.
Lemma sorted_lt x l : StronglySorted Z.lt (x :: l) -> forall y, In y l -> (x < y)%Z.
Proof. intros H. inversion H as [|? ? _ F]. subst. rewrite Forall_forall in F. auto. Qed.
Lemma sorted_eq : forall l m, StronglySorted Z.lt (map snd l) -> StronglySorted Z.lt (map snd m) -> (forall x, op_find l x = op_find m x) -> l = m.
Proof.
  induction l as [|[o x] l IH]; intros [|[p y] m] Hl Hm H; auto.
  - specialize (H y). rewrite find_head in H. discriminate.
  - specialize (H x). rewrite find_head in H. discriminate.
  - cbn [map snd] in Hl, Hm. pose proof (sorted_lt _ _ Hl) as Lx. pose proof (sorted_lt _ _ Hm) as Ly.
    assert (x = y) as ->.
    { destruct (Z.lt_trichotomy x y) as [L|[E|L]]; auto; exfalso.
      - pose proof (H x) as Q. rewrite find_head, op_find_cons in Q. destruct (Z.eqb_spec y x); [lia|]. rewrite op_find_none in Q; [discriminate|]. intros Hin. specialize (Ly x Hin). lia.
      - pose proof (H y) as Q. rewrite find_head, op_find_cons in Q. destruct (Z.eqb_spec x y); [lia|]. rewrite op_find_none in Q; [discriminate|]. intros Hin. specialize (Lx y Hin). lia. }
    pose proof (H y) as Q. rewrite !find_head in Q. injection Q as ->. f_equal. apply IH.
    + inversion Hl; auto.
    + inversion Hm; auto.
    + intros z. specialize (H z). rewrite !op_find_cons in H. destruct (Z.eqb_spec y z) as [->|]; auto.
      rewrite !op_find_none; auto; intros Hin; [specialize (Ly z Hin) | specialize (Lx z Hin)]; lia.
Qed.
Lemma combine_inj {X Y} (a : list X) (b : list Y) a' b' : length a = length b -> length a' = length b' -> combine a b = combine a' b' -> a = a' /\ b = b'.
Proof.
  revert b a' b'. induction a as [|x a IH]; intros [|y b] [|x' a'] [|y' b'] H H' E; cbn in *; try discriminate; auto.
  injection E as -> -> E. destruct (IH b a' b') as [-> ->]; auto.
Qed.
Lemma sorted_one n s : sorted_spins n s -> os_pref s = p_one.
Proof.
  intros (H1 & (_ & [H|H]) & _); auto. destruct H1 as (_ & _ & _ & _ & H1). rewrite H in H1. exfalso. cbn in H1. apply (f_equal re) in H1. cbn in H1. discriminate.
Qed.
Lemma same_string n s t : sorted_spins n s -> sorted_spins n t -> (forall i, i < n -> op_at s (Z.of_nat i) = op_at t (Z.of_nat i)) -> s = t.
Proof.
  intros Hs Ht H. pose proof (sorted_one n s Hs) as Ps. pose proof (sorted_one n t Ht) as Pt.
  destruct Hs as (S1 & (S2 & _) & S3), Ht as (T1 & (T2 & _) & T3). pose proof S1 as (A1 & A2 & A3 & A4 & A5). pose proof T1 as (B1 & B2 & B3 & B4 & B5).
  assert (E : body s = body t).
  { apply sorted_eq.
    - unfold body. rewrite map_snd_combine; auto.
    - unfold body. rewrite map_snd_combine; auto.
    - intros x. destruct (Z_lt_le_dec x 0) as [L|L].
      + rewrite !op_find_none; auto; unfold body; rewrite map_snd_combine by auto; intros Hin; [specialize (T3 x Hin) | specialize (S3 x Hin)]; lia.
      + destruct (Z_lt_le_dec x (Z.of_nat n)) as [L'|L'].
        * specialize (H (Z.to_nat x) ltac:(lia)). rewrite Z2Nat.id in H by auto. exact H.
        * rewrite !op_find_none; auto; unfold body; rewrite map_snd_combine by auto; intros Hin; [specialize (T3 x Hin) | specialize (S3 x Hin)]; lia. }
  apply combine_inj in E; auto. destruct E as [E1 E2]. destruct s, t; cbn in *; congruence.
Qed.
Lemma twice x : gmul g2 x = gadd x x.
Proof. change g2 with (gadd g1 g1). ring. Qed.
Lemma two_pow_value n : two_pow n = gq (Q2Qc (inject_Z (2 ^ Z.of_nat n))).
Proof.
  unfold two_pow. induction n as [|n IH].
  - apply GC_ext; apply Qc_is_canon; reflexivity.
  - cbn [seq map]. rewrite gprod_cons, <- seq_shift, map_map, IH. rewrite Nat2Z.inj_succ, Z.pow_succ_r by lia.
    rewrite twice. apply GC_ext; cbn [gadd gq re im]; apply Qc_is_canon; unfold Qcplus, Q2Qc; cbn [this]; rewrite !Qred_correct; [|reflexivity].
    rewrite <- inject_Z_plus. f_equiv. lia.
Qed.
Lemma two_pow_nz n : two_pow n <> g0.
Proof.
  unfold two_pow. induction (seq 0 n) as [|i l IH]; [discriminate|]. cbn [map]. rewrite gprod_cons. intros E. apply gmul_integral in E. destruct E as [E|E]; auto.
  apply (f_equal re) in E. cbn in E. discriminate.
Qed.
Lemma ip_sum n s ts : sum_confs n (fun c => sum_confs n (fun r => gmul (gconj (string_matrix n s r c)) (terms_matrix n ts r c))) =
  gsum (map (fun t => gmul (fst t) (ip n s (snd t))) ts).
Proof.
  unfold terms_matrix. induction ts as [|[k t] ts IH].
  - cbn [map]. rewrite (sum_confs_ext n _ (fun _ => gmul g0 g0)); [rewrite sum_confs_mul; cbn; ring|].
    intros c _. rewrite (sum_confs_ext n _ (fun _ => gmul g0 g0)); [rewrite sum_confs_mul; ring|]. intros r _. cbn. ring.
  - cbn [map]. rewrite gsum_cons, <- IH. cbn [fst snd]. unfold ip. rewrite <- sum_confs_mul, <- sum_confs_add. apply sum_confs_ext. intros c _.
    rewrite <- sum_confs_mul, <- sum_confs_add. apply sum_confs_ext. intros r _. rewrite gsum_cons. ring.
Qed.
Definition comp (n : nat) (o : Operator) (s : OS) : GC := gdiv (gsum (map (fun t => gmul (fst t) (ip n s (snd t))) (op_terms o))) (two_pow n).
Lemma overlap_value n o s M T : (forall t, In t (op_terms o) -> in_spins n (snd t)) -> in_spins n s -> to_matrix (MOperator o) n = Ok M -> to_matrix_opstring s n = Ok T ->
  overlap n T M = Ok (comp n o s).
Proof.
  intros It Is EM ET. destruct (operator_entries n o It) as (M' & EM' & En & HM). rewrite EM in EM'. injection EM' as <-.
  destruct (string_entries n s Is) as (T' & ET' & EnT & HT). cbn [to_matrix] in ET'. rewrite ET in ET'. injection ET' as <-.
  unfold overlap. rewrite EnT, En, Nat.eqb_refl, <- two_pow_value. unfold comp. do 2 f_equal. rewrite <- ip_sum.
  apply sum_confs_ext. intros c Hc. apply sum_confs_ext. intros r Hr. rewrite HT, HM by auto. reflexivity.
Qed.
Lemma vector_values n o b M : (forall t, In t (op_terms o) -> in_spins n (snd t)) -> (forall s, In s (b_strings b) -> in_spins n s) -> to_matrix (MOperator o) n = Ok M ->
  to_vector M b n = Ok (map (comp n o) (b_strings b)).
Proof.
  intros It Ib EM. unfold to_vector. induction (b_strings b) as [|s l IH]; [reflexivity|]. cbn [rmap].
  destruct (string_entries n s (Ib s (or_introl eq_refl))) as (T & ET & _ & _). cbn [to_matrix] in ET. rewrite ET. cbn [rbind].
  specialize (IH ltac:(intros; apply Ib; right; auto)). destruct (rmap (fun s0 => to_matrix_opstring s0 n) l) as [mats|e]; [|discriminate]. cbn [rbind] in *. cbn [rmap map].
  rewrite (overlap_value n o s M T It (Ib s (or_introl eq_refl)) EM ET). cbn [rbind]. rewrite IH. reflexivity.
Qed.
(** The component along a string is its coefficient. *)
Lemma comp_coeff n o s : op_ok o -> (forall s, In s (b_strings (o_basis o)) -> sorted_spins n s) -> sorted_spins n s -> has_coeff (op_terms o) s (comp n o s).
Proof.
  intros Ho So Ss.
  assert (It : forall t, In t (op_terms o) -> sorted_spins n (snd t)) by (intros [k t] Ht; apply in_combine_r in Ht; auto).
  assert (sp : forall t, sorted_spins n t -> in_spins n t) by (intros t (H1 & _ & H2); apply in_spins_of; auto).
  assert (Z : forall ts, (forall t, In t ts -> sorted_spins n (snd t)) -> (forall k t, In (k, t) ts -> t <> s) -> gsum (map (fun t => gmul (fst t) (ip n s (snd t))) ts) = g0).
  { induction ts as [|[k t] ts IH]; intros H1 H2; [reflexivity|]. cbn [map]. rewrite gsum_cons, IH; [|intros; apply H1; right; auto | intros k' t' Hin; apply (H2 k'); right; auto]. cbn [fst snd].
    pose proof (H1 (k, t) (or_introl eq_refl)) as Ht. cbn [snd] in Ht. destruct (ip_value n s t (sp _ Ss) (sp _ Ht)) as [[E _]|[_ E]]; [|rewrite E; ring].
    exfalso. apply (H2 k t (or_introl eq_refl)). symmetry. apply (same_string n); auto. }
  destruct (has_coeff_total o s Ho) as (c & Hc). pose proof Hc as [(t & Hin & K)|[-> N]].
  - assert (t = s) as ->.
    { apply (same_string n); [apply (It (c, t)); auto | auto |]. destruct K as (_ & K1 & K2 & _). intros i _. unfold op_at. rewrite K1, K2. reflexivity. }
    replace (comp n o s) with c; auto. unfold comp.
    assert (G : gsum (map (fun t => gmul (fst t) (ip n s (snd t))) (op_terms o)) = gmul c (two_pow n)).
    { destruct (in_split _ _ Hin) as (l1 & l2 & E).
      assert (U : forall k, In (k, s) (l1 ++ l2) -> False).
      { assert (ND : NoDup (map snd (op_terms o))).
        { rewrite op_terms_snd by auto. destruct Ho as (D & _). destruct D as [D _]. apply NoDup_nth_error. intros i j Hi E'. destruct (nth_error (b_strings (o_basis o)) i) as [x|] eqn:Ex; [|apply nth_error_None in Ex; lia]. apply (D i j x x); auto. repeat (split; auto). }
        rewrite E, map_app in ND. cbn [map snd] in ND. intros k Hk. apply NoDup_remove_2 in ND. apply ND. rewrite <- map_app. apply (in_map snd) in Hk. exact Hk. }
      rewrite E in It |- *. rewrite map_app, gsum_app. cbn [map]. rewrite gsum_cons. cbn [fst snd].
      rewrite !Z.
      - destruct (ip_value n s s (sp _ Ss) (sp _ Ss)) as [[_ ->]|[(i & _ & X) _]]; [ring | congruence].
      - intros; apply It, in_or_app; right; right; auto.
      - intros k t H E'. subst t. apply (U k), in_or_app; auto.
      - intros; apply It, in_or_app; auto.
      - intros k t H E'. subst t. apply (U k), in_or_app; auto. }
    rewrite G. unfold gdiv. field. apply two_pow_nz.
  - replace (comp n o s) with g0; auto. unfold comp. rewrite Z; [unfold gdiv; ring | auto |].
    intros k t H ->. apply (N k s H). repeat (split; auto).
Qed.
Theorem vector_matrix n o b : made o -> (forall s, In s (b_strings (o_basis o)) -> sorted_spins n s) -> (forall s, In s (b_strings b) -> sorted_spins n s) ->
  exists M v, to_matrix (MOperator o) n = Ok M /\ to_vector M b n = Ok v /\ length v = length (b_strings b) /\
    forall i s c, nth_error (b_strings b) i = Some s -> nth_error v i = Some c -> has_coeff (op_terms o) s c.
Proof.
  intros Mo So Sb. assert (sp : forall t, sorted_spins n t -> in_spins n t) by (intros t (H1 & _ & H2); apply in_spins_of; auto).
  assert (It : forall t, In t (op_terms o) -> in_spins n (snd t)) by (intros [k t] Ht; apply in_combine_r in Ht; auto).
  destruct (operator_entries n o It) as (M & EM & _ & _). exists M, (map (comp n o) (b_strings b)). split; auto.
  split; [apply vector_values; auto|]. split; [apply map_length|]. intros i s c Es Ec. rewrite nth_error_map, Es in Ec. injection Ec as <-.
  apply comp_coeff; [apply made_ok; auto | auto |]. apply Sb. eapply nth_error_In; eauto.
Qed.
