(** apply_transformation on Operators; reduced_density_matrix. *)
From Coq Require Import List Arith Lia ZArith NArith Bool Permutation Ring Sorted Setoid.
From Verif Require Import GC Exn S_Alg S_Den S_Basis S_Built S_Tools M_OpString M_Algebra M_Basis M_OpAlg M_Transform S_Fock S_Transform L_Alg L_Fock L_Sum L_StrAlg L_StrOp L_PropStr L_PropBasis L_Operator L_Perm L_Trans1 L_Trans3 L_Trans4 L_Trans5 L_Trans6 L_Symm L_Symm3 L_Cluster
  M_Diag S_Diag L_Diag1 L_Diag2 L_Diag3 L_Diag4.
Import ListNotations.
Local Open Scope nat_scope.

Lemma apply_range n p o r : is_perm n p -> good_operator Pauli o -> (forall s, In s (b_strings (o_basis o)) -> labels_in n s) ->
  apply (label_permutation (map Z.of_nat p)) (TOperator o) = Ok r -> forall s, In s (b_strings (o_basis r)) -> labels_in n s.
Proof.
  intros Hp Ho Hl Er s Hs. assert (Lp : length (map Z.of_nat p) = n) by (rewrite map_length; apply p_length; auto). pose proof (perm_permutes n p Hp) as Hpp.
  destruct (acts_operator Pauli (label_permutation (map Z.of_nat p)) false _ ltac:(discriminate) (permutation_rep_map Pauli _ (pfun p) Hpp) (permutation_keeps Pauli _) o Ho) as (r' & Er' & Gr & Tt & _).
  { intros t Ht. apply permutation_acts_as; auto; [discriminate | apply Ho; auto | rewrite Lp; apply Hl; auto]. }
  rewrite Er in Er'. injection Er' as <-. rewrite <- (op_terms_snd r) in Hs by (apply proper_ok; apply (good_proper Pauli); auto).
  assert (Ht : forall t, In t (op_terms o) -> string_ok Pauli (snd t) /\ labels_in n (snd t)).
  { intros [k t] H. apply in_combine_r in H. split; [apply Ho | apply Hl]; auto. }
  unfold term_by_term in Tt. clear Er Ho Gr Hl. revert Hs Ht. induction Tt as [|a b ts us (k & Hk & _) Tt IH]; cbn [map]; intros Hs Ht; [destruct Hs|].
  destruct Hs as [<-|Hs]; [|apply IH; auto; intros; apply Ht; right; auto].
  destruct (Ht a (or_introl eq_refl)) as [A1 A2].
  destruct (permutation_string Pauli (map Z.of_nat p) (pfun p) (snd a) ltac:(discriminate) Hpp A1 ltac:(rewrite Lp; exact A2)) as (k' & t & H1 & _ & _ & _ & Rt & _).
  destruct (one_term_fun _ _ _ _ _ Hk H1) as [_ ->]. rewrite Lp in Rt. exact Rt.
Qed.
Theorem permuted_operator n p o v : is_perm n p -> good_operator Pauli o -> (forall s, In s (b_strings (o_basis o)) -> labels_in n s) -> length v = 2 ^ n ->
  exists r M N w, apply (label_permutation (map Z.of_nat p)) (TOperator o) = Ok r /\ to_matrix (MOperator o) n = Ok M /\ to_matrix (MOperator r) n = Ok N /\
    apply_transformation (Some p) v n = Ok w /\
    forall u u', length u = 2 ^ n -> (forall c, configuration n c -> amplitude u c = mat_vec n (entry M) (amplitude v) c) ->
      apply_transformation (Some p) u n = Ok u' -> forall c, configuration n c -> amplitude u' c = mat_vec n (entry N) (amplitude w) c.
Proof.
  intros Hp Ho Hl Lv. pose proof Ho as (Hb & Hlen & Hty & Hst). assert (Lp : length (map Z.of_nat p) = n) by (rewrite map_length; apply p_length; auto).
  destruct (permutation_operator Pauli (map Z.of_nat p) (pfun p) o ltac:(discriminate) (perm_permutes n p Hp) Ho ltac:(rewrite Lp; exact Hl)) as (r & Er & Gr & _ & D).
  assert (Io : forall t, In t (op_terms o) -> string_ok Pauli (snd t) /\ labels_in n (snd t)).
  { intros [k s] Ht. apply in_combine_r in Ht. split; [apply Hst | apply Hl]; auto. }
  destruct (operator_entries n o) as (M & EM & _ & HM). { intros t Ht. destruct (Io t Ht). apply in_spins_of; auto. }
  assert (Lr : forall s, In s (b_strings (o_basis r)) -> labels_in n s).
  { apply (apply_range n p o r); auto. }
  assert (Ir : forall t, In t (op_terms r) -> in_spins n (snd t)).
  { intros [k s] Ht. apply in_combine_r in Ht. apply in_spins_of; [apply Gr; auto | auto]. }
  destruct (operator_entries n r Ir) as (N & EN & _ & HN).
  destruct (transformed n p v Hp Lv) as (w & Ew & _ & _). exists r, M, N, w. do 4 (split; auto). intros u u' Lu Hu Eu.
  apply (permuted_action n p (entry M) (entry N) v w u u'); auto. intros x c Hx Hc.
  rewrite HN, HM by (auto; apply permuted_conf_ok; auto).
  pose proof (D Fock (gn n) (gn_rep n)) as [Dn _]. specialize (Dn (delta (permuted_conf p c n)) (permuted_conf p x n)).
  rewrite lincomb_entry in Dn by (auto; apply permuted_conf_ok; auto). rewrite <- Dn. clear - Io Hp Hx Hc.
  unfold terms_matrix, image_sum. induction (op_terms o) as [|[k s] ts IH]; [reflexivity|].
  change (gadd (gmul k (fo (image false (renamed (pfun p) (gn n)) s : Fock) (delta (permuted_conf p c n)) (permuted_conf p x n)))
    (fo (asum (map (fun t => fst t · image false (renamed (pfun p) (gn n)) (snd t)) ts)%alg : Fock) (delta (permuted_conf p c n)) (permuted_conf p x n)) =
    gadd (gmul k (string_matrix n s x c)) (gsum (map (fun t => gmul (fst t) (string_matrix n (snd t) x c)) ts))).
  rewrite IH by (intros; apply Io; right; auto). destruct (Io (k, s) (or_introl eq_refl)) as [Hs Ls]. cbn [snd] in Hs, Ls. f_equal. f_equal.
  rewrite image_placed, fock_entry, placed_permuted; auto; try (apply permuted_conf_ok; auto).
  apply placed_spins; auto; [apply (perm_nodup n); auto | intros l Hl'; apply (is_perm_in n p); auto | rewrite (p_length n p Hp); auto].
Qed.

(* ---------------------------------------------------------------- reading spins *)

Lemma horner n c : forall ls a, fold_left (fun a l => (2 * a + N.b2n (spin n c l))%N) ls a = (a * 2 ^ N.of_nat (length ls) + pick n ls c)%N.
Proof.
  induction ls as [|l ls IH]; intros a; [cbn; lia|]. unfold pick. cbn [fold_left length]. rewrite (IH (2 * a + _)%N), (IH (2 * 0 + _)%N). rewrite Nat2N.inj_succ, N.pow_succ_r'. lia.
Qed.
Lemma pick_cons n l ls c : pick n (l :: ls) c = (N.b2n (spin n c l) * 2 ^ N.of_nat (length ls) + pick n ls c)%N.
Proof. unfold pick. cbn [fold_left]. rewrite horner. reflexivity. Qed.
Lemma pick_conf n ls c : configuration (length ls) (pick n ls c).
Proof.
  unfold configuration. induction ls as [|l ls IH]; [reflexivity|]. rewrite pick_cons. cbn [length]. rewrite Nat2N.inj_succ, N.pow_succ_r'.
  destruct (spin n c l); cbn [N.b2n]; lia.
Qed.
Lemma pick_spin n : forall ls c i, i < length ls -> spin (length ls) (pick n ls c) i = spin n c (nth i ls 0).
Proof.
  induction ls as [|l ls IH]; intros c i Hi; [cbn in Hi; lia|]. rewrite pick_cons. cbn [length] in *. pose proof (pick_conf n ls c) as Hc.
  destruct (spin n c l) eqn:E; cbn [N.b2n].
  - replace (1 * 2 ^ N.of_nat (length ls) + pick n ls c)%N with (pick n ls c + 2 ^ N.of_nat (length ls))%N by lia. destruct i as [|i]; cbn [nth].
    + rewrite spin_high; auto.
    + rewrite spin_high_low by (auto; lia). apply IH. lia.
  - replace (0 * 2 ^ N.of_nat (length ls) + pick n ls c)%N with (pick n ls c) by lia. destruct i as [|i]; cbn [nth].
    + rewrite spin_first_low; auto.
    + rewrite spin_low by lia. apply IH. lia.
Qed.
Lemma pick_eq n ls c d : pick n ls c = pick n ls d <-> forall l, In l ls -> spin n c l = spin n d l.
Proof.
  split.
  - intros E l Hl. apply (In_nth _ _ 0) in Hl. destruct Hl as (i & Hi & <-). rewrite <- !pick_spin by auto. congruence.
  - intros H. apply (spin_ext (length ls)); try apply pick_conf. intros i Hi. rewrite !pick_spin by auto. apply H. apply nth_In; auto.
Qed.
Lemma sub_conf_ok n c k : forall ls acc i, (forall l, In l ls -> l < n) -> i + length ls = k ->
  rfold (fun st l => let '(acc, i) := st in let! m := mask n l in
    Ok ((acc + (if N.land c m =? 0 then 0 else N.shiftl 1 (N.of_nat (k - 1 - i))))%N, S i)) (map Z.of_nat ls) (acc, i) = Ok ((acc + pick n ls c)%N, k).
Proof.
  induction ls as [|l ls IH]; intros acc i H Hk; cbn [map rfold].
  - cbn [length] in Hk. unfold pick. cbn [fold_left]. rewrite N.add_0_r. replace k with i by lia. reflexivity.
  - cbn [length] in Hk. pose proof (H l (or_introl eq_refl)). rewrite mask_ok by lia. cbn [rbind].
    rewrite IH; [|intros; apply H; right; auto | lia]. do 2 f_equal. rewrite shiftl_bit, masked, (pos_spin n c) by lia. rewrite Nat2Z.id, pick_cons. unfold bit.
    replace (k - 1 - i) with (length ls) by lia. destruct (spin n c l); cbn [N.b2n]; lia.
Qed.
Lemma sub_conf_pick n c ls : (forall l, In l ls -> l < n) -> sub_conf (map Z.of_nat ls) c n = Ok (pick n ls c).
Proof. intros H. unfold sub_conf. rewrite map_length. rewrite (sub_conf_ok n c (length ls) ls 0%N 0 H eq_refl). reflexivity. Qed.

(* ---------------------------------------------------------------- two subsystems *)

Lemma existsb_of_nat l A : existsb (Z.eqb (Z.of_nat l)) (map Z.of_nat A) = existsb (Nat.eqb l) A.
Proof.
  induction A as [|a A IH]; auto. cbn [map existsb]. rewrite IH. f_equal. destruct (Z.eqb_spec (Z.of_nat l) (Z.of_nat a)), (Nat.eqb_spec l a); auto; lia.
Qed.
Lemma other_rest n A : other_labels (map Z.of_nat A) n = map Z.of_nat (rest n A).
Proof.
  unfold other_labels, rest. induction (seq 0 n) as [|l ls IH]; auto. cbn [map filter]. rewrite existsb_of_nat. destruct (existsb (Nat.eqb l) A); cbn [negb map]; [auto | f_equal; auto].
Qed.
Section Two.
  Variables (n : nat) (A : list nat).
  Hypothesis Nd : NoDup A.
  Hypothesis Rg : forall l, In l A -> l < n.
  Notation B := (rest n A).
  Lemma in_rest l : In l B <-> l < n /\ ~ In l A.
  Proof.
    unfold rest. rewrite filter_In, in_seq, negb_true_iff. split.
    - intros [H E]. split; [lia|]. intros Hin. rewrite (proj2 (existsb_exists _ _)) in E; [discriminate|]. exists l. split; auto. apply Nat.eqb_refl.
    - intros [H E]. split; [lia|]. destruct (existsb (Nat.eqb l) A) eqn:X; auto. apply existsb_exists in X. destruct X as (x & Hx & Ex). apply Nat.eqb_eq in Ex. subst. contradiction.
  Qed.
  Lemma rest_nodup : NoDup B.
  Proof. apply NoDup_filter, seq_NoDup. Qed.
  Lemma two_perm : Permutation (A ++ B) (seq 0 n).
  Proof.
    apply NoDup_Permutation.
    - apply NoDup_app2; auto using rest_nodup. intros x Hx Hy. apply in_rest in Hy. tauto.
    - apply seq_NoDup.
    - intros l. rewrite in_app_iff, in_rest, in_seq. split.
      + intros [H|[H _]]; [specialize (Rg l H)|]; lia.
      + intros H. destruct (in_dec Nat.eq_dec l A); auto. right. split; auto. lia.
  Qed.
  Lemma two_length : length A + length B = n.
  Proof. rewrite <- app_length, (Permutation_length two_perm), seq_length. reflexivity. Qed.
  Lemma two_inj c d : configuration n c -> configuration n d -> pick n A c = pick n A d -> pick n B c = pick n B d -> c = d.
  Proof.
    intros Hc Hd HA HB. apply (spin_ext n); auto. intros i Hi. rewrite pick_eq in HA, HB.
    assert (In i (A ++ B)) as Hin by (apply (Permutation_in i (Permutation_sym two_perm)), in_seq; lia). apply in_app_or in Hin. destruct Hin; auto.
  Qed.
  Lemma two_sum (g : N -> N -> GC) : sum_confs (length A) (fun a => sum_confs (length B) (fun b => g a b)) = sum_confs n (fun c => g (pick n A c) (pick n B c)).
  Proof.
    transitivity (gsum (map (fun ab => g (fst ab) (snd ab)) (list_prod (all_confs (length A)) (all_confs (length B))))).
    - unfold sum_confs. induction (all_confs (length A)) as [|a l IH]; [reflexivity|]. cbn [map list_prod]. rewrite gsum_cons, map_app, gsum_app, IH. f_equal. rewrite map_map. reflexivity.
    - unfold sum_confs. rewrite <- (map_map (fun c => (pick n A c, pick n B c)) (fun ab => g (fst ab) (snd ab))). apply gsum_perm, Permutation_map, Permutation_sym.
      apply NoDup_Permutation_bis.
      + apply NoDup_map_inj; [|apply confs_nodup]. intros x y Hx Hy E. injection E as E1 E2. apply two_inj; auto; apply in_confs; auto.
      + rewrite prod_length, map_length. unfold all_confs. rewrite !map_length, !seq_length, <- Nat.pow_add_r, two_length. auto.
      + intros x Hx. apply in_map_iff in Hx. destruct Hx as (c & <- & _). apply in_prod; apply in_confs; apply pick_conf.
  Qed.

  Lemma reshape_loop (v : list GC) : length v = 2 ^ n -> forall l f, NoDup l -> (forall c, In c l -> configuration n c) ->
    exists g, rfold (fun (c : N -> N -> GC) conf =>
      let! a := sub_conf (map Z.of_nat A) conf n in let! b := sub_conf (other_labels (map Z.of_nat A) n) conf n in
      let! x := of_option IndexError (nth_error v (N.to_nat conf)) in
      Ok (fun a' b' => if (a' =? a)%N && (b' =? b)%N then x else c a' b')) l f = Ok g /\
      (forall c, In c l -> g (pick n A c) (pick n B c) = amplitude v c) /\
      (forall a b, (forall c, In c l -> ~ (a = pick n A c /\ b = pick n B c)) -> g a b = f a b).
  Proof.
    intros Lv. induction l as [|c l IH]; intros f ND Hc; cbn [rfold].
    - exists f. split; auto. split; [intros c []|]; auto.
    - apply NoDup_cons_iff in ND. destruct ND as [Nc ND]. rewrite other_rest, !sub_conf_pick by (auto; intros x Hx; apply in_rest in Hx; tauto). cbn [rbind].
      pose proof (Hc c (or_introl eq_refl)) as Cc. pose proof (proj1 (conf_nat n c) Cc).
      destruct (nth_error v (N.to_nat c)) as [x|] eqn:Ex; [|apply nth_error_None in Ex; lia]. cbn [of_option rbind].
      destruct (IH (fun a' b' => if (a' =? pick n A c)%N && (b' =? pick n B c)%N then x else f a' b') ND ltac:(intros; apply Hc; right; auto)) as (g & E & I1 & I2).
      exists g. rewrite other_rest in E. rewrite E. split; auto. split.
      + intros d [<-|Hd]; auto. rewrite I2.
        * rewrite !N.eqb_refl. cbn [andb]. unfold amplitude. rewrite nth_error_default, Ex. reflexivity.
        * intros d Hd [E1 E2]. assert (c = d) by (apply two_inj; auto; apply Hc; right; auto). subst; contradiction.
      + intros a b H'. rewrite I2 by (intros d Hd; apply H'; right; auto).
        destruct ((a =? pick n A c)%N && (b =? pick n B c)%N) eqn:X; auto. apply andb_true_iff in X. rewrite !N.eqb_eq in X. exfalso. apply (H' c (or_introl eq_refl) X).
  Qed.
  Theorem reshaped v : length v = 2 ^ n -> exists g, reshape_subsystems v (map Z.of_nat A) n = Ok g /\
    forall c, configuration n c -> g (pick n A c) (pick n B c) = amplitude v c.
  Proof.
    intros Lv. destruct (reshape_loop v Lv (confs n) (fun _ _ => g0) (confs_nodup n) ltac:(intros c Hc; apply in_confs; auto)) as (g & E & H & _).
    exists g. split; auto. intros c Hc. apply H, in_confs; auto.
  Qed.

  (** The overlap of the reduced matrix with an operator. *)
  Lemma outer_trace v w gv gw O : (forall c, configuration n c -> gv (pick n A c) (pick n B c) = amplitude v c) ->
    (forall c, configuration n c -> gw (pick n A c) (pick n B c) = amplitude w c) ->
    trace (length A) (mat_mul (length A) (outer gv gw (length B)) O) = expectation n (amplitude w) (embed n A B O) (amplitude v).
  Proof.
    intros Hv Hw. unfold trace, mat_mul, expectation, mat_vec.
    transitivity (sum_confs (length A) (fun a => sum_confs (length B) (fun b => sum_confs (length A) (fun a' => gmul (gmul (gv a b) (gconj (gw a' b))) (O a' a))))).
    { apply sum_confs_ext. intros a _. rewrite sum_confs_swap. apply sum_confs_ext. intros a' _. unfold outer.
      change (gsum (map ?f (confs (length B)))) with (sum_confs (length B) f).
      transitivity (gmul (O a' a) (sum_confs (length B) (fun b => gmul (gv a b) (gconj (gw a' b))))); [ring|]. rewrite <- sum_confs_mul. apply sum_confs_ext. intros b _. ring. }
    rewrite (two_sum (fun a b => sum_confs (length A) (fun a' => gmul (gmul (gv a b) (gconj (gw a' b))) (O a' a)))).
    transitivity (sum_confs n (fun c => sum_confs n (fun r => gmul (gconj (amplitude w r)) (gmul (embed n A B O r c) (amplitude v c))))).
    2:{ rewrite sum_confs_swap. apply sum_confs_ext. intros r _. rewrite <- sum_confs_mul. reflexivity. }
    apply sum_confs_ext. intros c Hc. rewrite (Hv c Hc).
    transitivity (sum_confs (length A) (fun a' => sum_confs (length B) (fun b' => if (b' =? pick n B c)%N then gmul (gmul (amplitude v c) (gconj (gw a' b'))) (O a' (pick n A c)) else g0))).
    { apply sum_confs_ext. intros a' _. rewrite (sum_pick (length B) (fun b' => gmul (gmul (amplitude v c) (gconj (gw a' b'))) (O a' (pick n A c)))) by apply pick_conf. reflexivity. }
    rewrite (two_sum (fun a' b' => if (b' =? pick n B c)%N then gmul (gmul (amplitude v c) (gconj (gw a' b'))) (O a' (pick n A c)) else g0)).
    apply sum_confs_ext. intros r Hr. unfold embed. destruct (pick n B r =? pick n B c)%N; [rewrite (Hw r Hr)|]; ring.
  Qed.
  Lemma embed_id r c : configuration n r -> configuration n c -> embed n A B id_mat r c = id_mat r c.
  Proof.
    intros Hr Hc. unfold embed, id_mat. destruct (N.eqb_spec r c) as [->|E]; [rewrite !N.eqb_refl; auto|].
    destruct (N.eqb_spec (pick n B r) (pick n B c)); auto. destruct (N.eqb_spec (pick n A r) (pick n A c)); auto. exfalso. apply E. apply two_inj; auto.
  Qed.
  Lemma outer_norm v gv : (forall c, configuration n c -> gv (pick n A c) (pick n B c) = amplitude v c) ->
    trace (length A) (outer gv gv (length B)) = sum_confs n (fun c => gmul (amplitude v c) (gconj (amplitude v c))).
  Proof.
    intros H. unfold trace, outer. change (gsum (map ?f (confs (length B)))) with (sum_confs (length B) f).
    rewrite (two_sum (fun a b => gmul (gv a b) (gconj (gv a b)))). apply sum_confs_ext. intros c Hc. rewrite (H c Hc). reflexivity.
  Qed.
  (** Strings on the kept orbitals. *)
  Lemma embed_string s r c : string_ok Pauli s -> labels_in (length A) s ->
    embed n A B (string_matrix (length A) s) r c = string_matrix n (placed A s) r c.
  Proof.
    intros Hs Hl. unfold string_matrix at 2. unfold tensor. rewrite <- (gprod_perm _ _ (Permutation_map _ two_perm)), map_app, gprod_app.
    assert (EA : gprod (map (fun i => pauli2 (op_at (placed A s) (Z.of_nat i)) (spin n r i) (spin n c i)) A) = string_matrix (length A) s (pick n A r) (pick n A c)).
    { rewrite gprod_nth. unfold string_matrix, tensor. apply gprod_ext. intros i Hi. apply in_seq in Hi. rewrite (placed_at A s) by (auto; lia). rewrite !pick_spin by lia. reflexivity. }
    rewrite EA. unfold embed.
    assert (EB : gprod (map (fun i => pauli2 (op_at (placed A s) (Z.of_nat i)) (spin n r i) (spin n c i)) B) = if (pick n B r =? pick n B c)%N then g1 else g0).
    { destruct (N.eqb_spec (pick n B r) (pick n B c)) as [E|E].
      - apply gprod_one. intros i Hi. rewrite (placed_out A s) by (auto; apply in_rest in Hi; tauto). rewrite (proj1 (pick_eq n B r c) E i Hi). unfold pauli2. rewrite xorb_nilpotent. reflexivity.
      - assert (X : exists i, In i B /\ spin n r i <> spin n c i).
        { destruct (existsb (fun i => xorb (spin n r i) (spin n c i)) B) eqn:X.
          - apply existsb_exists in X. destruct X as (i & Hi & Ei). exists i. split; auto. intros Q. rewrite Q, xorb_nilpotent in Ei. discriminate.
          - exfalso. apply E. apply pick_eq. intros l Hin. destruct (xorb (spin n r l) (spin n c l)) eqn:Y; [|apply xorb_eq; auto].
            assert (existsb (fun i => xorb (spin n r i) (spin n c i)) B = true) by (apply existsb_exists; eauto). congruence. }
        destruct X as (i & Hi & N). apply (gprod_zero _ _ i Hi). rewrite (placed_out A s) by (auto; apply in_rest in Hi; tauto). unfold pauli2. destruct (spin n r i), (spin n c i); auto; congruence. }
    rewrite EB. destruct (pick n B r =? pick n B c)%N; ring.
  Qed.
End Two.

Theorem rho_expectation n A v w : NoDup A -> (forall l, In l A -> l < n) -> length v = 2 ^ n -> length w = 2 ^ n ->
  exists rho, reduced_density_matrix (RPair v w) (map Z.of_nat A) n = Ok rho /\
    forall O, trace (length A) (mat_mul (length A) rho O) = expectation n (amplitude w) (embed n A (rest n A) O) (amplitude v).
Proof.
  intros Nd Rg Lv Lw. destruct (reshaped n A Nd Rg v Lv) as (gv & Ev & Hv). destruct (reshaped n A Nd Rg w Lw) as (gw & Ew & Hw).
  unfold reduced_density_matrix. rewrite Ev, Ew, other_rest, map_length. cbn [rbind]. eexists. split; [reflexivity|]. intros O. apply outer_trace; auto.
Qed.
Theorem rho_vector n A v : NoDup A -> (forall l, In l A -> l < n) -> length v = 2 ^ n ->
  exists rho, reduced_density_matrix (RVector v) (map Z.of_nat A) n = Ok rho /\ reduced_density_matrix (RPair v v) (map Z.of_nat A) n = Ok rho /\
    (forall a b, adjoint rho a b = rho a b) /\
    trace (length A) rho = sum_confs n (fun c => gmul (amplitude v c) (gconj (amplitude v c))) /\
    forall O, trace (length A) (mat_mul (length A) rho O) = expectation n (amplitude v) (embed n A (rest n A) O) (amplitude v).
Proof.
  intros Nd Rg Lv. destruct (reshaped n A Nd Rg v Lv) as (gv & Ev & Hv).
  unfold reduced_density_matrix. rewrite Ev, other_rest, map_length. cbn [rbind]. eexists. split; [reflexivity|]. split; [reflexivity|].
  split; [|split; [apply (outer_norm n A Nd Rg); auto | intros O; apply outer_trace; auto]].
  intros a b. unfold adjoint, outer. rewrite <- gsum_map_conj. apply gsum_map_ext. intros x _. rewrite gconj_mul, gconj_conj. ring.
Qed.
Theorem rho_string n A v s : NoDup A -> (forall l, In l A -> l < n) -> length v = 2 ^ n -> string_ok Pauli s -> labels_in (length A) s ->
  exists rho S T, reduced_density_matrix (RVector v) (map Z.of_nat A) n = Ok rho /\ to_matrix (MString s) (length A) = Ok S /\ to_matrix (MString (placed A s)) n = Ok T /\
    trace (length A) (mat_mul (length A) rho (entry S)) = expectation n (amplitude v) (entry T) (amplitude v).
Proof.
  intros Nd Rg Lv Hs Hl. destruct (rho_vector n A v Nd Rg Lv) as (rho & E & _ & _ & _ & H).
  destruct (string_entries (length A) s (in_spins_of _ s Hs Hl)) as (S & ES & _ & HS). destruct (string_entries n (placed A s) (placed_spins n A s Nd Rg Hs Hl)) as (T & ET & _ & HT).
  exists rho, S, T. do 3 (split; auto).
  transitivity (trace (length A) (mat_mul (length A) rho (string_matrix (length A) s))).
  { apply sum_confs_ext. intros a Ha. apply sum_confs_ext. intros b Hb. rewrite HS; auto. }
  rewrite H. unfold expectation, mat_vec. apply sum_confs_ext. intros r Hr. f_equal. apply sum_confs_ext. intros c Hc. rewrite HT by auto. rewrite embed_string; auto.
Qed.

(** Basis states. *)
Theorem permuted_state n p v c : is_perm n p -> length v = 2 ^ n -> configuration n c ->
  exists w d, apply_transformation (Some p) v n = Ok w /\ apply_transformation_conf (Some p) c n = Ok d /\ length w = 2 ^ n /\ configuration n d /\
    amplitude w d = amplitude v c /\ forall l, l < n -> spin n d (nth l p 0) = spin n c l.
Proof.
  intros Hp Lv Hc. destruct (transformed n p v Hp Lv) as (w & Ew & Lw & H). exists w, (permuted_conf p c n). split; auto.
  unfold apply_transformation_conf. rewrite (p_length n p Hp), Nat.eqb_refl. split; auto. split; auto. split; [apply permuted_conf_ok; auto|]. split; auto.
  intros l Hl. apply permuted_spin; auto.
Qed.
Theorem transformation_errors n info v c : (forall p, info = Some p -> length p <> n) ->
  apply_transformation info v n = Err ValueError /\ apply_transformation_conf info c n = Err ValueError.
Proof.
  intros H. destruct info as [p|]; [|split; reflexivity]. unfold apply_transformation, apply_transformation_conf.
  rewrite (proj2 (Nat.eqb_neq _ _) (H p eq_refl)). split; reflexivity.
Qed.
(** Z at a negative label acts as the identity, X and Y fail. *)
Lemma neg_mask n l : (l < 0)%Z -> exists k, mask n l = Ok (bit k) /\ n <= k.
Proof.
  intros H. exists (pos n l). unfold mask, pos. rewrite (proj2 (Z.ltb_ge _ 0)) by lia. split; [|lia]. f_equal. unfold bit. rewrite N.shiftl_1_l, Z_nat_N. reflexivity.
Qed.
Theorem negative_z n l : (l < 0)%Z -> exists M, to_matrix (MString (mkOS [OZ] [l] Pauli p_one)) n = Ok M /\ mat_eq n (entry M) id_mat.
Proof.
  intros H. destruct (neg_mask n l H) as (k & Ek & Lk).
  assert (E : opstring_triples (mkOS [OZ] [l] Pauli p_one) n = Ok (map (fun c => (c, c, g1)) (confs n))).
  { unfold opstring_triples. cbn [os_type]. apply L_Diag2.rmap_ok. intros c Hc. unfold apply_opstring. cbn [os_type os_ops os_labels combine rfold apply_step_conf fst snd]. rewrite Ek. cbn [rbind].
    rewrite land_bit. apply in_confs in Hc. unfold occ. rewrite (conf_high n c) by (auto; lia). reflexivity. }
  cbn [to_matrix]. unfold to_matrix_opstring. rewrite E. cbn [rbind]. rewrite csr_ok.
  - eexists. split; [reflexivity|]. intros r c Hr Hc. unfold entry. cbn [m_data]. rewrite map_map. cbn [fst snd]. unfold id_mat.
    rewrite (gsum_map_ext _ (fun x => if (x =? r)%N then (if (x =? c)%N then g1 else g0) else g0)) by (intros x _; destruct (x =? r)%N; reflexivity).
    apply (sum_pick n (fun x => if (x =? c)%N then g1 else g0) r Hr).
  - intros t Ht. apply in_map_iff in Ht. destruct Ht as (c & <- & Hc). apply in_confs in Hc. auto.
Qed.
Theorem negative_x n o l : (l < 0)%Z -> o = OX \/ o = OY -> to_matrix (MString (mkOS [o] [l] Pauli p_one)) n = Err ValueError.
Proof.
  intros H Ho. destruct (neg_mask n l H) as (k & Ek & Lk).
  assert (E : exists g, opstring_triples (mkOS [o] [l] Pauli p_one) n = Ok (map (fun c => (N.lxor c (bit k), c, g c)) (confs n))).
  { exists (fun c => gmul g1 (match o with OX => g1 | _ => if negb (N.land c (bit k) =? 0)%N then gopp gi else gi end)).
    unfold opstring_triples. cbn [os_type]. apply L_Diag2.rmap_ok. intros c Hc. unfold apply_opstring. cbn [os_type os_ops os_labels combine rfold apply_step_conf fst snd]. rewrite Ek. cbn [rbind].
    destruct Ho as [-> | ->]; cbn [rbind fst snd os_pref pval p_one]; reflexivity. }
  destruct E as (g & E). cbn [to_matrix]. unfold to_matrix_opstring. rewrite E. cbn [rbind]. unfold csr.
  replace (forallb _ _) with false; auto. symmetry. apply not_true_is_false. intros F. rewrite forallb_forall in F.
  specialize (F (N.lxor 0 (bit k), 0%N, g 0%N)). rewrite andb_true_iff in F. destruct F as [F _].
  - apply in_map_iff. exists 0%N. split; auto. apply in_confs. apply conf_bits. intros; apply N.bits_0.
  - cbn [fst snd] in F. rewrite N.lxor_0_l in F. apply N.ltb_lt in F. unfold bit in F. apply N.pow_lt_mono_r_iff in F; lia.
Qed.
