(** apply_transformation and reduced_density_matrix. *)
From Coq Require Import List Arith Lia ZArith NArith Bool Permutation Ring Sorted Setoid.
From Verif Require Import GC Exn S_Alg S_Den S_Basis S_Built S_Tools M_OpString M_Algebra M_Basis M_OpAlg M_Transform S_Fock S_Transform L_Alg L_Fock L_Sum L_StrAlg L_StrOp L_PropStr L_PropBasis L_Operator L_Perm L_Trans1 L_Trans3 L_Trans6 L_Symm L_Symm3 L_Cluster
  M_Diag S_Diag L_Diag1 L_Diag2 L_Diag3.
Import ListNotations.
Local Open Scope nat_scope.

(* ---------------------------------------------------------------- sums of bits *)

Definition putbit (p : bool * nat) : N := if fst p then bit (snd p) else 0%N.
Definition pack (l : list (bool * nat)) (acc : N) : N := fold_left (fun a p => (a + putbit p)%N) l acc.
Lemma add_putbit a p k : occ a (snd p) = false -> occ (a + putbit p) k = if Nat.eqb (snd p) k then fst p else occ a k.
Proof.
  intros H. unfold putbit. destruct p as [[|] j]; cbn [fst snd] in *.
  - rewrite N.add_nocarry_lxor.
    + rewrite occ_lxor, occ_bit. destruct (Nat.eqb_spec j k); [subst; rewrite H; auto | apply xorb_false_r].
    + apply N.bits_inj_0. intros i. rewrite N.land_spec. unfold bit. rewrite N.pow2_bits_eqb. destruct (N.eqb_spec (N.of_nat j) i); [subst; unfold occ in H; rewrite H; auto | apply andb_false_r].
  - rewrite N.add_0_r. destruct (Nat.eqb_spec j k); subst; auto.
Qed.
Lemma pack_occ : forall l acc, NoDup (map snd l) -> (forall p, In p l -> occ acc (snd p) = false) ->
  (forall p, In p l -> occ (pack l acc) (snd p) = fst p) /\ (forall k, ~ In k (map snd l) -> occ (pack l acc) k = occ acc k).
Proof.
  induction l as [|p l IH]; intros acc ND H; [split; [intros p []|]; reflexivity|]. cbn [map] in ND. apply NoDup_cons_iff in ND. destruct ND as [Np ND].
  cbn [pack fold_left]. change (fold_left _ l ?a) with (pack l a).
  assert (H0 : occ acc (snd p) = false) by (apply H; left; auto).
  destruct (IH (acc + putbit p)%N ND) as [I1 I2].
  { intros q Hq. rewrite add_putbit by auto. destruct (Nat.eqb_spec (snd p) (snd q)); [exfalso; apply Np; rewrite e; apply in_map; auto|]. apply H. right; auto. }
  split.
  - intros q [<-|Hq]; auto. rewrite I2 by auto. rewrite add_putbit, Nat.eqb_refl by auto. reflexivity.
  - intros k Hk. rewrite I2 by (intros X; apply Hk; right; auto). rewrite add_putbit by auto. destruct (Nat.eqb_spec (snd p) k); auto. exfalso. apply Hk. left; auto.
Qed.
Lemma shiftl_bit k : N.shiftl 1 (N.of_nat k) = bit k.
Proof. apply N.shiftl_1_l. Qed.
Lemma masked c k (x : N) : (if (N.land c (bit k) =? 0)%N then 0 else x)%N = if occ c k then x else 0%N.
Proof. rewrite land_bit. destruct (occ c k); reflexivity. Qed.

(* ---------------------------------------------------------------- permuted configurations *)

Section Perm.
  Variables (n : nat) (p : list nat).
  Hypothesis Hp : is_perm n p.
  Definition moved (c : N) : list (bool * nat) := map (fun l => (spin n c l, n - 1 - nth l p 0)) (seq 0 n).
  Lemma permuted_fold c : forall ls acc, fold_left (fun acc l => let m := N.shiftl 1 (N.of_nat (n - 1 - l)) in let m' := N.shiftl 1 (N.of_nat (n - 1 - nth l p 0)) in
      (acc + (if N.land c m =? 0 then 0 else m'))%N) ls acc = pack (map (fun l => (spin n c l, n - 1 - nth l p 0)) ls) acc.
  Proof. unfold pack. induction ls as [|l ls IH]; intros acc; [reflexivity|]. cbn [map fold_left]. rewrite <- IH. cbv zeta. rewrite !shiftl_bit, masked. reflexivity. Qed.
  Lemma permuted_pack c : permuted_conf p c n = pack (moved c) 0.
  Proof. apply permuted_fold. Qed.
  Lemma pnth i : i < n -> nth i p 0 < n.
  Proof. intros H. apply (is_perm_in n p); auto. apply nth_In. rewrite (p_length n p Hp). auto. Qed.
  Lemma moved_nodup c : NoDup (map snd (moved c)).
  Proof.
    unfold moved. rewrite map_map. cbn [snd]. assert (X : NoDup (map (fun l => nth l p 0) (seq 0 n))).
    { rewrite <- (p_length n p Hp), map_nth_seq. apply (perm_nodup n); auto. }
    rewrite <- (map_map (fun l => nth l p 0) (fun x => n - 1 - x)). apply L_Cluster.NoDup_map_inj; auto.
    intros x y Hx Hy E. apply in_map_iff in Hx, Hy. destruct Hx as (i & <- & Hi), Hy as (j & <- & Hj). apply in_seq in Hi, Hj. pose proof (pnth i). pose proof (pnth j). lia.
  Qed.
  Lemma permuted_spin c l : l < n -> spin n (permuted_conf p c n) (nth l p 0) = spin n c l.
  Proof.
    intros Hl. rewrite permuted_pack. destruct (pack_occ (moved c) 0%N (moved_nodup c)) as [H _]; [intros; apply N.bits_0|].
    apply (H (spin n c l, n - 1 - nth l p 0)). unfold moved. apply in_map_iff. exists l. split; auto. apply in_seq. lia.
  Qed.
  Lemma permuted_conf_ok c : configuration n (permuted_conf p c n).
  Proof.
    apply conf_bits. intros k Hk. rewrite permuted_pack. destruct (pack_occ (moved c) 0%N (moved_nodup c)) as [_ H]; [intros; apply N.bits_0|].
    specialize (H (N.to_nat k)). unfold occ in H. rewrite N2Nat.id, N.bits_0 in H. apply H. intros Hin. unfold moved in Hin. rewrite map_map in Hin. cbn [snd] in Hin.
    apply in_map_iff in Hin. destruct Hin as (l & E & Hl). apply in_seq in Hl. lia.
  Qed.
  Lemma permuted_inj c d : configuration n c -> configuration n d -> permuted_conf p c n = permuted_conf p d n -> c = d.
  Proof. intros Hc Hd E. apply (spin_ext n); auto. intros i Hi. rewrite <- (permuted_spin c i Hi), <- (permuted_spin d i Hi), E. reflexivity. Qed.
  (** Every configuration is the image of one. *)
  Lemma permuted_onto d : configuration n d -> exists c, configuration n c /\ permuted_conf p c n = d.
  Proof.
    intros Hd. assert (I : incl (all_confs n) (map (fun c => permuted_conf p c n) (all_confs n))).
    { apply NoDup_length_incl.
      - apply L_Cluster.NoDup_map_inj; [|apply confs_nodup]. intros x y Hx Hy. apply permuted_inj; apply in_confs; auto.
      - rewrite map_length. auto.
      - intros x Hx. apply in_map_iff in Hx. destruct Hx as (c & <- & _). apply in_confs. apply permuted_conf_ok. }
    specialize (I d (proj2 (in_confs n d) Hd)). apply in_map_iff in I. destruct I as (c & E & Hc). exists c. split; auto. apply in_confs; auto.
  Qed.
  Lemma sum_permuted f : sum_confs n (fun c => f (permuted_conf p c n)) = sum_confs n f.
  Proof.
    unfold sum_confs. rewrite <- (map_map (fun c => permuted_conf p c n) f). apply L_Symm3.gsum_perm. apply Permutation_map.
    apply NoDup_Permutation_bis.
    - apply L_Cluster.NoDup_map_inj; [|apply confs_nodup]. intros x y Hx Hy. apply permuted_inj; apply in_confs; auto.
    - rewrite map_length. auto.
    - intros x Hx. apply in_map_iff in Hx. destruct Hx as (c & <- & _). apply in_confs. apply permuted_conf_ok.
  Qed.
End Perm.

(* ---------------------------------------------------------------- apply_transformation *)

Lemma conf_nat n c : configuration n c <-> N.to_nat c < 2 ^ n.
Proof. unfold configuration. rewrite pow2_of_nat. lia. Qed.
Lemma nth_error_default (l : list GC) i d : nth i l d = match nth_error l i with Some x => x | None => d end.
Proof. revert i. induction l as [|x l IH]; intros [|i]; cbn; auto. Qed.
Section Trans.
  Variables (n : nat) (p : list nat) (v : list GC).
  Hypothesis Hp : is_perm n p.
  Hypothesis Hv : length v = 2 ^ n.
  Notation step := (fun acc conf => let! x := of_option IndexError (nth_error v (N.to_nat conf)) in
          let i := N.to_nat (permuted_conf p conf n) in if i <? length acc then Ok (list_set acc i x) else Err IndexError).
  Lemma set_loop : forall l acc, NoDup l -> (forall c, In c l -> configuration n c) -> length acc = 2 ^ n ->
    exists acc', rfold step l acc = Ok acc' /\ length acc' = 2 ^ n /\
      (forall c, In c l -> nth_error acc' (N.to_nat (permuted_conf p c n)) = nth_error v (N.to_nat c)) /\
      (forall d, (forall c, In c l -> permuted_conf p c n <> d) -> nth_error acc' (N.to_nat d) = nth_error acc (N.to_nat d)).
  Proof.
    induction l as [|c l IH]; intros acc ND Hc La.
    - exists acc. split; [reflexivity|]. split; auto. split; [intros c []|]. auto.
    - apply NoDup_cons_iff in ND. destruct ND as [Nc ND]. cbn [rfold].
      assert (Cc := Hc c (or_introl eq_refl)). pose proof (proj1 (conf_nat n c) Cc) as Lc.
      destruct (nth_error v (N.to_nat c)) as [x|] eqn:Ex; [|apply nth_error_None in Ex; lia]. cbn [of_option rbind].
      pose proof (proj1 (conf_nat n _) (permuted_conf_ok n p Hp c)) as Lp. rewrite La, (proj2 (Nat.ltb_lt _ _) Lp). cbn [rbind].
      destruct (IH (list_set acc (N.to_nat (permuted_conf p c n)) x) ND) as (acc' & E & L' & I1 & I2); [intros; apply Hc; right; auto | rewrite list_set_length; auto |].
      exists acc'. split; auto. split; auto. split.
      + intros d [<-|Hd]; auto. rewrite I2.
        * rewrite list_set_nth, Nat.eqb_refl, La, (proj2 (Nat.ltb_lt _ _) Lp). auto.
        * intros e He E'. apply (permuted_inj n p Hp) in E'; auto; [subst; contradiction | apply Hc; right; auto].
      + intros d Hd. rewrite I2 by (intros e He; apply Hd; right; auto). rewrite list_set_nth.
        destruct (Nat.eqb_spec (N.to_nat (permuted_conf p c n)) (N.to_nat d)) as [E'|]; auto. exfalso. apply (Hd c (or_introl eq_refl)). lia.
  Qed.
  Theorem transformed : exists w, apply_transformation (Some p) v n = Ok w /\ length w = 2 ^ n /\
    forall c, configuration n c -> amplitude w (permuted_conf p c n) = amplitude v c.
  Proof.
    unfold apply_transformation. rewrite (p_length n p Hp), Nat.eqb_refl.
    destruct (set_loop (confs n) (repeat g0 (2 ^ n)) (confs_nodup n) ltac:(intros c Hc; apply in_confs; auto) (repeat_length _ _)) as (w & E & L & H & _).
    exists w. split; auto. split; auto. intros c Hc. unfold amplitude. specialize (H c (proj2 (in_confs n c) Hc)). rewrite !nth_error_default, H. reflexivity.
  Qed.
End Trans.

(* ---------------------------------------------------------------- renamed strings *)

Lemma gprod_perm (l m : list GC) : Permutation l m -> gprod l = gprod m.
Proof. induction 1; auto; rewrite ?gprod_cons; [congruence | ring | congruence]. Qed.
Lemma gprod_nth (g : nat -> GC) (p : list nat) : gprod (map g p) = gprod (map (fun i => g (nth i p 0)) (seq 0 (length p))).
Proof. rewrite <- (map_nth_seq p) at 1. rewrite map_map. reflexivity. Qed.
Section Placed.
  Variables (n : nat) (ls : list nat) (s : OS).
  Hypothesis Nd : NoDup ls.
  Hypothesis Rg : forall l, In l ls -> l < n.
  Hypothesis Hs : string_ok Pauli s.
  Hypothesis Hl : labels_in (length ls) s.
  Notation f := (fun l => Z.of_nat (nth (Z.to_nat l) ls 0)).
  Lemma placed_body : body (placed ls s) = map (fun q => (fst q, f (snd q))) (body s).
  Proof. unfold body, placed. cbn [os_ops os_labels]. exact (L_Trans3.map_combine_r f (os_ops s) (os_labels s)). Qed.
  Lemma body_range q : In q (body s) -> (0 <= snd q < Z.of_nat (length ls))%Z.
  Proof. destruct q as [o l]. intros H. apply in_combine_r in H. auto. Qed.
  Lemma f_inj l m : (0 <= l < Z.of_nat (length ls))%Z -> (0 <= m < Z.of_nat (length ls))%Z -> f l = f m -> l = m.
  Proof. intros H1 H2 E. apply Nat2Z.inj in E. apply (proj1 (NoDup_nth ls 0) Nd) in E; lia. Qed.
  Lemma find_placed : forall ol, (forall q, In q ol -> (0 <= snd q < Z.of_nat (length ls))%Z) -> forall i, i < length ls ->
    op_find (map (fun q => (fst q, f (snd q))) ol) (Z.of_nat (nth i ls 0)) = op_find ol (Z.of_nat i).
  Proof.
    induction ol as [|[o l] ol IH]; intros H i Hi; [reflexivity|]. cbn [map fst snd]. rewrite !op_find_cons, IH; [|intros; apply H; right; auto | auto].
    pose proof (H (o, l) (or_introl eq_refl)) as Hl0. cbn [snd] in Hl0.
    destruct (Z.eqb_spec (Z.of_nat (nth (Z.to_nat l) ls 0)) (Z.of_nat (nth i ls 0))) as [E|E], (Z.eqb_spec l (Z.of_nat i)) as [E'|E']; auto; exfalso.
    - apply E'. apply f_inj; auto; [lia|]. rewrite Nat2Z.id. exact E.
    - apply E. subst l. rewrite Nat2Z.id. reflexivity.
  Qed.
  Lemma placed_at i : i < length ls -> op_at (placed ls s) (Z.of_nat (nth i ls 0)) = op_at s (Z.of_nat i).
  Proof. intros H. change (op_find (body (placed ls s)) (Z.of_nat (nth i ls 0)) = op_find (body s) (Z.of_nat i)). rewrite placed_body. apply find_placed; auto. intros q Hq. apply body_range; auto. Qed.
  Lemma placed_out j : ~ In j ls -> op_at (placed ls s) (Z.of_nat j) = None.
  Proof.
    intros H. change (op_find (body (placed ls s)) (Z.of_nat j) = None). apply op_find_none. rewrite placed_body, map_map. cbn [snd]. intros Hin.
    apply in_map_iff in Hin. destruct Hin as (q & E & Hq). apply Nat2Z.inj in E. apply H. rewrite <- E. apply nth_In. pose proof (body_range q Hq). lia.
  Qed.
  Lemma placed_spins : in_spins n (placed ls s).
  Proof.
    destruct (in_spins_of (length ls) s Hs Hl) as [H1 H2 H3 H4 H5]. split; auto; rewrite ?placed_body.
    - intros q Hq. apply in_map_iff in Hq. destruct Hq as (x & <- & Hx). cbn [snd]. pose proof (body_range x Hx). pose proof (Rg (nth (Z.to_nat (snd x)) ls 0) ltac:(apply nth_In; lia)). lia.
    - rewrite map_map. cbn [snd]. rewrite <- (map_map snd f). apply NoDup_map_inj; auto. intros x y Hx Hy. apply in_map_iff in Hx, Hy. destruct Hx as (a & <- & Ha), Hy as (b & <- & Hb). apply f_inj; apply body_range; auto.
    - intros q Hq. apply in_map_iff in Hq. destruct Hq as (x & <- & Hx). cbn [fst]. auto.
  Qed.
End Placed.

Lemma placed_permuted n p s r c : is_perm n p -> string_ok Pauli s -> labels_in n s ->
  string_matrix n (placed p s) (permuted_conf p r n) (permuted_conf p c n) = string_matrix n s r c.
Proof.
  intros Hp Hs Hl. unfold string_matrix, tensor. rewrite <- (gprod_perm _ _ (Permutation_map _ Hp)), gprod_nth, (p_length n p Hp).
  apply gprod_ext. intros i Hi. apply in_seq in Hi. rewrite !(permuted_spin n p Hp) by lia.
  rewrite placed_at; [reflexivity | apply (perm_nodup n); auto | rewrite (p_length n p Hp); auto | rewrite (p_length n p Hp); lia].
Qed.
Lemma image_placed {A : StarAlg} (g : op -> Z -> A) p s : image false (renamed (pfun p) g) s = den g (placed p s).
Proof.
  unfold image, den, placed. cbn [os_ops os_labels os_pref]. do 2 f_equal. rewrite (L_Trans3.map_combine_r (pfun p)), map_map. reflexivity.
Qed.

(** A matrix with permuted indices acts on permuted vectors. *)
Lemma permuted_action n p (M N : N -> N -> GC) v w u u' : is_perm n p -> length v = 2 ^ n -> length u = 2 ^ n ->
  (forall r c, configuration n r -> configuration n c -> N (permuted_conf p r n) (permuted_conf p c n) = M r c) ->
  apply_transformation (Some p) v n = Ok w -> apply_transformation (Some p) u n = Ok u' ->
  (forall c, configuration n c -> amplitude u c = mat_vec n M (amplitude v) c) ->
  forall c, configuration n c -> amplitude u' c = mat_vec n N (amplitude w) c.
Proof.
  intros Hp Lv Lu HN Ew Eu Hu c Hc.
  destruct (transformed n p v Hp Lv) as (w' & Ew' & _ & Aw). rewrite Ew in Ew'. injection Ew' as <-.
  destruct (transformed n p u Hp Lu) as (u1 & Eu' & _ & Au). rewrite Eu in Eu'. injection Eu' as <-.
  destruct (permuted_onto n p Hp c Hc) as (d & Hd & <-). rewrite (Au d Hd), (Hu d Hd). unfold mat_vec.
  rewrite <- (sum_permuted n p Hp (fun x => gmul (N (permuted_conf p d n) x) (amplitude w x))). apply sum_confs_ext. intros x Hx. rewrite (HN d x Hd Hx), (Aw x Hx). reflexivity.
Qed.
Theorem permuted_string n p s v : is_perm n p -> string_ok Pauli s -> labels_in n s -> length v = 2 ^ n ->
  exists o M N w, apply (label_permutation (map Z.of_nat p)) (TString s) = Ok o /\ to_matrix (MString s) n = Ok M /\ to_matrix (MOperator o) n = Ok N /\
    apply_transformation (Some p) v n = Ok w /\
    forall u u', length u = 2 ^ n -> (forall c, configuration n c -> amplitude u c = mat_vec n (entry M) (amplitude v) c) ->
      apply_transformation (Some p) u n = Ok u' -> forall c, configuration n c -> amplitude u' c = mat_vec n (entry N) (amplitude w) c.
Proof.
  intros Hp Hs Hl Lv. assert (Lp : length (map Z.of_nat p) = n) by (rewrite map_length; apply p_length; auto).
  destruct (permutation_string Pauli (map Z.of_nat p) (pfun p) s ltac:(discriminate) (perm_permutes n p Hp) Hs ltac:(rewrite Lp; exact Hl)) as (k & t & (o & Eo & To & Ts) & Hk & Ht & Ct & Rt & _ & D).
  rewrite Lp in Rt.
  destruct (string_entries n s (in_spins_of n s Hs Hl)) as (M & EM & _ & HM).
  destruct (operator_entries n o) as (N & EN & _ & HN). { rewrite Ts. intros x [<-|[]]. apply in_spins_of; auto. }
  destruct (transformed n p v Hp Lv) as (w & Ew & _ & _). exists o, M, N, w. do 4 (split; auto). intros u u' Lu Hu Eu.
  apply (permuted_action n p (entry M) (entry N) v w u u'); auto. intros r c Hr Hc.
  rewrite HN, HM by (auto; apply permuted_conf_ok; auto). unfold terms_matrix. rewrite Ts. cbn [map fst snd].
  pose proof (D Fock (gn n) (gn_rep n)) as [Dn _]. specialize (Dn (delta (permuted_conf p c n)) (permuted_conf p r n)). rewrite image_placed in Dn.
  change (fo (k · den (gn n) t : Fock)%alg ?a ?b) with (gmul k (fo (den (gn n) t : Fock) a b)) in Dn.
  assert (Pl : in_spins n (placed p s)).
  { apply placed_spins; auto; [apply (perm_nodup n); auto | intros l Hl'; apply (is_perm_in n p); auto | rewrite (p_length n p Hp); auto]. }
  rewrite !fock_entry in Dn by (auto using in_spins_of; apply permuted_conf_ok; auto).
  rewrite placed_permuted in Dn by auto. rewrite Dn. cbn. ring.
Qed.
