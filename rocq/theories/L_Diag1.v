(** Bits, configurations and sums over configurations. *)
From Coq Require Import List Arith Lia ZArith NArith Bool Permutation Ring.
From Verif Require Import GC Exn M_OpString M_Basis M_OpAlg M_Diag S_Diag L_Alg L_Sum.
Import ListNotations.
Local Open Scope nat_scope.

Lemma pow2_of_nat n : (2 ^ N.of_nat n)%N = N.of_nat (2 ^ n).
Proof. induction n; [reflexivity|]. rewrite Nat2N.inj_succ, N.pow_succ_r', IHn, Nat.pow_succ_r', Nat2N.inj_mul. reflexivity. Qed.
Lemma in_confs n c : In c (all_confs n) <-> configuration n c.
Proof.
  unfold all_confs, configuration. rewrite pow2_of_nat. rewrite in_map_iff. split.
  - intros (k & <- & H). apply in_seq in H. lia.
  - intros H. exists (N.to_nat c). split; [apply N2Nat.id|]. apply in_seq. lia.
Qed.
Lemma confs_nodup n : NoDup (all_confs n).
Proof. unfold all_confs. apply FinFun.Injective_map_NoDup; [intros a b; apply Nat2N.inj | apply seq_NoDup]. Qed.

Lemma gprod_app l m : gprod (l ++ m) = gmul (gprod l) (gprod m).
Proof. unfold gprod. induction l as [|x l IH]; cbn [app fold_right]; [ring|]. rewrite IH. ring. Qed.
Lemma gprod_cons x l : gprod (x :: l) = gmul x (gprod l).
Proof. reflexivity. Qed.
Lemma gsum_cons x l : gsum (x :: l) = gadd x (gsum l).
Proof. reflexivity. Qed.
Lemma gprod_mul {T} (f g : T -> GC) l : gprod (map (fun x => gmul (f x) (g x)) l) = gmul (gprod (map f l)) (gprod (map g l)).
Proof. induction l as [|x l IH]; cbn [map]; rewrite ?gprod_cons, ?IH; [cbn; ring | ring]. Qed.
Lemma gprod_ext {T} (f g : T -> GC) l : (forall x, In x l -> f x = g x) -> gprod (map f l) = gprod (map g l).
Proof. intros H. f_equal. apply map_ext_in. auto. Qed.
Lemma gprod_conj {T} (f : T -> GC) l : gconj (gprod (map f l)) = gprod (map (fun x => gconj (f x)) l).
Proof. induction l as [|x l IH]; cbn [map]; [apply gconj_1|]. rewrite !gprod_cons, gconj_mul, IH. reflexivity. Qed.
Lemma gprod_zero {T} (f : T -> GC) l x : In x l -> f x = g0 -> gprod (map f l) = g0.
Proof. induction l as [|y l IH]; intros H E; [destruct H|]. cbn [map]; rewrite gprod_cons. destruct H as [->|H]; [rewrite E; ring | rewrite IH; auto; ring]. Qed.
Lemma gprod_one {T} (f : T -> GC) l : (forall x, In x l -> f x = g1) -> gprod (map f l) = g1.
Proof. induction l as [|y l IH]; intros H; [reflexivity|]. cbn [map]. rewrite gprod_cons, H, IH; [ring | intros; apply H; right; auto | left; auto]. Qed.

(* ---------------------------------------------------------------- spins *)

Lemma spin_ext n a b : configuration n a -> configuration n b -> (forall i, i < n -> spin n a i = spin n b i) -> a = b.
Proof.
  intros Ha Hb H. apply N.bits_inj. intros k. destruct (N.lt_ge_cases k (N.of_nat n)) as [L|L].
  - specialize (H (n - 1 - N.to_nat k) ltac:(lia)). unfold spin in H. replace (n - 1 - (n - 1 - N.to_nat k)) with (N.to_nat k) in H by lia. rewrite N2Nat.id in H. exact H.
  - assert (X : forall c, configuration n c -> N.testbit c k = false).
    { intros c Hc. unfold configuration in Hc. rewrite <- (N.mod_small c (2 ^ N.of_nat n)) by auto. apply N.mod_pow2_bits_high. lia. }
    rewrite !X; auto.
Qed.
Lemma conf_bits n c : (forall k, (N.of_nat n <= k)%N -> N.testbit c k = false) -> configuration n c.
Proof.
  intros H. unfold configuration. destruct (N.eq_dec c 0) as [->|Nz]; [apply N.neq_0_lt_0, N.pow_nonzero; lia|].
  apply N.log2_lt_pow2; [lia|]. destruct (N.lt_ge_cases (N.log2 c) (N.of_nat n)) as [L|L]; auto.
  specialize (H _ L). rewrite N.bit_log2 in H; auto. discriminate.
Qed.
Lemma conf_high n c k : configuration n c -> (N.of_nat n <= k)%N -> N.testbit c k = false.
Proof. intros Hc L. unfold configuration in Hc. rewrite <- (N.mod_small c (2 ^ N.of_nat n)) by auto. apply N.mod_pow2_bits_high. lia. Qed.
Lemma conf_xor n a b : configuration n a -> configuration n b -> configuration n (N.lxor a b).
Proof. intros Ha Hb. apply conf_bits. intros k Hk. rewrite N.lxor_spec, !(conf_high n) by auto. reflexivity. Qed.
Lemma spin_xor n a b i : spin n (N.lxor a b) i = xorb (spin n a i) (spin n b i).
Proof. apply N.lxor_spec. Qed.

(** The first spin and the others. *)
Lemma spin_low n c i : i < n -> spin (S n) c (S i) = spin n c i.
Proof. intros H. unfold spin. f_equal. f_equal. lia. Qed.
Lemma spin_first_low n c : configuration n c -> spin (S n) c 0 = false.
Proof. intros H. unfold spin. apply (conf_high n); auto. lia. Qed.
Lemma add_high n c : configuration n c -> (c + 2 ^ N.of_nat n)%N = N.lxor c (2 ^ N.of_nat n).
Proof.
  intros H. symmetry. rewrite N.lxor_lor.
  - symmetry. rewrite N.add_nocarry_lxor; [rewrite N.lxor_lor; auto|]; apply N.bits_inj_0; intros k; rewrite N.land_spec, N.pow2_bits_eqb;
    destruct (N.eqb_spec (N.of_nat n) k); [subst; rewrite (conf_high n c) by (auto; lia); auto | apply andb_false_r | subst; rewrite (conf_high n c) by (auto; lia); auto | apply andb_false_r].
  - apply N.bits_inj_0; intros k; rewrite N.land_spec, N.pow2_bits_eqb; destruct (N.eqb_spec (N.of_nat n) k); [subst; rewrite (conf_high n c) by (auto; lia); auto | apply andb_false_r].
Qed.
Lemma spin_high n c : configuration n c -> spin (S n) (c + 2 ^ N.of_nat n) 0 = true.
Proof. intros H. rewrite (add_high n c H). unfold spin. rewrite N.lxor_spec, N.pow2_bits_eqb. replace (S n - 1 - 0) with n by lia. rewrite N.eqb_refl, (conf_high n) by (auto; lia). reflexivity. Qed.
Lemma spin_high_low n c i : configuration n c -> i < n -> spin (S n) (c + 2 ^ N.of_nat n) (S i) = spin n c i.
Proof.
  intros H Hi. rewrite (add_high n c H), (spin_low n _ i Hi). unfold spin. rewrite N.lxor_spec, N.pow2_bits_eqb.
  destruct (N.eqb_spec (N.of_nat n) (N.of_nat (n - 1 - i))); [lia | apply xorb_false_r].
Qed.
Lemma seq_from k : forall m j, seq (k + j) m = map (fun x => k + x) (seq j m).
Proof. induction m as [|m IH]; intros j; cbn [seq map]; auto. f_equal. rewrite <- IH. f_equal. lia. Qed.
Lemma confs_split n f : sum_confs (S n) f = gadd (sum_confs n f) (sum_confs n (fun c => f (c + 2 ^ N.of_nat n)%N)).
Proof.
  unfold sum_confs, all_confs. replace (2 ^ S n) with (2 ^ n + 2 ^ n) by (cbn [Nat.pow]; lia). rewrite seq_app, !map_app, gsum_app. f_equal.
  rewrite !map_map. rewrite Nat.add_0_l.
  replace (seq (2 ^ n) (2 ^ n)) with (map (fun k => k + 2 ^ n) (seq 0 (2 ^ n))).
  - rewrite map_map. apply gsum_map_ext. intros k _. rewrite pow2_of_nat, Nat2N.inj_add. reflexivity.
  - rewrite <- (Nat.add_0_r (2 ^ n)) at 2. rewrite seq_from. apply map_ext; intros; lia.
Qed.

(** Sums of products factor. *)
Lemma sum_factor n : forall F : nat -> bool -> GC,
  sum_confs n (fun c => gprod (map (fun i => F i (spin n c i)) (seq 0 n))) = gprod (map (fun i => gadd (F i false) (F i true)) (seq 0 n)).
Proof.
  induction n as [|n IH]; intros F; [unfold sum_confs, all_confs; cbn; ring|].
  rewrite confs_split. cbn [seq map]. rewrite <- seq_shift, map_map.
  transitivity (gadd (gmul (F 0 false) (gprod (map (fun i => gadd (F (S i) false) (F (S i) true)) (seq 0 n)))) (gmul (F 0 true) (gprod (map (fun i => gadd (F (S i) false) (F (S i) true)) (seq 0 n))))).
  - rewrite <- (IH (fun i => F (S i))). unfold sum_confs. f_equal.
    + rewrite <- gsum_map_mul. apply gsum_map_ext. intros c Hc. apply in_confs in Hc. rewrite gprod_cons, (spin_first_low n c Hc), map_map. f_equal.
      apply gprod_ext. intros i Hi. apply in_seq in Hi. rewrite (spin_low n c i) by lia. reflexivity.
    + rewrite <- gsum_map_mul. apply gsum_map_ext. intros c Hc. apply in_confs in Hc. rewrite gprod_cons, (spin_high n c Hc), map_map. f_equal.
      apply gprod_ext. intros i Hi. apply in_seq in Hi. rewrite (spin_high_low n c i) by (auto; lia). reflexivity.
  - rewrite gprod_cons. ring.
Qed.
Lemma sum_confs_ext n f g : (forall c, configuration n c -> f c = g c) -> sum_confs n f = sum_confs n g.
Proof. intros H. apply gsum_map_ext. intros c Hc. apply H, in_confs; auto. Qed.
Lemma sum_confs_mul n k f : sum_confs n (fun c => gmul k (f c)) = gmul k (sum_confs n f).
Proof. apply gsum_map_mul. Qed.
Lemma sum_confs_add n f g : sum_confs n (fun c => gadd (f c) (g c)) = gadd (sum_confs n f) (sum_confs n g).
Proof. apply gsum_map_add. Qed.
Lemma sum_confs_swap n m (f : N -> N -> GC) : sum_confs n (fun r => sum_confs m (f r)) = sum_confs m (fun c => sum_confs n (fun r => f r c)).
Proof. apply gsum_swap. Qed.
Lemma gsum_pick (f : N -> GC) l c : NoDup l -> In c l -> gsum (map (fun x => if (x =? c)%N then f x else g0) l) = f c.
Proof.
  induction l as [|y l IH]; intros ND H; [destruct H|]. cbn [map]. rewrite gsum_cons. apply NoDup_cons_iff in ND. destruct ND as [Ny ND].
  destruct H as [->|H].
  - rewrite N.eqb_refl, gsum_map_zero; [ring|]. intros x Hx. destruct (N.eqb_spec x c); auto. subst; contradiction.
  - destruct (N.eqb_spec y c); [subst; contradiction|]. rewrite IH by auto. ring.
Qed.
Lemma sum_pick n (f : N -> GC) c : configuration n c -> sum_confs n (fun x => if (x =? c)%N then f x else g0) = f c.
Proof. intros H. apply gsum_pick; [apply confs_nodup | apply in_confs; auto]. Qed.
(** A double sum of products factors too. *)
Lemma sum_factor2 n (F : nat -> bool -> bool -> GC) :
  sum_confs n (fun r => sum_confs n (fun c => tensor n F r c)) = gprod (map (fun i => gadd (gadd (F i false false) (F i false true)) (gadd (F i true false) (F i true true))) (seq 0 n)).
Proof.
  transitivity (sum_confs n (fun r => gprod (map (fun i => gadd (F i (spin n r i) false) (F i (spin n r i) true)) (seq 0 n)))).
  - apply sum_confs_ext. intros r _. apply (sum_factor n (fun i => F i (spin n r i))).
  - apply (sum_factor n (fun i x => gadd (F i x false) (F i x true))).
Qed.
(** The product of tensor products is the tensor product of the products. *)
Lemma tensor_mul n F G r c : mat_mul n (tensor n F) (tensor n G) r c = tensor n (fun i x y => gadd (gmul (F i x false) (G i false y)) (gmul (F i x true) (G i true y))) r c.
Proof.
  unfold mat_mul, tensor. rewrite <- (sum_factor n (fun i m => gmul (F i (spin n r i) m) (G i m (spin n c i)))).
  apply sum_confs_ext. intros m _. rewrite gprod_mul. reflexivity.
Qed.
