(** Powers of reduced density matrices. *)
From Coq Require Import List Arith Lia ZArith NArith Bool Permutation Ring QArith Qcanon.
From Verif Require Import GC Exn M_OpAlg M_Diag S_Diag L_Sum L_Perm L_Operator L_Diag1 L_Diag2 L_Diag3 L_Diag4 L_Diag5 L_Cluster M_Entropy.
Import ListNotations.
Local Open Scope nat_scope.

(** The [m]-th power as computed. *)
Definition pw (k : nat) (M : N -> N -> GC) (m : nat) : N -> N -> GC := Nat.iter m (fun P => np_dot k P M) np_eye.
Lemma power_pw k M m : rho_power k M (Z.of_nat m) = pw k M m.
Proof. unfold rho_power. rewrite Nat2Z.id. reflexivity. Qed.
Lemma dot_sum k A B a c : np_dot k A B a c = sum_confs k (fun b => gmul (A a b) (B b c)).
Proof. reflexivity. Qed.
Lemma trace_sum k A : np_trace k A = trace k A.
Proof. reflexivity. Qed.
Lemma pw_0 k M a b : pw k M 0 a b = np_eye a b.
Proof. reflexivity. Qed.
Lemma pw_S k M m a c : pw k M (S m) a c = sum_confs k (fun b => gmul (pw k M m a b) (M b c)).
Proof. reflexivity. Qed.
Lemma eye_mul k (f : N -> GC) a : configuration k a -> sum_confs k (fun b => gmul (np_eye a b) (f b)) = f a.
Proof.
  intros Ha. rewrite <- (sum_pick k f a Ha). apply sum_confs_ext. intros b _. unfold np_eye. rewrite N.eqb_sym. destruct (b =? a)%N; ring.
Qed.
Lemma mul_eye k (f : N -> GC) a : configuration k a -> sum_confs k (fun b => gmul (f b) (np_eye b a)) = f a.
Proof.
  intros Ha. rewrite <- (sum_pick k f a Ha). apply sum_confs_ext. intros b _. unfold np_eye. destruct (b =? a)%N; ring.
Qed.
Lemma sum_confs_mul_r n k f : sum_confs n (fun c => gmul (f c) k) = gmul (sum_confs n f) k.
Proof. rewrite (sum_confs_ext n _ (fun c => gmul k (f c))) by (intros; ring). rewrite sum_confs_mul. ring. Qed.
Lemma sum_confs_conj n f : sum_confs n (fun c => gconj (f c)) = gconj (sum_confs n f).
Proof. apply gsum_map_conj. Qed.
(** Associativity. *)
Lemma mul_assoc k l (x : N -> GC) (Y : N -> N -> GC) (z : N -> GC) :
  sum_confs l (fun b => gmul (sum_confs k (fun a => gmul (x a) (Y a b))) (z b)) = sum_confs k (fun a => gmul (x a) (sum_confs l (fun b => gmul (Y a b) (z b)))).
Proof.
  transitivity (sum_confs l (fun b => sum_confs k (fun a => gmul (x a) (gmul (Y a b) (z b))))).
  - apply sum_confs_ext. intros b _. rewrite <- sum_confs_mul_r. apply sum_confs_ext. intros; ring.
  - rewrite sum_confs_swap. apply sum_confs_ext. intros a _. apply sum_confs_mul.
Qed.
Lemma pw_ext k M M' : (forall a b, configuration k a -> configuration k b -> M a b = M' a b) -> forall m a b, configuration k a -> configuration k b -> pw k M m a b = pw k M' m a b.
Proof.
  intros H. induction m as [|m IH]; intros a b Ha Hb; [reflexivity|]. rewrite !pw_S. apply sum_confs_ext. intros c Hc. rewrite IH, H; auto.
Qed.
Lemma pw_1 k M a b : configuration k a -> configuration k b -> pw k M 1 a b = M a b.
Proof. intros Ha Hb. rewrite pw_S. apply (eye_mul k (fun c => M c b)); auto. Qed.
Lemma pw_left k M m : forall a c, configuration k a -> configuration k c -> pw k M (S m) a c = sum_confs k (fun b => gmul (M a b) (pw k M m b c)).
Proof.
  induction m as [|m IH]; intros a c Ha Hc.
  - rewrite pw_1 by auto. symmetry. apply (mul_eye k (fun b => M a b)); auto.
  - rewrite pw_S. rewrite (sum_confs_ext k _ (fun b => gmul (sum_confs k (fun d => gmul (M a d) (pw k M m d b))) (M b c))) by (intros b Hb; rewrite IH; auto).
    rewrite mul_assoc. apply sum_confs_ext. intros d Hd. rewrite <- pw_S. reflexivity.
Qed.
(** Cyclic property: the powers of X Y and of Y X have the same trace. *)
Section Cycle.
  Variables (k l : nat) (X Y : N -> N -> GC).
  Definition XY (a c : N) : GC := sum_confs l (fun b => gmul (X a b) (Y b c)).
  Definition YX (b d : N) : GC := sum_confs k (fun a => gmul (Y b a) (X a d)).
  Lemma push m : forall a d, configuration k a -> configuration l d ->
    sum_confs k (fun c => gmul (pw k XY m a c) (X c d)) = sum_confs l (fun b => gmul (X a b) (pw l YX m b d)).
  Proof.
    induction m as [|m IH]; intros a d Ha Hd.
    - cbn [pw Nat.iter]. rewrite eye_mul by auto. rewrite (mul_eye l (fun b => X a b)); auto.
    - transitivity (sum_confs k (fun c => gmul (pw k XY m a c) (sum_confs l (fun b => gmul (X c b) (YX b d))))).
      + rewrite (sum_confs_ext k _ (fun c => gmul (sum_confs k (fun e => gmul (pw k XY m a e) (XY e c))) (X c d))) by (intros; rewrite pw_S; auto).
        rewrite mul_assoc. apply sum_confs_ext. intros e He. f_equal. unfold XY, YX. rewrite mul_assoc. reflexivity.
      + rewrite <- mul_assoc. rewrite (sum_confs_ext l _ (fun b => gmul (sum_confs l (fun e => gmul (X a e) (pw l YX m e b))) (YX b d))) by (intros b Hb; rewrite IH; auto).
        rewrite mul_assoc. apply sum_confs_ext. intros e He. rewrite <- pw_S. reflexivity.
  Qed.
  Lemma cycle m : trace k (pw k XY (S m)) = trace l (pw l YX (S m)).
  Proof.
    unfold trace. transitivity (sum_confs k (fun a => sum_confs l (fun d => gmul (sum_confs k (fun c => gmul (pw k XY m a c) (X c d))) (Y d a)))).
    { apply sum_confs_ext. intros a Ha. rewrite pw_S. unfold XY. rewrite mul_assoc. reflexivity. }
    transitivity (sum_confs k (fun a => sum_confs l (fun d => gmul (sum_confs l (fun b => gmul (X a b) (pw l YX m b d))) (Y d a)))).
    { apply sum_confs_ext. intros a Ha. apply sum_confs_ext. intros d Hd. rewrite push; auto. }
    transitivity (sum_confs k (fun a => sum_confs l (fun b => gmul (X a b) (sum_confs l (fun d => gmul (pw l YX m b d) (Y d a)))))).
    { apply sum_confs_ext. intros a Ha. apply mul_assoc. }
    rewrite sum_confs_swap. apply sum_confs_ext. intros b Hb. rewrite pw_S.
    transitivity (sum_confs k (fun a => gmul (sum_confs l (fun d => gmul (pw l YX m b d) (Y d a))) (X a b))). { apply sum_confs_ext. intros; ring. }
    rewrite mul_assoc. reflexivity.
  Qed.
End Cycle.
(** Transposition. *)
Lemma pw_transpose k M m : forall a b, configuration k a -> configuration k b -> pw k (fun x y => M y x) m a b = pw k M m b a.
Proof.
  induction m as [|m IH]; intros a b Ha Hb; [rewrite !pw_0; unfold np_eye; rewrite N.eqb_sym; auto|].
  rewrite pw_S, pw_left by auto. apply sum_confs_ext. intros c Hc. rewrite IH by auto. ring.
Qed.
Lemma pw_conj k M m : forall a b, pw k (fun x y => gconj (M x y)) m a b = gconj (pw k M m a b).
Proof.
  induction m as [|m IH]; intros a b; [rewrite !pw_0; unfold np_eye; destruct (a =? b)%N; symmetry; [apply gconj_1 | apply gconj_0]|].
  rewrite !pw_S, <- sum_confs_conj. apply sum_confs_ext. intros c Hc. rewrite gconj_mul, IH. ring.
Qed.
(** Renaming of the indices. *)
Lemma pw_rename k k' M M' (f : N -> N) : (forall a, configuration k a -> configuration k' (f a)) ->
  (forall a b, configuration k a -> configuration k b -> f a = f b -> a = b) ->
  (forall F, sum_confs k' F = sum_confs k (fun a => F (f a))) ->
  (forall a b, configuration k a -> configuration k b -> M' (f a) (f b) = M a b) ->
  forall m a b, configuration k a -> configuration k b -> pw k' M' m (f a) (f b) = pw k M m a b.
Proof.
  intros Hf Inj Hs HM. induction m as [|m IH]; intros a b Ha Hb.
  - rewrite !pw_0. unfold np_eye. destruct (N.eqb_spec a b) as [->|E]; [rewrite N.eqb_refl; auto|]. destruct (N.eqb_spec (f a) (f b)); auto. exfalso; auto.
  - rewrite !pw_S, Hs. apply sum_confs_ext. intros c Hc. rewrite IH, HM; auto.
Qed.

(* ---------------------------------------------------------------- two orders of the same labels *)

Lemma perm_indices (L L' : list nat) : Permutation L' L -> exists p, Permutation p (seq 0 (length L)) /\ L' = map (fun i => nth i L 0) p.
Proof.
  intros H. assert (E : L = map (fun i => nth i L 0) (seq 0 (length L))).
  { apply (nth_ext _ _ 0 0); [rewrite map_length, seq_length; auto|]. intros i Hi.
    rewrite (nth_indep (map _ _) 0 (nth 0 L 0)) by (rewrite map_length, seq_length; auto). rewrite (map_nth (fun i => nth i L 0)), seq_nth by auto. reflexivity. }
  rewrite E in H. destruct (Permutation_map_inv _ _ H) as (p & Hp & P). exists p. split; auto. apply Permutation_sym; auto.
Qed.
Section Reorder.
  Variables (L L' : list nat).
  Hypothesis PL : Permutation L' L.
  Lemma reorder : exists f : N -> N, (forall a, configuration (length L') (f a)) /\
    (forall a b, configuration (length L) a -> configuration (length L) b -> f a = f b -> a = b) /\
    (forall F, sum_confs (length L') F = sum_confs (length L) (fun a => F (f a))) /\
    forall n c, f (pick n L c) = pick n L' c.
  Proof.
    destruct (perm_indices L L' PL) as (p & Pp & E). exists (pick (length L) p).
    assert (Lp : length p = length L) by (rewrite (Permutation_length Pp), seq_length; auto).
    assert (LL : length L' = length p) by (rewrite E, map_length; auto).
    assert (Nd : NoDup p) by (apply (Permutation_NoDup (Permutation_sym Pp)), seq_NoDup).
    assert (Rg : forall l, In l p -> l < length L) by (intros l Hl; apply (Permutation_in l Pp), in_seq in Hl; lia).
    assert (R0 : rest (length L) p = []).
    { pose proof (two_length (length L) p Nd Rg). destruct (rest (length L) p); auto. cbn [length] in *. lia. }
    split; [intros a; rewrite LL; apply pick_conf|]. split; [|split].
    - intros a b Ha Hb Eab. apply (two_inj (length L) p Nd Rg); auto. rewrite R0. reflexivity.
    - intros F. rewrite LL. pose proof (two_sum (length L) p Nd Rg (fun a _ => F a)) as H. rewrite R0 in H. rewrite <- H. apply sum_confs_ext. intros a _.
      unfold sum_confs. cbn. ring.
    - intros n c. apply (spin_ext (length p)); [apply pick_conf | rewrite <- LL; apply pick_conf |]. intros i Hi.
      rewrite pick_spin by auto. rewrite <- LL at 1. rewrite (pick_spin n L' c i) by lia. rewrite (pick_spin n L c) by (apply Rg, nth_In; auto).
      rewrite E. f_equal. rewrite (nth_indep (map _ p) 0 (nth 0 L 0)) by (rewrite map_length; auto). rewrite (map_nth (fun i => nth i L 0)). reflexivity.
  Qed.
End Reorder.
(** Every pair of configurations of the two parts comes from a configuration. *)
Lemma two_surj n A (Nd : NoDup A) (Rg : forall l, In l A -> l < n) a b : configuration (length A) a -> configuration (length (rest n A)) b ->
  exists c, configuration n c /\ pick n A c = a /\ pick n (rest n A) c = b.
Proof.
  intros Ha Hb. assert (P : Permutation (map (fun c => (pick n A c, pick n (rest n A) c)) (all_confs n)) (list_prod (all_confs (length A)) (all_confs (length (rest n A))))).
  { apply NoDup_Permutation_bis.
    - apply NoDup_map_inj; [|apply confs_nodup]. intros x y Hx Hy E. injection E as E1 E2. apply (two_inj n A Nd Rg); auto; apply in_confs; auto.
    - rewrite prod_length, map_length. unfold all_confs. rewrite !map_length, !seq_length, <- Nat.pow_add_r, two_length; auto.
    - intros x Hx. apply in_map_iff in Hx. destruct Hx as (c & <- & _). apply in_prod; apply in_confs; apply pick_conf. }
  assert (H : In (a, b) (map (fun c => (pick n A c, pick n (rest n A) c)) (all_confs n))).
  { apply (Permutation_in _ (Permutation_sym P)), in_prod; apply in_confs; auto. }
  apply in_map_iff in H. destruct H as (c & E & Hc). injection E as E1 E2. exists c. split; [apply in_confs|]; auto.
Qed.

Lemma nodup_app_l {T} (l m : list T) : NoDup (l ++ m) -> NoDup l.
Proof. induction l as [|x l IH]; intros H; [constructor|]. inversion_clear H. constructor; auto. intros Hx. apply H0, in_or_app; auto. Qed.
Lemma nodup_app_r {T} (l m : list T) : NoDup (l ++ m) -> NoDup m.
Proof. induction l as [|x l IH]; intros H; auto. inversion_clear H. auto. Qed.
(** Complementary subsystems, in any order. *)
Theorem complement_traces n A B v m : Permutation (A ++ B) (seq 0 n) -> length v = 2 ^ n ->
  exists ra rb, reduced_density_matrix (RVector v) (map Z.of_nat A) n = Ok ra /\ reduced_density_matrix (RVector v) (map Z.of_nat B) n = Ok rb /\
    trace (length A) (pw (length A) ra (S m)) = trace (length B) (pw (length B) rb (S m)).
Proof.
  intros P Lv. pose proof (Permutation_NoDup (Permutation_sym P) (seq_NoDup n 0)) as NdAB.
  assert (Rg : forall l, In l (A ++ B) -> l < n) by (intros l Hl; apply (Permutation_in l P), in_seq in Hl; lia).
  assert (NdA : NoDup A) by (apply (nodup_app_l _ _ NdAB)). assert (NdB : NoDup B) by (apply (nodup_app_r _ _ NdAB)).
  assert (RA : forall l, In l A -> l < n) by (intros; apply Rg, in_or_app; auto). assert (RB : forall l, In l B -> l < n) by (intros; apply Rg, in_or_app; auto).
  assert (PB : Permutation B (rest n A)).
  { apply (Permutation_app_inv_l A). rewrite P. apply Permutation_sym, two_perm; auto. }
  assert (PA : Permutation (rest n B) A).
  { apply (Permutation_app_inv_l B). rewrite (two_perm n B NdB RB). rewrite Permutation_app_comm. apply Permutation_sym; auto. }
  destruct (reshaped n A NdA RA v Lv) as (gA & EA & HA). destruct (reshaped n B NdB RB v Lv) as (gB & EB & HB).
  unfold reduced_density_matrix. rewrite EA, EB, !other_rest, !map_length. cbn [rbind]. do 2 eexists. do 2 (split; [reflexivity|]).
  destruct (reorder (rest n A) B PB) as (f & F1 & F2 & F3 & F4). destruct (reorder A (rest n B) PA) as (h & H1 & H2 & H3 & H4).
  set (la := length (rest n A)) in *.
  assert (G : forall a b, configuration (length A) a -> configuration la b -> gB (f b) (h a) = gA a b).
  { intros a b Ha Hb. destruct (two_surj n A NdA RA a b Ha Hb) as (c & Hc & <- & <-). rewrite F4, H4, HA, HB; auto. }
  transitivity (trace (length A) (pw (length A) (XY la gA (fun b a => gconj (gA a b))) (S m))); [reflexivity|].
  rewrite cycle. unfold trace at 2. rewrite F3. unfold trace. apply sum_confs_ext. intros b Hb.
  rewrite (pw_rename la (length B) (fun x y => YX (length A) gA (fun b a => gconj (gA a b)) y x) (outer gB gB (length (rest n B))) f); auto.
  - rewrite (pw_transpose la (YX (length A) gA (fun b a => gconj (gA a b)))) by auto. reflexivity.
  - intros x y Hx Hy. unfold outer, YX. change (gsum (map ?q (confs (length (rest n B))))) with (sum_confs (length (rest n B)) q).
    rewrite H3. apply sum_confs_ext. intros a Ha. rewrite !G by auto. ring.
Qed.
