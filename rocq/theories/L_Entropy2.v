(** Inequalities between the traces of powers of a reduced density matrix. *)
From Coq Require Import List Arith Lia ZArith NArith Bool Permutation Ring QArith Qcanon.
From Verif Require Import GC Exn M_OpAlg M_Diag S_Diag L_Sum L_Perm L_Operator L_Diag1 L_Diag2 L_Diag3 L_Diag4 L_Diag5 M_Entropy L_Entropy1.
Import ListNotations.
Local Open Scope nat_scope.

(** Non-negative reals. *)
Definition gpos (z : GC) : Prop := im z = 0%Qc /\ (0 <= re z)%Qc.
Lemma gpos_0 : gpos g0.
Proof. split; [reflexivity | apply Qcle_refl]. Qed.
Lemma qc_add_pos x y : (0 <= x -> 0 <= y -> 0 <= x + y)%Qc.
Proof. intros Hx Hy. rewrite <- (Qcplus_0_r 0%Qc). apply Qcplus_le_compat; auto. Qed.
Lemma gpos_add x y : gpos x -> gpos y -> gpos (gadd x y).
Proof. intros [H1 H2] [H3 H4]. split; simpl; [rewrite H1, H3; apply Qcplus_0_r | apply qc_add_pos; auto]. Qed.
Lemma gpos_sum {T} (f : T -> GC) l : (forall x, In x l -> gpos (f x)) -> gpos (gsum (map f l)).
Proof. induction l as [|x l IH]; intros H; [apply gpos_0|]. apply gpos_add; [apply H; left; auto | apply IH; intros; apply H; right; auto]. Qed.
Lemma sum_pos k f : (forall c, configuration k c -> gpos (f c)) -> gpos (sum_confs k f).
Proof. intros H. apply gpos_sum. intros c Hc. apply H, in_confs; auto. Qed.
Lemma gpos_square z : gpos (gmul z (gconj z)).
Proof.
  split; simpl; [ring|]. replace (re z * re z - im z * - im z)%Qc with (norm2 z) by (unfold norm2; ring). apply norm2_nonneg.
Qed.
Lemma square_zero z : gmul z (gconj z) = g0 -> z = g0.
Proof.
  intros H. apply norm2_zero. apply (f_equal re) in H. simpl in H. rewrite <- H. unfold norm2. ring.
Qed.
Lemma gpos_sum_zero {T} (f : T -> GC) l : (forall x, In x l -> gpos (f x)) -> gsum (map f l) = g0 -> forall x, In x l -> f x = g0.
Proof.
  induction l as [|y l IH]; intros H E x Hx; [destruct Hx|]. cbn [map] in E. rewrite gsum_cons in E.
  pose proof (H y (or_introl eq_refl)) as [Iy Py]. assert (Hl : forall x, In x l -> gpos (f x)) by (intros; apply H; right; auto).
  destruct (gpos_sum f l Hl) as [Is Ps].
  assert (R0 : (re (f y) + re (gsum (map f l)) = 0)%Qc) by (apply (f_equal re) in E; exact E).
  destruct (qc_add_nonneg_zero _ _ Py Ps R0) as [E1 E2].
  destruct Hx as [<-|Hx]; [apply GC_ext; auto|]. apply IH; auto. apply GC_ext; auto.
Qed.

Lemma confs_zero k f : (forall c, configuration k c -> gpos (f c)) -> sum_confs k f = g0 -> forall c, configuration k c -> f c = g0.
Proof. intros H E c Hc. apply (gpos_sum_zero f (all_confs k)); [intros x Hx; apply H, in_confs; auto | exact E | apply in_confs; auto]. Qed.

(** Cauchy-Schwarz, as Lagrange's identity. *)
Section CS.
  Context {T : Type} (x y : T -> GC) (l : list T).
  Notation S1 f := (gsum (map f l)).
  Definition ip : GC := S1 (fun i => gmul (x i) (gconj (y i))).
  Definition cs_gap : GC := gsub (gmul (S1 (fun i => gmul (x i) (gconj (x i)))) (S1 (fun i => gmul (y i) (gconj (y i))))) (gmul ip (gconj ip)).
  Lemma sum_product {U V} (f : U -> GC) (g : V -> GC) a b : gsum (map (fun i => gsum (map (fun j => gmul (f i) (g j)) b)) a) = gmul (gsum (map f a)) (gsum (map g b)).
  Proof.
    rewrite (gsum_map_ext _ (fun i => gmul (gsum (map g b)) (f i))) by (intros; rewrite gsum_map_mul; ring). rewrite gsum_map_mul. ring.
  Qed.
  Definition lag i j : GC := gsub (gmul (x i) (y j)) (gmul (x j) (y i)).
  Lemma lagrange : gadd cs_gap cs_gap = S1 (fun i => S1 (fun j => gmul (lag i j) (gconj (lag i j)))).
  Proof.
    unfold cs_gap.
    transitivity (gadd (gadd (S1 (fun i => S1 (fun j => gmul (gmul (x i) (gconj (x i))) (gmul (y j) (gconj (y j))))))
      (S1 (fun i => S1 (fun j => gmul (gmul (y i) (gconj (y i))) (gmul (x j) (gconj (x j)))))))
      (gadd (S1 (fun i => S1 (fun j => gmul (gmul gm1 (gmul (x i) (gconj (y i)))) (gconj (gmul (x j) (gconj (y j)))))))
        (S1 (fun i => S1 (fun j => gmul (gmul gm1 (gconj (gmul (x i) (gconj (y i))))) (gmul (x j) (gconj (y j)))))))).
    { rewrite !sum_product, !gsum_map_mul, !gsum_map_conj. fold ip. unfold gm1. change (mkGC (- (1)) 0) with (gopp g1). ring. }
    rewrite <- !gsum_map_add. apply gsum_map_ext. intros i _. rewrite <- !gsum_map_add. apply gsum_map_ext. intros j _.
    unfold lag. rewrite ?gconj_sub, ?gconj_mul, ?gconj_conj. unfold gm1. change (mkGC (- (1)) 0) with (gopp g1). ring.
  Qed.
  Lemma half_pos z : gpos (gadd z z) -> gpos z.
  Proof.
    intros [H1 H2]. simpl in *. split.
    - assert (E : (im z = (im z + im z) * (1 / (1 + 1)))%Qc) by (field; intros H; apply (f_equal this) in H; discriminate). rewrite E, H1. ring.
    - assert (E : (re z = (re z + re z) * (1 / (1 + 1)))%Qc) by (field; intros H; apply (f_equal this) in H; discriminate). rewrite E.
      rewrite <- (Qcmult_0_l (1 / (1 + 1))%Qc). apply Qcmult_le_compat_r; auto. discriminate.
  Qed.
  Lemma cauchy : gpos cs_gap.
  Proof. apply half_pos. rewrite lagrange. apply gpos_sum. intros i _. apply gpos_sum. intros j _. apply gpos_square. Qed.
End CS.

Lemma gsum_prod {T U} (f : T * U -> GC) a b : gsum (map f (list_prod a b)) = gsum (map (fun i => gsum (map (fun j => f (i, j)) b)) a).
Proof. induction a as [|i a IH]; [reflexivity|]. cbn [list_prod map]. rewrite map_app, gsum_app, gsum_cons, IH, map_map. reflexivity. Qed.
Lemma sum_confs_sub n f g : sum_confs n (fun c => gsub (f c) (g c)) = gsub (sum_confs n f) (sum_confs n g).
Proof.
  rewrite (sum_confs_ext n _ (fun c => gadd (f c) (gmul (gopp g1) (g c)))) by (intros; ring). rewrite sum_confs_add, sum_confs_mul. ring.
Qed.
Lemma double_sub l' l (f g : N -> GC) (e : N -> N -> GC) : gsub (gmul (sum_confs l' f) (sum_confs l g)) (sum_confs l' (fun j => sum_confs l (fun i => e j i))) =
  sum_confs l' (fun j => sum_confs l (fun i => gsub (gmul (f j) (g i)) (e j i))).
Proof.
  rewrite (sum_confs_ext l' (fun j => sum_confs l (fun i => gsub _ _)) (fun j => gsub (sum_confs l (fun i => gmul (f j) (g i))) (sum_confs l (fun i => e j i)))) by (intros; apply sum_confs_sub).
  rewrite sum_confs_sub. f_equal. symmetry. apply sum_product.
Qed.
Section Powers.
  Variables (k l : nat) (g : N -> N -> GC).
  Definition rho : N -> N -> GC := outer g g l.
  Lemma rho_sum a c : rho a c = sum_confs l (fun b => gmul (g a b) (gconj (g c b))).
  Proof. reflexivity. Qed.
  Lemma rho_herm a c : gconj (rho a c) = rho c a.
  Proof. rewrite !rho_sum, <- sum_confs_conj. apply sum_confs_ext. intros b _. rewrite gconj_mul, gconj_conj. ring. Qed.
  Definition half_of (m l' : nat) (h : N -> N -> GC) : Prop :=
    forall a c, configuration k a -> configuration k c -> pw k rho m a c = sum_confs l' (fun j => gmul (h a j) (gconj (h c j))).
  Definition times (h : N -> N -> GC) (a j : N) : GC := sum_confs k (fun b => gmul (rho a b) (h b j)).
  Lemma half_step m l' h : half_of m l' h -> half_of (S (S m)) l' (times h).
  Proof.
    intros H a c Ha Hc. rewrite pw_left by auto.
    transitivity (sum_confs k (fun b => gmul (rho a b) (sum_confs k (fun d => gmul (pw k rho m b d) (rho d c))))). { apply sum_confs_ext. intros b Hb. rewrite pw_S. reflexivity. }
    transitivity (sum_confs k (fun b => sum_confs k (fun d => sum_confs l' (fun j => gmul (gmul (rho a b) (h b j)) (gconj (gmul (rho c d) (h d j))))))).
    { apply sum_confs_ext. intros b Hb. rewrite <- sum_confs_mul. apply sum_confs_ext. intros d Hd. rewrite H by auto. rewrite <- sum_confs_mul_r, <- sum_confs_mul. apply sum_confs_ext. intros j _.
      rewrite gconj_mul, rho_herm. ring. }
    transitivity (sum_confs k (fun b => sum_confs l' (fun j => gmul (gmul (rho a b) (h b j)) (gconj (times h c j))))).
    { apply sum_confs_ext. intros b Hb. rewrite sum_confs_swap. apply sum_confs_ext. intros j _. unfold times. rewrite <- sum_confs_conj, <- sum_confs_mul. reflexivity. }
    rewrite sum_confs_swap. apply sum_confs_ext. intros j _. unfold times at 2. rewrite sum_confs_mul_r. reflexivity.
  Qed.
  Lemma half_1 : half_of 1 l g.
  Proof. intros a c Ha Hc. rewrite pw_1 by auto. apply rho_sum. Qed.
  Lemma half m : exists l' h, half_of m l' h.
  Proof.
    assert (D : (exists l' h, half_of m l' h) /\ exists l' h, half_of (S m) l' h); [|apply D].
    induction m as [|m [(l' & h & H) H2]].
    - split; [|exists l, g; apply half_1]. exists k, np_eye. intros a c Ha Hc. rewrite eye_mul by auto. rewrite pw_0. unfold np_eye.
      rewrite (N.eqb_sym c a). destruct (a =? c)%N; symmetry; [apply gconj_1 | apply gconj_0].
    - split; auto. exists l', (times h). apply half_step; auto.
  Qed.
  Definition T (m : nat) : GC := trace k (pw k rho m).
  Lemma T_half m l' h : half_of m l' h -> T m = sum_confs k (fun a => sum_confs l' (fun j => gmul (h a j) (gconj (h a j)))).
  Proof. intros H. apply sum_confs_ext. intros a Ha. apply H; auto. Qed.
  Lemma T_pos m : gpos (T m).
  Proof. destruct (half m) as (l' & h & H). rewrite (T_half m l' h H). apply sum_pos. intros a _. apply sum_pos. intros j _. apply gpos_square. Qed.
  Lemma T_convex m : gpos (gsub (gmul (T (S (S m))) (T m)) (gmul (T (S m)) (gconj (T (S m))))).
  Proof.
    destruct (half m) as (l' & h & H). rewrite (T_half m l' h H), (T_half _ l' _ (half_step m l' h H)).
    assert (E : T (S m) = sum_confs k (fun a => sum_confs l' (fun j => gmul (times h a j) (gconj (h a j))))).
    { unfold T, trace. apply sum_confs_ext. intros a Ha. rewrite pw_left by auto. unfold times.
      rewrite (sum_confs_ext k _ (fun b => gmul (rho a b) (sum_confs l' (fun j => gmul (h b j) (gconj (h a j)))))) by (intros b Hb; rewrite H; auto).
      symmetry. apply mul_assoc. }
    rewrite E. pose proof (cauchy (fun p => times h (fst p) (snd p)) (fun p => h (fst p) (snd p)) (list_prod (all_confs k) (all_confs l'))) as C.
    unfold cs_gap, ip in C. rewrite !gsum_prod in C. exact C.
  Qed.
  Lemma T_sub m l' h : half_of m l' h -> gsub (gmul (T m) (T 1)) (T (S m)) =
    sum_confs l' (fun j => sum_confs l (fun i => cs_gap (fun a => h a j) (fun a => g a i) (all_confs k))).
  Proof.
    intros H. unfold cs_gap. rewrite (T_half m l' h H), (T_half 1 l g half_1).
    assert (E : T (S m) = sum_confs l' (fun j => sum_confs l (fun i => gmul (ip (fun a => h a j) (fun a => g a i) (all_confs k)) (gconj (ip (fun a => h a j) (fun a => g a i) (all_confs k)))))).
    { unfold T, trace. transitivity (sum_confs k (fun a => sum_confs k (fun b => sum_confs l' (fun j => sum_confs l (fun i => gmul (gmul (h a j) (gconj (g a i))) (gconj (gmul (h b j) (gconj (g b i))))))))).
      { apply sum_confs_ext. intros a Ha. rewrite pw_S. apply sum_confs_ext. intros b Hb. rewrite H, rho_sum by auto. rewrite <- sum_confs_mul_r. apply sum_confs_ext. intros j _.
        rewrite <- sum_confs_mul. apply sum_confs_ext. intros i _. rewrite gconj_mul, gconj_conj. ring. }
      transitivity (sum_confs l' (fun j => sum_confs l (fun i => sum_confs k (fun a => sum_confs k (fun b => gmul (gmul (h a j) (gconj (g a i))) (gconj (gmul (h b j) (gconj (g b i))))))))).
      { transitivity (sum_confs k (fun a => sum_confs l' (fun j => sum_confs k (fun b => sum_confs l (fun i => gmul (gmul (h a j) (gconj (g a i))) (gconj (gmul (h b j) (gconj (g b i)))))))))
        ; [apply sum_confs_ext; intros; apply sum_confs_swap|]. rewrite sum_confs_swap. apply sum_confs_ext. intros j _.
        transitivity (sum_confs k (fun a => sum_confs l (fun i => sum_confs k (fun b => gmul (gmul (h a j) (gconj (g a i))) (gconj (gmul (h b j) (gconj (g b i))))))))
        ; [apply sum_confs_ext; intros; apply sum_confs_swap|]. apply sum_confs_swap. }
      apply sum_confs_ext. intros j _. apply sum_confs_ext. intros i _. unfold ip. rewrite <- gsum_map_conj. unfold sum_confs. rewrite sum_product. reflexivity. }
    rewrite E, (sum_confs_swap k l'), (sum_confs_swap k l), double_sub. reflexivity.
  Qed.
  Lemma T_submult m : gpos (gsub (gmul (T m) (T 1)) (T (S m))).
  Proof. destruct (half m) as (l' & h & H). rewrite (T_sub m l' h H). apply sum_pos. intros j _. apply sum_pos. intros i _. apply cauchy. Qed.
  (** The purity is the square of the trace only if all minors vanish. *)
  Lemma T_minors : T 2 = gmul (T 1) (T 1) -> forall a b i j, configuration k a -> configuration k b -> configuration l i -> configuration l j ->
    gmul (g a j) (g b i) = gmul (g b j) (g a i).
  Proof.
    intros E a b i j Ha Hb Hi Hj. pose proof (T_sub 1 l g half_1) as H. rewrite E in H. replace (gsub _ _) with g0 in H by ring. symmetry in H.
    set (gap := fun j i => cs_gap (fun a => g a j) (fun a => g a i) (all_confs k)) in *.
    assert (Gp : forall j i, gpos (gap j i)) by (intros; unfold gap; apply cauchy).
    assert (Z1 : sum_confs l (gap j) = g0). { apply (confs_zero l (fun j => sum_confs l (gap j))); auto. intros; apply sum_pos; auto. }
    assert (Z2 : gap j i = g0) by (apply (confs_zero l (gap j)); auto).
    set (mi := lag (fun a => g a j) (fun a => g a i)).
    assert (Z3 : sum_confs k (fun a => sum_confs k (fun b => gmul (mi a b) (gconj (mi a b)))) = g0).
    { unfold gap in Z2. pose proof (lagrange (fun a => g a j) (fun a => g a i) (all_confs k)) as Lg. rewrite Z2 in Lg. fold mi in Lg. symmetry. etransitivity; [|exact Lg]. ring. }
    assert (Z4 : sum_confs k (fun b => gmul (mi a b) (gconj (mi a b))) = g0).
    { apply (confs_zero k (fun a => sum_confs k (fun b => gmul (mi a b) (gconj (mi a b))))); auto. intros; apply sum_pos; intros; apply gpos_square. }
    assert (Z5 : gmul (mi a b) (gconj (mi a b)) = g0). { apply (confs_zero k (fun b => gmul (mi a b) (gconj (mi a b)))); auto. intros; apply gpos_square. }
    apply square_zero in Z5. unfold mi, lag in Z5.
    transitivity (gadd (gsub (gmul (g a j) (g b i)) (gmul (g b j) (g a i))) (gmul (g b j) (g a i))); [ring | rewrite Z5; ring].
  Qed.
  Lemma T_0 : T 0 = gz (Z.of_nat (2 ^ k)).
  Proof.
    unfold T, trace. rewrite (sum_confs_ext k _ (fun _ => g1)) by (intros; rewrite pw_0; unfold np_eye; rewrite N.eqb_refl; auto).
    unfold sum_confs, all_confs. rewrite map_map. generalize (2 ^ k). intros q.
    assert (X : forall q s, gsum (map (fun _ : nat => g1) (seq s q)) = gz (Z.of_nat q)).
    { clear. induction q as [|q IH]; intros s; [reflexivity|]. cbn [seq map]. rewrite gsum_cons, IH. unfold gz, gq. apply GC_ext; [|apply Qcplus_0_r]. cbn [re gadd g1].
      apply Qc_is_canon. unfold Qcplus, Q2Qc. cbn [this gz gq re]. rewrite !Qred_correct. rewrite Nat2Z.inj_succ. unfold Z.succ. rewrite inject_Z_plus. ring. }
    apply X.
  Qed.
  Lemma T_1 : T 1 = sum_confs k (fun a => sum_confs l (fun b => gmul (g a b) (gconj (g a b)))).
  Proof. apply (T_half 1 l g half_1). Qed.
  (** Product states. *)
  Lemma T_product x y : (forall a b, configuration k a -> configuration l b -> g a b = gmul (x a) (y b)) -> T 1 = g1 -> forall m, T (S m) = g1.
  Proof.
    intros H E. set (nx := sum_confs k (fun a => gmul (x a) (gconj (x a)))). set (ny := sum_confs l (fun b => gmul (y b) (gconj (y b)))).
    assert (R : forall a c, configuration k a -> configuration k c -> rho a c = gmul ny (gmul (x a) (gconj (x c)))).
    { intros a c Ha Hc. rewrite rho_sum. unfold ny. rewrite <- sum_confs_mul_r. apply sum_confs_ext. intros b Hb. rewrite !H, gconj_mul by auto. ring. }
    assert (E1 : gmul ny nx = g1).
    { rewrite <- E. unfold T, trace. rewrite (sum_confs_ext k _ (fun a => gmul ny (gmul (x a) (gconj (x a))))) by (intros a Ha; rewrite pw_1, R by auto; reflexivity).
      rewrite sum_confs_mul. reflexivity. }
    assert (P : forall m a c, configuration k a -> configuration k c -> pw k rho (S m) a c = rho a c).
    { induction m as [|m IH]; intros a c Ha Hc; [apply pw_1; auto|]. rewrite pw_S.
      rewrite (sum_confs_ext k _ (fun b => gmul (gmul (gmul ny ny) (gmul (x a) (gconj (x c)))) (gmul (x b) (gconj (x b))))) by (intros b Hb; rewrite IH, !R by auto; ring).
      rewrite sum_confs_mul. fold nx. rewrite R by auto. transitivity (gmul (gmul ny (gmul (x a) (gconj (x c)))) (gmul ny nx)); [ring|]. rewrite E1. ring. }
    intros m. rewrite <- E. apply sum_confs_ext. intros a Ha. rewrite P, pw_1; auto.
  Qed.
End Powers.
