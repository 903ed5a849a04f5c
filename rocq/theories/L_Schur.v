(** Lemmas on the modes of quadratic Operators. *)
From Coq Require Import List ZArith Bool Reals QArith Qreals Qcanon Lia Lra Setoid Morphisms.
From Verif Require Import GC Exn S_Alg S_Den S_Basis S_Conv S_Quad S_Schur L_Alg L_Module L_Commutant M_OpString M_Basis M_Quad M_Schur L_Quad.
Import ListNotations.
Local Open Scope alg_scope.

(* --------------------------------------------------------------- real sums *)

Lemma rsum_ext f g l : (forall x, In x l -> f x = g x) -> rsum f l = rsum g l.
Proof.
  unfold rsum. induction l as [|x l IH]; intros H; cbn; auto. rewrite H by (left; auto). rewrite IH; auto. intros; apply H; right; auto.
Qed.
Lemma rsum_zero f l : (forall x, In x l -> f x = 0%R) -> rsum f l = 0%R.
Proof.
  unfold rsum. induction l as [|x l IH]; intros H; cbn; auto. rewrite H by (left; auto). rewrite IH; [lra|]. intros; apply H; right; auto.
Qed.
Lemma rsum_app f l m : rsum f (l ++ m) = (rsum f l + rsum f m)%R.
Proof. unfold rsum. induction l as [|x l IH]; cbn; [lra|]. rewrite IH. lra. Qed.
Lemma rsum_delta f l j : NoDup l -> In j l -> (forall k, In k l -> k <> j -> f k = 0%R) -> rsum f l = f j.
Proof.
  intros ND Hin H. induction l as [|a l IH]; [destruct Hin|]. inversion_clear ND as [|? ? Na ND'].
  change (rsum f (a :: l)) with (f a + rsum f l)%R. destruct Hin as [->|Hin].
  - rewrite (rsum_zero f l); [lra|]. intros k Hk. apply H; [right; auto | intros ->; auto].
  - rewrite (H a); [|left; auto | intros ->; auto]. rewrite IH; auto; [lra|]. intros; apply H; auto. right; auto.
Qed.
Lemma rsum_add f g l : rsum (fun x => (f x + g x)%R) l = (rsum f l + rsum g l)%R.
Proof. unfold rsum. induction l as [|x l IH]; cbn; [lra|]. rewrite IH. lra. Qed.
Lemma rsum_scal c f l : rsum (fun x => (c * f x)%R) l = (c * rsum f l)%R.
Proof. unfold rsum. induction l as [|x l IH]; cbn; [lra|]. rewrite IH. lra. Qed.

Lemma below_pairs n : below (2 * n) = flat_map (fun k => [(2 * k)%Z; (2 * k + 1)%Z]) (below n).
Proof.
  induction n as [|n IH]; [reflexivity|]. unfold below in *. replace (2 * S n)%nat with (2 * n + 2)%nat by lia.
  rewrite (seq_app (2 * n) 2), map_app, IH. replace (S n) with (n + 1)%nat by lia. rewrite (seq_app n 1), map_app, flat_map_app.
  cbn [seq map flat_map app]. repeat f_equal; lia.
Qed.
Lemma rsum_pairs f n : rsum f (below (2 * n)) = rsum (fun k => (f (2 * k)%Z + f (2 * k + 1)%Z)%R) (below n).
Proof.
  rewrite below_pairs. unfold rsum. induction (below n) as [|k l IH]; [reflexivity|]. cbn [flat_map app map fold_right]. rewrite IH. lra.
Qed.
Lemma below_double n k : In k (below n) -> In (2 * k)%Z (below (2 * n)) /\ In (2 * k + 1)%Z (below (2 * n)).
Proof. rewrite !below_in. lia. Qed.

(** The block decomposition as a sum over modes. *)
Lemma block_sum n (T W : Z -> Z -> R) (j k : Z) : blocks_aligned n T ->
  rsum (fun p => rsum (fun q => (W j p * T p q * W k q)%R) (below (2 * n))) (below (2 * n)) =
  rsum (fun a => (T (2 * a)%Z (2 * a + 1)%Z * (W j (2 * a)%Z * W k (2 * a + 1)%Z - W j (2 * a + 1)%Z * W k (2 * a)%Z))%R) (below n).
Proof.
  intros [Hz Hs]. rewrite rsum_pairs. apply rsum_ext. intros a Ha. destruct (below_double n a Ha) as [H1 H2].
  rewrite (rsum_delta _ _ (2 * a + 1)%Z (below_nodup _) H2).
  - rewrite (rsum_delta _ _ (2 * a)%Z (below_nodup _) H1).
    + rewrite (Hs a Ha). ring.
    + intros q Hq N. destruct (Req_dec (T (2 * a + 1)%Z q) 0) as [->|NZ]; [ring|]. destruct (Hz _ _ H2 Hq NZ) as (b & [E|E]); exfalso; lia.
  - intros q Hq N. destruct (Req_dec (T (2 * a)%Z q) 0) as [->|NZ]; [ring|]. destruct (Hz _ _ H1 Hq NZ) as (b & [E|E]); exfalso; lia.
Qed.

(* ------------------------------------------------------------ real scalars *)

Section scalars.
  Context {A : StarAlg} (S : RScal A).
  Notation r_ := (rs S).
  Lemma rs_eq r s x : r = s -> r_ r x == r_ s x.
  Proof. intros ->. reflexivity. Qed.
  Lemma rs_0 x : r_ 0%R x == azero.
  Proof. rewrite <- (ascal_0 A x). rewrite <- (rs_rational A S 0 x). apply rs_eq. unfold Q2R. cbn. lra. Qed.
  Lemma rs_1 x : r_ 1%R x == x.
  Proof. rewrite <- (ascal_1 A x) at 2. rewrite <- (rs_rational A S 1 x). apply rs_eq. unfold Q2R. cbn. lra. Qed.
  Lemma rs_ascal r z x : r_ r (z · x) == z · r_ r x.
  Proof.
    assert (H : z · x == (z · aone) * x) by (rewrite ascal_mul_l, amul_1_l; reflexivity).
    rewrite H, <- (rs_mul_r A S), ascal_mul_l, amul_1_l. reflexivity.
  Qed.
  Lemma rs_azero r : r_ r azero == azero.
  Proof. rewrite <- (ascal_0 A azero) at 1. rewrite rs_ascal. apply ascal_0. Qed.
  Lemma rs_opp r x : r_ (- r)%R x == gm1 · r_ r x.
  Proof.
    apply (aadd_cancel_r _ _ (r_ r x)). rewrite <- (rs_add_l A S). rewrite (rs_eq _ 0%R) by ring. rewrite rs_0.
    generalize (r_ r x). intros u. msolve [u]; gring.
  Qed.
  Lemma rs_asum {T} r (f : T -> A) l : r_ r (asum (map f l)) == asum (map (fun t => r_ r (f t)) l).
  Proof.
    induction l as [|t l IH]; [apply rs_azero|]. change (r_ r (f t + asum (map f l)) == r_ r (f t) + asum (map (fun t => r_ r (f t)) l)).
    rewrite (rs_add_r A S), IH. reflexivity.
  Qed.
  Lemma rsum_rs f l x : r_ (rsum f l) x == asum (map (fun j => r_ (f j) x) l).
  Proof.
    induction l as [|j l IH]; [apply rs_0|]. change (r_ (f j + rsum f l)%R x == r_ (f j) x + asum (map (fun j => r_ (f j) x) l)).
    rewrite (rs_add_l A S), IH. reflexivity.
  Qed.
  Lemma rs_half r x : half · r_ r x == r_ (r / 2)%R x.
  Proof.
    assert (H : half = gq (re half)) by (apply GC_ext; apply Qc_is_canon; vm_compute; reflexivity). rewrite H.
    rewrite <- (rs_rational A S), (rs_rs A S). apply rs_eq. unfold half, Q2R. cbn. lra.
  Qed.

  (* ------------------------------------------------------- bilinear forms *)
  Variable m : Z -> A.
  Variable K : nat.
  Definition rform (M : Z -> Z -> R) : A := asum (map (fun j => asum (map (fun k => r_ (M j k) (m j * m k)) (below K))) (below K)).
  Lemma rform_ext M N : (forall j k, In j (below K) -> In k (below K) -> M j k = N j k) -> rform M == rform N.
  Proof. intros H. apply asum_ext. intros j Hj. apply asum_ext. intros k Hk. apply rs_eq; auto. Qed.
  Lemma rform_scal r M : rform (fun j k => (r * M j k)%R) == r_ r (rform M).
  Proof.
    unfold rform. rewrite rs_asum. apply asum_ext. intros j Hj. rewrite rs_asum. apply asum_ext. intros k Hk.
    rewrite (rs_rs A S). reflexivity.
  Qed.
  Lemma rform_add M N : rform (fun j k => (M j k + N j k)%R) == rform M + rform N.
  Proof.
    unfold rform. rewrite <- asum_map_add. apply asum_ext. intros j Hj. rewrite <- asum_map_add. apply asum_ext.
    intros k Hk. apply (rs_add_l A S).
  Qed.
  Lemma rform_zero : rform (fun _ _ => 0%R) == azero.
  Proof. apply asum_zero. intros j _. apply asum_zero. intros k _. apply rs_0. Qed.
  Lemma rform_sum (M : Z -> Z -> Z -> R) l : rform (fun j k => rsum (fun a => M a j k) l) == asum (map (fun a => rform (M a)) l).
  Proof.
    induction l as [|a l IH]; [apply rform_zero|].
    change (rform (fun j k => (M a j k + rsum (fun b => M b j k) l)%R) == rform (M a) + asum (map (fun a => rform (M a)) l)).
    rewrite rform_add, IH. reflexivity.
  Qed.
  Lemma combo_mul u v : combo S K u m * combo S K v m == rform (fun j k => (u j * v k)%R).
  Proof.
    unfold combo. rewrite asum_mul_r, map_map. apply asum_ext. intros j Hj. rewrite asum_mul_l, map_map. apply asum_ext. intros k Hk.
    rewrite (rs_mul_l A S), (rs_mul_r A S), (rs_rs A S). reflexivity.
  Qed.
  Lemma rform_transpose M : rform (fun j k => M k j) == asum (map (fun j => asum (map (fun k => r_ (M j k) (m k * m j)) (below K))) (below K)).
  Proof. unfold rform. apply (asum_swap (fun j k => r_ (M k j) (m j * m k))). Qed.

  Hypothesis anti : forall j k, In j (below K) -> In k (below K) -> m j * m k + m k * m j == (if (j =? k)%Z then g2 else g0) · aone.
  Lemma combo_anti u v : combo S K u m * combo S K v m + combo S K v m * combo S K u m == r_ (2 * rsum (fun j => (u j * v j)%R) (below K))%R aone.
  Proof.
    rewrite !combo_mul. rewrite (rform_ext (fun j k => (v j * u k)%R) (fun j k => ((fun a b => (u a * v b)%R) k j))) by (intros; ring).
    rewrite (rform_transpose (fun a b => (u a * v b)%R)). unfold rform. rewrite <- asum_map_add.
    rewrite <- rsum_scal, rsum_rs. apply asum_ext. intros j Hj. rewrite <- asum_map_add.
    rewrite (delta_sum (fun k => r_ (u j * v k)%R (m j * m k) + r_ (u j * v k)%R (m k * m j)) j (below K) (below_nodup K) Hj).
    - rewrite <- (rs_add_r A S), (anti j j Hj Hj), Z.eqb_refl. rewrite rs_ascal.
      assert (E : g2 = gq (re g2)) by (apply GC_ext; apply Qc_is_canon; vm_compute; reflexivity). rewrite E, <- (rs_rational A S), (rs_rs A S). apply rs_eq.
      unfold g2, Q2R. cbn. lra.
    - intros k Hk N. rewrite <- (rs_add_r A S), (anti j k Hj Hk). replace (j =? k)%Z with false by (symmetry; apply Z.eqb_neq; auto).
      rewrite ascal_0. apply rs_azero.
  Qed.
  Lemma combo_star u : (forall j, (m j)^* == m j) -> (combo S K u m)^* == combo S K u m.
  Proof.
    intros H. unfold combo. rewrite asum_star, map_map. apply asum_ext. intros j _. rewrite (rs_star A S), H. reflexivity.
  Qed.
End scalars.

(** Majorana operators a_0, b_0, a_1, ... *)
Lemma maj_star {A : StarAlg} (g : op -> Z -> A) j : rep Majorana g -> (maj g j)^* == maj g j.
Proof. intros R. destruct R as [H1 H2 ? ? ? ? ? ?]. unfold maj. destruct (Z.even j); auto. Qed.
Lemma maj_anticommute {A : StarAlg} (g : op -> Z -> A) j k : rep Majorana g ->
  maj g j * maj g k + maj g k * maj g j == (if (j =? k)%Z then g2 else g0) · aone.
Proof.
  intros R. destruct R as [H1 H2 H3 H4 H5 H6 H7 H8].
  assert (Dj : (j = 2 * (j / 2) + if Z.even j then 0 else 1)%Z).
  { pose proof (Z.div_mod j 2). rewrite Zmod_even in H. destruct (Z.even j); lia. }
  assert (Dk : (k = 2 * (k / 2) + if Z.even k then 0 else 1)%Z).
  { pose proof (Z.div_mod k 2). rewrite Zmod_even in H. destruct (Z.even k); lia. }
  assert (Same : forall x : A, x * x == aone -> x * x + x * x == g2 · aone).
  { intros x ->. generalize (aone : A). intros u. msolve [u]; gring. }
  assert (Opp : forall x y : A, x * y == gm1 · (y * x) -> x * y + y * x == g0 · aone).
  { intros x y ->. rewrite ascal_0. generalize (y * x). intros u. msolve [u]; gring. }
  unfold maj. destruct (Z.eqb_spec j k) as [->|N].
  - destruct (Z.even k); auto.
  - destruct (Z.even j) eqn:Ej, (Z.even k) eqn:Ek; try (apply Opp; auto; [apply H5 || apply H6]; lia).
    + apply Opp. auto.
    + rewrite (aadd_comm A). apply Opp. auto.
Qed.

(* -------------------------------------------------------------------- modes *)

Section onemode.
  Context {A : StarAlg} (S : RScal A).
  Variables (al be : A).
  Hypothesis al_star : al^* == al.
  Hypothesis be_star : be^* == be.
  Hypothesis al_sq : al * al == aone.
  Hypothesis be_sq : be * be == aone.
  Hypothesis anti : al * be == gm1 · (be * al).
  (** i/2 al be = f^* f - 1/2 with f = (al + i be)/2. *)
  Lemma mode_number : gmul gi half · (al * be) == (half · (al + gi · be))^* * (half · (al + gi · be)) + gopp half · aone.
  Proof.
    rewrite astar_scal, astar_add, astar_scal, al_star, be_star.
    rewrite ascal_mul_l, ascal_mul_r, amul_add_l, !amul_add_r, ?ascal_mul_l, ?ascal_mul_r, ?ascal_mul_l.
    rewrite al_sq, be_sq. assert (E : be * al == gm1 · (al * be)) by (rewrite anti, gm1_gm1; reflexivity). rewrite E.
    generalize (aone : A) (al * be). intros u v. msolve [u; v]; apply GC_ext; apply Qc_is_canon; vm_compute; reflexivity.
  Qed.
End onemode.
