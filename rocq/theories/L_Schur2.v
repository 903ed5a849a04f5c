(** The loop over modes and the diagonal form of a quadratic Operator. *)
From Coq Require Import List ZArith Bool Reals QArith Qreals Qcanon Lia Lra Setoid Morphisms.
From Coquelicot Require Import Complex.
From Verif Require Import GC Exn S_Alg S_Den S_Basis S_Conv S_Quad S_Schur L_Alg L_Module M_OpString M_Basis M_Conversion M_Quad M_Schur
  L_Operator L_ConvAlg L_Quad L_Quad2 L_Schur.
Import ListNotations.
Local Open Scope alg_scope.

Lemma negative_mode_iff thr e : (0 <= thr)%R -> negative_mode thr e = true <-> (e < - thr)%R.
Proof.
  intros H. unfold negative_mode. destruct (Rlt_dec e (- thr)); [|rewrite andb_false_r; split; [discriminate | contradiction]].
  rewrite andb_true_r. destruct (Rlt_dec thr (Rabs e)) as [|n]; [tauto|]. exfalso. apply n. rewrite Rabs_left; lra.
Qed.

(** One pair of columns and its energy, before and after. *)
Definition flipped (thr : R) (T : rarr) (ev : Z -> R) (W : rarr) (ev' : Z -> R) (W' : rarr) (n : Z) : Prop :=
  if negative_mode thr (ev n)
  then ev' n = T (2 * n + 1)%Z (2 * n)%Z /\ forall i, W' i (2 * n)%Z = W i (2 * n + 1)%Z /\ W' i (2 * n + 1)%Z = W i (2 * n)%Z
  else ev' n = ev n /\ forall i, W' i (2 * n)%Z = W i (2 * n)%Z /\ W' i (2 * n + 1)%Z = W i (2 * n + 1)%Z.
Definition untouched (ev : Z -> R) (W : rarr) (ev' : Z -> R) (W' : rarr) (n : Z) : Prop :=
  ev' n = ev n /\ forall i, W' i (2 * n)%Z = W i (2 * n)%Z /\ W' i (2 * n + 1)%Z = W i (2 * n + 1)%Z.

Lemma step_other thr T st k n : n <> k -> untouched (fst st) (snd st) (fst (mode_step thr T st k)) (snd (mode_step thr T st k)) n.
Proof.
  intros N. unfold mode_step. destruct (negative_mode _ _); [|repeat split; auto]. cbn [fst snd]. unfold rupd, swap_cols. split.
  - destruct (Z.eqb_spec n k); [contradiction | auto].
  - intros i. split.
    + destruct (Z.eqb_spec (2 * n) (2 * k)); [lia|]. destruct (Z.eqb_spec (2 * n) (2 * k + 1)); [lia | auto].
    + destruct (Z.eqb_spec (2 * n + 1) (2 * k)); [lia|]. destruct (Z.eqb_spec (2 * n + 1) (2 * k + 1)); [lia | auto].
Qed.
Lemma step_here thr T st k : flipped thr T (fst st) (snd st) (fst (mode_step thr T st k)) (snd (mode_step thr T st k)) k.
Proof.
  unfold flipped, mode_step. destruct (negative_mode _ _); [|repeat split; auto]. cbn [fst snd]. unfold rupd, swap_cols. split.
  - rewrite Z.eqb_refl. auto.
  - intros i. split; [rewrite Z.eqb_refl; auto|]. destruct (Z.eqb_spec (2 * k + 1) (2 * k)); [lia|]. rewrite Z.eqb_refl. auto.
Qed.
Lemma fold_modes thr T l : NoDup l -> forall st n,
  let st' := fold_left (mode_step thr T) l st in
  (In n l -> flipped thr T (fst st) (snd st) (fst st') (snd st') n) /\
  (~ In n l -> untouched (fst st) (snd st) (fst st') (snd st') n).
Proof.
  induction 1 as [|k l Nk ND IH]; intros st n; cbn [fold_left]; cbv zeta.
  - split; [intros []|]. repeat split; auto.
  - destruct (IH (mode_step thr T st k) n) as [I1 I2]. cbv zeta in *. split.
    + intros [->|Hin].
      * specialize (I2 Nk). pose proof (step_here thr T st n) as Hs. unfold flipped in *. destruct I2 as [E F].
        revert Hs. destruct (negative_mode thr (fst st n)); intros [E' F']; (split; [congruence|]); intros i;
          destruct (F i) as [-> ->], (F' i) as [-> ->]; auto.
      * specialize (I1 Hin). assert (N : n <> k) by (intros ->; auto). destruct (step_other thr T st k n N) as [E F].
        unfold flipped in *. rewrite E in I1. revert I1. destruct (negative_mode thr (fst st n)); intros [E' F']; (split; [congruence|]); intros i;
          destruct (F i) as [G1 G2], (F' i) as [-> ->]; auto.
    + intros Hn. assert (N : n <> k) by (intros ->; apply Hn; left; auto). destruct I2 as [E F]; [intros H; apply Hn; right; auto|].
      destruct (step_other thr T st k n N) as [E' F']. split; [congruence|]. intros i. destruct (F i) as [-> ->], (F' i) as [-> ->]. auto.
Qed.

Lemma modes_spec thr (T W : rarr) N ev W' : (0 <= thr)%R -> blocks_aligned N T -> modes thr T W N = (ev, W') ->
  forall n, In n (below N) ->
  (- thr <= ev n)%R /\ Rabs (ev n) = Rabs (T (2 * n)%Z (2 * n + 1)%Z) /\
  ((ev n = T (2 * n)%Z (2 * n + 1)%Z /\ (forall i, W' i (2 * n)%Z = W i (2 * n)%Z /\ W' i (2 * n + 1)%Z = W i (2 * n + 1)%Z)) \/
   (ev n = (- T (2 * n)%Z (2 * n + 1)%Z)%R /\ (forall i, W' i (2 * n)%Z = W i (2 * n + 1)%Z /\ W' i (2 * n + 1)%Z = W i (2 * n)%Z))).
Proof.
  intros Ht HB E n Hn. pose proof (fold_modes thr T (zrange N) (below_nodup N) (fun n => T (2 * n)%Z (2 * n + 1)%Z, W) n) as [H _].
  specialize (H Hn). cbv zeta in H. unfold modes in E. rewrite E in H. cbn [fst snd] in H. unfold flipped in H.
  destruct (negative_mode thr (T (2 * n)%Z (2 * n + 1)%Z)) eqn:Eb.
  - apply negative_mode_iff in Eb; auto. destruct H as [E1 F]. rewrite (proj2 HB n Hn) in E1. rewrite E1. split; [lra|]. split; [apply Rabs_Ropp|].
    right. auto.
  - assert (Nb : ~ (T (2 * n)%Z (2 * n + 1)%Z < - thr)%R) by (intros X; apply (negative_mode_iff thr _ Ht) in X; congruence).
    destruct H as [E1 F]. rewrite E1. split; [lra|]. split; auto.
Qed.

(** Orthonormality survives. *)
Lemma modes_orthonormal thr (T W : rarr) N ev W' : (0 <= thr)%R -> blocks_aligned N T -> orthonormal (2 * N) W -> modes thr T W N = (ev, W') ->
  orthonormal (2 * N) W'.
Proof.
  intros Ht HB HO E.
  assert (P : forall p, In p (below (2 * N)) -> exists p', In p' (below (2 * N)) /\ (forall i, W' i p = W i p') /\
     exists n, In n (below N) /\ (p = 2 * n \/ p = 2 * n + 1)%Z /\ (p' = 2 * n \/ p' = 2 * n + 1)%Z /\
       (forall i, W' i (2 * n)%Z = W i (2 * n)%Z /\ p' = p \/ W' i (2 * n)%Z = W i (2 * n + 1)%Z /\ p' <> p)).
  { intros p Hp. assert (Hn : In (p / 2)%Z (below N)).
    { apply below_in. apply below_in in Hp. pose proof (Z.div_mod p 2). pose proof (Z.mod_pos_bound p 2). lia. }
    assert (Dp : (p = 2 * (p / 2) \/ p = 2 * (p / 2) + 1)%Z) by (pose proof (Z.div_mod p 2); pose proof (Z.mod_pos_bound p 2); lia).
    remember (p / 2)%Z as n eqn:Hdef in *. destruct (below_double N n Hn) as [D1 D2].
    destruct (modes_spec thr T W N ev W' Ht HB E n Hn) as (_ & _ & [ [_ F] | [_ F] ]).
    - exists p. split; auto. split; [intros i; destruct (F i) as [F1 F2]; destruct Dp as [Dp | Dp]; rewrite Dp; auto|].
      exists n. repeat split; auto. intros i. left. split; auto. apply F.
    - destruct Dp as [Ep|Ep].
      + exists (2 * n + 1)%Z. split; auto. split; [intros i; rewrite Ep; apply F|]. exists n. repeat split; auto.
        intros i. right. split; [apply F | lia].
      + exists (2 * n)%Z. split; auto. split; [intros i; rewrite Ep; apply F|]. exists n. repeat split; auto.
        intros i. right. split; [apply F | lia]. }
  assert (Q : forall p p' q q', In p (below (2 * N)) -> In q (below (2 * N)) -> In p' (below (2 * N)) -> In q' (below (2 * N)) ->
     (forall i, W' i p = W i p') -> (forall i, W' i q = W i q') -> (p = q <-> p' = q') ->
     rsum (fun j => (W' j p * W' j q)%R) (below (2 * N)) = if (p =? q)%Z then 1%R else 0%R).
  { intros p p' q q' Hp Hq Hp' Hq' Ep Eq Heq. rewrite (rsum_ext _ (fun j => (W j p' * W j q')%R)) by (intros; rewrite Ep, Eq; auto).
    rewrite (HO p' q' Hp' Hq'). destruct (Z.eqb_spec p q), (Z.eqb_spec p' q'); auto; tauto. }
  intros p q Hp Hq. destruct (Z.eq_dec (p / 2) (q / 2)) as [Es|Es].
  - (* same pair of columns *)
    assert (Hn : In (p / 2)%Z (below N)).
    { apply below_in. apply below_in in Hp. pose proof (Z.div_mod p 2). pose proof (Z.mod_pos_bound p 2). lia. }
    assert (Dp : (p = 2 * (p / 2) \/ p = 2 * (p / 2) + 1)%Z) by (pose proof (Z.div_mod p 2); pose proof (Z.mod_pos_bound p 2); lia).
    assert (Dq : (q = 2 * (p / 2) \/ q = 2 * (p / 2) + 1)%Z) by (rewrite Es; pose proof (Z.div_mod q 2); pose proof (Z.mod_pos_bound q 2); lia).
    remember (p / 2)%Z as n eqn:Hdef in *. destruct (below_double N n Hn) as [D1 D2].
    destruct (modes_spec thr T W N ev W' Ht HB E n Hn) as (_ & _ & [ [_ F] | [_ F] ]).
    + apply (Q p p q q); auto; [| |tauto]; intros i; [destruct Dp as [Dp | Dp]; rewrite Dp | destruct Dq as [Dq | Dq]; rewrite Dq]; apply F.
    + assert (forall x, (x = 2 * n \/ x = 2 * n + 1)%Z -> forall i, W' i x = W i (4 * n + 1 - x)%Z).
      { intros x [-> | ->] i; [replace (4 * n + 1 - 2 * n)%Z with (2 * n + 1)%Z by lia | replace (4 * n + 1 - (2 * n + 1))%Z with (2 * n)%Z by lia]; apply F. }
      apply (Q p (4 * n + 1 - p)%Z q (4 * n + 1 - q)%Z); auto; [| |lia].
      * destruct Dp as [Dp|Dp]; rewrite Dp at 1; [replace (4 * n + 1 - 2 * n)%Z with (2 * n + 1)%Z by lia | replace (4 * n + 1 - (2 * n + 1))%Z with (2 * n)%Z by lia]; auto.
      * destruct Dq as [Dq|Dq]; rewrite Dq at 1; [replace (4 * n + 1 - 2 * n)%Z with (2 * n + 1)%Z by lia | replace (4 * n + 1 - (2 * n + 1))%Z with (2 * n)%Z by lia]; auto.
  - destruct (P p Hp) as (p' & Hp' & Ep & n & _ & Dp & Dp' & _). destruct (P q Hq) as (q' & Hq' & Eq & n' & _ & Dq & Dq' & _).
    apply (Q p p' q q'); auto. assert ((p / 2)%Z = n) by (destruct Dp as [-> | ->]; symmetry; [apply (Z.div_unique _ _ _ 0) | apply (Z.div_unique _ _ _ 1)]; lia).
    assert ((q / 2)%Z = n') by (destruct Dq as [-> | ->]; symmetry; [apply (Z.div_unique _ _ _ 0) | apply (Z.div_unique _ _ _ 1)]; lia). lia.
Qed.

(** The form of the matrix as a sum over modes. *)
Lemma form_rform {A : StarAlg} (S : RScal A) K M (m : Z -> A) : real_entries M ->
  form K M m m == rform S m K (fun j k => Q2R (this (re (M j k)))).
Proof.
  intros H. unfold form, rform. apply asum_ext. intros j Hj. apply asum_ext. intros k Hk. rewrite (rs_rational A S).
  apply ascal_eq. apply GC_ext; cbn; auto.
Qed.

Theorem modes_form {A : StarAlg} (S : RScal A) (m : Z -> A) N M thr (T W : rarr) ev W' :
  (forall j, (m j)^* == m j) -> (forall j k, m j * m k + m k * m j == (if (j =? k)%Z then g2 else g0) · aone) ->
  (0 <= thr)%R -> blocks_aligned N T -> orthonormal (2 * N) W -> real_entries M -> decomposes (2 * N) M T W -> modes thr T W N = (ev, W') ->
  fermions N (mode S N W' m) /\
  gmul gi (gmul half half) · form (2 * N) M m m ==
    asum (map (fun k => rs S (ev k) ((mode S N W' m k)^* * mode S N W' m k)) (below N)) + rs S (- (1 / 2) * rsum ev (below N))%R aone.
Proof.
  intros Hst Han Ht HB HO HR HD E. pose proof (modes_orthonormal thr T W N ev W' Ht HB HO E) as HO'.
  set (al := fun p => combo S (2 * N) (fun j => W' j p) m).
  assert (Sal : forall p, (al p)^* == al p) by (intros p; apply combo_star; auto).
  assert (Aal : forall p q, In p (below (2 * N)) -> In q (below (2 * N)) -> al p * al q + al q * al p == (if (p =? q)%Z then g2 else g0) · aone).
  { intros p q Hp Hq. unfold al. rewrite (combo_anti S m (2 * N)) by (intros; apply Han). rewrite (HO' p q Hp Hq).
    destruct (p =? q)%Z.
    - rewrite (rs_eq S _ (1 + 1)%R) by ring. rewrite (rs_add_l A S), rs_1. generalize (aone : A). intros u. msolve [u]; gring.
    - rewrite (rs_eq S _ 0%R) by ring. rewrite rs_0, ascal_0. reflexivity. }
  assert (Sq : forall p, In p (below (2 * N)) -> al p * al p == aone).
  { intros p Hp. pose proof (Aal p p Hp Hp) as H. rewrite Z.eqb_refl in H. apply (ascal_cancel g2); [discriminate|]. rewrite <- H.
    generalize (al p * al p). intros u. msolve [u]; gring. }
  assert (Anti : forall p q, In p (below (2 * N)) -> In q (below (2 * N)) -> p <> q -> al p * al q == gm1 · (al q * al p)).
  { intros p q Hp Hq Npq. pose proof (Aal p q Hp Hq) as H. replace (p =? q)%Z with false in H by (symmetry; apply Z.eqb_neq; auto).
    rewrite ascal_0 in H. apply (aadd_cancel_r _ _ (al q * al p)). rewrite H. generalize (al q * al p). intros u. msolve [u]; gring. }
  assert (Em : forall k, mode S N W' m k = half · (al (2 * k)%Z + gi · al (2 * k + 1)%Z)) by reflexivity. split.
  - intros j k Hj Hk. destruct (below_double N j Hj) as [J1 J2], (below_double N k Hk) as [K1 K2]. rewrite !Em.
    pose proof (Aal _ _ J1 K1) as P11. pose proof (Aal _ _ J1 K2) as P12. pose proof (Aal _ _ J2 K1) as P21. pose proof (Aal _ _ J2 K2) as P22.
    replace (2 * j =? 2 * k)%Z with (j =? k)%Z in P11 by (destruct (Z.eqb_spec j k), (Z.eqb_spec (2 * j) (2 * k)); auto; lia).
    replace (2 * j =? 2 * k + 1)%Z with false in P12 by (symmetry; apply Z.eqb_neq; lia).
    replace (2 * j + 1 =? 2 * k)%Z with false in P21 by (symmetry; apply Z.eqb_neq; lia).
    replace (2 * j + 1 =? 2 * k + 1)%Z with (j =? k)%Z in P22 by (destruct (Z.eqb_spec j k), (Z.eqb_spec (2 * j + 1) (2 * k + 1)); auto; lia).
    rewrite ascal_0 in P12, P21. set (d := if (j =? k)%Z then g2 else g0) in *.
    assert (R11 : al (2 * k)%Z * al (2 * j)%Z == d · aone + gm1 · (al (2 * j)%Z * al (2 * k)%Z)).
    { rewrite <- P11. generalize (al (2 * k)%Z * al (2 * j)%Z) (al (2 * j)%Z * al (2 * k)%Z). intros u v. msolve [u; v]; gring. }
    assert (R12 : al (2 * k + 1)%Z * al (2 * j)%Z == gm1 · (al (2 * j)%Z * al (2 * k + 1)%Z)).
    { apply (aadd_cancel_r _ _ (al (2 * j)%Z * al (2 * k + 1)%Z)). rewrite (aadd_comm A (al (2 * k + 1)%Z * al (2 * j)%Z)), P12.
      generalize (al (2 * j)%Z * al (2 * k + 1)%Z). intros u. msolve [u]; gring. }
    assert (R21 : al (2 * k)%Z * al (2 * j + 1)%Z == gm1 · (al (2 * j + 1)%Z * al (2 * k)%Z)).
    { apply (aadd_cancel_r _ _ (al (2 * j + 1)%Z * al (2 * k)%Z)). rewrite (aadd_comm A (al (2 * k)%Z * al (2 * j + 1)%Z)), P21.
      generalize (al (2 * j + 1)%Z * al (2 * k)%Z). intros u. msolve [u]; gring. }
    assert (R22 : al (2 * k + 1)%Z * al (2 * j + 1)%Z == d · aone + gm1 · (al (2 * j + 1)%Z * al (2 * k + 1)%Z)).
    { rewrite <- P22. generalize (al (2 * k + 1)%Z * al (2 * j + 1)%Z) (al (2 * j + 1)%Z * al (2 * k + 1)%Z). intros u v. msolve [u; v]; gring. }
    split.
    + repeat (rewrite ?ascal_mul_l, ?ascal_mul_r, ?amul_add_l, ?amul_add_r). rewrite R11, R12, R21, R22.
      generalize (aone : A) (al (2 * j)%Z * al (2 * k)%Z) (al (2 * j)%Z * al (2 * k + 1)%Z) (al (2 * j + 1)%Z * al (2 * k)%Z) (al (2 * j + 1)%Z * al (2 * k + 1)%Z).
      intros u v w x y. msolve [u; v; w; x; y]; [|gring..]. unfold d. destruct (j =? k)%Z; apply GC_ext; apply Qc_is_canon; vm_compute; reflexivity.
    + rewrite astar_scal, astar_add, astar_scal, !Sal.
      repeat (rewrite ?ascal_mul_l, ?ascal_mul_r, ?amul_add_l, ?amul_add_r). rewrite R11, R12, R21, R22.
      generalize (aone : A) (al (2 * j)%Z * al (2 * k)%Z) (al (2 * j)%Z * al (2 * k + 1)%Z) (al (2 * j + 1)%Z * al (2 * k)%Z) (al (2 * j + 1)%Z * al (2 * k + 1)%Z).
      intros u v w x y. unfold d. destruct (j =? k)%Z; msolve [u; v; w; x; y]; apply GC_ext; apply Qc_is_canon; vm_compute; reflexivity.
  - rewrite (form_rform S) by auto. rewrite (rform_ext S m (2 * N) _ (fun j k => rsum (fun a => (2 * (ev a * (W' j (2 * a)%Z * W' k (2 * a + 1)%Z) - ev a * (W' j (2 * a + 1)%Z * W' k (2 * a)%Z)) / 2)%R) (below N))).
    2:{ intros j k Hj Hk. rewrite (HD j k Hj Hk), (block_sum N T W j k HB). apply rsum_ext. intros a Ha.
        destruct (modes_spec thr T W N ev W' Ht HB E a Ha) as (_ & _ & [ [-> F] | [-> F] ]);
          destruct (F j) as [-> ->], (F k) as [-> ->]; field. }
    rewrite (rform_sum S m (2 * N) (fun a j k => (2 * (ev a * (W' j (2 * a)%Z * W' k (2 * a + 1)%Z) - ev a * (W' j (2 * a + 1)%Z * W' k (2 * a)%Z)) / 2)%R)).
    rewrite asum_scal, map_map, <- rsum_scal, (rsum_rs S), <- asum_map_add. apply asum_ext. intros a Ha. destruct (below_double N a Ha) as [D1 D2].
    rewrite (rform_ext S m (2 * N) _ (fun j k => (ev a * ((W' j (2 * a)%Z * W' k (2 * a + 1)%Z) + (-1) * (W' j (2 * a + 1)%Z * W' k (2 * a)%Z)))%R)) by (intros; field).
    rewrite (rform_scal S m (2 * N)), (rform_add S m (2 * N)), (rform_scal S m (2 * N)).
    rewrite <- !(combo_mul S m (2 * N)). fold (al (2 * a)%Z). fold (al (2 * a + 1)%Z).
    rewrite (Anti (2 * a + 1)%Z (2 * a)%Z D2 D1) by lia. rewrite (rs_ascal S). rewrite (rs_eq S (-1) (- (1))%R) by ring. rewrite rs_opp, rs_1, gm1_gm1.
    rewrite Em. pose proof (mode_number (al (2 * a)%Z) (al (2 * a + 1)%Z) (Sal _) (Sal _) (Sq _ D1) (Sq _ D2) (Anti _ _ D1 D2 ltac:(lia))) as MN.
    rewrite (rs_eq S (- (1 / 2) * ev a)%R (ev a * (- (1 / 2)))%R) by ring. rewrite <- (rs_rs A S), <- (rs_add_r A S), <- (rs_ascal S).
    apply rs_proper. assert (Eh : rs S (- (1 / 2)) (aone : A) == gopp half · aone).
    { rewrite rs_opp. rewrite (rs_eq S (1 / 2) (1 / 2 * 1)%R) by ring. assert (X : rs S (1 / 2 * 1) (aone : A) == half · aone).
      { rewrite <- (rs_1 S aone) at 2. rewrite rs_half. apply rs_eq. field. }
      rewrite X. generalize (aone : A). intros u. msolve [u]; gring. }
    rewrite Eh, <- MN. generalize (al (2 * a)%Z * al (2 * a + 1)%Z). intros u. msolve [u]; apply GC_ext; apply Qc_is_canon; vm_compute; reflexivity.
Qed.
