(** [diagonalize_quadratic] as a whole. *)
From Coq Require Import List ZArith Bool Arith Reals QArith Qreals Qcanon Setoid Morphisms Lia Lra.
From Coquelicot Require Import Complex.
From Verif Require Import GC Exn S_Alg S_Den S_Basis S_Conv S_Quad S_Schur M_OpString M_Basis M_Conversion M_Quad M_Schur
  L_Alg L_Operator L_ConvAlg L_Conversion L_Quad L_Quad2 L_Schur L_Schur2.
Import ListNotations.
Local Open Scope alg_scope.

Lemma zrange_below n : zrange n = below n.
Proof. reflexivity. Qed.
Lemma map_rsum f l : fold_right Rplus 0%R (map f l) = rsum f l.
Proof. reflexivity. Qed.

(** The energies e_0, ..., e_(n-1) as a function. *)
Lemma nth_modes (ev : Z -> R) n k : In k (below n) -> nth (Z.to_nat k) (map ev (zrange n)) 0%R = ev k.
Proof.
  intros H. apply below_in in H. rewrite (nth_indep _ _ (ev 0%Z)) by (unfold zrange; rewrite !map_length, seq_length; lia).
  rewrite map_nth. f_equal. unfold zrange. rewrite (nth_indep _ _ (Z.of_nat 0)) by (rewrite map_length, seq_length; lia).
  rewrite map_nth, seq_nth; lia.
Qed.

Lemma diagonalize_from_matrix schur o n thr M : (0 <= thr)%R -> quadratic_matrix o n = Ok M -> real_entries (zentry M) ->
  blocks_aligned n (fst (schur M)) -> orthonormal (2 * n) (snd (schur M)) -> decomposes (2 * n) (zentry M) (fst (schur M)) (snd (schur M)) ->
  exists s e E W, diagonalize_quadratic schur o n None thr = Ok (s, e, E, W) /\ length e = n /\ s = (- (1 / 2) * fold_right Rplus 0 e)%R /\
    (forall k, (k < n)%nat -> (- thr <= nth k e 0)%R /\
       Rabs (nth k e 0%R) = Rabs (fst (schur M) (2 * Z.of_nat k)%Z (2 * Z.of_nat k + 1)%Z)) /\
    orthonormal (2 * n) W /\
    forall (A : StarAlg) (S : RScal A) (g : op -> Z -> A), rep Majorana g ->
      diagonalizes S n g W e s (gmul gi (gmul half half) · form (2 * n) (zentry M) (maj g) (maj g)).
Proof.
  intros Ht EM HR HB HO HD. unfold diagonalize_quadratic. rewrite EM. cbn [rbind].
  destruct (schur M) as [T W]. cbn [fst snd] in *. destruct (modes thr T W n) as [ev W'] eqn:Em.
  do 4 eexists. split; [reflexivity|]. split; [unfold zrange; rewrite !map_length, seq_length; auto|]. split; [reflexivity|]. split; [|split].
  - intros k Hk. assert (Hin : In (Z.of_nat k) (below n)) by (apply below_in; lia).
    pose proof (nth_modes ev n (Z.of_nat k) Hin) as En. rewrite Nat2Z.id in En. rewrite En.
    destruct (modes_spec thr T W n ev W' Ht HB Em (Z.of_nat k) Hin) as (H1 & H2 & _). auto.
  - apply (modes_orthonormal thr T W n ev W'); auto.
  - intros A S g R. destruct (modes_form S (maj g) n (zentry M) thr T W ev W') as [F1 F2]; auto.
    { intros j. apply maj_star; auto. } { intros j k. apply maj_anticommute; auto. }
    split; auto. rewrite F2. apply aadd_proper; [|reflexivity]. apply asum_ext. intros k Hk. rewrite nth_modes; auto. reflexivity.
Qed.

(** The energies, whatever the Schur form. *)
Definition energy (thr : R) (T : rarr) (k : Z) : R :=
  if Rlt_dec (T (2 * k)%Z (2 * k + 1)%Z) (- thr) then T (2 * k + 1)%Z (2 * k)%Z else T (2 * k)%Z (2 * k + 1)%Z.
Lemma diagonalize_energies schur o n thr M : (0 <= thr)%R -> quadratic_matrix o n = Ok M ->
  let e := map (energy thr (fst (schur M))) (below n) in
  exists E W, diagonalize_quadratic schur o n None thr = Ok ((- (1 / 2) * fold_right Rplus 0 e)%R, e, E, W).
Proof.
  intros Ht EM. cbv zeta. unfold diagonalize_quadratic. rewrite EM. cbn [rbind].
  destruct (schur M) as [T W]. cbn [fst snd]. destruct (modes thr T W n) as [ev W'] eqn:Em.
  assert (X : map ev (zrange n) = map (energy thr T) (below n)).
  { apply map_ext_in. intros k Hk. pose proof (fold_modes thr T (zrange n) (below_nodup n) (fun n => T (2 * n)%Z (2 * n + 1)%Z, W) k) as [H _].
    unfold modes in Em. rewrite Em in H. specialize (H Hk). unfold flipped in H. cbn [fst snd] in H. unfold energy.
    pose proof (negative_mode_iff thr (T (2 * k)%Z (2 * k + 1)%Z) Ht) as N.
    destruct (negative_mode thr (T (2 * k)%Z (2 * k + 1)%Z)), (Rlt_dec (T (2 * k)%Z (2 * k + 1)%Z) (- thr)) as [F|F]; try apply H.
    - exfalso. apply F. apply N; auto.
    - exfalso. apply N in F. discriminate. }
  rewrite X. eauto.
Qed.

(* ------------------------------------------------------------ eigenvectors *)
Lemma do_writes_row ws r : (forall w, In w ws -> fst (fst w) <> r) -> forall E j, fold_left do_write ws E r j = E r j.
Proof.
  induction ws as [|w ws IH]; intros H E j; cbn [fold_left]; auto. rewrite IH by (intros; apply H; right; auto).
  unfold do_write. destruct (Z.eqb_spec r (fst (fst w))) as [F|]; auto. exfalso. apply (H w); [left|]; auto.
Qed.
Lemma fermion_row_zero N W : (2 <= N)%nat -> exists r, (0 <= r < 2 * Z.of_nat N)%Z /\ forall j, eigvecs_fermion N W r j = RtoC 0.
Proof.
  intros HN. set (n := Z.of_nat N). exists (2 * ((n + 1) / 2))%Z.
  assert (B : (n <= 2 * ((n + 1) / 2) <= n + 1)%Z).
  { pose proof (Z.div_mod (n + 1) 2 ltac:(lia)). pose proof (Z.mod_pos_bound (n + 1) 2 ltac:(lia)). lia. }
  split; [lia|]. intros j. unfold eigvecs_fermion. rewrite do_writes_row; auto. intros w Hw.
  unfold fermion_writes in Hw. apply in_flat_map in Hw. destruct Hw as (m & Hm & Hw). apply in_flat_map in Hw. destruct Hw as (k & Hk & Hw).
  apply below_in in Hm. cbv zeta in Hw. fold n in Hm. intros F.
  destruct Hw as [<-|[<-|[<-|[<-|[] ] ] ] ]; cbn [fst snd] in F; lia.
Qed.
