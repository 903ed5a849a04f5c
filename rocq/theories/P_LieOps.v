(** Properties C110-C111: generate_lie_algebra of a list of Operators. *)
From Coq Require Import List ZArith Bool Arith Lia Setoid Morphisms Reals QArith Qreals Qcanon Lra.
From Coquelicot Require Import Complex.
From Verif Require Import GC Exn M_OpString M_Tools M_Algebra M_Basis M_OpAlg M_Transform M_LinAlg M_Core M_Greedy M_LieOps
  S_Alg S_Den S_Basis S_Built S_OpAlg S_RScal S_CFock S_CScal S_LinAlg S_Core S_Invariant S_Sparsify S_Generate S_Cumulative S_LieOps
  L_Alg L_Sort L_StrAlg L_StrOp L_Indep L_PropStr L_PropOpAlg L_Operator L_Basis L_Heap L_PropBasis L_OpAlg L_Sum L_Struct L_Commutant L_Lie L_CScal L_LinAlg L_Inter L_Core L_Commuting L_PartIso L_Invariant L_Generate2 L_Dim L_Cumulative L_Cumul2 L_Cumul3 L_Cumul4
  L_LieOps L_LieOps2 L_LieOps3.
Import ListNotations.
Local Open Scope nat_scope.

(* ----------------------------------------------------------------------- C110 *)

(** C110: generate_lie_algebra of a list of Operators ends.  The result starts with the given
    Operators; every other one is the normalised commutator of two before it, times -i; and the
    commutator of any two is small or close to a combination of them.  Independent Operators stay
    independent. *)
Theorem C110_lie_operators ty tol o rest : ty <> Fermion -> (0 <= tol)%R -> (forall p, In p (o :: rest) -> good_cop ty p) ->
  (forall p c, In p (o :: rest) -> In c (c_coeffs p) -> c = RtoC 0 \/ (tol < Cmod c)%R) ->
  exists fuel0 l, (forall fuel, fuel0 <= fuel -> generate_lie_operators fuel tol (o :: rest) = Some (Ok (Some l))) /\
    (exists m, l = (o :: rest) ++ m) /\ by_commutators ty tol (length (o :: rest)) l /\ closed_up_to ty tol l /\
    (independent_ops (o :: rest) -> independent_ops l).
Proof. apply lie_operators_proof. Qed.
Print Assumptions C110_lie_operators.

Lemma norm2c_zero v : (norm2c v <= 0)%R -> forall z, In z v -> z = RtoC 0.
Proof.
  intros H z Hz. assert (E : sqsum v = 0%R) by (pose proof (sqsum_nonneg v); change (sqsum v <= 0)%R in H; lra).
  apply sqsum_zero in E. rewrite E in Hz. apply repeat_spec in Hz. auto.
Qed.
Lemma combination_key l v s t : same_key s t -> combination l v s = combination l v t.
Proof. intros H. unfold combination. f_equal. apply map_ext. intros p. f_equal. apply coefficient_key; auto. Qed.

(** With the tolerance zero the span of the result is closed under the commutator. *)
Theorem C110_exact ty o rest : ty <> Fermion -> (forall p, In p (o :: rest) -> good_cop ty p) ->
  exists fuel0 l, (forall fuel, fuel0 <= fuel -> generate_lie_operators fuel 0 (o :: rest) = Some (Ok (Some l))) /\
    (exists m, l = (o :: rest) ++ m) /\ by_commutators ty 0 (length (o :: rest)) l /\ closed_exactly ty l.
Proof.
  intros Hty Hg. destruct (C110_lie_operators ty 0 o rest Hty (Rle_refl 0) Hg) as (f0 & l & H1 & H2 & H3 & H4 & _).
  { intros p c _ _. destruct (Ceq_dec c (RtoC 0)) as [E|N]; auto. right. apply Cmod_gt_0; auto. }
  exists f0, l. split; auto. split; auto. split; auto. intros i j A B HA HB. destruct (H4 i j A B HA HB) as (D & CD & HD).
  assert (Z : hs_norm D = 0%R -> forall s, coefficient D s = RtoC 0).
  { intros E s. unfold hs_norm in E. apply sqrt_eq_0 in E; [|apply sqsum_nonneg]. change (tcoef (c_terms D) s = RtoC 0). unfold tcoef, c_terms.
    assert (K : forall z, In z (c_coeffs D) -> z = RtoC 0) by (apply norm2c_zero; lra). revert K. generalize (c_coeffs D) (b_strings (c_basis D)). clear. induction l as [|z l IH]; intros [|t u] K; auto.
    cbn [combine map fold_right fst snd]. rewrite IH, (K z) by (simpl; auto; intros; apply K; right; auto). destruct (os_key t s); ring. }
  assert (V : hs_norm D = 0%R -> exists v, is_commutator ty A B D /\ length v = length l /\ forall s, coefficient D s = combination l v s).
  { intros E. exists (vzero (length l)). split; auto. rewrite vzero_length. split; auto. intros s. rewrite combination_vzero. auto. }
  assert (P : (0 <= hs_norm D)%R) by apply sqrt_pos.
  exists D. destruct (Req_EM_T (hs_norm D) 0) as [E|N]; [apply V; auto|]. destruct HD as [HD|(v & strs & Lv & Dk & Out & In0)]; [lra|].
  exists (map (Cmult (RtoC (hs_norm D))) v). rewrite map_length. split; auto. split; auto. intros s. rewrite combination_scale.
  assert (Nz : RtoC (hs_norm D) <> RtoC 0) by (intros E; apply N, RtoC_inj; auto).
  assert (F : (coefficient D s / RtoC (hs_norm D))%C = combination l v s).
  { destruct (existsb (fun t => os_key t s) strs) eqn:X.
    - apply existsb_exists in X. destruct X as (t & Ht & Hk). apply os_key_spec in Hk. rewrite <- (coefficient_key D t s Hk), <- (combination_key l v t s Hk).
      assert (K : (coefficient D t / RtoC (hs_norm D) - combination l v t)%C = RtoC 0) by (apply (norm2c_zero _ In0); apply in_map_iff; exists t; auto).
      replace (coefficient D t / RtoC (hs_norm D))%C with (coefficient D t / RtoC (hs_norm D) - combination l v t + combination l v t)%C by ring. rewrite K. ring.
    - apply Out. intros t Ht Hk. apply os_key_spec in Hk. apply Bool.not_true_iff_false in X. apply X. apply existsb_exists. eauto. }
  rewrite <- F. field. auto.
Qed.
Print Assumptions C110_exact.

(** The empty list, and Operators of different types. *)
Theorem C110_empty fuel tol : generate_lie_operators fuel tol [] = Some (Err IndexError).
Proof. reflexivity. Qed.
Print Assumptions C110_empty.

(* Operators of one string. *)
Definition lo1 (c : C) (s : OS) : COp := mkCOp [c] (mkBasis [s] [(s, 0)]) Pauli.
Lemma basis_new_one s : basis_new [s] = Ok (mkBasis [s] [(s, 0)]).
Proof. unfold basis_new. cbn. rewrite ?os_key_refl. reflexivity. Qed.
Lemma lo1_good c s : string_ok Pauli s -> good_cop Pauli (lo1 c s).
Proof.
  intros H. split; [|split; auto; split; auto; intros t [<-|[]]; auto]. cbn [lo1 c_basis].
  change (mkBasis [s] [(s, 0)]) with (basis_iadd_string basis_empty s). apply built_iadd_string. apply built_empty.
Qed.
Lemma lo1_commutator a b k s t u : os_type u = Pauli -> operation_opstring MCommutator s t = Ok (k, Some u) -> (/ 10 ^ 16 <= Cmod (a * b * to_C k)%C)%R ->
  cop_operation MCommutator (lo1 a s) (lo1 b t) = Ok (lo1 (a * b * to_C k)%C u).
Proof.
  intros Hu E M. unfold cop_operation, lo1, c_terms. cbn [c_type c_coeffs c_basis b_strings combine optype_eqb rfold fst snd]. unfold coo_step. cbn [fst snd]. rewrite E. cbn [rbind fst snd].
  destruct (lt_dec (Cmod (a * b * to_C k)%C) tol16r) eqn:L; [apply lt_dec_true in L; unfold tol16r in L; exfalso; lra|].
  cbn [dget dset map fst snd rbind]. unfold cop_new. cbn. rewrite ?basis_new_one. cbn. rewrite Hu. reflexivity.
Qed.

Lemma Cmod_Ci1 : Cmod Ci = 1%R.
Proof. unfold Cmod, Ci. cbn [fst snd]. replace (0 ^ 2 + 1 ^ 2)%R with 1%R by ring. apply sqrt_1. Qed.
(** The normalised commutator. *)
Lemma lo1_next a b k c s t u x : os_type u = Pauli -> operation_opstring MCommutator s t = Ok (k, Some u) -> (x = Rabs x /\ 1 <= x)%R -> (a * b * to_C k * - Ci = RtoC (c * x))%C -> (c * c = 1)%R ->
  exists D D', cop_operation MCommutator (lo1 a s) (lo1 b t) = Ok D /\ cop_scale (Copp Ci) D = Ok D' /\ vnorm (c_coeffs D') = x /\ cop_normalize D' = Some (lo1 (RtoC c) u).
Proof.
  intros Hu E [Hx X1] Ec Hc. set (z := (a * b * to_C k)%C) in *.
  assert (M : Cmod z = x).
  { transitivity (Cmod (z * - Ci)%C); [rewrite Cmod_mult, Cmod_opp, Cmod_Ci1; ring|].
    rewrite Ec, Cmod_R, Rabs_mult. assert (Rabs c = 1)%R by (assert (C2 : c = 1%R \/ c = (-1)%R) by (assert ((c - 1) * (c + 1) = 0)%R by lra; apply Rmult_integral in H; destruct H; [left|right]; lra); destruct C2 as [-> | ->]; [apply Rabs_R1 | rewrite Rabs_left; lra]). rewrite H. lra. }
  exists (lo1 z u), (lo1 (RtoC (c * x)) u). split; [apply lo1_commutator; auto; fold z; rewrite M; apply Rle_trans with 1%R; auto; simpl; lra|]. split.
  { unfold cop_scale, lo1, cop_new. cbn [c_coeffs c_basis b_strings map c_type]. rewrite basis_new_one. cbn. rewrite Hu, Ec. reflexivity. }
  assert (N : vnorm [RtoC (c * x)] = x).
  { unfold vnorm. cbn. replace (c * x * (c * x) + 0 * 0 + 0)%R with (x * x)%R by (replace (c * x * (c * x))%R with (c * c * (x * x))%R by ring; rewrite Hc; ring). apply sqrt_square. lra. }
  split; [exact N|]. unfold cop_normalize, lo1, unit_vec. cbn [c_coeffs]. rewrite N. destruct (Req_EM_T x 0); [lra|]. cbn [vscale map c_basis c_type]. do 3 f_equal.
  unfold RtoC. apply C_ext; cbn; field; lra.
Qed.

(** The loops only append. *)
Lemma lo_run_prefix fuel tol : forall st l, lo_run fuel tol st = Some (Ok (Some l)) -> exists m, l = lo_ops st ++ m.
Proof.
  induction fuel as [|f IH]; intros [ops b vs don ia ib] l E; [discriminate|]. cbn [lo_run] in E. destruct (lo_step tol _) as [[st'|l'|]|e] eqn:Es; try discriminate.
  - destruct (IH _ _ E) as [m ->]. cbn [lo_ops]. assert (K : exists m', lo_ops st' = ops ++ m'); [|destruct K as [m' ->]; exists (m' ++ m); rewrite app_assoc; auto].
    revert Es. unfold lo_step. destruct (ia <? length ops); [|discriminate]. assert (N : exists m', ops = ops ++ m') by (exists []; rewrite app_nil_r; auto).
    destruct (ib <? length ops); [|intros H; injection H as <-; exact N]. destruct (_ || _)%bool; [intros H; injection H as <-; exact N|].
    destruct (of_option IndexError (nth_error ops ia)) as [A|]; [|discriminate]. cbn [rbind]. destruct (of_option IndexError (nth_error ops ib)) as [B|]; [|discriminate]. cbn [rbind].
    destruct (cop_operation MCommutator A B) as [D|]; [|discriminate]. cbn [rbind]. destruct (cop_scale (Copp Ci) D) as [D'|]; [|discriminate]. cbn [rbind].
    destruct (lt_dec tol _); [|intros H; injection H as <-; exact N]. destruct (cop_normalize D') as [oc|]; [|discriminate].
    unfold lo_add. cbv zeta. destruct (coeff_column _ oc) as [v|]; [|discriminate]. cbn [rbind]. destruct (lt_dec tol _); [|intros H; injection H as <-; exact N].
    destruct (unit_vec _); [|discriminate]. cbn [rbind]. intros H; injection H as <-. cbn [lo_ops]. eauto.
  - injection E as <-. revert Es. unfold lo_step. destruct (ia <? length ops); [|intros H; injection H as <-; exists []; rewrite app_nil_r; auto].
    destruct (ib <? length ops); [|discriminate]. destruct (_ || _)%bool; [discriminate|].
    destruct (of_option IndexError (nth_error ops ia)) as [A|]; [|discriminate]. cbn [rbind]. destruct (of_option IndexError (nth_error ops ib)) as [B|]; [|discriminate]. cbn [rbind].
    destruct (cop_operation MCommutator A B) as [D|]; [|discriminate]. cbn [rbind]. destruct (cop_scale (Copp Ci) D) as [D'|]; [|discriminate]. cbn [rbind].
    destruct (lt_dec tol _); [|discriminate]. destruct (cop_normalize D') as [oc|]; [|discriminate].
    destruct (lo_add _ _ _ _ _) as [[[[? ?] ?]|]|]; discriminate.
Qed.

Lemma lt_dec_false x y : (y <= x)%R -> lt_dec x y = false.
Proof. intros H. apply not_true_is_false. rewrite lt_dec_true. lra. Qed.

(** Non-vacuity: X_1 and Y_1.  Their commutator is 2i Z_1, so that Z_1 is the third Operator. *)
Definition lo_X := lo1 (RtoC 1) sX1.
Definition lo_Y := lo1 (RtoC 1) sY1.
Definition lo_Z := lo1 (RtoC 1) sZ1.
Definition lo_b2 : Basis := mkBasis [sX1; sY1] [(sX1, 0); (sY1, 1)].
Definition lo_b3 : Basis := mkBasis [sX1; sY1; sZ1] [(sX1, 0); (sY1, 1); (sZ1, 2)].
Lemma lo_string s : In s [sX1; sY1; sZ1] -> string_ok Pauli s.
Proof. intros [<-|[<-|[<-|[]]]]; string_ok_tac. Qed.
Lemma lo_XY : exists D D', cop_operation MCommutator lo_X lo_Y = Ok D /\ cop_scale (Copp Ci) D = Ok D' /\ vnorm (c_coeffs D') = 2%R /\ cop_normalize D' = Some lo_Z.
Proof.
  apply (lo1_next (RtoC 1) (RtoC 1) (mkGC 0 (Q2Qc 2)) 1 sX1 sY1 sZ1 2); [reflexivity | vm_compute; reflexivity | split; [rewrite Rabs_right; lra | lra] | | lra].
  unfold to_C, Ci, RtoC. apply C_ext; cbn; unfold Q2R; cbn; lra.
Qed.

Definition r1 (l : list R) : vec := map RtoC l.
Lemma r1_vnorm l : vnorm (r1 l) = sqrt (fold_right Rplus 0%R (map (fun x => x * x)%R l)).
Proof. unfold vnorm, r1. rewrite map_map. f_equal. f_equal. apply map_ext. intros x. cbn. ring. Qed.
Ltac r1_eq := unfold r1, vscale, vsub, vadd, RtoC; cbn; repeat (apply f_equal2; [apply C_ext; cbn; lra|]); try reflexivity.
Lemma r1_unit l : fold_right Rplus 0%R (map (fun x => x * x)%R l) = 1%R -> unit_vec (r1 l) = Some (r1 l).
Proof.
  intros E. unfold unit_vec. rewrite r1_vnorm, E, sqrt_1. destruct (Req_EM_T 1 0); [lra|]. f_equal. unfold vscale, r1. rewrite map_map. apply map_ext. intros x. unfold RtoC. apply C_ext; cbn; field.
Qed.
Lemma r1_dot l l' : vdot (r1 l) (r1 l') = RtoC (fold_right Rplus 0%R (map (fun p => fst p * snd p)%R (combine l l'))).
Proof.
  unfold vdot, r1. revert l'. induction l as [|x l IH]; intros [|y l']; auto. cbn [map combine fold_right fst snd]. unfold csum in *. cbn [map zip_with fold_right]. rewrite IH.
  unfold RtoC. apply C_ext; cbn; ring.
Qed.
Lemma lo_large c : (tol10r < Rabs c)%R -> lt_dec tol10r (Cmod (RtoC c)) = true.
Proof. intros H. apply lt_dec_true. rewrite Cmod_R. auto. Qed.
Lemma tol10_lt1 : (tol10r < 1)%R.
Proof. unfold tol10r. simpl. lra. Qed.
Definition lo_st0 : lo_st := mkLo [lo_X; lo_Y] lo_b2 [r1 [1; 0]%R; r1 [0; 1]%R] [] 0 0.
Lemma lo_start fuel : generate_lie_operators fuel tol10r [lo_X; lo_Y] = lo_run fuel tol10r lo_st0.
Proof.
  unfold generate_lie_operators. cbv zeta. replace (ccombined [lo_X; lo_Y]) with lo_b2 by reflexivity.
  cbn [rmap]. unfold lie_column at 1 2. cbn [c_terms lo_X lo_Y lo1 c_coeffs c_basis b_strings combine rmap fst snd].
  replace (basis_index lo_b2 sX1) with (@Ok nat 0) by reflexivity. replace (basis_index lo_b2 sY1) with (@Ok nat 1) by reflexivity. cbn [rbind filter snd].
  rewrite lo_large by (rewrite Rabs_R1; apply tol10_lt1). cbn [basis_len lo_b2 b_strings length seq map fst snd Nat.eqb csum fold_right rbind]. unfold gram_schmidt_sparse. cbn [Nat.eqb].
  match goal with |- context [unit_vec ?v] => replace v with (r1 [1; 0]%R) by r1_eq end. rewrite r1_unit by (cbn; lra). cbn [gs_loop].
  match goal with |- context [gs_project ?q ?v] => replace (gs_project q v) with (r1 [0; 1]%R) by (unfold gs_project; cbn [fold_left]; replace v with (r1 [0; 1]%R) by r1_eq; rewrite r1_dot; r1_eq) end.
  rewrite r1_vnorm. cbn [map fold_right]. replace (0 * 0 + (1 * 1 + 0))%R with 1%R by ring. rewrite sqrt_1. destruct (Rlt_dec 0 1); [|lra]. unfold lo_st0. repeat f_equal.
  cbn [app]. r1_eq.
  apply f_equal2; [reflexivity|]. apply f_equal2; [|reflexivity]. rewrite Rinv_1. r1_eq.
Qed.

(** One step of the loops that computes a commutator. *)
Lemma lo_step_next tol ops b vs don ia ib A B D D' oc x : ia < length ops -> ib < length ops -> (Nat.eqb ia ib || pair_mem (ia, ib) don || pair_mem (ib, ia) don)%bool = false ->
  nth_error ops ia = Some A -> nth_error ops ib = Some B -> cop_operation MCommutator A B = Ok D -> cop_scale (Copp Ci) D = Ok D' -> vnorm (c_coeffs D') = x -> (tol < x)%R -> cop_normalize D' = Some oc ->
  lo_step tol (mkLo ops b vs don ia ib) =
    rbind (lo_add tol ops b vs oc) (fun r => match r with None => Ok LoNaN | Some (ops', b', vs') => Ok (LoMore (mkLo ops' b' vs' ((ia, ib) :: don) ia (S ib))) end).
Proof.
  intros Ha Hb Hn EA EB E1 E2 E3 L E4. unfold lo_step. apply Nat.ltb_lt in Ha, Hb. rewrite Ha, Hb, Hn, EA, EB. cbn [of_option rbind]. rewrite E1. cbn [rbind]. rewrite E2. cbn [rbind]. rewrite E3.
  apply lt_dec_true in L. rewrite L, E4. reflexivity.
Qed.
Lemma r1_projected n : forall vs w, projected n (map r1 vs) (r1 w) = r1 (fold_right (fun v acc => map (fun p => fst p + snd p)%R (combine (map (Rmult (fold_right Rplus 0%R (map (fun p => fst p * snd p)%R (combine v w)))) v) acc)) (repeat 0%R n) vs).
Proof.
  induction vs as [|v vs IH]; intros w.
  - cbn. unfold r1, vzero. induction n; auto. cbn. f_equal. auto.
  - unfold projected in *. cbn [map fold_right]. rewrite IH, r1_dot. set (a := fold_right Rplus 0%R _). generalize (fold_right (fun v acc => map (fun p => fst p + snd p)%R (combine (map (Rmult (fold_right Rplus 0%R (map (fun p => fst p * snd p)%R (combine v w)))) v) acc)) (repeat 0%R n) vs).
    clearbody a. clear. unfold vadd, vscale, r1. induction v as [|x v IH]; intros [|y l]; auto. cbn [map zip_with combine fst snd]. f_equal; [unfold RtoC; apply C_ext; cbn; ring | apply IH].
Qed.
Lemma lo_first : exists b, lo_step tol10r (mkLo [lo_X; lo_Y] lo_b2 [r1 [1; 0]%R; r1 [0; 1]%R] [] 0 1) =
  Ok (LoMore (mkLo [lo_X; lo_Y; lo_Z] b [r1 [1; 0; 0]%R; r1 [0; 1; 0]%R; r1 [0; 0; 1]%R] [(0, 1)] 0 2)).
Proof.
  destruct lo_XY as (D & D' & E1 & E2 & E3 & E4). exists lo_b3.
  rewrite (lo_step_next tol10r _ _ _ _ _ _ lo_X lo_Y D D' lo_Z 2); try reflexivity; try assumption; try (cbn; lia); [|pose proof tol10_lt1; lra].
  unfold lo_add. cbv zeta. replace (lo_extend lo_b2 (b_strings (c_basis lo_Z))) with lo_b3 by reflexivity. cbn [basis_len lo_b3 lo_b2 b_strings length Nat.sub map].
  unfold coeff_column. cbn [c_terms lo_Z lo1 c_coeffs c_basis b_strings combine rmap fst snd].
  replace (basis_index _ sZ1) with (@Ok nat 2) by reflexivity. cbn [rbind basis_len lo_b3 b_strings length seq map fst snd Nat.eqb csum fold_right].
  replace (pad 1 (r1 [1; 0]%R)) with (r1 [1; 0; 0]%R) by reflexivity. replace (pad 1 (r1 [0; 1]%R)) with (r1 [0; 1; 0]%R) by reflexivity.
  match goal with |- context [vdot ?v _] => replace v with (r1 [0; 0; 1]%R) by r1_eq end.
  match goal with |- context [projected 3 ?vs _] => change vs with (map r1 [[1; 0; 0]; [0; 1; 0]]%R) end. rewrite r1_projected. cbn [fold_right map combine fst snd repeat].
  match goal with |- context [vsub ?v (r1 ?w)] => replace (r1 w) with (r1 [0; 0; 0]%R) by r1_eq end. rewrite r1_dot. cbn [map combine fold_right fst snd].
  replace (vsub _ _) with (r1 [0; 0; 1]%R) by r1_eq. rewrite r1_unit by (cbn; lra).
  match goal with |- context [lt_dec tol10r ?y] => replace (lt_dec tol10r y) with true end; [reflexivity|]. symmetry. apply lt_dec_true.
  match goal with |- context [Cmod ?z] => replace z with (RtoC (-1)%R) by (unfold RtoC; apply C_ext; cbn; lra) end. rewrite Cmod_R, Rabs_left by lra. pose proof tol10_lt1. lra.
Qed.
Example C110_example : good_cop Pauli lo_X /\ good_cop Pauli lo_Y /\
  exists fuel l, generate_lie_operators fuel tol10r [lo_X; lo_Y] = Some (Ok (Some (lo_X :: lo_Y :: lo_Z :: l))).
Proof.
  split; [apply lo1_good, lo_string; simpl; auto|]. split; [apply lo1_good, lo_string; simpl; auto|].
  destruct (C110_lie_operators Pauli tol10r lo_X [lo_Y]) as (f0 & l & H & _); [discriminate | unfold tol10r; simpl; lra | | |].
  - intros p [<-|[<-|[]]]; apply lo1_good, lo_string; simpl; auto.
  - intros p c [<-|[<-|[]]] [<-|[]]; right; rewrite Cmod_R, Rabs_R1; apply tol10_lt1.
  - exists (S (S f0)). specialize (H (S (S f0)) ltac:(lia)). rewrite lo_start in *. cbn [lo_run] in *. destruct lo_first as [b Eb].
    change (lo_step tol10r lo_st0) with (@Ok lo_out (LoMore (mkLo [lo_X; lo_Y] lo_b2 [r1 [1; 0]%R; r1 [0; 1]%R] [] 0 1))) in *. cbv iota in *. rewrite Eb in *.
    destruct (lo_run_prefix _ _ _ _ H) as [m ->]. exists m. exact H.
Qed.

(* ----------------------------------------------------------------------- C111 *)

(** C111 is false: the Operators returned are linearly independent if the given ones are.  The
    coefficients up to the tolerance are left out of the vectors (577), but not of the Operators:
    for 1/20 X_1, Y_1, Z_1 and the tolerance 1/10 the result contains both 1/20 X_1 and X_1. *)
Definition eps20 : R := (/ 20)%R.
Definition lo_E := lo1 (RtoC eps20) sX1.
Definition tol_10 : R := (/ 10)%R.
Definition le_list : list COp := [lo_E; lo_Y; lo_Z; lo_X].
Definition lvs : list vec := [r1 [0; 0; 0]%R; r1 [0; 1; 0]%R; r1 [0; 0; 1]%R].

Lemma le_good p : In p [lo_E; lo_Y; lo_Z] -> good_cop Pauli p.
Proof. intros [<-|[<-|[<-|[]]]]; apply lo1_good, lo_string; simpl; auto. Qed.
Lemma lo1_coefficient c s t : coefficient (lo1 c s) t = if os_key s t then c else RtoC 0.
Proof. unfold coefficient, lo1, c_terms. cbn. destruct (os_key s t); ring. Qed.
Lemma le_independent : independent_ops [lo_E; lo_Y; lo_Z].
Proof.
  intros [|x [|y [|z [|w v]]]] L H; try discriminate. pose proof (H sX1) as HX. pose proof (H sY1) as HY. pose proof (H sZ1) as HZ. unfold combination in *. cbn [combine map fold_right fst snd] in *.
  unfold lo_E, lo_Y, lo_Z in *. rewrite !lo1_coefficient in HX, HY, HZ.
  change (os_key sX1 sX1) with true in *. change (os_key sY1 sX1) with false in *. change (os_key sZ1 sX1) with false in *.
  change (os_key sX1 sY1) with false in *. change (os_key sY1 sY1) with true in *. change (os_key sZ1 sY1) with false in *.
  change (os_key sX1 sZ1) with false in *. change (os_key sY1 sZ1) with false in *. change (os_key sZ1 sZ1) with true in *. cbv iota in *.
  cbn [repeat length]. assert (Nz : RtoC eps20 <> RtoC 0) by (intros E; apply RtoC_inj in E; unfold eps20 in E; lra).
  assert (X0 : x = RtoC 0). { replace x with ((x * RtoC eps20 + (y * RtoC 0 + (z * RtoC 0 + RtoC 0))) / RtoC eps20)%C by (field; auto). rewrite HX. field. auto. }
  assert (Y0 : y = RtoC 0). { rewrite <- HY. ring. } assert (Z0 : z = RtoC 0). { rewrite <- HZ. ring. } congruence.
Qed.
Lemma le_dependent : ~ independent_ops le_list.
Proof.
  intros H. specialize (H [RtoC 1; RtoC 0; RtoC 0; RtoC (- eps20)] eq_refl).
  assert (E : [RtoC 1; RtoC 0; RtoC 0; RtoC (- eps20)] = repeat (RtoC 0) 4).
  { apply H. intros s. unfold combination, le_list. cbn [combine map fold_right fst snd]. unfold lo_E, lo_Y, lo_Z, lo_X. rewrite !lo1_coefficient.
    destruct (os_key sX1 s), (os_key sY1 s), (os_key sZ1 s); unfold RtoC; apply C_ext; cbn; ring. }
  injection E. intros. lra.
Qed.
Lemma lo_add_r1 tol ops b vs s c w i : In s (b_strings b) -> length (b_strings b) = 3 -> basis_index b s = Ok i -> lo_extend b [s] = b ->
  map (fun j => csum (map (fun p => if Nat.eqb (fst p) j then snd p else RtoC 0) [(i, RtoC c)])) (seq 0 3) = r1 w ->
  lo_add tol ops b vs (lo1 (RtoC c) s) =
    let ov := projected 3 (map (pad 0) vs) (r1 w) in
    if lt_dec tol (Cmod (Cminus (vdot (r1 w) ov) (RtoC 1))) then match unit_vec (vsub (r1 w) ov) with Some u => Ok (Some (ops ++ [lo1 (RtoC c) s], b, map (pad 0) vs ++ [u])) | None => Ok None end
    else Ok (Some (ops, b, map (pad 0) vs)).
Proof.
  intros _ L Hi Hx Hw. unfold lo_add. cbv zeta. change (b_strings (c_basis (lo1 (RtoC c) s))) with [s]. rewrite Hx. unfold basis_len. rewrite Nat.sub_diag. unfold coeff_column. change (c_terms (lo1 (RtoC c) s)) with [(RtoC c, s)].
  cbn [rmap fst snd]. rewrite Hi. cbn [rbind]. unfold basis_len. rewrite L. rewrite Hw. reflexivity.
Qed.
Lemma pad0 vs : map (pad 0) vs = vs.
Proof. induction vs as [|v vs IH]; auto. cbn [map]. rewrite IH. unfold pad, vzero. cbn. rewrite app_nil_r. auto. Qed.
Lemma lo_step_small tol ops b vs don ia ib A B D D' : ia < length ops -> ib < length ops -> (Nat.eqb ia ib || pair_mem (ia, ib) don || pair_mem (ib, ia) don)%bool = false ->
  nth_error ops ia = Some A -> nth_error ops ib = Some B -> cop_operation MCommutator A B = Ok D -> cop_scale (Copp Ci) D = Ok D' -> (vnorm (c_coeffs D') <= tol)%R ->
  lo_step tol (mkLo ops b vs don ia ib) = Ok (LoMore (mkLo ops b vs ((ia, ib) :: don) ia (S ib))).
Proof.
  intros Ha Hb Hn EA EB E1 E2 L. unfold lo_step. apply Nat.ltb_lt in Ha, Hb. rewrite Ha, Hb, Hn, EA, EB. cbn [of_option rbind]. rewrite E1. cbn [rbind]. rewrite E2. cbn [rbind].
  rewrite (lt_dec_false tol) by auto. reflexivity.
Qed.
Lemma lo_skip tol ops b vs don ia ib : (ia <? length ops) = true -> (ib <? length ops) = true -> (Nat.eqb ia ib || pair_mem (ia, ib) don || pair_mem (ib, ia) don)%bool = true ->
  lo_step tol (mkLo ops b vs don ia ib) = Ok (LoMore (mkLo ops b vs don ia (S ib))).
Proof. intros Ha Hb Hn. unfold lo_step. rewrite Ha, Hb, Hn. reflexivity. Qed.
Lemma lo_row tol ops b vs don ia ib : (ia <? length ops) = true -> (ib <? length ops) = false -> lo_step tol (mkLo ops b vs don ia ib) = Ok (LoMore (mkLo ops b vs don (S ia) 0)).
Proof. intros Ha Hb. unfold lo_step. rewrite Ha, Hb. reflexivity. Qed.
Lemma lo_end tol ops b vs don ia ib : (ia <? length ops) = false -> lo_step tol (mkLo ops b vs don ia ib) = Ok (LoDone ops).
Proof. intros Ha. unfold lo_step. rewrite Ha. reflexivity. Qed.
(** The steps with a small commutator. *)
Lemma le_small ops b vs don ia ib b0 s t k u : ia < length ops -> ib < length ops -> (Nat.eqb ia ib || pair_mem (ia, ib) don || pair_mem (ib, ia) don)%bool = false ->
  nth_error ops ia = Some (lo1 (RtoC eps20) s) -> nth_error ops ib = Some (lo1 (RtoC b0) t) -> os_type u = Pauli -> operation_opstring MCommutator s t = Ok (k, Some u) ->
  Cmod (RtoC eps20 * RtoC b0 * to_C k)%C = tol_10 ->
  lo_step tol_10 (mkLo ops b vs don ia ib) = Ok (LoMore (mkLo ops b vs ((ia, ib) :: don) ia (S ib))).
Proof.
  intros Ha Hb Hn EA EB Hu E M. eapply lo_step_small; eauto.
  - apply lo1_commutator; eauto. rewrite M. unfold tol_10. simpl. lra.
  - unfold cop_scale, lo1, cop_new. cbn [c_coeffs c_basis b_strings map c_type]. rewrite basis_new_one. cbn. rewrite Hu. reflexivity.
  - cbn [c_coeffs]. set (z := (RtoC eps20 * RtoC b0 * to_C k)%C) in *. replace (vnorm [(z * - Ci)%C]) with (Cmod z); [lra|]. unfold vnorm, Cmod. f_equal. destruct z as [p q]. cbn. ring.
Qed.
(** The steps whose commutator is in the span: [v] is the vector of the commutator. *)
Lemma le_old ops b vs don ia ib a b0 s t k u c x i : ia < length ops -> ib < length ops -> (Nat.eqb ia ib || pair_mem (ia, ib) don || pair_mem (ib, ia) don)%bool = false ->
  nth_error ops ia = Some (lo1 a s) -> nth_error ops ib = Some (lo1 b0 t) -> os_type u = Pauli -> operation_opstring MCommutator s t = Ok (k, Some u) ->
  (x = Rabs x /\ 1 <= x)%R -> (a * b0 * to_C k * - Ci = RtoC (c * x))%C -> (c * c = 1)%R ->
  In u (b_strings b) -> length (b_strings b) = 3 -> basis_index b u = Ok i -> lo_extend b [u] = b ->
  lo_step tol_10 (mkLo ops b vs don ia ib) =
    let w := map (fun j => csum (map (fun p => if Nat.eqb (fst p) j then snd p else RtoC 0) [(i, RtoC c)])) (seq 0 3) in
    let ov := projected 3 vs w in
    if lt_dec tol_10 (Cmod (Cminus (vdot w ov) (RtoC 1))) then match unit_vec (vsub w ov) with Some z => Ok (LoMore (mkLo (ops ++ [lo1 (RtoC c) u]) b (vs ++ [z]) ((ia, ib) :: don) ia (S ib))) | None => Ok LoNaN end
    else Ok (LoMore (mkLo ops b vs ((ia, ib) :: don) ia (S ib))).
Proof.
  intros Ha Hb Hn EA EB Hu E Hx Ec Hc Iu L Hi He. destruct (lo1_next a b0 k c s t u x Hu E Hx Ec Hc) as (D & D' & E1 & E2 & E3 & E4).
  rewrite (lo_step_next tol_10 ops b vs don ia ib _ _ D D' (lo1 (RtoC c) u) x Ha Hb Hn EA EB E1 E2 E3 ltac:(unfold tol_10; lra) E4).
  set (w := r1 (map (fun j => if Nat.eqb i j then c else 0%R) (seq 0 3))).
  assert (W : map (fun j => csum (map (fun p => if Nat.eqb (fst p) j then snd p else RtoC 0) [(i, RtoC c)])) (seq 0 3) = w).
  { unfold w, r1. rewrite map_map. apply map_ext. intros j. unfold csum. cbn [map fold_right fst snd]. destruct (Nat.eqb i j); unfold RtoC; apply C_ext; cbn; ring. }
  cbv zeta. rewrite W. unfold w. rewrite (lo_add_r1 tol_10 ops b vs u c _ i Iu L Hi He W). cbv zeta. rewrite pad0. fold w.
  destruct (lt_dec tol_10 _); [|reflexivity]. destruct (unit_vec _); reflexivity.
Qed.
Definition lb : Basis := mkBasis [sX1; sY1; sZ1] [(sX1, 0); (sY1, 1); (sZ1, 2)].
Definition lvs4 : list vec := lvs ++ [r1 [1; 0; 0]%R].
Lemma le_start fuel : generate_lie_operators fuel tol_10 [lo_E; lo_Y; lo_Z] = lo_run fuel tol_10 (mkLo [lo_E; lo_Y; lo_Z] lb lvs [] 0 0).
Proof.
  unfold generate_lie_operators. cbv zeta. replace (ccombined [lo_E; lo_Y; lo_Z]) with lb by reflexivity.
  cbn [rmap]. unfold lie_column. cbn [c_terms lo_E lo_Y lo_Z lo1 c_coeffs c_basis b_strings combine rmap fst snd].
  replace (basis_index lb sX1) with (@Ok nat 0) by reflexivity. replace (basis_index lb sY1) with (@Ok nat 1) by reflexivity. replace (basis_index lb sZ1) with (@Ok nat 2) by reflexivity. cbn [rbind filter snd].
  replace (lt_dec tol_10 (Cmod (RtoC 1))) with true by (symmetry; apply lt_dec_true; rewrite Cmod_R, Rabs_R1; unfold tol_10; lra).
  rewrite (lt_dec_false tol_10 (Cmod (RtoC eps20))) by (rewrite Cmod_R, Rabs_right; unfold eps20, tol_10; lra).
  cbn [basis_len lb b_strings length seq map fst snd Nat.eqb csum fold_right rbind]. unfold gram_schmidt_sparse. cbn [Nat.eqb].
  replace (unit_vec [RtoC 0; RtoC 0; RtoC 0]) with (@None vec).
  2:{ symmetry. unfold unit_vec. change [RtoC 0; RtoC 0; RtoC 0] with (r1 [0; 0; 0]%R). rewrite r1_vnorm. cbn [map fold_right]. replace (0 * 0 + (0 * 0 + (0 * 0 + 0)))%R with 0%R by ring. rewrite sqrt_0. destruct (Req_EM_T 0 0); [auto | lra]. }
  change [RtoC 0; RtoC 0; RtoC 0] with (r1 [0; 0; 0]%R).
  assert (Y : [(RtoC 0 + RtoC 0)%C; (RtoC 1 + RtoC 0)%C; (RtoC 0 + RtoC 0)%C] = r1 [0; 1; 0]%R) by r1_eq.
  assert (Z : [(RtoC 0 + RtoC 0)%C; (RtoC 0 + RtoC 0)%C; (RtoC 1 + RtoC 0)%C] = r1 [0; 0; 1]%R) by r1_eq. rewrite Y, Z.
  assert (U : forall v, (exists l, v = r1 l /\ fold_right Rplus 0%R (map (fun x => x * x)%R l) = 1%R) -> vnorm v = 1%R /\ vscale (RtoC (/ vnorm v)) v = v).
  { intros v (l & -> & E). rewrite r1_vnorm, E, sqrt_1. split; auto. unfold vscale, r1. rewrite map_map. apply map_ext. intros x. unfold RtoC. apply C_ext; cbn; field. }
  cbn [gs_loop].
  assert (G1 : gs_project [r1 [0; 0; 0]%R] (r1 [0; 1; 0]%R) = r1 [0; 1; 0]%R) by (unfold gs_project; cbn [fold_left]; rewrite r1_dot; r1_eq). rewrite G1.
  destruct (U (r1 [0; 1; 0]%R)) as [N1 S1]; [eexists; split; [reflexivity | cbn; lra]|]. rewrite S1, N1. destruct (Rlt_dec 0 1); [|lra]. cbn [app].
  assert (G2 : gs_project [r1 [0; 0; 0]%R; r1 [0; 1; 0]%R] (r1 [0; 0; 1]%R) = r1 [0; 0; 1]%R).
  { unfold gs_project. cbn [fold_left]. rewrite r1_dot. match goal with |- context [vdot (r1 [0; 1; 0]%R) ?v] => replace v with (r1 [0; 0; 1]%R) by r1_eq end. rewrite r1_dot. r1_eq. } rewrite G2.
  destruct (U (r1 [0; 0; 1]%R)) as [N2 S2]; [eexists; split; [reflexivity | cbn; lra]|]. rewrite S2, N2. destruct (Rlt_dec 0 1); [|lra]. reflexivity.
Qed.
Ltac le_tac := match goal with
  | |- operation_opstring _ _ _ = _ => vm_compute; reflexivity
  | |- basis_index _ _ = _ => reflexivity
  | |- lo_extend _ _ = _ => reflexivity
  | |- nth_error _ _ = _ => reflexivity
  | |- os_type _ = _ => reflexivity
  | |- length _ = _ => reflexivity
  | |- (_ || _)%bool = _ => reflexivity
  | |- In _ _ => simpl; tauto
  | |- (_ = Rabs _ /\ _)%R => split; [rewrite Rabs_right; lra | lra]
  | |- (_ * _ = 1)%R => lra
  | |- _ < _ => cbn; lia
  | |- fold_right Rplus _ _ = _ => cbn; lra
  | |- map _ (seq 0 3) = _ => unfold csum; cbn [map seq fold_right Nat.eqb fst snd]; r1_eq
  | |- (_ * - Ci = _)%C => unfold to_C, Ci, RtoC; apply C_ext; cbn; unfold Q2R; cbn; lra
  | |- _ => idtac
  end.
Ltac le_eval w := match goal with |- context [map ?f (seq 0 3)] => replace (map f (seq 0 3)) with (r1 w) by (unfold csum; cbn [map seq fold_right Nat.eqb fst snd]; r1_eq) end.
Lemma le_add : lo_step tol_10 (mkLo [lo_E; lo_Y; lo_Z] lb lvs [(0, 2); (0, 1)] 1 2) = Ok (LoMore (mkLo le_list lb lvs4 [(1, 2); (0, 2); (0, 1)] 1 3)).
Proof.
  rewrite (le_old _ lb lvs _ 1 2 (RtoC 1) (RtoC 1) sY1 sZ1 (mkGC 0 (Q2Qc 2)) sX1 1 2 0) by le_tac. cbv zeta. le_eval [1; 0; 0]%R.
  replace (projected 3 lvs (r1 [1; 0; 0]%R)) with (r1 [0; 0; 0]%R).
  2:{ change lvs with (map r1 [[0; 0; 0]; [0; 1; 0]; [0; 0; 1]]%R). rewrite r1_projected. cbn [fold_right map combine fst snd repeat]. r1_eq. }
  rewrite r1_dot. cbn [map combine fold_right fst snd]. replace (vsub _ _) with (r1 [1; 0; 0]%R) by r1_eq. rewrite r1_unit by (cbn; lra).
  match goal with |- context [lt_dec tol_10 ?y] => replace (lt_dec tol_10 y) with true end; [reflexivity|]. symmetry. apply lt_dec_true.
  match goal with |- context [Cmod ?z] => replace z with (RtoC (-1)%R) by (unfold RtoC; apply C_ext; cbn; lra) end. rewrite Cmod_R, Rabs_left by lra. unfold tol_10. lra.
Qed.
(** A vector of the span: its projection is itself. *)
Lemma le_inside don ia ib a b0 s t k u c i w : ia < 4 -> ib < 4 -> (Nat.eqb ia ib || pair_mem (ia, ib) don || pair_mem (ib, ia) don)%bool = false ->
  nth_error le_list ia = Some (lo1 a s) -> nth_error le_list ib = Some (lo1 b0 t) -> os_type u = Pauli -> operation_opstring MCommutator s t = Ok (k, Some u) ->
  (a * b0 * to_C k * - Ci = RtoC (c * 2))%C -> (c * c = 1)%R -> In u (b_strings lb) -> basis_index lb u = Ok i -> lo_extend lb [u] = lb ->
  map (fun j => csum (map (fun p => if Nat.eqb (fst p) j then snd p else RtoC 0) [(i, RtoC c)])) (seq 0 3) = r1 w -> length w = 3 -> fold_right Rplus 0%R (map (fun x => x * x)%R w) = 1%R ->
  lo_step tol_10 (mkLo le_list lb lvs4 don ia ib) = Ok (LoMore (mkLo le_list lb lvs4 ((ia, ib) :: don) ia (S ib))).
Proof.
  intros Ha Hb Hn EA EB Hu E Ec Hc Iu Hi He Hw Lw Nw. rewrite (le_old le_list lb lvs4 don ia ib a b0 s t k u c 2 i) by (assumption || reflexivity || (split; [rewrite Rabs_right; lra | lra])). cbv zeta. rewrite Hw.
  destruct w as [|x [|y [|z [|q w]]]]; try discriminate. replace (projected 3 lvs4 (r1 [x; y; z])) with (r1 [x; y; z]).
  2:{ change lvs4 with (map r1 [[0; 0; 0]; [0; 1; 0]; [0; 0; 1]; [1; 0; 0]]%R). rewrite r1_projected. cbn [fold_right map combine fst snd repeat]. r1_eq. }
  rewrite r1_dot. cbn [map combine fold_right fst snd] in *. rewrite Nw. rewrite lt_dec_false; auto. replace (RtoC 1 - RtoC 1)%C with (RtoC 0) by ring. rewrite Cmod_0. unfold tol_10. lra.
Qed.
Theorem C111_refuted : (forall p, In p [lo_E; lo_Y; lo_Z] -> good_cop Pauli p) /\ independent_ops [lo_E; lo_Y; lo_Z] /\
  exists fuel l, generate_lie_operators fuel tol_10 [lo_E; lo_Y; lo_Z] = Some (Ok (Some l)) /\ ~ independent_ops l.
Proof.
  split; [apply le_good|]. split; [apply le_independent|]. exists 40, le_list. split; [|apply le_dependent]. rewrite le_start.
  assert (S1 : lo_step tol_10 (mkLo [lo_E; lo_Y; lo_Z] lb lvs [] 0 1) = Ok (LoMore (mkLo [lo_E; lo_Y; lo_Z] lb lvs [(0, 1)] 0 2))).
  { apply (le_small _ lb lvs [] 0 1 1 sX1 sY1 (mkGC 0 (Q2Qc 2)) sZ1); le_tac.
    replace (RtoC eps20 * RtoC 1 * to_C (mkGC 0 (Q2Qc 2)))%C with (RtoC tol_10 * Ci)%C by (unfold to_C, Ci, RtoC, tol_10, eps20; apply C_ext; cbn; unfold Q2R; cbn; lra). rewrite Cmod_mult, Cmod_Ci1, Cmod_R, Rabs_right; unfold tol_10; lra. }
  assert (S2 : lo_step tol_10 (mkLo [lo_E; lo_Y; lo_Z] lb lvs [(0, 1)] 0 2) = Ok (LoMore (mkLo [lo_E; lo_Y; lo_Z] lb lvs [(0, 2); (0, 1)] 0 3))).
  { apply (le_small _ lb lvs [(0, 1)] 0 2 1 sX1 sZ1 (mkGC 0 (Q2Qc (-2))) sY1); le_tac.
    replace (RtoC eps20 * RtoC 1 * to_C (mkGC 0 (Q2Qc (-2))))%C with (- (RtoC tol_10 * Ci))%C by (unfold to_C, Ci, RtoC, tol_10, eps20; apply C_ext; cbn; unfold Q2R; cbn; lra). rewrite Cmod_opp, Cmod_mult, Cmod_Ci1, Cmod_R, Rabs_right; unfold tol_10; lra. }
  assert (S3 : forall don, pair_mem (1, 3) don = false -> pair_mem (3, 1) don = false -> lo_step tol_10 (mkLo le_list lb lvs4 don 1 3) = Ok (LoMore (mkLo le_list lb lvs4 ((1, 3) :: don) 1 4))).
  { intros don P1 P2. apply (le_inside don 1 3 (RtoC 1) (RtoC 1) sY1 sX1 (mkGC 0 (Q2Qc (-2))) sZ1 (-1) 2 [0; 0; -1]%R); try (rewrite P1, P2; reflexivity); le_tac. }
  assert (S4 : forall don, pair_mem (2, 3) don = false -> pair_mem (3, 2) don = false -> lo_step tol_10 (mkLo le_list lb lvs4 don 2 3) = Ok (LoMore (mkLo le_list lb lvs4 ((2, 3) :: don) 2 4))).
  { intros don P1 P2. apply (le_inside don 2 3 (RtoC 1) (RtoC 1) sZ1 sX1 (mkGC 0 (Q2Qc 2)) sY1 1 1 [0; 1; 0]%R); try (rewrite P1, P2; reflexivity); le_tac. }
  assert (S5 : forall don, pair_mem (3, 0) don = false -> pair_mem (0, 3) don = false -> lo_step tol_10 (mkLo le_list lb lvs4 don 3 0) = Ok (LoMore (mkLo le_list lb lvs4 ((3, 0) :: don) 3 1))).
  { intros don P1 P2. apply (lo_step_small tol_10 le_list lb lvs4 don 3 0 lo_X lo_E (mkCOp [] basis_empty Pauli) (mkCOp [] basis_empty Pauli)); try (rewrite P1, P2; reflexivity); le_tac.
    - unfold cop_operation, lo_X, lo_E, lo1, c_terms. cbn [c_type c_coeffs c_basis b_strings combine optype_eqb rfold fst snd]. unfold coo_step. cbn [fst snd].
      match goal with |- context [operation_opstring ?m ?a ?b] => let r := eval vm_compute in (operation_opstring m a b) in replace (operation_opstring m a b) with r by (vm_compute; reflexivity) end. cbn [rbind fst snd].
      replace (lt_dec _ tol16r) with true; [reflexivity|]. symmetry. apply lt_dec_true. match goal with |- (Cmod ?z < _)%R => replace z with (RtoC 0) by (unfold to_C, RtoC; apply C_ext; cbn; unfold Q2R; cbn; lra) end. rewrite Cmod_0. unfold tol16r. simpl. lra.
    - reflexivity.
    - cbn [c_coeffs]. unfold vnorm. cbn. rewrite sqrt_0. unfold tol_10. lra. }

  cbn [lo_run]. rewrite lo_skip by reflexivity. rewrite S1, S2. rewrite lo_row by reflexivity. rewrite !lo_skip by reflexivity. rewrite le_add, S3 by reflexivity.
  rewrite lo_row by reflexivity. rewrite !lo_skip by reflexivity. rewrite S4 by reflexivity. rewrite lo_row, S5 by reflexivity. rewrite !lo_skip by reflexivity. rewrite lo_row, lo_end by reflexivity. reflexivity.
Qed.
Print Assumptions C111_refuted.
