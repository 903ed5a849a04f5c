(** Properties C100-C101: the search of selected_ci_greedy. *)
From Coq Require Import String List ZArith Bool Arith Lia Permutation Sorted Reals QArith Qreals Qcanon Lra.
From Coquelicot Require Import Complex.
From Verif Require Import GC Exn M_OpString M_Tools M_Algebra M_Basis M_OpAlg M_Transform M_LinAlg M_Explore M_Core M_Greedy
  S_Alg S_Den S_Basis S_Built S_OpAlg S_Explore S_RScal S_CFock S_CScal S_LinAlg S_Core S_Greedy S_Search
  L_Alg L_Basis L_PropStr L_PropOpAlg L_Explore L_Explore2 L_Explore3 L_Explore4 L_CScal L_CFock L_LinAlg L_Inter L_Herm L_Core L_Commuting L_Lie L_Greedy1 L_Greedy2 L_Greedy3 L_Greedy4
  L_Search L_Search2 P_Core P_Default P_Greedy.
Import ListNotations.
Local Open Scope nat_scope.

(** C100: what the search does.  In each step the strings of the Operator found are those of the
    Operator O it starts from, the largest new terms of [A,H], where A are the largest terms of
    [O,H], and new anticommutators; afterwards the largest coefficients above the threshold are
    kept, and the threshold is halved when the number got worse; and the search stops at the
    first step that meets one of the two conditions, or after [num_steps] steps. *)
Theorem C100_search : forall ty H Or p fuel init n thr x best bestn ops norms,
  ty <> Fermion -> std_op ty H -> std_cop ty init -> explored ty H x ->
  real_solver (gr_eig Or) -> sorts_reals (gr_sort Or) -> gp_trans p = None ->
  selected_ci_greedy Or p fuel init [H] n thr x = Ok (best, bestn, ops, norms) ->
  search ty H (gp_nH p) (gp_sizes p) (gp_nO p) (gp_target p) (gp_minrel p) n 0 (c_terms init) thr None ops norms.
Proof.
  intros ty H Or p fuel init n thr x best bestn ops norms Hty HH Hi Hx Heig Hsort Hpt E.
  unfold selected_ci_greedy in E. destruct (forallb _ _); [discriminate|].
  match type of E with context [rbind ?a _] => destruct a as [st|] eqn:El; [|discriminate] end. cbn [rbind] in E. injection E as <- <- <- <-.
  assert (Al : aligned (mkG (basis_iadd basis_empty (c_basis init)) init x [] [] init None thr false)).
  { destruct Hi as [(Hb & Hl & _) _]. rewrite basis_iadd_empty by (apply L_PropBasis.built_ok; auto). split; auto. }
  destruct (loop_search ty H Hty HH Or p fuel init Heig Hpt Hsort n 0 _ _ (start_ok ty H init x thr Hty HH Hi Hx) Al eq_refl El) as (os & es & K1 & K2 & K3).
  cbn [g_ops g_norms app g_op g_thr g_bestn Nat.add] in *. rewrite K1, K2. exact K3.
Qed.
Print Assumptions C100_search.

(** C101: with transformations, the strings of a recorded Operator are closed under them: the
    image of a string has only strings among them, up to coefficients of at most 10^-16. *)
Lemma close_string_ok s b T b' : basis_ok b -> close_string s b T = Ok b' -> basis_ok b' /\ (exists k, b_strings b' = b_strings b ++ k) /\
  exists r, T s = Ok r /\ forall c t, In (c, t) (op_terms r) -> large tol16 c -> exists u, In u (b_strings b') /\ same_key u t.
Proof.
  intros Hb E. unfold close_string in E. destruct (T s) as [r|] eqn:Er; [|discriminate]. cbn [rbind] in E. injection E as <-.
  set (f := fun b t => if abs_gtb (fst t) tol16 && negb (basis_mem b (snd t)) then basis_iadd_string b (snd t) else b).
  assert (G : forall ts b, basis_ok b -> basis_ok (fold_left f ts b) /\ (exists k, b_strings (fold_left f ts b) = b_strings b ++ k) /\
    forall c t, In (c, t) ts -> large tol16 c -> exists u, In u (b_strings (fold_left f ts b)) /\ same_key u t).
  { clear. induction ts as [|[c t] ts IH]; intros b Hb; cbn [fold_left].
    - split; auto. split; [exists []; rewrite app_nil_r; auto|intros c t []].
    - assert (F : basis_ok (f b (c, t)) /\ (exists k, b_strings (f b (c, t)) = b_strings b ++ k) /\ (large tol16 c -> exists u, In u (b_strings (f b (c, t))) /\ same_key u t)).
      { unfold f. cbn [fst snd]. destruct (abs_gtb c tol16) eqn:Ea; cbn [andb].
        - destruct (basis_mem b t) eqn:Em; cbn [negb].
          + split; auto. split; [exists []; rewrite app_nil_r; auto|]. intros _. apply basis_ok_mem; auto.
          + destruct (basis_iadd_string_ok b t Hb) as [K1 K2]. split; auto. split; [apply (append_new_prefix _ _ _ K2)|]. intros _. apply (append_new_right _ _ _ K2). left; auto.
        - split; auto. split; [exists []; rewrite app_nil_r; auto|]. intros F. apply largeb_spec in F. rewrite <- abs_gtb_large in F. congruence. }
      destruct F as (F1 & (k & F2) & F3). destruct (IH _ F1) as (I1 & (k' & I2) & I3). split; auto. split; [exists (k ++ k'); rewrite I2, F2, app_assoc; auto|].
      intros c0 t0 [E0|Hi] Hc; [injection E0 as <- <-|eauto]. destruct (F3 Hc) as (u & U1 & U2). exists u. split; auto. rewrite I2. apply in_or_app; auto. }
  destruct (G (op_terms r) b Hb) as (G1 & G2 & G3). split; auto. split; auto. exists r. auto.
Qed.
Definition closed_at (Ts : list rule) (l : list OS) (s : OS) : Prop :=
  forall T, In T Ts -> exists r, T s = Ok r /\ forall c t, In (c, t) (op_terms r) -> large tol16 c -> exists u, In u l /\ same_key u t.
Lemma close_strings s : forall Ts b b', basis_ok b -> rfold (close_string s) Ts b = Ok b' -> basis_ok b' /\ (exists k, b_strings b' = b_strings b ++ k) /\ closed_at Ts (b_strings b') s.
Proof.
  induction Ts as [|T Ts IH]; intros b b' Hb E; cbn [rfold] in E.
  - injection E as <-. split; auto. split; [exists []; rewrite app_nil_r; auto|intros T []].
  - destruct (close_string s b T) as [b1|] eqn:E1; [|discriminate]. cbn [rbind] in E. destruct (close_string_ok _ _ _ _ Hb E1) as (K1 & (k & K2) & r & K3 & K4).
    destruct (IH _ _ K1 E) as (I1 & (k' & I2) & I3). split; auto. split; [exists (k ++ k'); rewrite I2, K2, app_assoc; auto|].
    intros T' [<-|HT]; [|apply I3; auto]. exists r. split; auto. intros c t Ht Hc. destruct (K4 c t Ht Hc) as (u & U1 & U2). exists u. split; auto. rewrite I2. apply in_or_app; auto.
Qed.
Lemma close_basis_ok Ts : forall fuel i b b', basis_ok b -> close_basis fuel Ts i b = Ok b' -> (exists k, b_strings b' = b_strings b ++ k) /\
  forall j s, i <= j -> nth_error (b_strings b') j = Some s -> closed_at Ts (b_strings b') s.
Proof.
  induction fuel as [|fuel IH]; intros i b b' Hb E; cbn [close_basis] in E; destruct (nth_error (b_strings b) i) as [s|] eqn:N; try discriminate.
  1,3: injection E as <-; split; [exists []; rewrite app_nil_r; auto|]; intros j t Lj Hj; exfalso; apply nth_error_None in N; assert (j < length (b_strings b)) by (apply nth_error_Some; congruence); lia.
  destruct (rfold (close_string s) Ts b) as [b1|] eqn:E1; [|discriminate]. cbn [rbind] in E. destruct (close_strings _ _ _ _ Hb E1) as (K1 & (k & K2) & K3).
  destruct (IH _ _ _ K1 E) as ((k' & I1) & I2). split; [exists (k ++ k'); rewrite I1, K2, app_assoc; auto|].
  intros j t Lj Hj. destruct (Nat.eq_dec j i) as [->|Nj]; [|apply (I2 j); auto; lia].
  assert (t = s). { rewrite I1, K2, <- app_assoc, nth_error_app1 in Hj by (apply nth_error_Some; congruence). congruence. } subst t.
  intros T HT. destruct (K3 T HT) as (r & R1 & R2). exists r. split; auto. intros c u Hu Hc. destruct (R2 c u Hu Hc) as (w & W1 & W2). exists w. split; auto. rewrite I1. apply in_or_app; auto.
Qed.
Lemma add_terms_basis k ext : forall inds n b b', basis_ok b -> add_terms k ext inds n b = Ok b' -> basis_ok b'.
Proof.
  induction inds as [|i inds IH]; intros n b b' Hb E; cbn [add_terms] in E; [congruence|].
  destruct (nth_error (b_strings ext) i) as [s|]; [|discriminate]. cbn [of_option rbind] in E.
  assert (Hb' : basis_ok (basis_iadd_string b s)) by (apply basis_iadd_string_ok; auto).
  destruct (basis_mem b s); destruct (k <=? _); try (injection E as <-; auto; fail); eauto.
Qed.
Lemma grow_com_basis Or nH A cA : forall ops acc acc', basis_ok (fst acc) -> rfold (grow_com Or nH A cA) ops acc = Ok acc' -> basis_ok (fst acc').
Proof.
  induction ops as [|o ops IH]; intros acc acc' Hb E; cbn [rfold] in E; [congruence|].
  unfold grow_com at 1 in E. destruct (explore A o (snd acc) None) as [[[L ext] x]|]; [|discriminate]. cbn [rbind] in E.
  match type of E with context [add_terms ?k ?e ?i ?n ?b] => destruct (add_terms k e i n b) as [b1|] eqn:Ea; [|discriminate] end. cbn [rbind] in E.
  apply (IH (b1, x)) in E; auto. eapply add_terms_basis; eauto.
Qed.
Lemma anti_basis k : forall ps acc acc', basis_ok (fst (fst acc)) -> rfold (anti_add k) ps acc = Ok acc' -> basis_ok (fst (fst acc')).
Proof.
  induction ps as [|q ps IH]; intros acc acc' Hb E; cbn [rfold] in E; [congruence|].
  destruct (anti_add k acc q) as [acc1|] eqn:Ea; [|discriminate]. cbn [rbind] in E. apply (IH acc1); auto.
  destruct acc as [[b added] stop]. unfold anti_add in Ea. destruct stop; [injection Ea as <-; auto|].
  destruct (operation_opstring _ _ _) as [[c os3]|]; [|discriminate]. cbn [rbind] in Ea. destruct os3 as [s|]; [|injection Ea as <-; auto].
  destruct (_ && _); injection Ea as <-; auto. apply basis_iadd_string_ok; auto.
Qed.
Theorem C101_closed : forall Or p fuel init com_ops n thr x best bestn ops norms Ts, gp_trans p = Some Ts ->
  selected_ci_greedy Or p fuel init com_ops n thr x = Ok (best, bestn, ops, norms) ->
  forall o, In o ops -> forall s T, In s (b_strings (c_basis o)) -> In T Ts ->
    exists r, T s = Ok r /\ forall c t, In (c, t) (op_terms r) -> large tol16 c -> exists u, In u (b_strings (c_basis o)) /\ same_key u t.
Proof.
  intros Or p fuel init com_ops n thr x best bestn ops norms Ts Ht E. unfold selected_ci_greedy in E. destruct com_ops as [|H rest]; [discriminate|].
  destruct (forallb _ _); [discriminate|]. match type of E with context [rbind ?a _] => destruct a as [st|] eqn:El; [|discriminate] end. cbn [rbind] in E. injection E as _ _ <- _.
  assert (G : forall n step st st', basis_ok (g_basis st) -> (forall o, In o (g_ops st) -> forall s, In s (b_strings (c_basis o)) -> closed_at Ts (b_strings (c_basis o)) s) ->
    greedy_loop Or p fuel H (H :: rest) n step st = Ok st' -> forall o, In o (g_ops st') -> forall s, In s (b_strings (c_basis o)) -> closed_at Ts (b_strings (c_basis o)) s).
  { clear - Ht. induction n as [|n IH]; intros step st st' Hb Hops E; cbn [greedy_loop] in E; [injection E as <-; exact Hops|]. destruct (g_end st); [injection E as <-; exact Hops|].
    destruct (greedy_step Or p fuel H (H :: rest) step st) as [st1|] eqn:Es; [|discriminate]. cbn [rbind] in E.
    assert (Q : basis_ok (g_basis st1) /\ forall o, In o (g_ops st1) -> forall s, In s (b_strings (c_basis o)) -> closed_at Ts (b_strings (c_basis o)) s); [|apply (IH (S step) st1); tauto].
    clear E IH. rename Es into E. unfold greedy_step in E.
    destruct (of_option IndexError (nth_error (gp_nH p) step)) as [nH|]; [|discriminate]. cbn [rbind] in E.
    destruct (grow_commutators Or H (H :: rest) nH (g_basis st) (g_op st) (g_cache st)) as [[b1 x1]|] eqn:E1; [|discriminate]. cbn [rbind] in E.
    assert (B1 : basis_ok b1).
    { unfold grow_commutators in E1. destruct (explore _ H _ None) as [[[L ext] x0]|]; [|discriminate]. cbn [rbind] in E1. destruct (negb _); [discriminate|].
      do 3 (match type of E1 with context [rbind ?a _] => destruct a; [|discriminate] end; cbn [rbind] in E1). apply (grow_com_basis _ _ _ _ _ _ (b1, x1)) in E1; auto. }
    destruct (grow_anticommutators Or (gp_nO p) (g_op st) b1) as [b2|] eqn:E2; [|discriminate]. cbn [rbind] in E.
    assert (B2 : basis_ok b2).
    { unfold grow_anticommutators in E2. destruct (take _ _); [|discriminate]. cbn [rbind] in E2. destruct (_ =? 0); [congruence|].
      match type of E2 with context [rbind ?a _] => destruct a as [r1|] eqn:F1; [|discriminate] end. cbn [rbind] in E2.
      match type of E2 with context [rbind ?a _] => destruct a as [r2|] eqn:F2; [|discriminate] end. cbn [rbind] in E2. injection E2 as <-.
      apply anti_basis in F1; auto. apply anti_basis in F2; auto. }
    rewrite Ht in E. destruct (close_basis fuel Ts 0 b2) as [b3|] eqn:E3; [|discriminate]. cbn [rbind] in E.
    destruct (close_basis_ok Ts _ _ _ _ B2 E3) as [_ CB].
    destruct (find_vectors Or p (H :: rest) b3 x1) as [[qs x2]|]; [|discriminate]. cbn [rbind] in E.
    destruct (nth_error qs 0) as [[e v]|]; [|discriminate]. cbn [of_option rbind] in E.
    destruct (cop_new v (b_strings b3) None) as [o|] eqn:E5; [|discriminate]. cbn [rbind] in E.
    destruct (of_option IndexError (nth_error (gp_sizes p) step)) as [size|]; [|discriminate]. cbn [rbind] in E.
    match type of E with context [gtruncate Or b3 v ?t size] => destruct (gtruncate Or b3 v t size) as [b4|] eqn:E6; [|discriminate] end. cbn [rbind] in E.
    match type of E with context [rbind ?a _] => destruct a as [cs|]; [|discriminate] end. cbn [rbind] in E.
    destruct (cop_new cs (b_strings b4) None) as [o'|] eqn:E7; [|discriminate]. cbn [rbind] in E. injection E as <-. cbn [g_basis g_ops].
    split.
    - unfold gtruncate in E6. destruct (rmap _ _); [|discriminate]. cbn [rbind] in E6. destruct (take _ _); [|discriminate]. cbn [rbind] in E6. apply basis_new_ok in E6. tauto.
    - intros q Hq s Hs. apply in_app_or in Hq. destruct Hq as [Hq|[<-|[]]]; [apply Hops; auto|].
      assert (Eb : b_strings (c_basis o) = b_strings b3).
      { unfold cop_new in E5. destruct (basis_new (b_strings b3)) as [c|] eqn:Eb; [|discriminate]. cbn [rbind] in E5. destruct (basis_new_ok _ _ Eb) as [Es _].
        rewrite Es in E5. destruct (b_strings b3); [discriminate|]. injection E5 as <-. exact Es. }
      rewrite Eb in *. apply In_nth_error in Hs. destruct Hs as (j & Hj). apply (CB j s); auto. lia. }
  intros o Ho s T Hs HT. 
  assert (B0 : basis_ok (basis_iadd basis_empty (c_basis init))) by (apply basis_iadd_ok; apply basis_ok_empty).
  exact (G n 0 (mkG (basis_iadd basis_empty (c_basis init)) init x [] [] init None thr false) st B0 (fun o F => match F with end) El o Ho s Hs T HT).
Qed.
Print Assumptions C101_closed.

(* ------------------------------------------------------------- examples *)

(** H = X_1 + Z_1, starting at Z_1: the step adds X_1 and finds H up to a factor. *)
Definition gs_H : Operator := mkOperator [g1; g1] c78_basis Pauli.
Definition gs_B0 : Basis := mkBasis [sZ1] [(sZ1, 0)].
Definition gs_B : Basis := mkBasis [sZ1; sX1] [(sZ1, 0); (sX1, 1)].
Definition gs_init : COp := mkCOp [RtoC 1] gs_B0 Pauli.
Definition gs_s : R := (/ sqrt 2)%R.
Definition gs_v : vec := [RtoC gs_s; RtoC gs_s].
Definition gs_super (c : R) : list vec := [[RtoC c; RtoC (- c)]; [RtoC (- c); RtoC c]].
Definition gs_pairs (c : R) : list (R * vec) := [(0%R, gs_v); ((2 * c)%R, [RtoC gs_s; RtoC (- gs_s)])].
Definition gs_or (c : R) : groracles := mkGOr (solver_of (gs_super c) (gs_pairs c)) argsort.
Definition gs_O : COp := mkCOp gs_v gs_B Pauli.
Lemma gs_sq : (gs_s * gs_s = / 2)%R.
Proof. unfold gs_s. rewrite <- Rinv_mult, sqrt_sqrt by lra. auto. Qed.
Lemma gs_pos : (0 < gs_s)%R.
Proof. apply Rinv_0_lt_compat, sqrt_lt_R0. lra. Qed.
Lemma gs_std_H : std_op Pauli gs_H.
Proof.
  split; [apply (good_op_intro Pauli [g1; g1] [sX1; sZ1]); try reflexivity; intros s [<-|[<-|[]]]; [apply ok_X1 | apply ok_Z1]|]. intros s [<-|[<-|[]]]; left; reflexivity.
Qed.
Lemma gs_std_init : std_cop Pauli gs_init.
Proof.
  split; [|intros s [<-|[]]; left; reflexivity]. split; [apply (built_new [sZ1]); reflexivity|]. split; [reflexivity|]. split; [reflexivity|].
  intros s [<-|[]]. apply ok_Z1.
Qed.
Lemma gs_real c : real_solver (gr_eig (gs_or c)).
Proof.
  pose proof gs_sq as Q. apply solver_real. intros l v [E|[E|[]]]; injection E as <- <-; (split; [reflexivity|]); (split; [intros z [<-|[<-|[]]]; reflexivity|]);
    (split; [unfold norm2c; cbn -[gs_s]; nra|]);
    cbn -[gs_s]; unfold csum; cbn -[gs_s]; repeat (match goal with |- _ :: _ = _ :: _ => f_equal end); apply injective_projections; cbn -[gs_s]; ring.
Qed.
Lemma gs_lowest c : (0 <= c)%R -> finds_lowest (gr_eig (gs_or c)).
Proof.
  intros Hc. apply solver_lowest. intros [|[a b] [|[d e] [|f w]]] Lw Rw; try discriminate.
  assert (Eb : b = 0%R) by (apply (Rw (a, b)); left; auto). assert (Ed : e = 0%R) by (apply (Rw (d, e)); right; left; auto). subst.
  cbn. assert (0 <= c * ((a - d) * (a - d)))%R by (apply Rmult_le_pos; [auto | apply Rle_0_sqr]). rewrite Rmult_0_l.
  match goal with |- (_ <= ?x)%R => replace x with (c * ((a - d) * (a - d)))%R by ring end. auto.
Qed.
Definition gs_L1 := Eval vm_compute in fst (fst (ex_get (explore gs_B0 gs_H cache_empty None))).
Definition gs_E1 := Eval vm_compute in snd (fst (ex_get (explore gs_B0 gs_H cache_empty None))).
Definition gs_x1 := Eval vm_compute in snd (ex_get (explore gs_B0 gs_H cache_empty None)).
Definition gs_L2 := Eval vm_compute in fst (fst (ex_get (explore gi_A gs_H gs_x1 None))).
Definition gs_E2 := Eval vm_compute in snd (fst (ex_get (explore gi_A gs_H gs_x1 None))).
Definition gs_x2 := Eval vm_compute in snd (ex_get (explore gi_A gs_H gs_x1 None)).
Definition gs_L3 := Eval vm_compute in fst (fst (ex_get (explore gs_B gs_H gs_x2 None))).
Definition gs_E3 := Eval vm_compute in snd (fst (ex_get (explore gs_B gs_H gs_x2 None))).
Definition gs_x3 := Eval vm_compute in snd (ex_get (explore gs_B gs_H gs_x2 None)).
Lemma gs_e1 : explore gs_B0 gs_H cache_empty None = Ok (gs_L1, gs_E1, gs_x1). Proof. vm_compute. reflexivity. Qed.
Lemma gs_e2 : explore gi_A gs_H gs_x1 None = Ok (gs_L2, gs_E2, gs_x2). Proof. vm_compute. reflexivity. Qed.
Lemma gs_e3 : explore gs_B gs_H gs_x2 None = Ok (gs_L3, gs_E3, gs_x3). Proof. vm_compute. reflexivity. Qed.
Lemma gs_grow c : grow_commutators (gs_or c) gs_H [gs_H] 1 gs_B0 gs_init cache_empty = Ok (gs_B, gs_x2).
Proof.
  unfold grow_commutators. rewrite gs_e1. cbn [rbind].
  change (negb (length (c_coeffs gs_init) =? sm_cols gs_L1)) with false. cbv beta iota zeta.
  set (v := rows_vec (dense_rows gs_L1) (c_coeffs gs_init)). assert (Ev : exists z, v = [z]) by (eexists; reflexivity). destruct Ev as [z Ez]. rewrite Ez. clear v Ez.
  change (largest_first (gs_or c) [z]) with [0]. cbn [length Nat.min firstn].
  change (take (b_strings gs_E1) [0]) with (Ok [sY1]). cbn [rbind]. change (basis_new [sY1]) with (Ok gi_A). cbn [rbind].
  change (take [z] [0]) with (Ok [z]). cbn [rbind rfold]. unfold grow_com. cbn [snd fst]. rewrite gs_e2. cbn [rbind]. cbv beta iota zeta.
  set (v := rows_vec (dense_rows gs_L2) [z]). assert (Ev : exists u w, v = [u; w]) by (do 2 eexists; reflexivity). destruct Ev as (u & w & Eu). rewrite Eu. clear v Eu.
  assert (El : largest_first (gs_or c) [u; w] = [0; 1] \/ largest_first (gs_or c) [u; w] = [1; 0]) by (unfold largest_first; cbn; destruct (Rle_lt_dec _ _); auto).
  destruct El as [-> | ->]; reflexivity.
Qed.
Lemma gs_truncate c : exists b, gtruncate (gs_or c) gs_B gs_v 0 2 = Ok b /\ (b = gs_B \/ b = c78_basis).
Proof.
  unfold gtruncate. assert (E0 : lt_dec 0 (Cmod (RtoC gs_s)) = true). { apply lt_dec_true. rewrite Cmod_R. pose proof gs_pos. rewrite Rabs_right; lra. }
  assert (El : largest_first (gs_or c) gs_v = [0; 1] \/ largest_first (gs_or c) gs_v = [1; 0]) by (unfold largest_first; cbn; destruct (Rle_lt_dec _ _); auto).
  destruct El as [-> | ->]; unfold gs_v; cbn [rmap nth_error of_option rbind filter snd]; rewrite E0; eexists; (split; [reflexivity|]); auto.
Qed.
Lemma gs_matrix L : dense_cols L = dense_cols gs_L3 -> rreal (gram (dense_cols L)) = gs_super 4.
Proof.
  intros ->. replace (dense_cols gs_L3) with [[(0, 2)%R]; [(0, -2)%R]].
  - unfold rreal, gs_super, gram. cbn. unfold csum. cbn. repeat (match goal with |- _ :: _ = _ :: _ => f_equal end); apply injective_projections; cbn; ring.
  - unfold dense_cols. cbn -[Q2R RtoC]. unfold to_C. cbn -[RtoC]. unfold Q2R, RtoC. cbn. repeat f_equal; lra.
Qed.
Definition gs_p : gparams := mkGP [1] 1 [2] None None None None 3.
Lemma gs_vzero c : radd (rzero 2) (gs_super c) = gs_super c.
Proof. apply (radd_zero 2); [reflexivity|]. intros v [<-|[<-|[]]]; reflexivity. Qed.
Lemma gs_find : find_vectors (gs_or 4) gs_p [gs_H] gs_B gs_x2 = Ok (gs_pairs 4, gs_x3).
Proof.
  unfold find_vectors. cbn [rfold]. unfold com_step. rewrite gs_e3. cbn [rbind]. rewrite (gs_matrix gs_L3 eq_refl). change (basis_len gs_B) with 2. rewrite gs_vzero.
  cbn [gp_orth gs_p gp_trans rbind Nat.ltb Nat.leb orb]. cbn [gs_or gr_eig]. rewrite solver_hit. reflexivity.
Qed.
Lemma gs_anti c B : grow_anticommutators (gs_or c) 1 gs_init B = Ok B.
Proof. reflexivity. Qed.
Lemma gs_run : selected_ci_greedy (gs_or 4) gs_p 0 gs_init [gs_H] 1 0 cache_empty = Ok (gs_O, Some 0%R, [gs_O], [0%R]).
Proof.
  unfold selected_ci_greedy. change (forallb _ (b_strings (o_basis gs_H))) with false. change (basis_iadd basis_empty (c_basis gs_init)) with gs_B0.
  cbn [greedy_loop g_end]. unfold greedy_step. cbn [g_basis g_op g_cache nth_error gp_nH gs_p of_option rbind].
  rewrite gs_grow. cbn [rbind gp_nO gs_p]. rewrite gs_anti. cbn [rbind gp_trans gs_p]. rewrite gs_find. cbn [rbind nth_error gs_pairs of_option].
  cbn [worse g_bestn gs_p gp_minrel improves g_thr]. change (cop_new gs_v (b_strings gs_B) None) with (Ok gs_O). cbn [rbind gp_sizes gs_p nth_error of_option].
  destruct (gs_truncate 4) as (b & -> & [-> | ->]); reflexivity.
Qed.
Example C100_example : std_op Pauli gs_H /\ std_cop Pauli gs_init /\ explored Pauli gs_H cache_empty /\
  real_solver (gr_eig (gs_or 4)) /\ finds_lowest (gr_eig (gs_or 4)) /\ sorts_reals (gr_sort (gs_or 4)) /\
  selected_ci_greedy (gs_or 4) gs_p 0 gs_init [gs_H] 1 0 cache_empty = Ok (gs_O, Some 0%R, [gs_O], [0%R]) /\
  c_terms gs_init = [(RtoC 1, sZ1)] /\ c_terms gs_O = [(RtoC (/ sqrt 2), sZ1); (RtoC (/ sqrt 2), sX1)].
Proof.
  split; [apply gs_std_H|]. split; [apply gs_std_init|]. split; [constructor|]. split; [apply gs_real|].
  split; [apply gs_lowest; lra|]. split; [apply argsort_sorts|]. split; [apply gs_run|]. split; reflexivity.
Qed.

(** The same with num_H_terms = 0 and the transformation that exchanges X and Z: the string X_1
    is added by the transformation. *)
Definition gh_T : rule := fun s => if os_key s sX1 then op_new [g1] [sZ1] None else if os_key s sZ1 then op_new [g1] [sX1] None else op_new [g1] [s] None.
Definition gh_p : gparams := mkGP [0] 1 [2] None (Some [gh_T]) None None 3.
Definition gh_c : R := (4 + large_number)%R.
Definition gh_x2 := Eval vm_compute in snd (ex_get (explore basis_empty gs_H gs_x1 None)).
Definition gh_x3 := Eval vm_compute in snd (ex_get (explore gs_B gs_H gh_x2 None)).
Definition gh_E2 := Eval vm_compute in snd (fst (ex_get (explore basis_empty gs_H gs_x1 None))).
Definition gh_L2 := Eval vm_compute in fst (fst (ex_get (explore basis_empty gs_H gs_x1 None))).
Definition gh_E3 := Eval vm_compute in snd (fst (ex_get (explore gs_B gs_H gh_x2 None))).
Definition gh_L3 := Eval vm_compute in fst (fst (ex_get (explore gs_B gs_H gh_x2 None))).
Lemma gh_e2 : explore basis_empty gs_H gs_x1 None = Ok (gh_L2, gh_E2, gh_x2). Proof. vm_compute. reflexivity. Qed.
Lemma gh_e3 : explore gs_B gs_H gh_x2 None = Ok (gh_L3, gh_E3, gh_x3). Proof. vm_compute. reflexivity. Qed.
Definition gh_S : smat := mkSM 2 2 [(1, 0, g1); (0, 1, g1)].
Lemma gh_symmetry : symmetry_matrix gs_B gh_T = Ok gh_S.
Proof. vm_compute. reflexivity. Qed.
Lemma gh_grow c : grow_commutators (gs_or c) gs_H [gs_H] 0 gs_B0 gs_init cache_empty = Ok (gs_B0, gh_x2).
Proof.
  unfold grow_commutators. rewrite gs_e1. cbn [rbind].
  change (negb (length (c_coeffs gs_init) =? sm_cols gs_L1)) with false. cbv beta iota zeta.
  rewrite Nat.min_0_r. cbn [firstn]. unfold take at 1. cbn [rmap rbind]. change (basis_new []) with (Ok basis_empty). cbn [rbind]. unfold take at 1. cbn [rmap rbind rfold].
  unfold grow_com. cbn [snd fst]. rewrite gh_e2. reflexivity.
Qed.
Lemma gh_find : find_vectors (gs_or gh_c) gh_p [gs_H] gs_B gh_x2 = Ok (gs_pairs gh_c, gh_x3).
Proof.
  unfold find_vectors. cbn [rfold]. unfold com_step. rewrite gh_e3. cbn [rbind]. rewrite (gs_matrix gh_L3 eq_refl). change (basis_len gs_B) with 2. rewrite gs_vzero.
  cbn [gp_orth gh_p gp_trans rbind]. unfold symmetrize_com_matrix. cbn [rfold]. rewrite gh_symmetry. cbn [rbind]. change (basis_len gs_B) with 2.
  replace (radd (gs_super 4) (rscale large_number (one_minus 2 1 (hermitian_rows 2 (dense_cols gh_S))))) with (gs_super gh_c).
  - cbn [gp_vecs Nat.ltb Nat.leb orb]. cbn [gs_or gr_eig]. rewrite solver_hit. reflexivity.
  - replace (dense_cols gh_S) with [[RtoC 0; RtoC 1]; [RtoC 1; RtoC 0]].
    + unfold gs_super, gh_c. cbn -[large_number]. repeat (match goal with |- _ :: _ = _ :: _ => f_equal end); apply injective_projections; cbn -[large_number]; field.
    + unfold dense_cols. cbn -[Q2R RtoC]. unfold to_C. cbn -[RtoC]. unfold Q2R, RtoC. cbn. repeat f_equal; lra.
Qed.
Lemma gh_run : selected_ci_greedy (gs_or gh_c) gh_p 2 gs_init [gs_H] 1 0 cache_empty = Ok (gs_O, Some 0%R, [gs_O], [0%R]).
Proof.
  unfold selected_ci_greedy. change (forallb _ (b_strings (o_basis gs_H))) with false. change (basis_iadd basis_empty (c_basis gs_init)) with gs_B0.
  cbn [greedy_loop g_end]. unfold greedy_step. cbn [g_basis g_op g_cache nth_error gp_nH gh_p of_option rbind].
  rewrite gh_grow. cbn [rbind gp_nO gh_p]. rewrite gs_anti. cbn [rbind gp_trans gh_p]. change (close_basis 2 [gh_T] 0 gs_B0) with (Ok gs_B). cbn [rbind].
  rewrite gh_find. cbn [rbind nth_error gs_pairs of_option].
  cbn [worse g_bestn gh_p gp_minrel improves g_thr]. change (cop_new gs_v (b_strings gs_B) None) with (Ok gs_O). cbn [rbind gp_sizes gh_p nth_error of_option].
  destruct (gs_truncate gh_c) as (b & -> & [-> | ->]); reflexivity.
Qed.
Example C101_example : gp_trans gh_p = Some [gh_T] /\
  selected_ci_greedy (gs_or gh_c) gh_p 2 gs_init [gs_H] 1 0 cache_empty = Ok (gs_O, Some 0%R, [gs_O], [0%R]) /\
  gh_T sZ1 = op_new [g1] [sX1] None /\ b_strings (c_basis gs_init) = [sZ1] /\ b_strings (c_basis gs_O) = [sZ1; sX1].
Proof. split; [reflexivity|]. split; [apply gh_run|]. repeat split. Qed.
