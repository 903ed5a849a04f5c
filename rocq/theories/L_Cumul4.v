(** The runs of the cumulative mode. *)
From Coq Require Import List ZArith Bool Arith Lia Reals Qcanon Lra Setoid Morphisms.
From Coquelicot Require Import Complex.
From Verif Require Import GC Exn S_Alg M_OpString M_Algebra M_Basis M_Transform M_LinAlg M_Core S_Den S_Basis S_Built S_OpAlg S_Transform S_RScal S_CScal S_LinAlg S_Core S_Invariant S_Sparsify S_Generate S_Cumulative
  L_PropStr L_Alg L_Basis L_Operator L_PropBasis L_Commutant L_Conversion L_CScal L_LinAlg L_Inter L_Herm L_Core L_Commuting L_PartIso L_Invariant L_Sparsify L_Generate L_Generate2 L_LU L_Dim L_Cumulative L_Cumul2 L_Cumul3.
Import ListNotations.
Local Open Scope nat_scope.
Local Open Scope alg_scope.

(* ----------------------------------------------------- the strings of a run *)

Definition universe (b : cbasis) : list OS := match b with CBasis b => b_strings b | COps l => b_strings (ccombined l) end.
Lemma ccombined_in l : forall b s, basis_ok b -> (forall o, In o l -> basis_ok (c_basis o)) ->
  In s (b_strings (fold_left (fun b o => basis_iadd b (c_basis o)) l b)) -> In s (b_strings b) \/ exists o, In o l /\ In s (b_strings (c_basis o)).
Proof.
  induction l as [|o l IH]; intros b s Hb Hl H; simpl in H; auto. destruct (basis_iadd_ok b (c_basis o) Hb) as [H1 H2].
  apply IH in H; auto; [|intros; apply Hl; right; auto]. destruct H as [H|(p & Hp & H)]; [|right; exists p; split; auto; right; auto].
  destruct (append_new_in _ _ _ H2 s H); auto. right. exists o. split; auto. left; auto.
Qed.
Lemma universe_ok ty b : good_cbasis ty b ->
  NoDup (universe b) /\ (forall s, In s (universe b) -> string_ok ty s) /\ over ty (universe b) b /\ forall s, In s (universe b) -> In s (cbasis_strings b).
Proof.
  destruct b as [b|l]; simpl; intros Hb.
  - destruct Hb as [H1 H2]. split; [apply built_nodup; auto|]. split; auto. split; auto. split; auto. split; auto.
  - destruct Hb as [_ Hl]. destruct (ccombined_ok ty l Hl) as [[Hb Hs] Hi]. split; [apply built_nodup; auto|]. split; auto. split; [intros o Ho; split; auto; intros s; apply Hi; auto|].
    intros s Hin. destruct (ccombined_in l basis_empty s) as [[]|(o & Ho & Hx)]; auto; [apply built_ok, built_empty | intros o Ho; apply built_ok, (Hl o Ho)|].
    apply in_concat. exists (b_strings (c_basis o)). split; auto. apply in_map_iff. exists o; auto.
Qed.

Section Indep.
  Variables (ty : optype) (U : list OS).
  Hypotheses (Hnd : NoDup U) (Hok : forall s, In s U -> string_ok ty s).
  Lemma mat_vec_combination l v : mat_vec (length U) (map (fun o => coords U (c_terms o)) l) v = map (combination l v) U.
  Proof.
    assert (Z : vzero (length U) = map (fun _ => RtoC 0) U) by (clear; unfold vzero; induction U; simpl; f_equal; auto).
    revert v. induction l as [|o l IH]; intros [|c v]; cbn [map mat_vec]; try (rewrite Z; reflexivity).
    rewrite IH. unfold coords. clear. induction U as [|s r IHr]; auto. cbn [map]. unfold vadd, vscale in *. cbn [map zip_with]. f_equal. exact IHr.
  Qed.
  Lemma coefficient_key o s t : same_key s t -> coefficient o s = coefficient o t.
  Proof.
    intros K. unfold coefficient. f_equal. apply map_ext. intros [c u]. cbn [fst snd].
    assert (E : os_key u s = os_key u t); [|rewrite E; auto]. apply eq_true_iff_eq. rewrite !os_key_spec. split; intros H.
    - eapply same_key_trans; eauto.
    - eapply same_key_trans; [eauto | apply same_key_sym; auto].
  Qed.
  Lemma independent_columns l : (forall o, In o l -> inU ty U o) -> (independent_ops l <-> injective (length U) (columns U (COps l))).
  Proof.
    intros Hl. unfold independent_ops, injective, columns. rewrite map_length. split.
    - intros H v Lv E. apply H; auto. intros s. rewrite mat_vec_combination in E.
      destruct (existsb (os_key s) U) eqn:Ex.
      + apply existsb_exists in Ex. destruct Ex as (t & Hin & K). apply os_key_spec in K.
        transitivity (combination l v t); [unfold combination; f_equal; apply map_ext; intros p; f_equal; apply coefficient_key; auto|].
        clear - E Hin. revert E. induction U as [|u r IH]; [destruct Hin|]. unfold vzero. simpl. intros E.
        assert (E1 := f_equal (hd (RtoC 0)) E). assert (E2 := f_equal (@tl C) E). simpl in E1, E2. destruct Hin as [->|Hin]; auto.
      + unfold combination. clear E Lv H. revert v. induction l as [|o l' IH]; intros [|c v]; auto. cbn [combine map fold_right fst snd]. rewrite IH by (intros; apply Hl; right; auto).
        replace (coefficient o s) with (RtoC 0); [ring|]. symmetry. unfold coefficient. fold (tcoef (c_terms o) s). apply tcoef_zero. intros t Ht _. apply not_true_is_false. intros K.
        assert (X : existsb (os_key s) U = true); [|congruence]. apply existsb_exists. exists (snd t). split; [eapply (terms_inU ty U o); eauto; apply Hl; left; auto|].
        apply os_key_spec, same_key_sym, os_key_spec. auto.
    - intros H v Lv Hc. apply H; auto. rewrite mat_vec_combination. clear - Hc. unfold vzero. induction U; simpl; f_equal; auto.
  Qed.
  Lemma orthonormal_columns l : (forall o, In o l -> inU ty U o) -> (orthonormal_ops l <-> orthonormal (columns U (COps l))).
  Proof.
    intros Hl. simpl columns. split.
    - intros H. apply orthonormal_map. intros i j o p Hi Hj. rewrite <- (H i j o p Hi Hj). symmetry. apply (cop_inner_coords ty U Hnd Hok); apply Hl; eapply nth_error_In; eauto.
    - intros [O1 O2] i j o p Hi Hj. rewrite (cop_inner_coords ty U Hnd Hok) by (apply Hl; eapply nth_error_In; eauto).
      destruct (Nat.eqb_spec i j) as [<-|N].
      + rewrite Hi in Hj. injection Hj as <-. apply O1. apply (in_map (fun o => coords U (c_terms o))). eapply nth_error_In; eauto.
      + apply (O2 i j); auto; rewrite nth_error_map, ?Hi, ?Hj; reflexivity.
  Qed.
End Indep.

(* ------------------------------------------------------------------ the run *)

Section Run.
  Variables (ty : optype) (Or : oracles) (b : cbasis) (sp orth : bool) (tol : R).
  Hypotheses (Hb : good_cbasis ty b) (Nb : cbasis_len b <> 0) (Ht : (0 < tol)%R) (Hind : independent_cbasis b).
  Hypothesis Hlu : sp = true -> (forall n V, vectors n V -> orthonormal V -> lu_columns n V (or_lu Or V)) /\ forall l, sorts l (or_argsort Or l).
  Let U := universe b.
  Let m := length U.
  Notation gen syms := (generate_cumulative Or b syms sp orth tol c_fresh).
  Notation orthmode := (sp = false \/ orth = true).

  Lemma Hnd : NoDup U. Proof. apply (universe_ok ty b Hb). Qed.
  Lemma Hok : forall s, In s U -> string_ok ty s. Proof. apply (universe_ok ty b Hb). Qed.
  Lemma Hov : over ty U b. Proof. apply (universe_ok ty b Hb). Qed.
  Lemma Hinj : injective m (columns U b).
  Proof.
    pose proof Hov as Ho. pose proof Hind as Hi. unfold m, U in *. destruct b as [b0|l]; simpl in Ho, Hi.
    - apply (orthonormal_injective _ (units _)); [apply units_vectors | apply units_orthonormal].
    - apply (independent_columns ty); auto.
  Qed.

  Lemma Hort : (forall l, b = COps l -> orthonormal_ops l) -> orthonormal (columns U b).
  Proof.
    intros H. pose proof Hov as Ho. pose proof Hnd as H1. pose proof Hok as H2. unfold U in *. destruct b as [b0|l]; [apply units_orthonormal|].
    apply (orthonormal_columns ty _ H1 H2); auto.
  Qed.

  Lemma gen_snoc syms y : gen (syms ++ [y]) = match gen syms with
      | Ok (Some st) => c_step Or b sp orth tol st (length syms, y)
      | Ok None => Ok None
      | Err e => Err e
      end.
  Proof.
    unfold generate_cumulative. rewrite app_length. simpl length. rewrite Nat.add_1_r, seq_S. simpl Nat.add.
    assert (E : forall x l, length l = length syms -> combine (l ++ [x]) (syms ++ [y]) = combine l syms ++ [(x : nat, y)]).
    { clear. intros x. induction syms as [|z syms IH]; intros [|w l] L; try discriminate; auto. simpl. f_equal. apply IH. simpl in L. lia. }
    rewrite E by apply seq_length. rewrite ofold_app. destruct (ofold _ (combine _ _) c_fresh) as [[st|]|e]; auto. unfold ofold. cbn [rfold].
    destruct (c_step Or b sp orth tol st (length syms, y)) as [[s|]|e]; auto.
  Qed.

  Lemma good_sym_list l y : (forall o, In o l -> inU ty U o) -> l <> [] -> good_sym ty Or b y ->
    (is_operator y \/ orthonormal (columns U (COps l))) -> good_sym ty Or (COps l) y.
  Proof.
    intros Hl Nl Gy Ho. unfold good_sym, is_operator in *. destruct (y_sym y) as [o|T|]; auto. destruct Ho as [[]|Ho].
    destruct Gy as [(_ & G2 & _ & G4 & (G5 & G6) & G7) Gs]. split; auto. assert (Sub : forall s, In s (cbasis_strings (COps l)) -> In s (cbasis_strings b)).
    { intros s Hs. simpl in Hs. apply in_concat in Hs. destruct Hs as (x & Hx & Hs). apply in_map_iff in Hx. destruct Hx as (o & <- & Hin).
      apply (universe_ok ty b Hb). apply (Hl o Hin). auto. }
    split; [split; auto; intros o Hin; apply (Hl o Hin)|]. split; [intros s Hs; apply G2; auto|]. split; [apply (orthonormal_columns ty U Hnd Hok); auto|].
    split; auto. split; auto. destruct G5 as [M1 M2]. split; [split|].
    - intros s Hs. apply M1; auto.
    - intros s s' k k' t t' H1 H2. apply M2; auto.
    - intros s k t Hs. apply G6; auto.
  Qed.

  Definition found (syms : list entry_sym) (k : nat) (l : list COp) : Prop :=
    good_list ty U l /\ (orthmode -> orthonormal (columns U b) -> orthonormal (columns U (COps l))) /\
    forall (A : StarAlg) (S : RScal A) g, rep ty g -> ~ (@aone A == azero) ->
      (forall w, length w = length l -> exists v, length v = cbasis_len b /\ mat_vec m (columns U (COps l)) w = mat_vec m (columns U b) v /\
         forall i y, i <= k -> nth_error syms i = Some y -> satX U S g y (mat_vec m (columns U b) v)) /\
      (forall v, length v = cbasis_len b -> (forall i y, i <= k -> nth_error syms i = Some y -> satX U S g y (mat_vec m (columns U b) v)) ->
         exists w, length w = length l /\ mat_vec m (columns U (COps l)) w = mat_vec m (columns U b) v).
  Lemma found_more syms y k l : k < length syms -> found syms k l -> found (syms ++ [y]) k l.
  Proof.
    intros Hk (F1 & F2 & F3). split; auto. split; auto. intros A S g Hr Hn. destruct (F3 A S g Hr Hn) as [G1 G2]. split.
    - intros w Lw. destruct (G1 w Lw) as (v & Lv & Ev & Sv). exists v. split; auto. split; auto. intros i z Hi Hz. rewrite nth_error_app1 in Hz by lia. eauto.
    - intros v Lv Sv. apply G2; auto. intros i z Hi Hz. apply (Sv i z); auto. rewrite nth_error_app1 by lia. auto.
  Qed.

  Lemma run_ok syms : (forall y, In y syms -> good_sym ty Or b y /\ y_num y = None) ->
    (orthmode /\ (forall l, b = COps l -> orthonormal_ops l) \/ forall y, In y syms -> is_operator y) -> exact_crun Or b syms sp orth tol ->
    exists st, gen syms = Ok (Some st) /\ length (cu_pout st) <= length syms /\ (syms <> [] -> cu_pout st <> []) /\
      (length (cu_pout st) = length syms \/ exists r, rev (cu_pout st) = [] :: r) /\
      forall k l, nth_error (cu_pout st) k = Some l -> found syms k l.
  Proof.
    induction syms as [|y syms IH] using rev_ind; intros Hg Hm HE.
    - exists c_fresh. split; auto. split; auto. split; auto. split; auto. intros [|k]; discriminate.
    - destruct IH as (st & Es & L1 & N1 & D1 & F1).
      { intros z Hz. apply Hg, in_or_app; auto. }
      { destruct Hm as [Hm|Hm]; [left; auto | right; intros z Hz; apply Hm, in_or_app; auto]. }
      { intros s' z rest st -> . apply (HE s' z (rest ++ [y])). rewrite <- app_assoc. reflexivity. }
      rewrite gen_snoc, Es. destruct (Hg y) as [Gy Ny]; [apply in_or_app; right; left; auto|].
      specialize (HE syms y [] st eq_refl Es). set (bs := current b st) in *.
      assert (Cb : (if Nat.eqb (length syms) 0 then Ok b else match rev (cu_pout st) with l :: _ => Ok (COps l) | [] => Err IndexError end) = Ok bs).
      { unfold bs, current. destruct syms as [|z syms]; simpl.
        - replace (cu_pout st) with (@nil (list COp)); [reflexivity|]. symmetry. apply length_zero_iff_nil. simpl in L1. lia.
        - destruct (rev (cu_pout st)) as [|l r] eqn:Er; auto. exfalso. apply N1; [discriminate|]. rewrite <- (rev_involutive (cu_pout st)), Er. reflexivity. }
      unfold c_step. rewrite Cb. cbn [rbind].
      assert (Nn : syms ++ [y] <> []) by (destruct syms; discriminate).
      destruct (Nat.eqb_spec (cbasis_len bs) 0) as [Z|Z].
      { (* nothing is left *)
        assert (Er : exists r, rev (cu_pout st) = [] :: r).
        { unfold bs, current in Z. destruct (rev (cu_pout st)) as [|l r]; [contradiction|]. destruct l; [eauto | discriminate]. }
        exists st. split; auto. rewrite app_length. simpl. split; [lia|]. split; [intros _ E; rewrite E in Er; destruct Er; discriminate|]. split; auto.
        intros k l Hk. apply found_more; auto. assert (k < length (cu_pout st)) by (apply nth_error_Some; congruence). lia. }
      (* the current basis *)
      assert (Lp : length (cu_pout st) = length syms).
      { destruct D1 as [D1|(r & Er)]; auto. exfalso. apply Z. unfold bs, current. rewrite Er. reflexivity. }
      assert (Bs : over ty U bs /\ injective m (columns U bs) /\ (orthmode -> orthonormal (columns U b) -> orthonormal (columns U bs)) /\ good_sym ty Or bs y /\
        forall (A : StarAlg) (S : RScal A) g, rep ty g -> ~ (@aone A == azero) ->
          (forall w, length w = cbasis_len bs -> exists v, length v = cbasis_len b /\ mat_vec m (columns U bs) w = mat_vec m (columns U b) v /\
             forall i y, nth_error syms i = Some y -> satX U S g y (mat_vec m (columns U b) v)) /\
          (forall v, length v = cbasis_len b -> (forall i y, nth_error syms i = Some y -> satX U S g y (mat_vec m (columns U b) v)) ->
             exists w, length w = cbasis_len bs /\ mat_vec m (columns U bs) w = mat_vec m (columns U b) v)).
      { unfold bs, current. destruct (rev (cu_pout st)) as [|l r] eqn:Er.
        - assert (syms = []) by (destruct syms; auto; exfalso; apply N1; [discriminate|]; rewrite <- (rev_involutive (cu_pout st)), Er; reflexivity). subst syms.
          split; [apply Hov|]. split; [apply Hinj|]. split; auto. split; auto. intros A S g Hr Hn. split.
          + intros w Lw. exists w. split; auto. split; auto. intros [|i]; discriminate.
          + intros v Lv _. exists v; auto.
        - assert (Hk : nth_error (cu_pout st) (length syms - 1) = Some l).
          { rewrite <- (rev_involutive (cu_pout st)), Er in Lp |- *. simpl in *. rewrite app_length, rev_length in Lp. simpl in Lp.
            rewrite nth_error_app2 by (rewrite rev_length; lia). rewrite rev_length. replace (length syms - 1 - length r) with 0 by lia. reflexivity. }
          assert (Ls : 0 < length syms) by (rewrite <- Lp; rewrite <- (rev_involutive (cu_pout st)), Er; simpl; rewrite app_length; simpl; lia).
          destruct (F1 _ _ Hk) as ((G1 & G2) & G3 & G4). assert (Il : forall o, In o l -> inU ty U o) by (intros o Ho; apply (G1 o Ho)).
          split; [exact Il|]. split; [exact G2|]. split; [exact G3|]. split.
          + apply good_sym_list; auto; [unfold bs, current in Z; rewrite Er in Z; intros ->; apply Z; reflexivity|].
            destruct Hm as [[Hm Hoo]|Hm]; [right; apply G3; auto | left; apply Hm, in_or_app; right; left; auto].
            apply Hort; auto.
          + intros A S g Hr Hn. destruct (G4 A S g Hr Hn) as [K1 K2]. split.
            * intros w Lw. destruct (K1 w Lw) as (v & Lv & Ev & Sv). exists v. split; auto. split; auto. intros i z Hz. apply (Sv i z); auto.
              assert (i < length syms) by (apply nth_error_Some; congruence). lia.
            * intros v Lv Sv. apply K2; auto. intros i z _. apply Sv. }
      destruct Bs as (B1 & B2 & B3 & B4 & B5).
      destruct (step_ok ty Or U tol Hnd Hok Ht bs y sp orth B1 Z B2 B4 Ny) as (f & vs & l & Ef & Ec & El & Gl & Ol & Rl); auto.
      { intros E. destruct (Hlu E) as [X1 X2]. split; auto. }
      rewrite Ef. cbn [rbind]. rewrite Ec. cbn [rbind]. rewrite El. cbn [rbind]. eexists. split; [reflexivity|]. cbn [cu_pout].
      rewrite !app_length, Lp. simpl (length [_]). split; auto. split; [intros _ E; destruct (cu_pout st); discriminate|]. split; auto.
      intros k l' Hk. destruct (Nat.lt_ge_cases k (length syms)) as [L|L].
      + rewrite nth_error_app1 in Hk by lia. apply found_more; auto.
      + assert (k = length syms) as ->. { assert (X : k < length (cu_pout st ++ [l])) by (apply nth_error_Some; congruence). rewrite app_length, Lp in X. simpl in X. lia. }
        rewrite nth_error_app2, Lp, Nat.sub_diag in Hk by lia. injection Hk as <-. split; auto. split; [intros Q1 Q2; apply Ol; auto|].
        intros A S g Hr Hn. destruct (Rl A S g Hr Hn) as [R1 R2]. destruct (B5 A S g Hr Hn) as [K1 K2]. fold m in R1, R2. split.
        * intros w Lw. destruct (R1 w Lw) as (u & Lu & Eu & Su). destruct (K1 u Lu) as (v & Lv & Ev & Sv). exists v. split; auto. split; [congruence|].
          intros i z Hi Hz. destruct (Nat.eq_dec i (length syms)) as [->|N].
          -- rewrite nth_error_app2, Nat.sub_diag in Hz by lia. injection Hz as <-. rewrite <- Ev. auto.
          -- rewrite nth_error_app1 in Hz by lia. eauto.
        * intros v Lv Sv. destruct (K2 v Lv) as (u & Lu & Eu).
          { intros i z Hz. assert (i < length syms) by (apply nth_error_Some; congruence). apply (Sv i z); [lia|]. rewrite nth_error_app1; auto. }
          destruct (R2 u Lu) as (w & Lw & Ew).
          { rewrite Eu. apply (Sv (length syms) y); auto. rewrite nth_error_app2, Nat.sub_diag by lia. reflexivity. }
          exists w. split; auto. congruence.
  Qed.
End Run.
