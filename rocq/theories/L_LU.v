(** Every matrix has a decomposition of the kind that scipy.linalg.lu computes. *)
From Coq Require Import List Bool Arith Lia Reals Lra.
From Coquelicot Require Import Complex.
From Verif Require Import M_LinAlg S_LinAlg S_Sparsify L_LinAlg L_Inter L_Herm L_PartIso L_Sparsify.
Import ListNotations.
Local Open Scope nat_scope.

Lemma snoc_rect {T} (P : list T -> Type) : P [] -> (forall x l, P l -> P (l ++ [x])) -> forall l, P l.
Proof. intros H0 H1 l. rewrite <- (rev_involutive l). induction (rev l) as [|x m IH]; simpl; auto. Qed.
Inductive tri : list vec -> list nat -> Prop :=
| tri_nil : tri [] []
| tri_cons c L r rs : nth r c (RtoC 0) = RtoC 1 -> (forall d, In d L -> nth r d (RtoC 0) = RtoC 0) -> tri L rs -> tri (c :: L) (r :: rs).
Lemma tri_length L rs : tri L rs -> length L = length rs.
Proof. induction 1; simpl; auto. Qed.
Lemma tri_in L rs : tri L rs -> forall r, In r rs -> exists c, In c L /\ nth r c (RtoC 0) = RtoC 1.
Proof. induction 1 as [|c L r rs H1 H2 H3 IH]; intros s Hs; [destruct Hs|]. destruct Hs as [<-|Hs]; [exists c; simpl; auto|]. destruct (IH s Hs) as (d & D1 & D2). exists d; simpl; auto. Qed.
Lemma one_not_zero : RtoC 1 <> RtoC 0.
Proof. intros E. apply RtoC_inj in E. lra. Qed.
Lemma tri_nodup L rs : tri L rs -> NoDup rs.
Proof.
  induction 1 as [|c L r rs H1 H2 H3 IH]; constructor; auto. intros Hr. destruct (tri_in _ _ H3 r Hr) as (d & D1 & D2).
  rewrite (H2 d D1) in D2. apply one_not_zero. auto.
Qed.
Lemma tri_bound n L rs : vectors n L -> tri L rs -> forall r, In r rs -> r < n.
Proof.
  intros V T r Hr. destruct (tri_in _ _ T r Hr) as (c & D1 & D2). destruct (Nat.lt_ge_cases r n) as [|G]; auto. exfalso.
  rewrite nth_overflow in D2 by (rewrite (V c D1); auto). apply one_not_zero. auto.
Qed.
Lemma nth_vadd n (u v : vec) k : length u = n -> length v = n -> nth k (vadd u v) (RtoC 0) = (nth k u (RtoC 0) + nth k v (RtoC 0))%C.
Proof.
  revert u v k. induction n as [|n IH]; intros [|x u] [|y v] k; intros; try discriminate.
  - destruct k; cbn; ring.
  - destruct k; cbn; auto.
Qed.
Lemma nth_vscale c (v : vec) k : nth k (vscale c v) (RtoC 0) = (c * nth k v (RtoC 0))%C.
Proof. revert k. induction v as [|x v IH]; intros [|k]; cbn; auto; ring. Qed.
Lemma vectors_cons n c L : vectors n (c :: L) -> length c = n /\ vectors n L.
Proof. intros H. split; [apply H; left; auto | intros v Hv; apply H; right; auto]. Qed.

Lemma reduce n L rs : tri L rs -> vectors n L -> forall v, length v = n ->
  {w : vec & {v' : vec | span n L w /\ length w = n /\ length v' = n /\ v = vadd w v' /\ forall r, In r rs -> nth r v' (RtoC 0) = RtoC 0}}.
Proof.
  revert rs.
  induction L as [|c L IH]; intros [|r rs] T V v Lv.
  2:{ exfalso. inversion T. } 2:{ exfalso. inversion T. }
  - exists (vzero n), v. split; [apply span_zero|]. split; [apply vzero_length|]. split; auto. split; [symmetry; apply vadd_0l; auto|]. intros r [].
  - assert (H1 : nth r c (RtoC 0) = RtoC 1) by (inversion T; auto). assert (H2 : forall d, In d L -> nth r d (RtoC 0) = RtoC 0) by (inversion T; auto).
    assert (H3 : tri L rs) by (inversion T; auto).
    destruct (vectors_cons _ _ _ V) as [Lc VL]. set (a := nth r v (RtoC 0)).
    assert (Lm : forall z, length (vscale z c) = n) by (intros; rewrite vscale_length; auto).
    set (v1 := vadd (vscale (- a)%C c) v). assert (L1 : length v1 = n) by (apply vadd_length; auto).
    destruct (IH rs H3 VL v1 L1) as (w & v' & Sw & Lw & Lv' & E & Z). exists (vadd (vscale a c) w), v'.
    split; [apply span_add; [left; auto|]; eapply span_mono; [|exact Sw]; intros x Hx; right; auto|].
    split; [apply vadd_length; auto|]. split; auto. split.
    + rewrite vadd_assoc, <- E. unfold v1. rewrite <- vadd_assoc, <- vscale_plus. replace (a + - a)%C with (RtoC 0) by ring.
      rewrite vscale_0, Lc. symmetry. apply vadd_0l; auto.
    + intros s [<-|Hs]; auto. assert (Zw : nth r w (RtoC 0) = RtoC 0) by (apply (span_entry n r L); auto).
      assert (Z1 : nth r v1 (RtoC 0) = RtoC 0) by (unfold v1; rewrite (nth_vadd n), nth_vscale, H1 by auto; fold a; ring).
      rewrite E, (nth_vadd n), Zw in Z1 by auto. rewrite Cplus_0_l in Z1. exact Z1.
Qed.
Lemma tri_snoc L rs c r : tri L rs -> nth r c (RtoC 0) = RtoC 1 -> (forall s, In s rs -> nth s c (RtoC 0) = RtoC 0) -> tri (L ++ [c]) (rs ++ [r]).
Proof.
  intros T H. induction T as [|d L s rs H1 H2 H3 IH]; intros Z; simpl.
  - constructor; auto; [intros ? []|constructor].
  - constructor; auto; [|apply IH; intros; apply Z; simpl; auto]. intros e He. apply in_app_or in He. destruct He as [He|[<-|[]]]; auto. apply Z; simpl; auto.
Qed.
Lemma tri_columns L rs : tri L rs -> forall j c, nth_error L j = Some c -> exists r, nth r c (RtoC 0) = RtoC 1 /\
     forall i d, j < i -> nth_error L i = Some d -> nth r d (RtoC 0) = RtoC 0.
Proof.
  induction 1 as [|c L r rs H1 H2 H3 IH]; intros [|j] d Hj; try discriminate.
  - injection Hj as <-. exists r. split; auto. intros [|i] e Hi He; [lia|]. apply H2. eapply nth_error_In; eauto.
  - destruct (IH j d Hj) as (s & S1 & S2). exists s. split; auto. intros [|i] e Hi He; [lia|]. apply (S2 i); auto. lia.
Qed.
Lemma free_row n rs : length rs < n -> {r | r < n /\ ~ In r rs}.
Proof.
  intros H. set (p := fun r => if in_dec Nat.eq_dec r rs then false else true). destruct (find p (seq 0 n)) as [r|] eqn:E.
  - exists r. apply find_some in E. destruct E as [E1 E2]. apply in_seq in E1. split; [lia|]. unfold p in E2. destruct (in_dec Nat.eq_dec r rs); [discriminate|auto].
  - exfalso. assert (I : incl (seq 0 n) rs).
    { intros r Hr. pose proof (find_none _ _ E r Hr) as E2. unfold p in E2. destruct (in_dec Nat.eq_dec r rs); [auto|discriminate]. }
    apply NoDup_incl_length in I; [|apply seq_NoDup]. rewrite seq_length in I. lia.
Qed.
Lemma vec_zero_or n (v : vec) : length v = n -> ({r | r < n /\ nth r v (RtoC 0) <> RtoC 0} + {v = vzero n})%type.
Proof.
  revert v. induction n as [|n IH]; intros [|x v] L; try discriminate; [right; reflexivity|].
  assert (L' : length v = n) by (simpl in L; lia). destruct (Ceq_dec x (RtoC 0)) as [E|N]; [|left; exists 0; split; [lia|exact N]].
  destruct (IH v L') as [(r & R1 & R2)|E']; [left; exists (S r); split; [lia | exact R2] | right; rewrite E, E'; reflexivity].
Qed.

Theorem lu_exists n V : vectors n V -> {L | lu_columns n V L}.
Proof.
  intros HV. enough (G : {L : list vec & {rs | tri L rs /\ vectors n L /\ length L = Nat.min n (length V) /\ (forall j v, nth_error V j = Some v -> span n (firstn (S j) L) v)}}).
  { destruct G as (L & rs & T & VL & LL & S). exists L. split; auto. split; auto. split; auto. eapply tri_columns; eauto. }
  induction V as [|v V IH] using snoc_rect.
  - exists [], []. split; [constructor|]. split; [intros ? []|]. split; [simpl; lia|]. intros [|j]; discriminate.
  - destruct IH as (L & rs & T & VL & LL & Sp); [intros w Hw; apply HV, in_or_app; auto|].
    assert (Lv : length v = n) by (apply HV, in_or_app; right; left; auto).
    destruct (reduce n L rs T VL v Lv) as (w & v' & Sw & Lw & Lv' & E & Z). rewrite app_length. simpl (length [v]).
    pose proof (tri_length _ _ T) as Lt.
    destruct (lt_dec (length V) n) as [H|H].
    + rewrite Nat.min_r in LL by lia. rewrite Nat.min_r by lia.
      assert (New : {c : vec & {r : nat & {k : C | length c = n /\ nth r c (RtoC 0) = RtoC 1 /\ (forall s, In s rs -> nth s c (RtoC 0) = RtoC 0) /\ v' = vscale k c}}}).
      { destruct (vec_zero_or n v' Lv') as [(r & R1 & R2)|E0].
        2:{ destruct (free_row n rs) as (r & R1 & R2); [lia|]. exists (unit_v n r), r, (RtoC 0). rewrite E0.
          assert (Lu : length (unit_v n r) = n) by (apply units_vectors; unfold units; apply in_map_iff; exists r; split; auto; apply in_seq; lia).
          split; auto. split; [rewrite unit_nth, Nat.eqb_refl by auto; auto|]. split; [|rewrite vscale_0, Lu; auto].
          intros s Hs. rewrite unit_nth by (eapply tri_bound; eauto). destruct (Nat.eqb_spec r s); auto. subst. tauto. }
        { exists (vscale (/ nth r v' (RtoC 0))%C v'), r, (nth r v' (RtoC 0)). split; [rewrite vscale_length; auto|]. rewrite nth_vscale.
          split; [apply Cinv_l; auto|]. split; [intros s Hs; rewrite nth_vscale, (Z s) by auto; ring|]. rewrite vscale_vscale, Cinv_r by auto. symmetry. apply vscale_one. } }
      destruct New as (c & r & k & Lc & Hc & Zc & Ev'). exists (L ++ [c]), (rs ++ [r]). split; [apply tri_snoc; auto|].
      assert (VL' : vectors n (L ++ [c])) by (intros x Hx; apply in_app_or in Hx; destruct Hx as [Hx|[<-|[]]]; auto). split; auto.
      split; [rewrite app_length; simpl; lia|]. intros j x Hx. destruct (Nat.lt_ge_cases j (length V)) as [G|G].
      * rewrite nth_error_app1 in Hx by auto. rewrite firstn_app. replace (S j - length L) with 0 by lia. rewrite app_nil_r. auto.
      * assert (j = length V) as ->. { assert (X : j < length (V ++ [v])) by (apply nth_error_Some; congruence). rewrite app_length in X. simpl in X. lia. }
        rewrite nth_error_app2, Nat.sub_diag in Hx by lia. injection Hx as <-. rewrite firstn_all2 by (rewrite app_length; simpl; lia).
        rewrite E, Ev', vadd_comm. apply (span_add n (L ++ [c]) k c w); [apply in_or_app; right; left; auto|]. eapply span_mono; [|exact Sw]. intros y Hy. apply in_or_app; auto.
    + rewrite Nat.min_l in LL by lia. rewrite Nat.min_l by lia. exists L, rs. split; auto. split; auto. split; auto.
      intros j x Hx. destruct (Nat.lt_ge_cases j (length V)) as [G|G]; [rewrite nth_error_app1 in Hx by auto; auto|].
      assert (j = length V) as ->. { assert (X : j < length (V ++ [v])) by (apply nth_error_Some; congruence). rewrite app_length in X. simpl in X. lia. }
      rewrite nth_error_app2, Nat.sub_diag in Hx by lia. injection Hx as <-. rewrite firstn_all2 by lia.
      assert (v' = vzero n) as ->.
      { destruct (vec_zero_or n v' Lv') as [(r & R1 & R2)|]; auto. exfalso. apply R2, Z.
        assert (I : incl (seq 0 n) rs).
        { apply NoDup_length_incl; [eapply tri_nodup; eauto | rewrite seq_length; lia|]. intros s Hs. apply in_seq. split; [lia|]. simpl. eapply tri_bound; eauto. }
        apply I, in_seq. lia. }
      rewrite vadd_0r in E by auto. subst v. auto.
Qed.
(** A total function. *)
Lemma vectors_dec n (V : list vec) : {vectors n V} + {~ vectors n V}.
Proof.
  destruct (forallb (fun v => Nat.eqb (length v) n) V) eqn:E.
  - left. intros v Hv. rewrite forallb_forall in E. apply Nat.eqb_eq, E. auto.
  - right. intros H. apply not_true_iff_false in E. apply E, forallb_forall. intros v Hv. apply Nat.eqb_eq, H. auto.
Qed.
Definition some_lu (n : nat) (V : list vec) : list vec :=
  match vectors_dec n V with left H => proj1_sig (lu_exists n V H) | right _ => [] end.
Lemma some_lu_ok n V : vectors n V -> lu_columns n V (some_lu n V).
Proof. intros H. unfold some_lu. destruct (vectors_dec n V) as [H'|]; [apply (proj2_sig (lu_exists n V H')) | tauto]. Qed.
