(** The Pauli operators made of Majorana operators satisfy the Pauli relations. *)
From Coq Require Import String List Arith Lia ZArith Bool Field Setoid Morphisms Sorted Permutation Qcanon.
From Verif Require Import GC Exn S_Alg S_Den S_Basis S_Conv M_OpString M_Tools M_Algebra M_Basis M_Conversion
  L_Alg L_StrAlg L_StrOp L_Indep L_JW.
Import ListNotations.
Local Open Scope nat_scope.
Local Open Scope alg_scope.

(** Commutation up to a sign. *)
Section Sign.
  Context {A : StarAlg}.
  Definition sc (e : bool) (x y : A) : Prop := x * y == gsgn e · (y * x).
  Lemma sc_sym e x y : sc e x y -> sc e y x.
  Proof. unfold sc. intros H. rewrite H, ascal_ascal, <- gsgn_xorb, xorb_nilpotent. simpl. rewrite ascal_1. reflexivity. Qed.
  Lemma sc_mul e f x y z : sc e x y -> sc f x z -> sc (xorb e f) x (y * z).
  Proof.
    unfold sc. intros H1 H2. rewrite amul_assoc, H1, ascal_mul_l, <- amul_assoc, H2, ascal_mul_r, ascal_ascal, amul_assoc, gsgn_xorb.
    reflexivity.
  Qed.
  Lemma sc_mul_l e f x y z : sc e y x -> sc f z x -> sc (xorb e f) (y * z) x.
  Proof. intros H1 H2. apply sc_sym, sc_mul; apply sc_sym; auto. Qed.
  Lemma sc_one e x : e = false -> sc e x aone.
  Proof. intros ->. unfold sc. simpl. rewrite ascal_1, amul_1_l, amul_1_r. reflexivity. Qed.
  Lemma sc_comm x y : sc false x y -> x * y == y * x.
  Proof. unfold sc. simpl. rewrite ascal_1. auto. Qed.
  #[global] Instance sc_proper e : Proper (aeq ==> aeq ==> iff) (sc e).
  Proof. intros x x' Hx y y' Hy. unfold sc. rewrite Hx, Hy. reflexivity. Qed.
End Sign.

Section JW.
  Context {A : StarAlg} (g : op -> Z -> A).
  Hypothesis Hg : rep Majorana g.
  Let ch (l : Z) := chain (g OD) (Z.to_nat l).

  Lemma chain_S (x : Z -> A) n : chain x (S n) == chain x n * x (Z.of_nat n).
  Proof. unfold chain. rewrite seq_S, map_app, aprod_app. simpl. rewrite amul_1_r. reflexivity. Qed.
  Lemma chain_0 (x : Z -> A) : chain x 0 = aone.
  Proof. reflexivity. Qed.

  Lemma d_d l m : sc false (g OD l) (g OD m).
  Proof.
    destruct (Z.eq_dec l m) as [->|N]; [unfold sc; simpl; rewrite ascal_1; reflexivity|].
    unfold sc. rewrite (rep_gcomm Majorana g Hg OD OD l m); auto. reflexivity.
  Qed.
  Lemma u_d o l m : o = OA \/ o = OB -> sc (Z.eqb l m) (g o l) (g OD m).
  Proof.
    intros Ho. destruct (Z.eqb_spec l m) as [->|N].
    - destruct Hg as [Sa Sb Qa Qb Aa Ab Aab Dd].
      destruct (majorana_relations (g OA) (g OB) (g OD) Hg m) as (R1 & R2 & R3 & R4 & R5 & R6 & R7 & R8).
      unfold sc. cbn [gsgn]. destruct Ho as [->| ->].
      + rewrite R5, R6, ascal_ascal. apply ascal_eq. apply GC_ext; apply Qc_is_canon; reflexivity.
      + rewrite R7, R8, ascal_ascal. apply ascal_eq. apply GC_ext; apply Qc_is_canon; reflexivity.
    - unfold sc. rewrite (rep_gcomm Majorana g Hg o OD l m); auto; destruct Ho as [->| ->]; reflexivity.
  Qed.
  Lemma u_u o p l m : o = OA \/ o = OB -> p = OA \/ p = OB -> l <> m -> sc true (g o l) (g p m).
  Proof.
    intros Ho Hp N. unfold sc. rewrite (rep_gcomm Majorana g Hg o p l m); auto;
      destruct Ho as [->| ->], Hp as [->| ->]; reflexivity.
  Qed.
  Lemma d_chain l n : sc false (g OD l) (chain (g OD) n).
  Proof.
    induction n as [|n IH]; [apply sc_one; auto|]. rewrite chain_S. apply (sc_mul false false); auto. apply d_d.
  Qed.
  Lemma chain_chain n m : sc false (chain (g OD) m) (chain (g OD) n).
  Proof.
    induction n as [|n IH]; [apply sc_one; auto|]. rewrite chain_S. apply (sc_mul false false); auto. apply sc_sym, d_chain.
  Qed.
  Lemma u_chain o l n : o = OA \/ o = OB -> (0 <= l)%Z -> sc (Nat.ltb (Z.to_nat l) n) (g o l) (chain (g OD) n).
  Proof.
    intros Ho Hl. induction n as [|n IH]; [apply sc_one; auto|]. rewrite chain_S.
    replace (Z.to_nat l <? S n) with (xorb (Z.to_nat l <? n) (Z.eqb l (Z.of_nat n))); [apply sc_mul; auto; apply u_d; auto|].
    destruct (Nat.ltb_spec (Z.to_nat l) n), (Nat.ltb_spec (Z.to_nat l) (S n)), (Z.eqb_spec l (Z.of_nat n)); auto; lia.
  Qed.
  Lemma chain_sq n : chain (g OD) n * chain (g OD) n == aone.
  Proof.
    induction n as [|n IH]; [rewrite chain_0; apply amul_1_l|]. rewrite !chain_S.
    rewrite <- amul_assoc, (amul_assoc A (g OD (Z.of_nat n)) (chain (g OD) n)), (sc_comm _ _ (d_chain (Z.of_nat n) n)).
    rewrite <- amul_assoc, amul_assoc, IH, amul_1_l. apply (rep_sq Majorana g Hg); reflexivity.
  Qed.
  Lemma chain_star n : (chain (g OD) n)^* == chain (g OD) n.
  Proof.
    induction n as [|n IH]; [rewrite chain_0; apply astar_one|]. rewrite chain_S, astar_mul, IH.
    rewrite (rep_star Majorana g Hg) by reflexivity. apply sc_comm, d_chain.
  Qed.

  (** X and Y are a chain times a or b. *)
  Definition under (o : op) : op := match o with OX => OA | _ => OB end.
  Lemma xy_form o l : o = OX \/ o = OY -> gpauli g o l = chain (g OD) (Z.to_nat l) * g (under o) l.
  Proof. intros [->| ->]; reflexivity. Qed.
  Lemma under_ab o : under o = OA \/ under o = OB.
  Proof. destruct o; simpl; auto. Qed.

  Lemma u_chain_same o l : o = OA \/ o = OB -> (0 <= l)%Z -> g o l * chain (g OD) (Z.to_nat l) == chain (g OD) (Z.to_nat l) * g o l.
  Proof. intros Ho Hl. apply sc_comm. pose proof (u_chain o l (Z.to_nat l) Ho Hl) as H. rewrite Nat.ltb_irrefl in H. auto. Qed.

  Lemma xy_star o l : o = OX \/ o = OY -> (0 <= l)%Z -> (gpauli g o l)^* == gpauli g o l.
  Proof.
    intros Ho Hl. rewrite xy_form by auto. rewrite astar_mul, chain_star.
    rewrite (rep_star Majorana g Hg) by (destruct (under_ab o) as [->| ->]; reflexivity). apply u_chain_same; auto using under_ab.
  Qed.
  Lemma xy_mul o p l : o = OX \/ o = OY -> p = OX \/ p = OY -> (0 <= l)%Z ->
    gpauli g o l * gpauli g p l == g (under o) l * g (under p) l.
  Proof.
    intros Ho Hp Hl. rewrite !xy_form by auto.
    rewrite <- amul_assoc, (amul_assoc A (g (under o) l)), u_chain_same by auto using under_ab.
    rewrite <- amul_assoc, amul_assoc, chain_sq, amul_1_l. reflexivity.
  Qed.

  (* different sites *)
  Lemma xy_xy o p l m : o = OX \/ o = OY -> p = OX \/ p = OY -> (0 <= l < m)%Z -> sc false (gpauli g o l) (gpauli g p m).
  Proof.
    intros Ho Hp Hl. rewrite !xy_form by auto.
    replace false with (xorb (xorb false false) (xorb true true)) by reflexivity. apply sc_mul_l; apply sc_mul.
    - apply chain_chain.
    - apply sc_sym. pose proof (u_chain (under p) m (Z.to_nat l) (under_ab p)) as H.
      destruct (Nat.ltb_spec (Z.to_nat m) (Z.to_nat l)); [lia|]. apply H; lia.
    - pose proof (u_chain (under o) l (Z.to_nat m) (under_ab o)) as H.
      destruct (Nat.ltb_spec (Z.to_nat l) (Z.to_nat m)); [|lia]. apply H; lia.
    - apply u_u; auto using under_ab. lia.
  Qed.
  Lemma z_xy p l m : p = OX \/ p = OY -> l <> m -> sc false (g OD l) (gpauli g p m).
  Proof.
    intros Hp N. rewrite xy_form by auto. apply (sc_mul false false); [apply d_chain|]. apply sc_sym.
    pose proof (u_d (under p) m l (under_ab p)) as H. destruct (Z.eqb_spec m l); [congruence|auto].
  Qed.

  Lemma gpauli_comm o p l m : is_op_of Pauli o = true -> is_op_of Pauli p = true -> (0 <= l)%Z -> (0 <= m)%Z -> l <> m ->
    gpauli g o l * gpauli g p m == gpauli g p m * gpauli g o l.
  Proof.
    intros Ho Hp Hl Hm N. apply sc_comm.
    assert (K : forall o p l m, o = OX \/ o = OY -> p = OX \/ p = OY -> (0 <= l)%Z -> (0 <= m)%Z -> l <> m -> sc false (gpauli g o l) (gpauli g p m)).
    { intros o' p' l' m' Ho' Hp' Hl' Hm' N'. destruct (Z.lt_ge_cases l' m'); [apply xy_xy; auto; lia|].
      apply sc_sym, xy_xy; auto; lia. }
    destruct o; try discriminate; destruct p; try discriminate;
      try (apply K; auto; fail); try (apply z_xy; auto; fail); try (apply sc_sym, z_xy; auto; fail); apply d_d.
  Qed.

  (** An injection of the integers into the non-negative integers, the identity below [N]. *)
  Definition relab (N : Z) (l : Z) : Z :=
    if (0 <=? l)%Z then if (l <? N)%Z then l else (N + 2 * (l - N) + 1)%Z else (Z.max 0 N + 2 * (- l))%Z.
  Lemma relab_inj N l m : (0 <= N)%Z -> relab N l = relab N m -> l = m.
  Proof.
    unfold relab. intros HN. destruct (Z.leb_spec 0 l), (Z.leb_spec 0 m), (Z.ltb_spec l N), (Z.ltb_spec m N); lia.
  Qed.
  Lemma relab_nonneg N l : (0 <= N)%Z -> (0 <= relab N l)%Z.
  Proof. unfold relab. intros HN. destruct (Z.leb_spec 0 l), (Z.ltb_spec l N); lia. Qed.
  Lemma relab_id N l : (0 <= l < N)%Z -> relab N l = l.
  Proof. unfold relab. intros HN. destruct (Z.leb_spec 0 l), (Z.ltb_spec l N); lia. Qed.

  Definition gpl (N : Z) (o : op) (l : Z) : A := gpauli g o (relab N l).

  Theorem gpauli_rep N : (0 <= N)%Z -> rep Pauli (gpl N).
  Proof.
    intros HN. pose proof (relab_nonneg N) as P.
    assert (XY : forall o, o = OX \/ o = OY -> forall l, gpl N o l * gpl N o l == aone).
    { intros o Ho l. unfold gpl. rewrite xy_mul by auto. apply (rep_sq Majorana g Hg). destruct (under_ab o) as [->| ->]; reflexivity. }
    split.
    - intros l. apply xy_star; auto.
    - intros l. apply xy_star; auto.
    - intros l. apply (rep_star Majorana g Hg); reflexivity.
    - apply XY; auto.
    - apply XY; auto.
    - intros l. apply (rep_sq Majorana g Hg); reflexivity.
    - intros l. unfold gpl. rewrite xy_mul by auto. cbn [under gpauli].
      destruct (majorana_relations (g OA) (g OB) (g OD) Hg (relab N l)) as (_ & _ & R & _). exact R.
    - intros l m Nlm u v Hu Hv.
      assert (N' : relab N l <> relab N m) by (intros E; apply relab_inj in E; auto).
      destruct Hu as [<-|[<-|[<-|[]]]], Hv as [<-|[<-|[<-|[]]]]; apply gpauli_comm; auto.
  Qed.

  (** The Majorana operators made of these are the original ones. *)
  Lemma gmajw_gpl N o l : (0 <= l < N)%Z -> is_op_of Majorana o = true -> gmajw (gpl N) o l == g o l.
  Proof.
    intros Hl Ho.
    assert (E : chain (gpl N OZ) (Z.to_nat l) == chain (g OD) (Z.to_nat l)).
    { unfold chain. apply aprod_ext. intros j Hj. apply in_seq in Hj. unfold gpl. rewrite relab_id by lia. reflexivity. }
    destruct o; try discriminate; cbn [gmajw].
    - rewrite E. unfold gpl. rewrite relab_id by lia. cbn [gpauli]. rewrite amul_assoc, chain_sq, amul_1_l. reflexivity.
    - rewrite E. unfold gpl. rewrite relab_id by lia. cbn [gpauli]. rewrite amul_assoc, chain_sq, amul_1_l. reflexivity.
    - unfold gpl. rewrite relab_id by lia. reflexivity.
  Qed.

  Lemma den_ext (h k : op -> Z -> A) s : (forall o l, In (o, l) (letters s) -> h o l == k o l) -> den h s == den k s.
  Proof.
    intros H. rewrite !den_word. apply ascal_proper. unfold word. apply aprod_ext. intros [o l] Hx. apply H; auto.
  Qed.
  Lemma den_gmajw N s : string_ok Majorana s -> (forall x, In x (os_labels s) -> (0 <= x < N)%Z) ->
    den (gmajw (gpl N)) s == den g s.
  Proof.
    intros Hs HN. apply den_ext. intros o l Hx. apply gmajw_gpl; [apply HN; eapply letters_label; eauto | eapply letters_valid; eauto].
  Qed.
  Lemma den_gpl N s : (forall x, In x (os_labels s) -> (0 <= x < N)%Z) -> den (gpl N) s == den (gpauli g) s.
  Proof.
    intros HN. apply den_ext. intros o l Hx. unfold gpl. rewrite relab_id; [reflexivity|]. apply HN; eapply letters_label; eauto.
  Qed.
End JW.

Lemma labels_bound s : nonneg s -> exists N, (0 <= N)%Z /\ forall x, In x (os_labels s) -> (0 <= x < N)%Z.
Proof.
  unfold nonneg. induction (os_labels s) as [|l r IH]; intros H.
  - exists 0%Z. split; [lia|]. intros x [].
  - destruct IH as (N & HN & HB); [intros; apply H; simpl; auto|]. exists (Z.max N (l + 1)). split; [lia|].
    intros x [<-|Hx]; [specialize (H l (or_introl eq_refl)); lia | specialize (HB x Hx); lia].
Qed.

(** Pauli and Majorana strings to each other, with respect to the same Majorana operators. *)
Theorem jw_from_pauli s : string_ok Pauli s -> nonneg s ->
  exists k m, jordan_wigner s = Ok (k, m) /\ gmul k (gconj k) = g1 /\ string_ok Majorana m /\ canonical m /\ nonneg m /\
    forall (A : StarAlg) (g : op -> Z -> A), rep Majorana g -> den (gpauli g) s == k · den g m.
Proof.
  intros Hs Hn. destruct (labels_bound s Hn) as (N & HN & HB).
  destruct (jordan_wigner_ok Pauli s N) as (k & m & E & U & S & C & L & D); auto; [discriminate|].
  exists k, m. repeat (split; auto). intros x Hx. apply L in Hx. lia.
Qed.
Theorem jw_from_majorana s : string_ok Majorana s -> nonneg s ->
  exists k m, jordan_wigner s = Ok (k, m) /\ gmul k (gconj k) = g1 /\ string_ok Pauli m /\ canonical m /\ nonneg m /\
    (forall (A : StarAlg) (g : op -> Z -> A), rep Majorana g -> den g s == k · den (gpauli g) m) /\
    (forall (A : StarAlg) (g : op -> Z -> A), rep Pauli g -> den (gmajw g) s == k · den g m).
Proof.
  intros Hs Hn. destruct (labels_bound s Hn) as (N & HN & HB).
  destruct (jordan_wigner_ok Majorana s N) as (k & m & E & U & S & C & L & D); auto; [discriminate|].
  exists k, m. do 4 (split; auto). split; [intros x Hx; apply L in Hx; lia|]. split; auto.
  intros A g Hg. rewrite <- (den_gpl g N m L), <- (D A (gpl g N) (gpauli_rep g Hg N HN)). symmetry. apply den_gmajw; auto.
Qed.
