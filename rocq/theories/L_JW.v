(** The Jordan-Wigner transformation of strings. *)
From Coq Require Import String List Arith Lia ZArith Bool Field Setoid Morphisms Sorted Permutation Qcanon.
From Verif Require Import GC Exn S_Alg S_Den S_Basis S_Conv M_OpString M_Tools M_Algebra M_Basis M_Conversion
  L_Alg L_StrAlg L_StrOp L_Indep.
Import ListNotations.
Local Open Scope nat_scope.
Local Open Scope alg_scope.

(** One step of the transformation: the string replacing operator [o] at [l]. *)
Definition jw_good (ty : optype) (jw : op -> Z -> res OS) (G : forall A : StarAlg, (op -> Z -> A) -> op -> Z -> A) (o : op) (l : Z) : Prop :=
  exists s, jw o l = Ok s /\ string_ok ty s /\ (forall x, In x (os_labels s) -> (0 <= x <= l)%Z) /\
    forall (A : StarAlg) (g : op -> Z -> A), den g s == G A g o l.

Lemma repeat_word {A : StarAlg} (g : op -> Z -> A) z e n : forall k,
  aprod (map (fun p => g (fst p) (snd p)) (combine (repeat z n ++ [e]) (map Z.of_nat (seq k (n + 1))))) ==
  aprod (map (fun j => g z (Z.of_nat j)) (seq k n)) * g e (Z.of_nat (k + n)).
Proof.
  induction n as [|n IH]; intros k.
  - simpl. rewrite amul_1_r, amul_1_l, Nat.add_0_r. reflexivity.
  - cbn [repeat app seq map combine Nat.add]. rewrite aprod_cons. cbn [map fst snd]. rewrite IH. rewrite aprod_cons, amul_assoc.
    rewrite Nat.add_succ_comm. reflexivity.
Qed.

Lemma jw_string ty z e l : ty <> Fermion -> (0 <= l)%Z -> is_op_of ty z = true -> is_op_of ty e = true ->
  is_ab z = false ->
  exists s, os_new (repeat z (Z.to_nat l) ++ [e]) (arange1 l) ty = Ok s /\ string_ok ty s /\
    (forall x, In x (os_labels s) -> (0 <= x <= l)%Z) /\
    forall (A : StarAlg) (g : op -> Z -> A), den g s == chain (g z) (Z.to_nat l) * g e l.
Proof.
  intros Hty Hl Hz He Ha.
  assert (E1 : Z.to_nat (l + 1) = (Z.to_nat l + 1)%nat) by lia.
  destruct (os_new_ok ty (repeat z (Z.to_nat l) ++ [e]) (arange1 l)) as (s & E & Hok & Ho & Hlab & _); auto.
  - unfold arange1. rewrite app_length, repeat_length, map_length, seq_length, E1. reflexivity.
  - intros o Ho. apply in_app_iff in Ho. destruct Ho as [Ho|[<-|[]]]; auto. apply repeat_spec in Ho. subst; auto.
  - unfold arange1. apply FinFun.Injective_map_NoDup; [intros a b H; lia | apply seq_NoDup].
  - exists s. split; auto. split; auto. split.
    + rewrite Hlab. intros x Hx. unfold arange1 in Hx. apply in_map_iff in Hx. destruct Hx as (j & <- & Hj).
      apply in_seq in Hj. lia.
    + intros A g. destruct Hok as (_ & _ & _ & _ & Hp). unfold den.
      assert (P : pval (os_pref s) = g1).
      { rewrite Hp. destruct ty; auto. rewrite Ho, filter_app, app_length.
        replace (filter is_ab (repeat z (Z.to_nat l))) with (@nil op).
        - simpl. destruct (is_ab e); reflexivity.
        - clear -Ha. induction (Z.to_nat l) as [|n IHn]; simpl; [reflexivity|]. rewrite Ha. exact IHn. }
      rewrite P, ascal_1, Ho, Hlab. unfold arange1. rewrite E1, repeat_word. unfold chain.
      cbn [Nat.add]. rewrite Z2Nat.id by auto. reflexivity.
Qed.

Lemma jw_single ty z l : ty <> Fermion -> (0 <= l)%Z -> is_op_of ty z = true -> is_ab z = false ->
  exists s, os_new [z] [l] ty = Ok s /\ string_ok ty s /\ (forall x, In x (os_labels s) -> (0 <= x <= l)%Z) /\
    forall (A : StarAlg) (g : op -> Z -> A), den g s == g z l.
Proof.
  intros Hty Hl Hz Ha.
  destruct (os_new_ok ty [z] [l]) as (s & E & Hok & Ho & Hlab & _); auto.
  - intros o [<-|[]]; auto.
  - repeat constructor; simpl; auto.
  - exists s. split; auto. split; auto. split.
    + rewrite Hlab. intros x [<-|[]]. lia.
    + intros A g. destruct Hok as (_ & _ & _ & _ & Hp). unfold den.
      assert (P : pval (os_pref s) = g1).
      { rewrite Hp. destruct ty; auto. rewrite Ho. simpl. rewrite Ha. reflexivity. }
      rewrite P, ascal_1, Ho, Hlab. simpl. rewrite amul_1_r. reflexivity.
Qed.

Lemma jw_pauli_good o l : is_op_of Pauli o = true -> (0 <= l)%Z -> jw_good Majorana jw_pauli (fun A g => gpauli g) o l.
Proof.
  intros Ho Hl. unfold jw_good. destruct o; try discriminate; cbn [jw_pauli gpauli].
  - apply (jw_string Majorana OD OA l); auto; discriminate.
  - apply (jw_string Majorana OD OB l); auto; discriminate.
  - apply (jw_single Majorana OD l); auto; discriminate.
Qed.
Lemma jw_majorana_good o l : is_op_of Majorana o = true -> (0 <= l)%Z -> jw_good Pauli jw_majorana (fun A g => gmajw g) o l.
Proof.
  intros Ho Hl. unfold jw_good. destruct o; try discriminate; cbn [jw_majorana gmajw].
  - apply (jw_string Pauli OZ OX l); auto; discriminate.
  - apply (jw_string Pauli OZ OY l); auto; discriminate.
  - apply (jw_single Pauli OZ l); auto; discriminate.
Qed.

Lemma jw_loop_ok ty jw G N : ty <> Fermion -> forall w,
  (forall o l, In (o, l) w -> (0 <= l < N)%Z /\ jw_good ty jw G o l) ->
  forall R total, string_ok ty R -> canonical R -> (forall x, In x (os_labels R) -> (0 <= x < N)%Z) ->
  exists k C, jw_loop jw w total R = Ok (gmul total k, C) /\ gmul k (gconj k) = g1 /\ string_ok ty C /\ canonical C /\
    (forall x, In x (os_labels C) -> (0 <= x < N)%Z) /\
    forall (A : StarAlg) (g : op -> Z -> A), rep ty g -> den g R * word (lval (G A g)) w == k · den g C.
Proof.
  intros Hty. induction w as [|[o l] w IH]; intros Hw R total HR CR LR.
  - exists g1, R. split; [simpl; f_equal; f_equal; ring|]. split; [apply GC_ext; apply Qc_is_canon; reflexivity|].
    repeat split; auto; try apply HR; try apply CR; try (apply LR; auto).
    intros A g _. unfold word; simpl. rewrite amul_1_r, ascal_1. reflexivity.
  - destruct (Hw o l (or_introl eq_refl)) as (Hl & s & Es & Hs & Ls & Ds).
    destruct (operation_spec ty R s Hty HR Hs) as (k & e & C & Q).
    cbn [jw_loop]. rewrite Es. cbn [rbind]. rewrite (or_prod _ _ _ _ _ _ Q). cbn [rbind].
    destruct (IH (fun o l H => Hw o l (or_intror H)) C (gmul total k) (or_ok _ _ _ _ _ _ Q) (or_can _ _ _ _ _ _ Q))
      as (k' & C' & E' & U' & S' & Cn' & L' & D').
    + intros x Hx. apply (or_lab _ _ _ _ _ _ Q) in Hx. destruct Hx as [Hx|Hx]; [auto|]. apply Ls in Hx. lia.
    + exists (gmul k k'), C'. split; [rewrite E'; f_equal; f_equal; ring|]. split.
      { rewrite gconj_mul. pose proof (or_unit _ _ _ _ _ _ Q) as U. 
        transitivity (gmul (gmul k (gconj k)) (gmul k' (gconj k'))); [ring|]. rewrite U, U'. ring. }
      split; auto. split; auto. split; auto. intros A g Hr. rewrite word_cons'. unfold lval at 1. cbn [fst snd].
      rewrite amul_assoc, <- Ds, (or_st _ _ _ _ _ _ Q A g Hr), ascal_mul_l, D', ascal_ascal by auto. reflexivity.
Qed.

Definition dual (ty : optype) : optype := match ty with Pauli => Majorana | Majorana => Pauli | Fermion => Fermion end.
(** The operators of type [ty] made of operators of the dual type. *)
Definition jwgen (ty : optype) {A : StarAlg} (g : op -> Z -> A) : op -> Z -> A :=
  match ty with Pauli => gpauli g | _ => gmajw g end.

Theorem jordan_wigner_ok ty s N : ty <> Fermion -> string_ok ty s -> (forall x, In x (os_labels s) -> (0 <= x < N)%Z) ->
  exists k m, jordan_wigner s = Ok (k, m) /\ gmul k (gconj k) = g1 /\ string_ok (dual ty) m /\ canonical m /\
    (forall x, In x (os_labels m) -> (0 <= x < N)%Z) /\
    forall (A : StarAlg) (g : op -> Z -> A), rep (dual ty) g -> den (jwgen ty g) s == k · den g m.
Proof.
  intros Hty Hs HN. pose proof (pref_unit ty s Hs) as U. pose proof Hs as (Ht & Hl & Ho & Hn & Hp).
  assert (HH : exists jw (G : forall A : StarAlg, (op -> Z -> A) -> op -> Z -> A),
    jordan_wigner s = (let! e := os_new [] [] (dual ty) in jw_loop jw (letters s) (pval (os_pref s)) e) /\
    (forall A g, G A g = jwgen ty g) /\
    (forall o l, In (o, l) (letters s) -> (0 <= l < N)%Z /\ jw_good (dual ty) jw G o l)).
  { unfold jordan_wigner. rewrite Ht, Hl, Nat.ltb_irrefl. destruct ty; [| |congruence].
    - exists jw_pauli, (fun A g => gpauli g). split; [reflexivity|]. split; [reflexivity|]. intros o l Hx.
      assert (B : (0 <= l < N)%Z) by (apply HN; eapply letters_label; eauto). split; auto.
      apply jw_pauli_good; [|lia]. eapply letters_valid; eauto.
    - exists jw_majorana, (fun A g => gmajw g). split; [reflexivity|]. split; [reflexivity|]. intros o l Hx.
      assert (B : (0 <= l < N)%Z) by (apply HN; eapply letters_label; eauto). split; auto.
      apply jw_majorana_good; [|lia]. eapply letters_valid; eauto. }
  destruct HH as (jw & G & E & EG & HG). rewrite E.
  assert (Hd : dual ty <> Fermion) by (destruct ty; discriminate || congruence).
  destruct (os_new_ok (dual ty) [] []) as (e & Ee & He & Eo & El & Ep); [auto | auto | intros o [] | constructor |].
  rewrite Ee. cbn [rbind].
  destruct (jw_loop_ok (dual ty) jw G N Hd (letters s) HG e (pval (os_pref s)) He) as (k & C & E1 & U1 & S1 & C1 & L1 & D1).
  - split; auto. rewrite El. constructor.
  - rewrite El. intros x [].
  - exists (gmul (pval (os_pref s)) k), C. split; auto. split.
    { rewrite gconj_mul. transitivity (gmul (gmul (pval (os_pref s)) (gconj (pval (os_pref s)))) (gmul k (gconj k))); [ring|].
      rewrite U, U1. ring. }
    split; auto. split; auto. split; auto. intros A g Hr. rewrite den_word, <- ascal_ascal, <- (D1 A g Hr), EG.
    apply ascal_proper. assert (De : den g e == aone).
    { unfold den. rewrite Eo. simpl. destruct He as (_ & _ & _ & _ & Hpe). rewrite Hpe, Eo.
      replace (match dual ty with Majorana => _ | _ => _ end) with g1 by (destruct ty; reflexivity). rewrite ascal_1. reflexivity. }
    rewrite De, amul_1_l. reflexivity.
Qed.
