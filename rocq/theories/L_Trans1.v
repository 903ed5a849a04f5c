(** Images of strings; the conjugate algebra. *)
From Coq Require Import List Arith Lia ZArith Bool Setoid Morphisms Sorted Permutation Qcanon Ring.
From Verif Require Import GC Exn S_Alg S_Den S_Basis S_Transform M_OpString M_Tools M_Algebra M_Basis M_Transform
  L_Alg L_Module L_StrAlg L_StrOp L_Basis L_Operator L_PropStr L_JW2 L_Conversion L_ConvOrd L_Perm.
Import ListNotations.
Local Open Scope nat_scope.
Local Open Scope alg_scope.

(** The same ring with conjugate scalars. *)
Definition conj_alg (A : StarAlg) : StarAlg.
Proof.
  refine (mkStarAlg (car A) (@aeq A) azero aone aadd amul (fun z x => gconj z · x) astar
    (aeq_equiv A) (aadd_proper A) (amul_proper A) _ (astar_proper A) _ _ _ _ _ _ _ _ _ _ _ _ _ _ _ _ _ _ _).
  - intros z. apply ascal_proper.
  - apply aadd_comm.
  - apply aadd_assoc.
  - apply aadd_0_l.
  - apply amul_assoc.
  - apply amul_1_l.
  - apply amul_1_r.
  - apply amul_add_l.
  - apply amul_add_r.
  - intros x. rewrite gconj_0. apply ascal_0.
  - intros x. rewrite gconj_1. apply ascal_1.
  - intros a b x. rewrite ascal_ascal, gconj_mul. reflexivity.
  - intros a b x. rewrite gconj_add. apply ascal_add_l.
  - intros a x y. apply ascal_add_r.
  - intros a x y. apply ascal_mul_l.
  - intros a x y. apply ascal_mul_r.
  - apply astar_star.
  - apply astar_add.
  - apply astar_mul.
  - intros a x. apply astar_scal.
Defined.

Lemma image_false {A : StarAlg} (h : op -> Z -> A) s : image false h s = den h s.
Proof. reflexivity. Qed.
Lemma aprod_conj (A : StarAlg) (l : list A) : @aprod (conj_alg A) l = @aprod A l.
Proof. induction l as [|x l IH]; [reflexivity|]. cbn [aprod fold_right] in *. change (amul x (@aprod (conj_alg A) l) = amul x (@aprod A l)). rewrite IH. reflexivity. Qed.
Lemma image_true {A : StarAlg} (h : op -> Z -> A) s : image true h s = @den (conj_alg A) h s.
Proof. unfold image, den. rewrite aprod_conj. reflexivity. Qed.

Lemma image_word {A : StarAlg} conj (h : op -> Z -> A) s :
  image conj h s = (if conj then gconj (pval (os_pref s)) else pval (os_pref s)) · word (lval h) (letters s).
Proof. reflexivity. Qed.
Lemma image_ext {A : StarAlg} conj (h h' : op -> Z -> A) s : (forall o l, In (o, l) (letters s) -> h o l == h' o l) ->
  image conj h s == image conj h' s.
Proof. intros H. unfold image. apply ascal_proper. apply aprod_ext. intros [o l] Hin. apply H. exact Hin. Qed.

(** Generators with signs. *)
Lemma image_sign {A : StarAlg} conj (e : op -> Z -> bool) (g : op -> Z -> A) s :
  image conj (fun o l => gsgn (e o l) · g o l) s == gsgn (par (fun p => e (fst p) (snd p)) (letters s)) · image conj g s.
Proof.
  unfold image, letters. rewrite ascal_ascal.
  set (z := if conj then _ else _).
  assert (E : forall w : list (op * Z), aprod (map (fun p => gsgn (e (fst p) (snd p)) · g (fst p) (snd p)) w) ==
    gsgn (par (fun p => e (fst p) (snd p)) w) · aprod (map (fun p => g (fst p) (snd p)) w)).
  { induction w as [|[o l] w IH]; cbn [map par fst snd].
    - cbn [gsgn aprod fold_right]. rewrite ascal_1. reflexivity.
    - rewrite !aprod_cons, IH, ascal_mul_l, ascal_mul_r, ascal_ascal, gsgn_xorb. reflexivity. }
  rewrite E, ascal_ascal. apply ascal_eq. ring.
Qed.

(** Conjugating the prefactor. *)
Definition pref_sign (ty : optype) (s : OS) : bool :=
  match ty with Majorana => let n := length (filter is_ab (os_ops s)) in Nat.odd (n * (n - 1) / 2) | _ => false end.
Lemma image_conj {A : StarAlg} ty (g : op -> Z -> A) s : string_ok ty s ->
  image true g s == gsgn (pref_sign ty s) · den g s.
Proof.
  intros (_ & _ & _ & _ & Hp). unfold image, den. rewrite ascal_ascal. apply ascal_eq. rewrite Hp.
  destruct ty; cbn [pref_sign]; try (apply GC_ext; apply Qc_is_canon; reflexivity).
  unfold majorana_phase. destruct (Nat.odd _); apply GC_ext; apply Qc_is_canon; reflexivity.
Qed.

(** Representations. *)
Lemma rep_inj ty {A : StarAlg} (g : op -> Z -> A) f : (forall l m, f l = f m -> l = m) -> rep ty g -> rep ty (renamed f g).
Proof.
  intros Hi. destruct ty; cbn [rep]; [| |tauto].
  - intros [H1 H2 H3 H4 H5 H6 H7 H8]. split; intros; unfold renamed; auto. apply (H8 (f l) (f m)); auto.
  - intros [H1 H2 H3 H4 H5 H6 H7 H8]. split; intros; unfold renamed; auto.
Qed.
Lemma msgn2 a b : gmul (gsgn a) (gsgn b) = gsgn (xorb a b).
Proof. symmetry. apply gsgn_xorb. Qed.

Lemma rep_conjugated {A : StarAlg} (g : op -> Z -> A) : rep Majorana g -> rep Majorana (conjugated g).
Proof.
  intros [H1 H2 H3 H4 H5 H6 H7 H8]. split; intros; cbn [conjugated]; auto.
  - rewrite astar_scal, H2. apply ascal_eq. apply GC_ext; apply Qc_is_canon; reflexivity.
  - rewrite ascal_mul_l, ascal_mul_r, H4, gm1_gm1. reflexivity.
  - rewrite !ascal_mul_l, !ascal_mul_r, (H6 l m) by auto. reflexivity.
  - rewrite !ascal_mul_l, !ascal_mul_r, (H7 l m). reflexivity.
  - rewrite ascal_mul_r, H8, !ascal_ascal. apply ascal_eq. ring.
Qed.
Lemma rep_parity {A : StarAlg} (g : op -> Z -> A) dn dec : rep Majorana g -> rep Majorana (parity_flipped dn dec g).
Proof.
  intros [H1 H2 H3 H4 H5 H6 H7 H8].
  assert (S1 : forall x : A, x^* == x -> (gm1 · x)^* == gm1 · x).
  { intros x Hx. rewrite astar_scal, Hx. apply ascal_eq. apply GC_ext; apply Qc_is_canon; reflexivity. }
  assert (S2 : forall x : A, x * x == aone -> (gm1 · x) * (gm1 · x) == aone).
  { intros x Hx. rewrite ascal_mul_l, ascal_mul_r, Hx, gm1_gm1. reflexivity. }
  assert (S3 : forall (a b : bool) (x y : A), x * y == gm1 · (y * x) ->
     (if a then gm1 · x else x) * (if b then gm1 · y else y) == gm1 · ((if b then gm1 · y else y) * (if a then gm1 · x else x))).
  { intros [|] [|] x y E; rewrite ?ascal_mul_l, ?ascal_mul_r, E; rewrite ?ascal_mul_l, ?ascal_mul_r; reflexivity. }
  split; intros; cbn [parity_flipped]; try (destruct (dec l); auto; fail).
  - specialize (S3 (if dec l then true else false) (if dec m then true else false)). destruct (dec l), (dec m); apply S3; auto.
  - specialize (S3 (if dec l then true else false) (if dec m then true else false)). destruct (dec l), (dec m); apply S3; auto.
  - specialize (S3 (if dec l then true else false) (if dec m then true else false)). destruct (dec l), (dec m); apply S3; auto.
  - rewrite H8. destruct (dec l); [|reflexivity]. rewrite ascal_mul_l, ascal_mul_r, gm1_gm1. reflexivity.
Qed.
(** Time reversal: relations in the conjugate algebra. *)
Lemma rep_reversed {A : StarAlg} ty (g : op -> Z -> A) : rep ty g -> @rep ty (conj_alg A) (reversed ty g).
Proof.
  destruct ty; cbn [rep]; [| |tauto].
  - intros [H1 H2 H3 H4 H5 H6 H7 H8].
    assert (S1 : forall x : A, x^* == x -> (gm1 · x)^* == gm1 · x).
    { intros x Hx. rewrite astar_scal, Hx. apply ascal_eq. apply GC_ext; apply Qc_is_canon; reflexivity. }
    assert (S2 : forall x : A, x * x == aone -> (gm1 · x) * (gm1 · x) == aone).
    { intros x Hx. rewrite ascal_mul_l, ascal_mul_r, Hx, gm1_gm1. reflexivity. }
    split; intros; cbn [reversed conj_alg aeq car amul aone ascal astar]; auto.
    + rewrite ascal_mul_l, ascal_mul_r, H7, !ascal_ascal. apply ascal_eq. apply GC_ext; apply Qc_is_canon; reflexivity.
    + cbn [reversed] in *.
      assert (X : forall (u : A) (a b c : A), In u [gm1 · a; gm1 · b; gm1 · c] -> exists u', u = gm1 · u' /\ In u' [a; b; c]).
      { intros w a b c [<-|[<-|[<-|[]]]]; eexists; (split; [reflexivity|]); cbn; auto. }
      destruct (X u _ _ _ H0) as (u' & -> & Hu). destruct (X v _ _ _ H9) as (v' & -> & Hv).
      rewrite !ascal_mul_l, !ascal_mul_r, (H8 l m H u' v' Hu Hv). reflexivity.
  - intros [H1 H2 H3 H4 H5 H6 H7 H8]. split; intros; cbn [reversed conj_alg aeq car amul aone ascal astar]; auto.
    + rewrite astar_scal, H2. apply ascal_eq. apply GC_ext; apply Qc_is_canon; reflexivity.
    + rewrite ascal_mul_l, ascal_mul_r, H4, gm1_gm1. reflexivity.
    + rewrite !ascal_mul_l, !ascal_mul_r, (H6 l m) by auto. rewrite !ascal_ascal. apply ascal_eq. apply GC_ext; apply Qc_is_canon; reflexivity.
    + rewrite !ascal_mul_l, !ascal_mul_r, (H7 l m). rewrite !ascal_ascal. apply ascal_eq. apply GC_ext; apply Qc_is_canon; reflexivity.
    + rewrite ascal_mul_r, H8, !ascal_ascal. apply ascal_eq. apply GC_ext; apply Qc_is_canon; reflexivity.
Qed.
