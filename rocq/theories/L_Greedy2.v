(** Proofs about selected_ci_greedy: real symmetric matrices and one exploration. *)
From Coq Require Import String List ZArith Bool Arith Lia Permutation Reals QArith Qreals Qcanon Lra.
From Coquelicot Require Import Complex.
From Verif Require Import GC Exn M_OpString M_Tools M_Algebra M_Basis M_OpAlg M_Transform M_LinAlg M_Explore M_Core M_Greedy
  S_Alg S_Den S_Basis S_Built S_OpAlg S_Explore S_RScal S_CScal S_LinAlg S_Core S_Greedy
  L_Alg L_StrAlg L_StrOp L_Indep L_PropStr L_Basis L_Operator L_Heap L_PropBasis L_OpAlg L_Struct L_PropOpAlg L_Explore L_Explore2 L_Explore3 L_Explore4
  L_CScal L_LinAlg L_Inter L_Herm L_Core L_Commuting L_Greedy1.
Import ListNotations.
Local Open Scope nat_scope.

(* ------------------------------------------------------------- matrices *)

Definition ent (M : list vec) (i j : nat) : C := nth j (nth i M []) (RtoC 0).
Definition hermi (n : nat) (M : list vec) : Prop := length M = n /\ vectors n M /\ forall i j, ent M i j = Cconj (ent M j i).

Lemma zip_nth {A B D} (f : A -> B -> D) l : forall m i a b d, i < length l -> i < length m -> nth i (zip_with f l m) d = f (nth i l a) (nth i m b).
Proof. induction l as [|x l IH]; intros [|y m] [|i] a b d H1 H2; cbn in *; try lia; auto. apply IH; lia. Qed.
Lemma vectors_nth n M i : vectors n M -> i < length M -> length (nth i M []) = n.
Proof. intros H Hi. apply H, nth_In; auto. Qed.
Lemma ent_out n M i j : length M = n -> vectors n M -> (n <= i \/ n <= j) -> ent M i j = RtoC 0.
Proof.
  intros L V H. unfold ent. destruct (le_lt_dec n i) as [Hi|Hi].
  - rewrite (nth_overflow M) by lia. destruct j; auto.
  - apply nth_overflow. rewrite (vectors_nth n) by (auto; lia). lia.
Qed.
Lemma radd_length n M N : length M = n -> length N = n -> length (radd M N) = n.
Proof. apply zip_length. Qed.
Lemma radd_vectors n M N : vectors n M -> vectors n N -> vectors n (radd M N).
Proof.
  intros HM. revert N. unfold radd. induction M as [|u M IH]; intros [|v N] HN w Hw; cbn in Hw; try destruct Hw.
  - subst w. apply vadd_length; [apply HM | apply HN]; left; auto.
  - apply (IH (fun x Hx => HM x (or_intror Hx)) N); auto. intros x Hx; apply HN; right; auto.
Qed.
Lemma ent_radd n M N i j : length M = n -> length N = n -> vectors n M -> vectors n N -> ent (radd M N) i j = (ent M i j + ent N i j)%C.
Proof.
  intros L1 L2 V1 V2. destruct (le_lt_dec n i) as [Hi|Hi]; [|destruct (le_lt_dec n j) as [Hj|Hj]].
  1,2: rewrite !(ent_out n) by (auto; try apply radd_length; try apply radd_vectors; auto); apply C_ext; cbn; lra.
  unfold vec in *. unfold ent, radd. rewrite (zip_nth vadd M N i [] []) by (unfold vec in *; lia). unfold vadd. apply zip_nth; rewrite (vectors_nth n) by (auto; unfold vec in *; lia); auto.
Qed.
Lemma ent_map (f : C -> C) M i j : f (RtoC 0) = RtoC 0 -> ent (map (map f) M) i j = f (ent M i j).
Proof.
  intros H0. unfold ent. change (@nil C) with (map f (@nil C)) at 1. rewrite map_nth, <- H0 at 1. apply map_nth.
Qed.
Lemma map_vectors n (f : C -> C) M : vectors n M -> vectors n (map (map f) M).
Proof. intros H v Hv. apply in_map_iff in Hv. destruct Hv as (u & <- & Hu). rewrite map_length. auto. Qed.

Lemma hermi_radd n M N : hermi n M -> hermi n N -> hermi n (radd M N).
Proof.
  intros (L1 & V1 & H1) (L2 & V2 & H2). split; [apply radd_length; auto|]. split; [apply radd_vectors; auto|].
  intros i j. rewrite !(ent_radd n), H1, H2, Cconj_plus by auto. reflexivity.
Qed.
Lemma hermi_rscale n c M : hermi n M -> hermi n (rscale c M).
Proof.
  intros (L1 & V1 & H1). unfold rscale, vscale. split; [rewrite map_length; auto|]. split; [apply map_vectors; auto|].
  intros i j. rewrite !(ent_map (Cmult (RtoC c))) by (apply C_ext; cbn; lra). rewrite H1, Cconj_mult, Cconj_R. reflexivity.
Qed.
Lemma nth_rep {T} (x : T) k : forall i d, i < k -> nth i (repeat x k) d = x.
Proof. induction k as [|k IH]; intros [|i] d H; cbn; try lia; auto. apply IH; lia. Qed.
Lemma ent_rzero n i j : ent (rzero n) i j = RtoC 0.
Proof.
  unfold ent, rzero. destruct (le_lt_dec n i); [rewrite (nth_overflow (repeat (vzero n) n)) by (rewrite repeat_length; auto); destruct j; auto|].
  rewrite (nth_rep (vzero n)) by auto. apply nth_repeat.
Qed.
Lemma hermi_rzero n : hermi n (rzero n).
Proof.
  assert (V : vectors n (rzero n)) by (intros v Hv; apply repeat_spec in Hv; subst v; apply vzero_length).
  split; [apply repeat_length|]. split; auto.
  intros i j. rewrite !ent_rzero, Cconj_R. auto.
Qed.
Lemma nth_map_lt {A B} (f : A -> B) l : forall i a b, i < length l -> nth i (map f l) b = f (nth i l a).
Proof. induction l as [|x l IH]; intros [|i] a b H; cbn in *; try lia; auto. apply IH; lia. Qed.
Lemma hermi_outer v : hermi (length v) (outer_rows v).
Proof.
  unfold outer_rows. split; [apply map_length|]. assert (V : vectors (length v) (map (fun a => map (fun b => (a * Cconj b)%C) v) v)).
  { intros u Hu. apply in_map_iff in Hu. destruct Hu as (a & <- & _). apply map_length. }
  split; auto. intros i j. destruct (le_lt_dec (length v) i) as [Hi|Hi]; [|destruct (le_lt_dec (length v) j) as [Hj|Hj]].
  1,2: rewrite !(ent_out (length v)) by (auto; apply map_length); rewrite Cconj_R; auto.
  unfold ent. rewrite !(nth_map_lt (fun a => map (fun b => (a * Cconj b)%C) v) v _ (RtoC 0)) by auto.
  rewrite !(nth_map_lt (fun b => (_ * Cconj b)%C) v _ (RtoC 0)) by auto. rewrite Cconj_mult, Cconj_conj. ring.
Qed.
Lemma hermi_gram n cols : vectors n cols -> hermi (length cols) (gram cols).
Proof.
  intros H. split; [apply gram_length|]. assert (V : vectors (length cols) (gram cols)) by (intros v Hv; apply in_map_iff in Hv; destruct Hv as (u & <- & _); apply map_length).
  split; auto. intros i j. destruct (le_lt_dec (length cols) i) as [Hi|Hi]; [|destruct (le_lt_dec (length cols) j) as [Hj|Hj]].
  1,2: rewrite !(ent_out (length cols)) by (auto; apply gram_length); rewrite Cconj_R; auto.
  unfold ent, gram. rewrite !(nth_map_lt (fun ci => map (vdot ci) cols) cols _ []) by auto. rewrite !(nth_map_lt (vdot _) cols _ []) by auto.
  rewrite !vdot_inner. apply inner_sym.
Qed.
Lemma rreal_length M : length (rreal M) = length M.
Proof. apply map_length. Qed.
Lemma rreal_symmetric n M : hermi n M -> real_symmetric (rreal M).
Proof.
  intros (L & V & H). split.
  - intros r Hr. rewrite rreal_length. apply in_map_iff in Hr. destruct Hr as (u & <- & Hu). split; [transitivity n; [transitivity (length u); [apply map_length | apply V; auto] | auto]|].
    intros z Hz. apply in_map_iff in Hz. destruct Hz as (y & <- & _). reflexivity.
  - intros i j. change (ent (rreal M) i j = ent (rreal M) j i). unfold rreal. rewrite !ent_map by reflexivity. rewrite (H i j). destruct (ent M j i); reflexivity.
Qed.
Lemma real_hermi D : real_symmetric D -> hermi (length D) D.
Proof.
  intros [H1 H2]. split; auto. split; [intros v Hv; apply H1; auto|]. intros i j. assert (H3 : ent D i j = ent D j i) by apply H2. rewrite H3. clear H3. unfold ent, vec in *.
  assert (R : snd (nth i (nth j D []) (RtoC 0)) = 0%R).
  { destruct (nth_in_or_default j D []) as [Hj| ->]; [|destruct i; auto]. destruct (nth_in_or_default i (nth j D []) (RtoC 0)) as [Hi| ->]; auto. apply (H1 _ Hj); auto. }
  destruct (nth i (nth j D []) (RtoC 0)) as [a b]. cbn in *. subst b. apply C_ext; cbn; lra.
Qed.
Lemma real_radd M N n : length M = n -> length N = n -> real_symmetric M -> real_symmetric N -> real_symmetric (radd M N).
Proof.
  intros L1 L2 H1 H2. pose proof (real_hermi _ H1) as (_ & V1 & _). pose proof (real_hermi _ H2) as (_ & V2 & _). rewrite L1 in V1. rewrite L2 in V2.
  assert (LR : length (radd M N) = n) by (apply radd_length; auto). split.
  - intros r Hr. split; [transitivity n; [apply (radd_vectors n M N); auto | auto]|]. unfold radd in Hr.
    clear - Hr H1 H2. destruct H1 as [H1 _], H2 as [H2 _]. 
    assert (K1 : forall r, In r M -> real_vec r) by (intros; apply H1; auto). assert (K2 : forall r, In r N -> real_vec r) by (intros; apply H2; auto).
    clear H1 H2. revert N K2 Hr. induction M as [|u M IH]; intros [|v N] K2 Hr; cbn in Hr; try destruct Hr.
    + subst r. pose proof (K1 u (or_introl eq_refl)) as Ru. pose proof (K2 v (or_introl eq_refl)) as Rv. clear - Ru Rv. revert v Rv. induction u as [|a u IH]; intros [|b v] Rv z Hz; cbn in Hz; try destruct Hz.
      * subst z. cbn. rewrite (Ru a (or_introl eq_refl)), (Rv b (or_introl eq_refl)). lra.
      * apply (IH (fun x Hx => Ru x (or_intror Hx)) v); auto. intros x Hx; apply Rv; right; auto.
    + apply (IH (fun x Hx => K1 x (or_intror Hx)) N); auto. intros x Hx; apply K2; right; auto.
  - intros i j. change (ent (radd M N) i j = ent (radd M N) j i). rewrite !(ent_radd n) by auto.
    assert (E1 : ent M i j = ent M j i) by apply H1. assert (E2 : ent N i j = ent N j i) by apply H2. rewrite E1, E2. reflexivity.
Qed.
Lemma real_rzero n : real_symmetric (rzero n).
Proof.
  split.
  - intros r Hr. apply repeat_spec in Hr. subst r. unfold rzero. rewrite repeat_length, vzero_length. split; auto. intros z Hz. apply repeat_spec in Hz. subst z; auto.
  - intros i j. change (ent (rzero n) i j = ent (rzero n) j i). destruct (hermi_rzero n) as (L & V & H). rewrite H.
    rewrite ent_rzero. apply Cconj_R.
Qed.
Lemma radd_zero n M : length M = n -> vectors n M -> radd (rzero n) M = M.
Proof.
  intros L V. unfold rzero. assert (G : forall k, length M = k -> radd (repeat (vzero n) k) M = M); [|apply G; auto].
  clear L. induction M as [|u M IH]; intros k L; destruct k; cbn in L; try discriminate; auto. cbn. f_equal.
  - apply vadd_0l. apply V; left; auto.
  - apply IH; [intros x Hx; apply V; right; auto | lia].
Qed.

(* -------------------------------------------- real vectors and expectations *)

Lemma rreal_rows M v : real_vec v -> rows_vec (rreal M) v = map (fun z => RtoC (fst z)) (rows_vec M v).
Proof.
  intros Hv. unfold rows_vec, rreal. rewrite !map_map. apply map_ext. intros r. clear M. revert v Hv. induction r as [|a r IH]; intros [|b v] Hv; cbn; auto.
  change (fold_right Cplus (RtoC 0)) with csum. rewrite (IH v (fun z Hz => Hv z (or_intror Hz))). pose proof (Hv b (or_introl eq_refl)) as E.
  apply C_ext; cbn; rewrite ?E; try lra.
Qed.
Lemma real_inner v : real_vec v -> forall w, fst (inner v (map (fun z => RtoC (fst z)) w)) = fst (inner v w).
Proof.
  induction v as [|a v IH]; intros Hv [|b w]; cbn; auto. rewrite (IH (fun z Hz => Hv z (or_intror Hz))), (Hv a (or_introl eq_refl)). lra.
Qed.
Lemma expectation_gram n cols v : vectors n cols -> length v = length cols -> real_vec v ->
  expectation (rreal (gram cols)) v = norm2c (mat_vec n cols v).
Proof.
  intros Vc Lv Rv. unfold expectation. rewrite vdot_inner, rreal_rows, real_inner by auto. rewrite (gram_form n) by auto. rewrite inner_self. cbn [fst RtoC]. apply sqsum_norm2c.
Qed.
Lemma expectation_eigen D l v : rows_vec D v = map (Cmult (RtoC l)) v -> norm2c v = 1%R -> expectation D v = l.
Proof.
  intros E N. unfold expectation. rewrite vdot_inner, E. fold (vscale (RtoC l) v). rewrite inner_scale_r, inner_self, sqsum_norm2c, N. cbn. lra.
Qed.
