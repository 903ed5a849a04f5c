(** Finite sums of Gaussian rationals and sparse matrices. *)
From Coq Require Import List ZArith Bool Arith Lia QArith Qcanon.
From Verif Require Import GC Exn S_OpAlg M_OpAlg.
Import ListNotations.
Local Open Scope nat_scope.

Definition sg (n : nat) (f : nat -> GC) : GC := gsum (map f (seq 0 n)).

Lemma gsum_app l m : gsum (l ++ m) = gadd (gsum l) (gsum m).
Proof. induction l as [|x l IH]; simpl; [ring|]. rewrite IH. ring. Qed.
Lemma gsum_map_ext {T} (f g : T -> GC) l : (forall x, In x l -> f x = g x) -> gsum (map f l) = gsum (map g l).
Proof. intros H. f_equal. apply map_ext_in; auto. Qed.
Lemma gsum_map_add {T} (f g : T -> GC) l : gsum (map (fun x => gadd (f x) (g x)) l) = gadd (gsum (map f l)) (gsum (map g l)).
Proof. induction l as [|x l IH]; simpl; [ring|]. rewrite IH. ring. Qed.
Lemma gsum_map_mul {T} c (f : T -> GC) l : gsum (map (fun x => gmul c (f x)) l) = gmul c (gsum (map f l)).
Proof. induction l as [|x l IH]; simpl; [ring|]. rewrite IH. ring. Qed.
Lemma gsum_map_conj {T} (f : T -> GC) l : gsum (map (fun x => gconj (f x)) l) = gconj (gsum (map f l)).
Proof. induction l as [|x l IH]; simpl; [rewrite gconj_0; auto|]. rewrite IH, gconj_add. auto. Qed.
Lemma gsum_map_zero {T} (f : T -> GC) l : (forall x, In x l -> f x = g0) -> gsum (map f l) = g0.
Proof.
  intros H. induction l as [|x l IH]; [reflexivity|]. cbn [map gsum fold_right].
  change (fold_right gadd g0 (map f l)) with (gsum (map f l)).
  rewrite H, IH by (simpl; auto; intros; apply H; simpl; auto). ring.
Qed.
Lemma gsum_swap {T U} (f : T -> U -> GC) l m :
  gsum (map (fun x => gsum (map (f x) m)) l) = gsum (map (fun y => gsum (map (fun x => f x y) l)) m).
Proof.
  induction l as [|x l IH]; simpl.
  - symmetry. apply gsum_map_zero. auto.
  - rewrite IH, <- gsum_map_add. auto.
Qed.

Lemma sg_ext n f g : (forall i, i < n -> f i = g i) -> sg n f = sg n g.
Proof. intros H. apply gsum_map_ext. intros x Hx. apply in_seq in Hx. apply H; lia. Qed.
Lemma sg_add n f g : sg n (fun i => gadd (f i) (g i)) = gadd (sg n f) (sg n g).
Proof. apply gsum_map_add. Qed.
Lemma sg_mul n c f : sg n (fun i => gmul c (f i)) = gmul c (sg n f).
Proof. apply gsum_map_mul. Qed.
Lemma sg_conj n f : sg n (fun i => gconj (f i)) = gconj (sg n f).
Proof. apply gsum_map_conj. Qed.
Lemma sg_zero n f : (forall i, i < n -> f i = g0) -> sg n f = g0.
Proof. intros H. apply gsum_map_zero. intros x Hx. apply in_seq in Hx. apply H; lia. Qed.
Lemma sg_swap n m f : sg n (fun i => sg m (f i)) = sg m (fun j => sg n (fun i => f i j)).
Proof. apply gsum_swap. Qed.
Lemma sg_single n k f : k < n -> (forall i, i < n -> i <> k -> f i = g0) -> sg n f = f k.
Proof.
  intros H Hz. unfold sg. replace n with (k + (1 + (n - k - 1))) by lia.
  rewrite seq_app, map_app, gsum_app. simpl.
  rewrite (gsum_map_zero f (seq 0 k)) by (intros x Hx; apply in_seq in Hx; apply Hz; lia).
  rewrite (gsum_map_zero f) by (intros x Hx; apply in_seq in Hx; apply Hz; lia). ring.
Qed.

(** A sum of absolute squares is zero only if all terms are. *)
Lemma sg_sq_zero n w : sg n (fun i => gmul (gconj (w i)) (w i)) = g0 -> forall i, i < n -> w i = g0.
Proof.
  unfold sg. intros H i Hi. assert (In i (seq 0 n)) by (apply in_seq; lia). revert H H0.
  generalize (seq 0 n). clear Hi n. intros l.
  assert (Hp : forall l, (0 <= re (gsum (map (fun i => gmul (gconj (w i)) (w i)) l)))%Qc).
  { clear. induction l as [|x l IH]; [apply Qcle_refl|]. cbn [map gsum fold_right]. rewrite gmul_conj.
    change (0 <= norm2 (w x) + re (gsum (map (fun i => gmul (gconj (w i)) (w i)) l)))%Qc.
    apply Qcle_trans with (0 + 0)%Qc; [apply Qcle_refl|]. apply Qcplus_le_compat; auto. apply norm2_nonneg. }
  induction l as [|x l IH]; [intros _ []|]. cbn [map gsum fold_right]. rewrite gmul_conj. intros H Hin.
  fold (gsum (map (fun i => gmul (gconj (w i)) (w i)) l)) in H.
  assert (E : (norm2 (w x) + re (gsum (map (fun i => gmul (gconj (w i)) (w i)) l)))%Qc = 0%Qc).
  { apply (f_equal re) in H. exact H. }
  apply qc_add_nonneg_zero in E; auto; [|apply norm2_nonneg]. destruct E as [E1 E2].
  apply norm2_zero in E1. destruct Hin as [<-|Hin]; auto. apply IH; auto.
  rewrite E1 in H. replace (gq (norm2 g0)) with g0 in H by (apply GC_ext; reflexivity).
  rewrite <- H. ring.
Qed.

(* ------------------------------------------------------------ entries *)

Definition entry (ts : list (nat * nat * GC)) (i j : nat) : GC :=
  gsum (map (fun t : nat * nat * GC => if (Nat.eqb (fst (fst t)) i && Nat.eqb (snd (fst t)) j) then snd t else g0) ts).
Lemma sm_entry_entry M i j : sm_entry M i j = entry (sm_trip M) i j.
Proof. reflexivity. Qed.
Lemma entry_cons t ts i j : entry (t :: ts) i j =
  gadd (if (Nat.eqb (fst (fst t)) i && Nat.eqb (snd (fst t)) j) then snd t else g0) (entry ts i j).
Proof. reflexivity. Qed.
Lemma entry_app ts us i j : entry (ts ++ us) i j = gadd (entry ts i j) (entry us i j).
Proof. unfold entry. rewrite map_app. apply gsum_app. Qed.
Lemma entry_scale z (ts : list (nat * nat * GC)) i j : entry (map (fun t => (fst t, gmul z (snd t))) ts) i j = gmul z (entry ts i j).
Proof.
  unfold entry. rewrite map_map, <- gsum_map_mul. apply gsum_map_ext. intros t _. simpl.
  destruct (_ && _); [reflexivity | ring].
Qed.
Lemma entry_adj (ts : list (nat * nat * GC)) i j : entry (map (fun t => (snd (fst t), fst (fst t), gconj (snd t))) ts) i j = gconj (entry ts j i).
Proof.
  unfold entry. rewrite map_map, <- gsum_map_conj. apply gsum_map_ext. intros t _. simpl.
  rewrite andb_comm. destruct (_ && _); auto using gconj_0.
Qed.
Lemma entry_dot1 r c a (us : list (nat * nat * GC)) i j :
  entry (flat_map (fun u => if Nat.eqb c (fst (fst u)) then [(r, snd (fst u), gmul a (snd u))] else []) us) i j =
  if Nat.eqb r i then gmul a (entry us c j) else g0.
Proof.
  induction us as [|[[r' c'] b] us IH]; simpl.
  - unfold entry; simpl. destruct (Nat.eqb r i); [ring | auto].
  - rewrite entry_app, IH, entry_cons. simpl. rewrite (Nat.eqb_sym r' c).
    destruct (Nat.eqb c r') eqn:E1; simpl.
    + unfold entry at 1; simpl. destruct (Nat.eqb r i), (Nat.eqb c' j); simpl; ring.
    + unfold entry at 1; simpl. destruct (Nat.eqb r i); ring.
Qed.
Lemma entry_dot n (ts us : list (nat * nat * GC)) i j : (forall t, In t ts -> snd (fst t) < n) ->
  entry (flat_map (fun t => flat_map (fun u =>
           if Nat.eqb (snd (fst t)) (fst (fst u))
           then [(fst (fst t), snd (fst u), gmul (snd t) (snd u))] else []) us) ts) i j =
  sg n (fun k => gmul (entry ts i k) (entry us k j)).
Proof.
  induction ts as [|[[r c] a] ts IH]; intros H; simpl.
  - symmetry. apply sg_zero. intros k _. unfold entry at 1; simpl. ring.
  - rewrite entry_app, entry_dot1, IH by (intros; apply H; simpl; auto). clear IH.
    transitivity (sg n (fun k => gadd (gmul (if Nat.eqb r i && Nat.eqb c k then a else g0) (entry us k j)) (gmul (entry ts i k) (entry us k j)))).
    2:{ apply sg_ext. intros k _. rewrite entry_cons. simpl. ring. }
    rewrite sg_add. f_equal. rewrite (sg_single n c).
    + rewrite Nat.eqb_refl, andb_true_r. destruct (Nat.eqb r i); [auto | ring].
    + apply (H (r, c, a)). simpl; auto.
    + intros k _ Hk. destruct (Nat.eqb_spec c k); [lia|]. rewrite andb_false_r. ring.
Qed.

(* ------------------------------------------------------------ matrix times vector *)

Definition vat (v : list GC) (j : nat) : GC := nth j v g0.

Lemma matvec_nth M v i : length v = sm_cols M -> i < sm_rows M ->
  nth_error (matvec M v) i = Some (sg (sm_cols M) (fun j => gmul (sm_entry M i j) (vat v j))).
Proof.
  intros Hl Hi. unfold matvec. rewrite nth_error_map.
  assert (E : nth_error (seq 0 (sm_rows M)) i = Some i).
  { rewrite (nth_error_nth' _ 0) by (rewrite seq_length; auto). rewrite seq_nth; auto. }
  rewrite E. simpl. f_equal. unfold sg. rewrite <- Hl. clear.
  change (fold_right gadd g0) with gsum.
  assert (H : forall k f, gsum (map (fun p : nat * GC => gmul (f (fst p)) (snd p)) (combine (seq k (length v)) v)) =
     gsum (map (fun j => gmul (f (k + j)) (vat v j)) (seq 0 (length v)))).
  { induction v as [|x v IH]; intros k f; simpl; auto. rewrite IH, Nat.add_0_r. f_equal. 
    rewrite <- seq_shift, map_map. apply gsum_map_ext. intros j _. unfold vat. simpl. f_equal. f_equal. lia. }
  apply (H 0 (sm_entry M i)).
Qed.
Lemma matvec_length M v : length (matvec M v) = sm_rows M.
Proof. unfold matvec. rewrite map_length, seq_length. auto. Qed.

Definition zeros (n : nat) : list GC := repeat g0 n.
Lemma matvec_zero M v : length v = sm_cols M ->
  (matvec M v = zeros (sm_rows M) <-> forall i, i < sm_rows M -> sg (sm_cols M) (fun j => gmul (sm_entry M i j) (vat v j)) = g0).
Proof.
  intros Hl. split.
  - intros H i Hi. pose proof (matvec_nth M v i Hl Hi) as E. rewrite H in E. unfold zeros in E.
    rewrite (nth_error_repeat g0 Hi) in E. congruence.
  - intros H. apply nth_ext with (d := g0) (d' := g0); [rewrite matvec_length; unfold zeros; rewrite repeat_length; auto|].
    intros i Hi. rewrite matvec_length in Hi. pose proof (matvec_nth M v i Hl Hi) as E.
    rewrite (nth_error_nth _ _ _ E), H; auto. unfold zeros. symmetry. apply nth_repeat.
Qed.

Lemma gmul_comm (x y : GC) : gmul x y = gmul y x.
Proof. ring. Qed.

(** The kernel of [L^H L] is the kernel of [L]. *)
Lemma gram_kernel L M v : (forall e, In e (sm_trip L) -> fst (fst e) < sm_rows L /\ snd (fst e) < sm_cols L) ->
  sm_dot (sm_adj L) L = Ok M -> length v = sm_cols L ->
  sm_rows M = sm_cols L /\ sm_cols M = sm_cols L /\
  (matvec M v = zeros (sm_rows M) <-> matvec L v = zeros (sm_rows L)).
Proof.
  intros HB. unfold sm_dot. cbn [sm_adj sm_rows sm_cols sm_trip]. rewrite Nat.eqb_refl. intros H Hl. injection H as <-.
  cbn [sm_rows sm_cols]. split; auto. split; auto.
  set (l := fun i j => entry (sm_trip L) i j). set (n := sm_cols L) in *. set (r := sm_rows L) in *.
  set (w := fun k => sg n (fun j => gmul (l k j) (vat v j))).
  assert (EM : forall i, i < n -> sg n (fun j => gmul (entry (flat_map (fun t => flat_map (fun u =>
           if Nat.eqb (snd (fst t)) (fst (fst u))
           then [(fst (fst t), snd (fst u), gmul (snd t) (snd u))] else []) (sm_trip L)) 
             (map (fun t => (snd (fst t), fst (fst t), gconj (snd t))) (sm_trip L))) i j) (vat v j)) =
       sg r (fun k => gmul (gconj (l k i)) (w k))).
  { intros i _.
    transitivity (sg n (fun j => sg r (fun k => gmul (gconj (l k i)) (gmul (l k j) (vat v j))))).
    - apply sg_ext. intros j _. rewrite (entry_dot r).
      + transitivity (sg r (fun k => gmul (vat v j) (gmul (gconj (l k i)) (l k j)))).
        * rewrite sg_mul. transitivity (gmul (vat v j) (sg r (fun k => gmul (gconj (l k i)) (l k j)))); [|reflexivity].
          rewrite (gmul_comm (vat v j)). f_equal. apply sg_ext. intros k _. rewrite entry_adj. auto.
        * apply sg_ext. intros k _. ring.
      + intros t Ht. apply in_map_iff in Ht. destruct Ht as (e & <- & He). simpl. apply HB; auto.
    - rewrite sg_swap. apply sg_ext. intros k _. rewrite sg_mul. auto. }
  rewrite matvec_zero by (simpl; auto). cbn [sm_rows sm_cols].
  unfold r. rewrite (matvec_zero L v) by (unfold n in *; auto). fold r n.
  split.
  - intros H k Hk. change (w k = g0). revert k Hk. apply sg_sq_zero.
    transitivity (sg n (fun i => gmul (gconj (vat v i)) (sg r (fun k => gmul (gconj (l k i)) (w k))))).
    + transitivity (sg r (fun k => sg n (fun i => gmul (gconj (vat v i)) (gmul (gconj (l k i)) (w k))))).
      * apply sg_ext. intros k _. unfold w at 1. rewrite <- sg_conj.
        transitivity (sg n (fun i => gmul (w k) (gconj (gmul (l k i) (vat v i))))).
        -- rewrite sg_mul. apply gmul_comm.
        -- apply sg_ext. intros i _. rewrite gconj_mul. ring.
      * rewrite sg_swap. apply sg_ext. intros i _. rewrite sg_mul. auto.
    + apply sg_zero. intros i Hi. rewrite <- EM by auto. specialize (H i Hi). unfold sm_entry in H; cbn [sm_trip] in H. unfold entry. rewrite H. ring.
  - intros H i Hi. etransitivity; [exact (EM i Hi)|]. apply sg_zero. intros k Hk. replace (w k) with g0 by (symmetry; exact (H k Hk)). ring.
Qed.
