(** to_matrix: the entries of the matrix of a string. *)
From Coq Require Import List Arith Lia ZArith NArith Bool Permutation Ring Sorted Setoid.
From Verif Require Import GC Exn S_Alg S_Den M_OpString M_Basis M_OpAlg S_Fock S_Transform L_Alg L_Fock L_Sum L_PropStr L_Trans1 M_Diag S_Diag L_Diag1.
Import ListNotations.
Local Open Scope nat_scope.

Definition flips (o : op) : bool := match o with OX | OY => true | _ => false end.
Definition phase (o : op) (b : bool) : GC := match o with OY => if b then gopp gi else gi | OZ => if b then gm1 else g1 | _ => g1 end.
Definition pos (n : nat) (l : Z) : nat := Z.to_nat (Z.of_nat n - 1 - l).
Definition flipmask (n : nat) (p : op * Z) : N := if flips (fst p) then bit (pos n (snd p)) else 0%N.
Fixpoint cflip (n : nat) (ol : list (op * Z)) : N := match ol with [] => 0%N | p :: r => N.lxor (flipmask n p) (cflip n r) end.
Fixpoint cphase (n : nat) (ol : list (op * Z)) (c : N) : GC :=
  match ol with [] => g1 | p :: r => gmul (phase (fst p) (occ c (pos n (snd p)))) (cphase n r c) end.
Definition ranged (n : nat) (ol : list (op * Z)) : Prop := forall p, In p ol -> (0 <= snd p < Z.of_nat n)%Z.

Lemma pos_inj n l m : (0 <= l < Z.of_nat n)%Z -> (0 <= m < Z.of_nat n)%Z -> pos n l = pos n m -> l = m.
Proof. unfold pos. lia. Qed.
Lemma pos_spin n c l : (0 <= l < Z.of_nat n)%Z -> occ c (pos n l) = spin n c (Z.to_nat l).
Proof. intros H. unfold occ, spin, pos. f_equal. lia. Qed.
Lemma mask_ok n l : (0 <= l < Z.of_nat n)%Z -> mask n l = Ok (bit (pos n l)).
Proof.
  intros H. unfold mask. rewrite (proj2 (Z.ltb_ge _ 0)) by lia. f_equal. unfold bit, pos. rewrite N.shiftl_1_l, Z_nat_N. reflexivity.
Qed.
Lemma land_bit c k : (N.land c (bit k) =? 0)%N = negb (occ c k).
Proof.
  destruct (occ c k) eqn:E; cbn [negb].
  - apply N.eqb_neq. intros H. apply (f_equal (fun x => N.testbit x (N.of_nat k))) in H. rewrite N.land_spec in H. unfold occ in E. rewrite E in H.
    unfold bit in H. rewrite N.pow2_bits_true, N.bits_0 in H. discriminate.
  - apply N.eqb_eq. apply N.bits_inj_0. intros j. rewrite N.land_spec. unfold bit. rewrite N.pow2_bits_eqb. destruct (N.eqb_spec (N.of_nat k) j); [subst; unfold occ in E; rewrite E; auto | apply andb_false_r].
Qed.
Lemma cflip_occ n ol l : ranged n ol -> (0 <= l < Z.of_nat n)%Z -> ~ In l (map snd ol) -> occ (cflip n ol) (pos n l) = false.
Proof.
  induction ol as [|p r IH]; intros Hr Hl Hn; [apply N.bits_0|]. cbn [cflip]. rewrite occ_lxor, IH; auto.
  - unfold flipmask. destruct (flips (fst p)); [|unfold occ; rewrite N.bits_0; auto]. rewrite occ_bit. destruct (Nat.eqb_spec (pos n (snd p)) (pos n l)); auto.
    exfalso. apply Hn. left. apply (pos_inj n); auto. apply Hr. left; auto.
  - intros q Hq. apply Hr. right; auto.
  - intros H. apply Hn. right; auto.
Qed.
Lemma cphase_ext n ol a b : (forall p, In p ol -> occ a (pos n (snd p)) = occ b (pos n (snd p))) -> cphase n ol a = cphase n ol b.
Proof. induction ol as [|p r IH]; intros H; auto. cbn [cphase]. rewrite (H p) by (left; auto). f_equal. apply IH. intros; apply H; right; auto. Qed.
Lemma ranged_tail n p r : ranged n (p :: r) -> ranged n r.
Proof. intros H q Hq. apply H. right; auto. Qed.
Lemma flip_conf n ol : ranged n ol -> configuration n (cflip n ol).
Proof.
  induction ol as [|p r IH]; intros H; [apply conf_bits; intros; apply N.bits_0|]. cbn [cflip]. apply conf_xor; [|apply IH; eapply ranged_tail; eauto].
  unfold flipmask. destruct (flips (fst p)); [|apply conf_bits; intros; apply N.bits_0].
  apply conf_bits. intros k Hk. unfold bit. rewrite N.pow2_bits_eqb. apply N.eqb_neq. specialize (H p (or_introl eq_refl)). unfold pos. lia.
Qed.

Lemma apply_ops n : forall ol k c, ranged n ol -> NoDup (map snd ol) -> (forall p, In p ol -> is_op_of Pauli (fst p) = true) ->
  rfold (apply_step_conf n) ol (k, c) = Ok (gmul k (cphase n ol c), N.lxor c (cflip n ol)).
Proof.
  induction ol as [|[o l] r IH]; intros k c Hr Hn Ho; cbn [rfold].
  - cbn [cphase cflip]. rewrite N.lxor_0_r. f_equal. f_equal. ring.
  - cbn [map snd] in Hn. apply NoDup_cons_iff in Hn. destruct Hn as [Nl Hn].
    assert (Hl : (0 <= l < Z.of_nat n)%Z) by apply (Hr (o, l) (or_introl eq_refl)).
    assert (Ext : forall c', c' = c \/ c' = N.lxor c (bit (pos n l)) -> cphase n r c' = cphase n r c).
    { intros c' [->| ->]; auto. apply cphase_ext. intros p Hp. rewrite occ_lxor, occ_bit.
      destruct (Nat.eqb_spec (pos n l) (pos n (snd p))) as [E|E]; [|apply xorb_false_r]. exfalso. apply Nl. apply pos_inj in E; auto.
      - rewrite E. apply in_map; auto.
      - apply Hr; right; auto. }
    unfold apply_step_conf at 1. cbn [fst snd]. rewrite (mask_ok n l Hl). cbn [rbind].
    assert (Step : forall k' c', (c' = c \/ c' = N.lxor c (bit (pos n l))) -> rfold (apply_step_conf n) r (k', c') = Ok (gmul k' (cphase n r c), N.lxor c' (cflip n r))).
    { intros k' c' H. rewrite IH; auto; [rewrite (Ext c' H); auto | eapply ranged_tail; eauto | intros; apply Ho; right; auto]. }
    specialize (Ho (o, l) (or_introl eq_refl)). cbn [cphase cflip fst snd].
    destruct o; try discriminate Ho; cbn [rbind]; rewrite Step by auto; unfold flipmask; cbn [flips fst snd phase]; rewrite ?land_bit, ?negb_involutive; f_equal; f_equal.
    + ring.
    + apply N.lxor_assoc.
    + destruct (occ c (pos n l)); ring.
    + apply N.lxor_assoc.
    + destruct (occ c (pos n l)); ring.
Qed.

(* ---------------------------------------------------------------- tensor products *)

Definition op_find (ol : list (op * Z)) (l : Z) : option op := match find (fun p => (snd p =? l)%Z) ol with Some p => Some (fst p) | None => None end.
Definition oflips (o : option op) : bool := match o with Some p => flips p | None => false end.
Definition ophase (o : option op) (b : bool) : GC := match o with Some p => phase p b | None => g1 end.
Lemma pauli2_form o x y : (forall p, o = Some p -> is_op_of Pauli p = true) -> pauli2 o x y = if Bool.eqb x (xorb y (oflips o)) then ophase o y else g0.
Proof.
  intros H. destruct o as [p|]; [specialize (H p eq_refl); destruct p; try discriminate H|]; destruct x, y; reflexivity.
Qed.
Lemma op_find_none ol l : ~ In l (map snd ol) -> op_find ol l = None.
Proof.
  intros H. unfold op_find. destruct (find _ ol) as [p|] eqn:E; auto. apply find_some in E. destruct E as [E1 E2]. apply Z.eqb_eq in E2. exfalso. apply H. rewrite <- E2. apply in_map; auto.
Qed.
Lemma op_find_some ol l o : op_find ol l = Some o -> In (o, l) ol.
Proof. unfold op_find. destruct (find _ ol) as [p|] eqn:E; [|discriminate]. intros H. injection H as <-. apply find_some in E. destruct E as [E1 E2]. apply Z.eqb_eq in E2. subst l. destruct p; auto. Qed.
Lemma op_find_cons o l r m : op_find ((o, l) :: r) m = if (l =? m)%Z then Some o else op_find r m.
Proof. unfold op_find. cbn [find snd]. destruct (l =? m)%Z; auto. Qed.
Lemma cflip_spin n ol i : ranged n ol -> NoDup (map snd ol) -> i < n -> spin n (cflip n ol) i = oflips (op_find ol (Z.of_nat i)).
Proof.
  induction ol as [|[o l] r IH]; intros Hr Hn Hi; [apply N.bits_0|]. cbn [map snd] in Hn. apply NoDup_cons_iff in Hn. destruct Hn as [Nl Hn].
  cbn [cflip]. rewrite spin_xor, IH; auto; [|eapply ranged_tail; eauto]. rewrite op_find_cons.
  assert (Hl := Hr (o, l) (or_introl eq_refl)). cbn [snd] in Hl.
  assert (E : spin n (flipmask n (o, l)) i = if (l =? Z.of_nat i)%Z then flips o else false).
  { unfold flipmask. cbn [fst snd]. replace (spin n (if flips o then bit (pos n l) else 0%N) i) with (occ (if flips o then bit (pos n l) else 0%N) (pos n (Z.of_nat i))) by (rewrite pos_spin, Nat2Z.id by lia; auto).
    destruct (flips o); [rewrite occ_bit | unfold occ; rewrite N.bits_0; destruct (l =? Z.of_nat i)%Z; auto].
    destruct (Z.eqb_spec l (Z.of_nat i)), (Nat.eqb_spec (pos n l) (pos n (Z.of_nat i))); auto; [exfalso; congruence | exfalso]. match goal with H : l <> _ |- _ => apply H end. apply (pos_inj n); auto; lia. }
  rewrite E. destruct (Z.eqb_spec l (Z.of_nat i)) as [->|N]; [rewrite op_find_none; auto; apply xorb_false_r | apply xorb_false_l].
Qed.
Lemma gprod_update (f : nat -> GC) a x l : NoDup l -> In x l -> f x = g1 -> gprod (map (fun i => if Nat.eqb x i then a else f i) l) = gmul a (gprod (map f l)).
Proof.
  induction l as [|y l IH]; intros ND H E; [destruct H|]. cbn [map]. rewrite !gprod_cons. apply NoDup_cons_iff in ND. destruct ND as [Ny ND].
  destruct H as [->|H].
  - rewrite Nat.eqb_refl, E. rewrite (gprod_ext (fun i => if Nat.eqb x i then a else f i) f); [ring|]. intros i Hi. destruct (Nat.eqb_spec x i); auto. subst; contradiction.
  - destruct (Nat.eqb_spec x y); [subst; contradiction|]. rewrite IH; auto. ring.
Qed.
Lemma cphase_prod n ol c : ranged n ol -> NoDup (map snd ol) -> gprod (map (fun i => ophase (op_find ol (Z.of_nat i)) (spin n c i)) (seq 0 n)) = cphase n ol c.
Proof.
  induction ol as [|[o l] r IH]; intros Hr Hn; [apply gprod_one; reflexivity|]. cbn [map snd] in Hn. apply NoDup_cons_iff in Hn. destruct Hn as [Nl Hn].
  assert (Hl := Hr (o, l) (or_introl eq_refl)). cbn [snd] in Hl. cbn [cphase fst snd]. rewrite <- IH; auto; [|eapply ranged_tail; eauto].
  rewrite (pos_spin n c l Hl).
  rewrite <- (gprod_update (fun i => ophase (op_find r (Z.of_nat i)) (spin n c i)) (phase o (spin n c (Z.to_nat l))) (Z.to_nat l) (seq 0 n)).
  - apply gprod_ext. intros i _. rewrite op_find_cons. destruct (Z.eqb_spec l (Z.of_nat i)), (Nat.eqb_spec (Z.to_nat l) i); try lia; subst; auto. rewrite Nat2Z.id. reflexivity.
  - apply seq_NoDup.
  - apply in_seq. lia.
  - rewrite Z2Nat.id by lia. rewrite op_find_none; auto.
Qed.
Lemma tensor_form n ol r c : ranged n ol -> NoDup (map snd ol) -> (forall p, In p ol -> is_op_of Pauli (fst p) = true) -> configuration n r -> configuration n c ->
  tensor n (fun i => pauli2 (op_find ol (Z.of_nat i))) r c = if (N.lxor c (cflip n ol) =? r)%N then cphase n ol c else g0.
Proof.
  intros Hr Hn Ho Cr Cc. unfold tensor.
  assert (Hop : forall i p, op_find ol (Z.of_nat i) = Some p -> is_op_of Pauli p = true) by (intros i p E; apply op_find_some in E; apply (Ho (p, Z.of_nat i)); auto).
  destruct (N.eqb_spec (N.lxor c (cflip n ol)) r) as [E|E].
  - rewrite <- cphase_prod by auto. apply gprod_ext. intros i Hi. apply in_seq in Hi. rewrite pauli2_form by apply Hop.
    rewrite <- E, spin_xor, cflip_spin by (auto; lia). rewrite eqb_reflx. reflexivity.
  - assert (exists i, i < n /\ spin n r i <> spin n (N.lxor c (cflip n ol)) i) as (i & Hi & D).
    { destruct (forallb (fun i => Bool.eqb (spin n r i) (spin n (N.lxor c (cflip n ol)) i)) (seq 0 n)) eqn:A.
      - exfalso. apply E. apply (spin_ext n); auto; [apply conf_xor; auto; apply flip_conf; auto|]. intros i Hi. rewrite forallb_forall in A. specialize (A i ltac:(apply in_seq; lia)). apply eqb_prop in A. auto.
      - assert (X : forall l, forallb (fun i => Bool.eqb (spin n r i) (spin n (N.lxor c (cflip n ol)) i)) l = false -> exists i, In i l /\ spin n r i <> spin n (N.lxor c (cflip n ol)) i).
        { induction l as [|i l IH]; [discriminate|]. cbn [forallb]. destruct (Bool.eqb (spin n r i) _) eqn:B; cbn [andb].
          - intros H. destruct (IH H) as (j & H1 & H2). exists j. split; auto. right; auto.
          - intros _. exists i. split; [left; auto|]. intros H. rewrite H, eqb_reflx in B. discriminate. }
        destruct (X _ A) as (i & H1 & H2). exists i. apply in_seq in H1. split; auto. lia. }
    apply (gprod_zero _ _ i); [apply in_seq; lia|]. rewrite pauli2_form by apply Hop. rewrite spin_xor, cflip_spin in D by auto.
    destruct (Bool.eqb (spin n r i) _) eqn:B; auto. apply eqb_prop in B. congruence.
Qed.

(* ---------------------------------------------------------------- the matrix of a string *)

Definition body (s : OS) : list (op * Z) := combine (os_ops s) (os_labels s).
Record in_spins (n : nat) (s : OS) : Prop := {
  is_ranged : ranged n (body s); is_nodup : NoDup (map snd (body s)); is_ops : forall p, In p (body s) -> is_op_of Pauli (fst p) = true;
  is_pauli : os_type s = Pauli; is_pref : pval (os_pref s) = g1 }.
Lemma map_snd_combine {X Y} (a : list X) (b : list Y) : length a = length b -> map snd (combine a b) = b.
Proof. revert b. induction a as [|x a IH]; intros [|y b] H; cbn in *; try discriminate; auto. f_equal. auto. Qed.
Lemma in_spins_of n s : string_ok Pauli s -> labels_in n s -> in_spins n s.
Proof.
  intros (H1 & H2 & H3 & H4 & H5) Hl. split; auto.
  - intros p Hp. apply Hl. destruct p as [o l]. apply in_combine_r in Hp. auto.
  - unfold body. rewrite map_snd_combine; auto.
  - intros [o l] Hp. apply in_combine_l in Hp. auto.
Qed.
Lemma matrix_form n s r c : in_spins n s -> configuration n r -> configuration n c ->
  string_matrix n s r c = if (N.lxor c (cflip n (body s)) =? r)%N then cphase n (body s) c else g0.
Proof. intros [H1 H2 H3 _ _] Hr Hc. apply tensor_form; auto. Qed.

Lemma rmap_ok {X Y} (f : X -> res Y) g l : (forall x, In x l -> f x = Ok (g x)) -> rmap f l = Ok (map g l).
Proof. induction l as [|x l IH]; intros H; auto. cbn [rmap map]. rewrite (H x) by (left; auto). cbn [rbind]. rewrite IH by (intros; apply H; right; auto). reflexivity. Qed.
Definition form_triples (n : nat) (s : OS) : list (N * N * GC) :=
  map (fun c => (N.lxor c (cflip n (body s)), c, cphase n (body s) c)) (confs n).
Lemma triples_ok n s : in_spins n s -> opstring_triples s n = Ok (form_triples n s).
Proof.
  intros [H1 H2 H3 H4 H5]. unfold opstring_triples. rewrite H4. apply rmap_ok. intros c _. unfold apply_opstring. rewrite H4.
  change (combine (os_ops s) (os_labels s)) with (body s). rewrite (apply_ops n (body s) _ c H1 H2 H3), H5. cbn [rbind fst snd]. f_equal. f_equal. ring.
Qed.
Definition tri (d : list (N * N * GC)) (r c : N) : GC := gsum (map (fun t => if (fst (fst t) =? r)%N && (snd (fst t) =? c)%N then snd t else g0) d).
Lemma tri_form n s r c : in_spins n s -> configuration n r -> configuration n c -> tri (form_triples n s) r c = string_matrix n s r c.
Proof.
  intros Hs Hr Hc. rewrite matrix_form by auto. unfold tri, form_triples. rewrite map_map. cbn [fst snd].
  rewrite <- (sum_pick n (fun x => if (N.lxor x (cflip n (body s)) =? r)%N then cphase n (body s) x else g0) c Hc).
  unfold sum_confs. apply gsum_map_ext. intros x _. destruct (x =? c)%N; [rewrite andb_true_r | rewrite andb_false_r]; auto.
Qed.
Lemma csr_ok n d : (forall t, In t d -> configuration n (fst (fst t)) /\ configuration n (snd (fst t))) -> csr n d = Ok (mkMat n d).
Proof.
  intros H. unfold csr. replace (forallb _ d) with true; auto. symmetry. apply forallb_forall. intros t Ht. destruct (H t Ht) as [H1 H2].
  apply andb_true_iff. split; apply N.ltb_lt; auto.
Qed.
Lemma form_conf n s t : in_spins n s -> In t (form_triples n s) -> configuration n (fst (fst t)) /\ configuration n (snd (fst t)).
Proof.
  intros Hs Ht. unfold form_triples in Ht. apply in_map_iff in Ht. destruct Ht as (c & <- & Hc). apply in_confs in Hc. cbn [fst snd]. split; auto.
  apply conf_xor; auto. apply flip_conf. apply Hs.
Qed.
Theorem string_entries n s : in_spins n s -> exists M, to_matrix (MString s) n = Ok M /\ m_orbitals M = n /\ mat_eq n (entry M) (string_matrix n s).
Proof.
  intros Hs. cbn [to_matrix]. unfold to_matrix_opstring. rewrite (triples_ok n s Hs). cbn [rbind]. rewrite csr_ok by (intros; apply (form_conf n s); auto).
  eexists. split; [reflexivity|]. split; auto. intros r c Hr Hc. apply tri_form; auto.
Qed.

(** Operators: the sum of the matrices. *)
Definition terms_matrix (n : nat) (ts : list (GC * OS)) (r c : N) : GC := gsum (map (fun t => gmul (fst t) (string_matrix n (snd t) r c)) ts).
Lemma tri_app d e r c : tri (d ++ e) r c = gadd (tri d r c) (tri e r c).
Proof. unfold tri. rewrite map_app, gsum_app. reflexivity. Qed.
Lemma tri_scale k d r c : tri (map (fun x => (fst x, gmul k (snd x))) d) r c = gmul k (tri d r c).
Proof. unfold tri. rewrite map_map. cbn [fst snd]. rewrite <- gsum_map_mul. apply gsum_map_ext. intros t _. destruct (_ && _); ring. Qed.
Lemma operator_fold n : forall ts acc, (forall t, In t ts -> in_spins n (snd t)) -> exists d,
  rfold (fun acc t => let! d := opstring_triples (snd t) n in Ok (acc ++ map (fun x => (fst x, gmul (fst t) (snd x))) d)) ts acc = Ok (acc ++ d) /\
  (forall t, In t d -> configuration n (fst (fst t)) /\ configuration n (snd (fst t))) /\
  forall r c, configuration n r -> configuration n c -> tri d r c = terms_matrix n ts r c.
Proof.
  induction ts as [|[k s] ts IH]; intros acc H; cbn [rfold].
  - exists []. rewrite app_nil_r. split; auto. split; [intros t []|]. reflexivity.
  - cbn [fst snd]. assert (Hs := H (k, s) (or_introl eq_refl)). cbn [snd] in Hs. rewrite (triples_ok n s Hs). cbn [rbind].
    destruct (IH (acc ++ map (fun x => (fst x, gmul k (snd x))) (form_triples n s))) as (d & E & C & T); [intros; apply H; right; auto|].
    exists (map (fun x => (fst x, gmul k (snd x))) (form_triples n s) ++ d). rewrite E, app_assoc. split; auto. split.
    + intros t Ht. apply in_app_or in Ht. destruct Ht as [Ht|Ht]; auto. apply in_map_iff in Ht. destruct Ht as (x & <- & Hx). exact (form_conf n s x Hs Hx).
    + intros r c Hr Hc. rewrite tri_app, tri_scale, T by auto. unfold terms_matrix. cbn [map fst snd]. rewrite gsum_cons, tri_form; auto.
Qed.
Theorem operator_entries n o : (forall t, In t (op_terms o) -> in_spins n (snd t)) -> exists M, to_matrix (MOperator o) n = Ok M /\ m_orbitals M = n /\ mat_eq n (entry M) (terms_matrix n (op_terms o)).
Proof.
  intros H. cbn [to_matrix]. destruct (operator_fold n (op_terms o) [] H) as (d & E & C & T). rewrite E. cbn [rbind app]. rewrite csr_ok by auto.
  eexists. split; [reflexivity|]. split; auto.
Qed.

(* ---------------------------------------------------------------- Hermitian, products *)

Lemma pauli2_herm o x y : gconj (pauli2 o y x) = pauli2 o x y.
Proof. destruct o as [[]|]; destruct x, y; apply GC_ext; apply Qcanon.Qc_is_canon; reflexivity. Qed.
Theorem string_hermitian n s r c : adjoint (string_matrix n s) r c = string_matrix n s r c.
Proof. unfold adjoint, string_matrix, tensor. rewrite gprod_conj. apply gprod_ext. intros i _. apply pauli2_herm. Qed.

(** The Fock representation with label l at bit n-1-l. *)
Definition unsite (k : nat) : Z := if Nat.even k then Z.of_nat (k / 2) else (- Z.of_nat ((k + 1) / 2))%Z.
Lemma site_unsite k : site (unsite k) = k.
Proof.
  unfold site, unsite. destruct (Nat.even k) eqn:E.
  - apply Nat.even_spec in E. destruct E as (m & ->). rewrite Nat.mul_comm, Nat.div_mul by lia. rewrite (proj2 (Z.leb_le 0 _)) by lia. lia.
  - assert (O : Nat.odd k = true) by (rewrite <- Nat.negb_even, E; auto). apply Nat.odd_spec in O. destruct O as (m & ->).
    replace (2 * m + 1 + 1) with ((m + 1) * 2) by lia. rewrite Nat.div_mul by lia. rewrite (proj2 (Z.leb_gt 0 _)) by lia. lia.
Qed.
Definition place (n : nat) (l : Z) : Z := unsite (if ((0 <=? l) && (l <? Z.of_nat n))%Z then pos n l else n + site l).
Lemma place_inj n l m : place n l = place n m -> l = m.
Proof.
  unfold place. intros H. apply (f_equal site) in H. rewrite !site_unsite in H.
  destruct ((0 <=? l) && (l <? Z.of_nat n))%Z eqn:El, ((0 <=? m) && (m <? Z.of_nat n))%Z eqn:Em;
  rewrite ?andb_true_iff, ?Z.leb_le, ?Z.ltb_lt in *; unfold pos in *; try lia. apply site_inj. lia.
Qed.
Lemma place_site n l : (0 <= l < Z.of_nat n)%Z -> site (place n l) = pos n l.
Proof. intros H. unfold place. rewrite site_unsite, (proj2 (Z.leb_le 0 l)), (proj2 (Z.ltb_lt l _)) by lia. reflexivity. Qed.
Definition gn (n : nat) : op -> Z -> Fock := renamed (place n) fock_gen.
Lemma gn_rep n : rep Pauli (gn n).
Proof. apply rep_inj; [apply place_inj | apply fock_rep; discriminate]. Qed.

Lemma fock_string n ol : ranged n ol -> NoDup (map snd ol) -> (forall p, In p ol -> is_op_of Pauli (fst p) = true) -> forall u r,
  fo (aprod (map (fun p => gn n (fst p) (snd p)) ol) : Fock) u r = gmul (cphase n ol (N.lxor r (cflip n ol))) (u (N.lxor r (cflip n ol))).
Proof.
  induction ol as [|[o l] rest IH]; intros Hr Hn Ho u r.
  - cbn. rewrite N.lxor_0_r. ring.
  - cbn [map snd] in Hn. apply NoDup_cons_iff in Hn. destruct Hn as [Nl Hn].
    assert (Hl := Hr (o, l) (or_introl eq_refl)). cbn [snd] in Hl.
    assert (IH' := IH (ranged_tail n (o, l) rest Hr) Hn ltac:(intros; apply Ho; right; auto)).
    change (fo (gn n o l) (fo (aprod (map (fun p => gn n (fst p) (snd p)) rest) : Fock) u) r = gmul (cphase n ((o, l) :: rest) (N.lxor r (cflip n ((o, l) :: rest)))) (u (N.lxor r (cflip n ((o, l) :: rest))))).
    specialize (Ho (o, l) (or_introl eq_refl)). cbn [fst] in Ho.
    assert (O : occ (N.lxor r (cflip n ((o, l) :: rest))) (pos n l) = xorb (occ r (pos n l)) (flips o)).
    { cbn [cflip]. rewrite !occ_lxor, (cflip_occ n rest l) by (auto; eapply ranged_tail; eauto). rewrite xorb_false_r. f_equal.
      unfold flipmask. cbn [fst snd]. destruct (flips o); [rewrite occ_bit; apply Nat.eqb_refl | unfold occ; apply N.bits_0]. }
    cbn [cphase fst snd]. rewrite O.
    set (v := fo (aprod (map (fun p => gn n (fst p) (snd p)) rest) : Fock) u).
    assert (Hv : forall x, v x = gmul (cphase n rest (N.lxor x (cflip n rest))) (u (N.lxor x (cflip n rest)))) by exact (IH' u).
    destruct o; try discriminate Ho; unfold gn, renamed, fock_gen, fX, fY, fZ, mono; cbn [fo]; rewrite (place_site n l Hl), Hv;
      cbn [cflip flipmask flips fst snd phase]; rewrite ?N.lxor_0_l, ?N.lxor_0_r, <- ?N.lxor_assoc.
    + ring.
    + destruct (occ r (pos n l)); cbn [xorb]; ring.
    + rewrite xorb_false_r. destruct (occ r (pos n l)); unfold gsgn, gm1; ring.
Qed.
Definition delta (c : N) : wave := fun x => if (x =? c)%N then g1 else g0.
Lemma lxor_swap a b c : (N.lxor a b =? c)%N = (N.lxor c b =? a)%N.
Proof.
  destruct (N.eqb_spec (N.lxor a b) c), (N.eqb_spec (N.lxor c b) a); auto; exfalso; subst.
  - apply n. apply lxor_cancel.
  - apply n. apply lxor_cancel.
Qed.
Lemma fock_entry n s r c : in_spins n s -> configuration n r -> configuration n c -> fo (den (gn n) s : Fock) (delta c) r = string_matrix n s r c.
Proof.
  intros Hs Hr Hc. rewrite matrix_form by auto. pose proof Hs as [H1 H2 H3 H4 H5]. unfold den. rewrite H5.
  change (combine (os_ops s) (os_labels s)) with (body s). match goal with |- ?L = _ => change L with (gmul g1 (fo (aprod (map (fun p => gn n (fst p) (snd p)) (body s)) : Fock) (delta c) r)) end.
  rewrite (fock_string n (body s) H1 H2 H3). unfold delta. rewrite (lxor_swap r _ c). destruct (N.eqb_spec (N.lxor c (cflip n (body s))) r) as [<-|E]; [rewrite lxor_cancel; ring | ring].
Qed.
Lemma fock_support n s c m : in_spins n s -> configuration n c -> ~ configuration n m -> fo (den (gn n) s : Fock) (delta c) m = g0.
Proof.
  intros Hs Hc Hm. pose proof Hs as [H1 H2 H3 H4 H5]. unfold den. rewrite H5.
  change (combine (os_ops s) (os_labels s)) with (body s). match goal with |- ?L = _ => change L with (gmul g1 (fo (aprod (map (fun p => gn n (fst p) (snd p)) (body s)) : Fock) (delta c) m)) end.
  rewrite (fock_string n (body s) H1 H2 H3). unfold delta. destruct (N.eqb_spec (N.lxor m (cflip n (body s))) c) as [E|E]; [|ring].
  exfalso. apply Hm. rewrite <- (lxor_cancel m (cflip n (body s))), E. apply conf_xor; auto. apply flip_conf; auto.
Qed.
Lemma linear_expand f (Hf : linear f) l : NoDup l -> forall u r, (forall m, ~ In m l -> u m = g0) -> f u r = gsum (map (fun m => gmul (f (delta m) r) (u m)) l).
Proof.
  induction l as [|m l IH]; intros ND u r H.
  - cbn. rewrite (lin_ext f Hf u (fun x => gmul g0 (u x))); [rewrite (lin_scal f Hf); ring|]. intros x. rewrite (H x) by auto. ring.
  - apply NoDup_cons_iff in ND. destruct ND as [Nm ND]. cbn [map]. rewrite gsum_cons.
    set (w := fun x => if (x =? m)%N then g0 else u x).
    rewrite (lin_ext f Hf u (fun x => gadd (gmul (u m) (delta m x)) (w x))).
    + rewrite (lin_add f Hf (fun x => gmul (u m) (delta m x)) w), (lin_scal f Hf). rewrite (IH ND w r).
      * f_equal; [ring|]. apply gsum_map_ext. intros x Hx. unfold w. destruct (N.eqb_spec x m); [subst; contradiction | auto].
      * intros x Hx. unfold w. destruct (N.eqb_spec x m); auto. apply H. intros [E|E]; [congruence | auto].
    + intros x. unfold w, delta. destruct (N.eqb_spec x m); [subst; ring | ring].
Qed.
Theorem product_matrix n s t k u : in_spins n s -> in_spins n t -> in_spins n u ->
  (forall (A : StarAlg) (g : op -> Z -> A), rep Pauli g -> (den g s * den g t == k · den g u)%alg) ->
  mat_eq n (mat_mul n (string_matrix n s) (string_matrix n t)) (fun r c => gmul k (string_matrix n u r c)).
Proof.
  intros Hs Ht Hu H r c Hr Hc. specialize (H Fock (gn n) (gn_rep n)). destruct H as [H _]. specialize (H (delta c) r).
  change (fo (den (gn n) s * den (gn n) t : Fock)%alg (delta c) r) with (fo (den (gn n) s : Fock) (fo (den (gn n) t : Fock) (delta c)) r) in H.
  change (fo (k · den (gn n) u : Fock)%alg (delta c) r) with (gmul k (fo (den (gn n) u : Fock) (delta c) r)) in H.
  rewrite (fock_entry n u r c Hu Hr Hc) in H. rewrite <- H.
  rewrite (linear_expand _ (fo_lin (den (gn n) s : Fock)) (all_confs n) (confs_nodup n)).
  - unfold mat_mul, sum_confs. apply gsum_map_ext. intros m Hm. apply in_confs in Hm. rewrite !fock_entry; auto.
  - intros m Hm. apply fock_support; auto. intros C. apply Hm, in_confs; auto.
Qed.
