(** Fermion strings as combinations of Majorana strings. *)
From Coq Require Import String List Arith Lia ZArith Bool Field Setoid Morphisms Sorted Permutation Qcanon.
From Verif Require Import GC Exn S_Alg S_Den S_Basis S_Conv M_OpString M_Tools M_Basis M_Cluster M_Conversion
  L_Alg L_Module L_StrAlg L_Indep L_ConvAlg L_ConvOrd L_ConvMaj L_ConvMaj2 L_Sort L_Cluster L_Basis L_Operator L_PropTools.
Import ListNotations.
Local Open Scope nat_scope.
Local Open Scope alg_scope.

(* ------------------------------------------------------------- label types *)

Definition typ (I J : list Z) (l : Z) : ftype :=
  if in_dec Z.eq_dec l I then (if in_dec Z.eq_dec l J then FCDagC else FCDag) else FC.

Lemma dget_dset {V} (d : list (Z * V)) k v x :
  dget Z.eqb (dset Z.eqb d k v) x = if Z.eq_dec x k then Some v else dget Z.eqb d x.
Proof.
  induction d as [|[k' v'] d IH]; simpl.
  - destruct (Z.eq_dec x k) as [->|N]; [rewrite Z.eqb_refl; auto|].
    destruct (Z.eqb_spec k x); [congruence|auto].
  - destruct (Z.eqb_spec k' k) as [->|N]; simpl.
    + destruct (Z.eq_dec x k) as [->|M]; [rewrite Z.eqb_refl; auto|].
      destruct (Z.eqb_spec k x); [congruence|auto].
    + destruct (Z.eqb_spec k' x) as [->|M]; auto. destruct (Z.eq_dec x k); [congruence|auto].
Qed.

Lemma types_cdag I : forall d x,
  dget Z.eqb (fold_left (fun d l => dset Z.eqb d l FCDag) I d) x = if in_dec Z.eq_dec x I then Some FCDag else dget Z.eqb d x.
Proof.
  induction I as [|i I IH]; intros d x; [reflexivity|]. cbn [fold_left]. rewrite IH, dget_dset.
  destruct (in_dec Z.eq_dec x I), (Z.eq_dec x i), (in_dec Z.eq_dec x (i :: I)); auto; simpl in *; exfalso; intuition.
Qed.
Lemma types_c J : NoDup J -> forall d x,
  dget Z.eqb (fold_left (fun d l => match dget Z.eqb d l with
                        | Some _ => dset Z.eqb d l FCDagC
                        | None => dset Z.eqb d l FC
                        end) J d) x =
  if in_dec Z.eq_dec x J then Some (match dget Z.eqb d x with Some _ => FCDagC | None => FC end) else dget Z.eqb d x.
Proof.
  induction 1 as [|j J Hj N IH]; intros d x; [reflexivity|]. cbn [fold_left]. rewrite IH.
  assert (E : dget Z.eqb (match dget Z.eqb d j with Some _ => dset Z.eqb d j FCDagC | None => dset Z.eqb d j FC end) x =
              if Z.eq_dec x j then Some (match dget Z.eqb d j with Some _ => FCDagC | None => FC end) else dget Z.eqb d x).
  { destruct (dget Z.eqb d j); rewrite dget_dset; reflexivity. }
  rewrite E. destruct (Z.eq_dec x j) as [->|M].
  - destruct (in_dec Z.eq_dec j J); [contradiction|]. destruct (in_dec Z.eq_dec j (j :: J)); auto. exfalso; simpl in *; intuition.
  - destruct (in_dec Z.eq_dec x J), (in_dec Z.eq_dec x (j :: J)); auto; exfalso; simpl in *; intuition.
Qed.
Lemma types_get I J x : NoDup J -> In x I \/ In x J -> dget Z.eqb (label_types I J) x = Some (typ I J x).
Proof.
  intros N Hx. unfold label_types. rewrite types_c by auto. rewrite types_cdag. unfold typ. cbn [dget].
  destruct (in_dec Z.eq_dec x I), (in_dec Z.eq_dec x J); auto; tauto.
Qed.

Definition fop (I J : list Z) (l : Z) : ftype * Z := (typ I J l, l).

Lemma existsb_fop I J l ks : existsb (fun p => ftype_eqb (fst p) (typ I J l) && Z.eqb (snd p) l) (map (fop I J) ks) = true <-> In l ks.
Proof.
  rewrite existsb_exists. split.
  - intros (p & Hp & E). apply andb_prop in E. destruct E as [_ E]. apply Z.eqb_eq in E. subst l.
    apply in_map_iff in Hp. destruct Hp as (k & <- & Hk). auto.
  - intros Hl. exists (fop I J l). split; [apply in_map; auto|]. cbn [fop fst snd]. rewrite Z.eqb_refl.
    destruct (typ I J l); reflexivity.
Qed.

Lemma ferm_ops_ok I J : NoDup J -> forall L P,
  (forall l, In l L -> In l I \/ In l J) ->
  StronglySorted Z.le L -> StronglySorted Z.lt P -> (forall p l, In p P -> In l L -> (p <= l)%Z) ->
  exists ks, ferm_ops (label_types I J) L (map (fop I J) P) = Ok (map (fop I J) ks) /\
    StronglySorted Z.lt ks /\ (forall l, In l ks <-> In l P \/ In l L).
Proof.
  intros NJ. induction L as [|l L IH]; intros P HL SL SP HP.
  - exists P. split; [reflexivity|]. split; auto. intros; simpl; tauto.
  - inversion SL as [|? ? SL1 SL2]; subst. cbn [ferm_ops]. rewrite types_get by (auto; apply HL; simpl; auto).
    cbn [of_option rbind].
    destruct (existsb _ _) eqn:E.
    + apply existsb_fop in E. destruct (IH P) as (ks & E1 & E2 & E3); auto.
      * intros; apply HL; simpl; auto.
      * intros; apply HP; simpl; auto.
      * exists ks. split; auto. split; auto. intros x. rewrite E3. simpl. intuition. subst; auto.
    + assert (Nl : ~ In l P) by (intros Hl; apply existsb_fop with (I := I) (J := J) in Hl; congruence).
      replace (map (fop I J) P ++ [(typ I J l, l)]) with (map (fop I J) (P ++ [l])) by (rewrite map_app; reflexivity).
      destruct (IH (P ++ [l])) as (ks & E1 & E2 & E3); auto.
      * intros; apply HL; simpl; auto.
      * clear - SP HP Nl. induction SP as [|p P SP IH Hp]; simpl; [repeat constructor|].
        constructor.
        -- apply IH; [intros; apply HP; simpl in *; auto | simpl in Nl; tauto].
        -- apply Forall_app. split; auto. constructor; auto.
           pose proof (HP p l (or_introl eq_refl) (or_introl eq_refl)). simpl in Nl. assert (p <> l) by tauto. lia.
      * intros p x Hp Hx. apply in_app_iff in Hp. destruct Hp as [Hp|[<-|[]]]; [apply HP; simpl; auto|].
        rewrite Forall_forall in SL2. auto.
      * exists ks. split; auto. split; auto. intros x. rewrite E3, in_app_iff. simpl. tauto.
Qed.

(* --------------------------------------------------------------- expansion *)

Definition zf1 (f : ftype) (b : bool) : GC :=
  match f, b with
  | FCDag, false => half | FCDag, true => gopp (gmul half gi)
  | FC, false => half | FC, true => gmul half gi
  | FCDagC, false => gopp half | FCDagC, true => half
  end.
Definition wf1 (f : ftype) (l : Z) (b : bool) : list (op * Z) :=
  match f, b with
  | FCDagC, false => [(OD, l)]
  | FCDagC, true => []
  | _, false => [(OA, l)]
  | _, true => [(OB, l)]
  end.
Fixpoint zf (ops : list (ftype * Z)) (t : list bool) : GC :=
  match ops, t with
  | (f, l) :: r, b :: t' => gmul (zf1 f b) (zf r t')
  | _, _ => g1
  end.
Fixpoint wf (ops : list (ftype * Z)) (t : list bool) : list (op * Z) :=
  match ops, t with
  | (f, l) :: r, b :: t' => wf1 f l b ++ wf r t'
  | _, _ => []
  end.
Lemma ferm_expand_eq ops : forall t p, ferm_expand ops t p = (gmul p (zf ops t), wf ops t).
Proof.
  induction ops as [|[f l] ops IH]; intros t p; [simpl; f_equal; ring|].
  destruct t as [|b t]; [simpl; f_equal; ring|].
  cbn [ferm_expand]. destruct f, b; cbn [ferm_letter zf wf zf1 wf1]; rewrite IH; f_equal; ring.
Qed.

Lemma wf_in ops : forall t o l, In (o, l) (wf ops t) -> In l (map snd ops) /\ is_majorana_op o = true.
Proof.
  induction ops as [|[f k] ops IH]; intros t o l Hx; [destruct Hx|]. destruct t as [|b t]; [destruct Hx|].
  cbn [wf] in Hx. apply in_app_iff in Hx. destruct Hx as [Hx|Hx].
  - destruct f, b; simpl in Hx; try (destruct Hx as [E|[]]; injection E as <- <-; simpl; auto); destruct Hx.
  - apply IH in Hx. simpl. tauto.
Qed.
Lemma wf_nodup ops : NoDup (map snd ops) -> forall t, NoDup (map snd (wf ops t)).
Proof.
  induction ops as [|[f k] ops IH]; intros N t; [constructor|]. destruct t as [|b t]; [constructor|].
  inversion N as [|? ? N1 N2]; subst. cbn [wf].
  assert (NI : ~ In k (map snd (wf ops t))).
  { intros Hk. apply in_map_iff in Hk. destruct Hk as ([o l] & <- & Hl). apply wf_in in Hl. tauto. }
  destruct f, b; simpl; auto; constructor; auto.
Qed.
Lemma wf_inj ops : NoDup (map snd ops) -> forall t u, length t = length ops -> length u = length ops ->
  wf ops t = wf ops u -> t = u.
Proof.
  induction ops as [|[f k] ops IH]; intros N [|b t] [|b' u] Lt Lu E; try discriminate; auto.
  inversion N as [|? ? N1 N2]; subst. cbn [wf] in E.
  assert (NI : forall t o, ~ In (o, k) (wf ops t)) by (intros t0 o Hk; apply wf_in in Hk; tauto).
  simpl in Lt, Lu.
  assert (Hb : b = b' /\ wf ops t = wf ops u).
  { destruct f, b, b'; simpl in E; try (injection E as E; auto); try discriminate; auto;
      exfalso; [apply (NI t OD); rewrite E; left; auto | apply (NI u OD); rewrite <- E; left; auto]. }
  destruct Hb as [-> E']. f_equal. apply IH; auto.
Qed.
(* the number of A and B operators does not depend on the choice *)
Definition ndeg (ops : list (ftype * Z)) : nat := length (filter (fun p => negb (ftype_eqb (fst p) FCDagC)) ops).
Lemma wf_ab ops : forall t, length t = length ops -> length (filter is_ab (map fst (wf ops t))) = ndeg ops.
Proof.
  unfold ndeg. induction ops as [|[f k] ops IH]; intros [|b t] Lt; try discriminate; auto. simpl in Lt.
  destruct f, b; simpl; rewrite IH by lia; reflexivity.
Qed.

Section Alg.
  Context {A : StarAlg}.
  Variable c : Z -> A.
  Hypothesis H : CAR A c.

  Definition fblk (p : ftype * Z) : A :=
    match fst p with FCDag => (c (snd p))^* | FC => c (snd p) | FCDagC => (c (snd p))^* * c (snd p) end.

  Lemma fblk_expand f l : fblk (f, l) ==
    zf1 f false · word (lval (gmaj c)) (wf1 f l false) + zf1 f true · word (lval (gmaj c)) (wf1 f l true).
  Proof.
    unfold word. destruct f; cbn [fblk zf1 wf1 map aprod fold_right lval fst snd]; rewrite ?amul_1_r.
    - apply cdag_ab.
    - apply c_ab.
    - apply n_d.
  Qed.

  Lemma fexpand ops : aprod (map fblk ops) == asum (map (fun t => zf ops t · word (lval (gmaj c)) (wf ops t)) (choices (length ops))).
  Proof.
    induction ops as [|[f l] ops IH].
    - simpl. rewrite ascal_1, aadd_0_r. reflexivity.
    - cbn [map length]. rewrite aprod_cons, IH, fblk_expand.
      rewrite amul_add_l, choices_S, map_app, asum_app, !map_map, !asum_mul_l, !map_map.
      apply aadd_proper; apply asum_ext; intros t Ht; cbn [zf wf];
        rewrite word_app, ascal_mul_l, ascal_mul_r, ascal_ascal; reflexivity.
  Qed.

  Definition fw (I J : list Z) : list fl := map (fun l => (true, l)) I ++ map (fun l => (false, l)) (rev J).

  Lemma fw_word I J : word (fval c) (fw I J) == nword c I J.
  Proof. unfold fw. rewrite word_app. unfold word, nword. rewrite !map_map. reflexivity. Qed.

  Lemma fw_gcomm (w : list fl) : gcomm (fval c) snd (fun _ => true) w.
  Proof.
    induction w as [|x w IH]; simpl; auto. split; auto. intros y Hy Hk. unfold gcomm1. cbn [andb gsgn].
    destruct x as [[|] l], y as [[|] m]; unfold fval; cbn [fst snd] in *.
    - apply c_dd; auto.
    - apply c_dc; auto. lia.
    - apply c_cd; auto. lia.
    - apply c_cc; auto.
  Qed.

  Lemma filter_eq_one (T : list Z) k (b : bool) : NoDup T ->
    filter (fun y : fl => Z.eqb (snd y) k) (map (fun l => (b, l)) T) = if in_dec Z.eq_dec k T then [(b, k)] else [].
  Proof.
    induction 1 as [|x T Hx N IH]; [reflexivity|]. cbn [map filter snd]. rewrite IH.
    destruct (Z.eqb_spec x k) as [->|E].
    - destruct (in_dec Z.eq_dec k T); [contradiction|]. destruct (in_dec Z.eq_dec k (k :: T)) as [|n0]; auto. exfalso; apply n0; left; auto.
    - destruct (in_dec Z.eq_dec k T), (in_dec Z.eq_dec k (x :: T)); auto; exfalso; simpl in *; tauto.
  Qed.

  Lemma fw_block I J k : NoDup I -> NoDup J -> In k I \/ In k J ->
    word (fval c) (block snd (fw I J) k) == fblk (fop I J k).
  Proof.
    intros NI NJ Hk. unfold block, fw. rewrite filter_app, !filter_eq_one by (auto using NoDup_rev).
    unfold fop, typ.
    destruct (in_dec Z.eq_dec k I), (in_dec Z.eq_dec k J), (in_dec Z.eq_dec k (rev J)) as [r|r];
      try (exfalso; rewrite <- in_rev in r; tauto); unfold word, fblk; cbn; rewrite ?amul_1_r; try reflexivity; tauto.
  Qed.

  Lemma nword_blocks I J ks : NoDup I -> NoDup J -> StronglySorted Z.lt ks -> (forall l, In l ks <-> In l I \/ In l J) ->
    nword c I J == gz (snd (sort_sign (I ++ rev J))) · aprod (map fblk (map (fop I J) ks)).
  Proof.
    intros NI NJ S Hks. rewrite <- fw_word.
    rewrite (graded_sort (fval c) snd (fun _ => true) (fw I J) ks S).
    - rewrite zsort_sign. cbn [snd].
      assert (E : @invpar fl snd (fun _ => true) (fw I J) = Nat.odd (inversions (I ++ rev J))).
      { rewrite invpar_inversions. f_equal. f_equal.
        transitivity (map snd (fw I J)).
        - generalize (fw I J). intros v. induction v as [|x v IHv]; simpl; congruence.
        - unfold fw. rewrite map_app, !map_map. cbn [snd]. rewrite !map_id. reflexivity. }
      rewrite E.
      replace (gz (if Nat.odd (inversions (I ++ rev J)) then (-1)%Z else 1%Z)) with (gsgn (Nat.odd (inversions (I ++ rev J))))
        by (destruct (Nat.odd _); apply GC_ext; apply Qc_is_canon; reflexivity).
      apply ascal_proper. unfold blocks. rewrite map_map. apply aprod_ext.
      intros k Hk. apply fw_block; auto. apply Hks; auto.
    - intros [b l] Hx. apply Hks. unfold fw in Hx. apply in_app_iff in Hx. 
      destruct Hx as [Hx|Hx]; apply in_map_iff in Hx; destruct Hx as (y & E & Hy); injection E as <- <-; cbn [snd]; auto.
      right. apply in_rev; auto.
    - apply fw_gcomm.
  Qed.
End Alg.

(* -------------------------------------------------------------- magnitudes *)

Definition qquarter : Qc := Q2Qc (QArith_base.Qmake 1 4).
Fixpoint q4 (n : nat) : Qc := match n with 0 => 1%Qc | S n => (qquarter * q4 n)%Qc end.
Definition mag (n : nat) (z : GC) : Prop := (re z = 0%Qc \/ im z = 0%Qc) /\ norm2 z = q4 n.

Lemma pure_mul a b : (re a = 0%Qc \/ im a = 0%Qc) -> (re b = 0%Qc \/ im b = 0%Qc) ->
  (re (gmul a b) = 0%Qc \/ im (gmul a b) = 0%Qc).
Proof. intros Pa Pb. simpl. destruct Pa as [Pa|Pa], Pb as [Pb|Pb]; rewrite Pa, Pb; [right|left|left|right]; ring. Qed.
Lemma mag_mul n a b : mag 0 a -> mag n b -> mag n (gmul a b).
Proof.
  intros [Pa Na] [Pb Nb]. split; [apply pure_mul; auto|]. rewrite norm2_mul, Na, Nb. simpl. ring.
Qed.
Lemma mag_zf1 f b : mag 1 (zf1 f b).
Proof.
  destruct f, b; cbn [zf1]; (split; [first [left; apply Qc_is_canon; reflexivity | right; apply Qc_is_canon; reflexivity] | apply Qc_is_canon; vm_compute; reflexivity]).
Qed.
Lemma mag_zf ops : forall t, length t = length ops -> mag (length ops) (zf ops t).
Proof.
  induction ops as [|[f l] ops IH]; intros [|b t] Lt; try discriminate.
  - split; [right; reflexivity|]. apply Qc_is_canon; reflexivity.
  - cbn [zf length]. destruct (mag_zf1 f b) as [P1 N1]. destruct (IH t) as [P2 N2]; [simpl in Lt; lia|].
    split; [apply pure_mul; auto|]. rewrite norm2_mul, N1, N2. simpl. ring.
Qed.

Lemma q4_step n : (0 < q4 n)%Qc /\ (q4 (S n) <= q4 n)%Qc.
Proof.
  assert (P : forall n, (0 < q4 n)%Qc).
  { induction n0; simpl; [reflexivity|]. rewrite <- (Qcmult_0_l (q4 n0)). apply Qcmult_lt_compat_r; auto. reflexivity. }
  split; auto. simpl. rewrite <- (Qcmult_1_l (q4 n)) at 2. apply Qcmult_le_compat_r; [discriminate | apply Qclt_le_weak; auto].
Qed.
Lemma q4_le n m : n <= m -> (q4 m <= q4 n)%Qc.
Proof.
  induction 1; [apply Qcle_refl|]. eapply Qcle_trans; [apply q4_step | auto].
Qed.
Lemma eps_51 : (eps52 * eps52 < q4 51)%Qc.
Proof. apply qc_ltb_lt. vm_compute. reflexivity. Qed.

Lemma mag_drop n z : n <= 51 -> mag n z -> abs_gtb (im_part z) eps52 = negb (if Qc_eq_dec (im z) 0 then true else false).
Proof.
  intros Hn [P N]. unfold abs_gtb, im_part, norm2; cbn [re im].
  destruct (Qc_eq_dec (im z) 0) as [E|E].
  - rewrite E. vm_compute. reflexivity.
  - apply qc_ltb_lt. destruct P as [P|P]; [|contradiction]. unfold norm2 in N. rewrite P in N.
    replace (_ + _)%Qc with (q4 n) by (rewrite <- N; ring).
    eapply Qclt_le_trans; [apply eps_51 | apply q4_le; auto].
Qed.

Lemma zlist_eqb I J : list_eqb Z.eqb I J = if list_eq_dec Z.eq_dec I J then true else false.
Proof.
  revert J. induction I as [|i I IH]; intros [|j J]; try reflexivity. cbn [list_eqb]. rewrite IH.
  destruct (Z.eqb_spec i j) as [->|N], (list_eq_dec Z.eq_dec I J) as [->|M]; cbn [andb];
    destruct (list_eq_dec Z.eq_dec _ _); auto; congruence.
Qed.

(* ------------------------------------------------------------- the theorem *)

Lemma asum_cons {A : StarAlg} (x : A) l : asum (x :: l) = x + asum l.
Proof. reflexivity. Qed.
Lemma gmul_g2 z : gmul z g2 = gadd z z.
Proof. unfold g2. ring. Qed.

Section Main.
  Variables (s : OS) (I J ks : list Z).
  Hypothesis F : fermion_form I J s.
  Hypothesis NI : NoDup I.
  Hypothesis NJ : NoDup J.
  Hypothesis Sk : StronglySorted Z.lt ks.
  Hypothesis Hks : forall l, In l ks <-> In l I \/ In l J.
  Let ops := map (fop I J) ks.
  Let sg := snd (sort_sign (I ++ rev J)).
  Let p := pval (os_pref s).

  Lemma ops_labels : map snd ops = ks.
  Proof. unfold ops. rewrite map_map. apply map_id. Qed.
  Lemma ops_nodup : NoDup (map snd ops).
  Proof.
    rewrite ops_labels. clear - Sk. induction Sk as [|x l S IH Hx]; constructor; auto.
    intros Hin. rewrite Forall_forall in Hx. apply Hx in Hin. lia.
  Qed.

  (** The Majorana string of a choice, and its coefficient. *)
  Definition mstr (t : list bool) : OS :=
    match os_new (map fst (wf ops t)) (map snd (wf ops t)) Majorana with Ok m => m | Err _ => s end.
  Definition mcoef (t : list bool) : GC := gmul (gmul (gdiv (zf ops t) (pval (os_pref (mstr t)))) (gz sg)) p.

  Lemma mstr_ok t : os_new (map fst (wf ops t)) (map snd (wf ops t)) Majorana = Ok (mstr t) /\ string_ok Majorana (mstr t) /\
    os_ops (mstr t) = map fst (wf ops t) /\ os_labels (mstr t) = map snd (wf ops t) /\
    (os_pref (mstr t) = p_one \/ os_pref (mstr t) = p_j).
  Proof.
    destruct (os_new_ok Majorana (map fst (wf ops t)) (map snd (wf ops t))) as (m & E & H).
    - discriminate.
    - rewrite !map_length; auto.
    - intros o Ho. apply in_map_iff in Ho. destruct Ho as ([o' l] & <- & Hl). apply wf_in in Hl. tauto.
    - apply wf_nodup, ops_nodup.
    - unfold mstr. rewrite E. auto.
  Qed.
  Lemma mstr_letters t : letters (mstr t) = wf ops t.
  Proof.
    destruct (mstr_ok t) as (_ & _ & Ho & Hl & _). unfold letters. rewrite Ho, Hl. apply combine_split_eq.
  Qed.
  Lemma mstr_pref t : length t = length ops -> pval (os_pref (mstr t)) = majorana_phase (ndeg ops).
  Proof.
    intros Lt. destruct (mstr_ok t) as (_ & (_ & _ & _ & _ & Hp) & Ho & _). rewrite Hp, Ho, wf_ab; auto.
  Qed.
  Lemma mstr_inj t u : length t = length ops -> length u = length ops -> mstr t = mstr u -> t = u.
  Proof.
    intros Lt Lu E. apply (wf_inj ops ops_nodup); auto. rewrite <- !mstr_letters, E. reflexivity.
  Qed.

  Lemma phase_mag n : mag 0 (majorana_phase n) /\ majorana_phase n <> g0 /\ mag 0 (ginv (majorana_phase n)).
  Proof.
    unfold majorana_phase. destruct (Nat.odd _); (split; [|split]; [|discriminate|]);
      (split; [first [left; apply Qc_is_canon; reflexivity | right; apply Qc_is_canon; reflexivity] | apply Qc_is_canon; reflexivity]).
  Qed.
  Lemma sg_mag : mag 0 (gz sg).
  Proof.
    unfold sg. rewrite zsort_sign. cbn [snd]. destruct (Nat.odd _); (split; [right; reflexivity | apply Qc_is_canon; reflexivity]).
  Qed.
  Lemma p_mag : mag 0 p.
  Proof.
    unfold p. destruct F as (_ & _ & _ & [->| ->]); (split; [first [left; reflexivity | right; reflexivity] | apply Qc_is_canon; reflexivity]).
  Qed.
  Lemma mcoef_mag t : length t = length ops -> mag (length ks) (mcoef t).
  Proof.
    intros Lt. unfold mcoef. rewrite mstr_pref by auto.
    assert (L : length ops = length ks) by (unfold ops; apply map_length).
    replace (gmul (gmul (gdiv (zf ops t) (majorana_phase (ndeg ops))) (gz sg)) p)
      with (gmul p (gmul (gz sg) (gmul (ginv (majorana_phase (ndeg ops))) (zf ops t)))) by (unfold gdiv; ring).
    apply mag_mul; [apply p_mag|]. apply mag_mul; [apply sg_mag|]. apply mag_mul; [apply phase_mag|].
    rewrite <- L. apply mag_zf; auto.
  Qed.

  Definition herm : bool := negb (list_eqb Z.eqb I J).
  (** What the loop does for one choice. *)
  Definition mterm (t : list bool) : option (GC * OS) :=
    if herm then if Qc_eq_dec (im (mcoef t)) 0 then Some (gmul (mcoef t) g2, mstr t) else None
    else Some (mcoef t, mstr t).

  Lemma ferm_term_eq incl t : length t = length ops -> (herm = true -> length ks <= 51)%nat ->
    ferm_term incl herm ops sg p t = Ok (if is_nil (wf ops t) && negb incl then None else mterm t).
  Proof.
    intros Lt Hn. unfold ferm_term. rewrite ferm_expand_eq.
    destruct (is_nil (wf ops t) && negb incl)%bool; [reflexivity|].
    rewrite (proj1 (mstr_ok t)). cbn [rbind].
    replace (gmul g1 (zf ops t)) with (zf ops t) by ring. fold (mcoef t). unfold mterm.
    destruct herm eqn:Eh; [|reflexivity].
    rewrite (mag_drop (length ks)) by (auto using mcoef_mag). destruct (Qc_eq_dec _ _); reflexivity.
  Qed.

  Definition mts : list (GC * OS) := somes (map mterm (choices (length ks))).

  Lemma mterm_str t q : mterm t = Some q -> snd q = mstr t.
  Proof.
    unfold mterm. destruct herm; [destruct (Qc_eq_dec _ _)|]; intros E; try discriminate; injection E as <-; reflexivity.
  Qed.
  Lemma mts_good q : In q mts -> string_ok Majorana (snd q) /\ canonical (snd q) /\
    (forall l, In l (os_labels (snd q)) -> In l I \/ In l J) /\ StronglySorted Z.lt (os_labels (snd q)) /\
    (I <> J -> im (fst q) = 0%Qc).
  Proof.
    intros Hq. apply somes_in in Hq. destruct Hq as (t & Ht & E). rewrite (mterm_str t q E).
    destruct (mstr_ok t) as (_ & H1 & _ & H3 & H4). split; auto.
    assert (SS : StronglySorted Z.lt (os_labels (mstr t))).
    { rewrite H3. clear -Sk. unfold ops. revert t. induction Sk as [|k l S IH Hk]; intros [|b t]; try constructor.
      cbn [map wf]. unfold fop at 1. cbn [wf].
      assert (Hf : Forall (Z.lt k) (map snd (wf (map (fop I J) l) t))).
      { apply Forall_forall. intros x Hx. apply in_map_iff in Hx. destruct Hx as ([o y] & <- & Hy). apply wf_in in Hy.
        destruct Hy as [Hy _]. rewrite map_map in Hy. cbn in Hy. rewrite map_id in Hy. rewrite Forall_forall in Hk. auto. }
      destruct (typ I J k), b; simpl; auto; constructor; auto. }
    split; [split; auto|]. split; [|split; [exact SS|]].
    - intros l Hl. rewrite H3 in Hl. apply in_map_iff in Hl. destruct Hl as ([o l'] & <- & Hl). apply wf_in in Hl.
      destruct Hl as [Hl _]. rewrite ops_labels in Hl. apply Hks; auto.
    - intros NE. unfold mterm in E. assert (Eh : herm = true).
      { unfold herm. rewrite zlist_eqb. destruct (list_eq_dec Z.eq_dec I J); [contradiction|auto]. }
      rewrite Eh in E. destruct (Qc_eq_dec _ _) as [Ez|]; [|discriminate]. injection E as <-. cbn [fst].
      rewrite gmul_g2. cbn [gadd im]. rewrite Ez. ring.
  Qed.

  Lemma mts_nodup : NoDup (map snd mts).
  Proof.
    apply somes_nodup; auto using choices_NoDup. intros t u q r Ht Hu E1 E2 E.
    apply choices_in in Ht, Hu. apply mterm_str in E1, E2. apply mstr_inj; [| |congruence]; unfold ops; rewrite map_length; auto.
  Qed.

  Lemma EW {A : StarAlg} (c : Z -> A) : CAR A c ->
    p · nword c I J == asum (map (fun t => mcoef t · den (gmaj c) (mstr t)) (choices (length ks))).
  Proof.
    intros HC. assert (L : length ops = length ks) by (unfold ops; apply map_length).
    rewrite (nword_blocks c HC I J ks); auto. fold sg. fold ops. rewrite fexpand by auto. rewrite L, ascal_ascal, asum_scal, map_map.
      apply asum_ext. intros t Ht. apply choices_in in Ht. rewrite den_word, mstr_letters, !ascal_ascal. apply ascal_eq.
      unfold mcoef. rewrite mstr_pref by congruence. field. apply phase_mag.
  Qed.

  Definition tval {A : StarAlg} (c : Z -> A) (o : option (GC * OS)) : A :=
    match o with Some q => fst q · den (gmaj c) (snd q) | None => azero end.
  Lemma mterm_val_eq {A : StarAlg} (c : Z -> A) t : I = J -> tval c (mterm t) = mcoef t · den (gmaj c) (mstr t).
  Proof.
    intros E. unfold mterm, herm. rewrite zlist_eqb. destruct (list_eq_dec Z.eq_dec I J); [reflexivity|contradiction].
  Qed.
  Lemma real_double z : im z = 0%Qc -> gmul z g2 = gadd z (gconj z).
  Proof. intros E. rewrite gmul_g2. apply GC_ext; cbn [gadd gconj re im]; rewrite ?E; ring. Qed.
  Lemma imag_cancel z : re z = 0%Qc -> gadd z (gconj z) = g0.
  Proof. intros E. apply GC_ext; cbn [gadd gconj re im g0]; rewrite ?E; ring. Qed.
  Lemma mterm_val_neq {A : StarAlg} (c : Z -> A) t : CAR A c -> length t = length ops -> I <> J ->
    tval c (mterm t) == mcoef t · den (gmaj c) (mstr t) + (mcoef t · den (gmaj c) (mstr t))^*.
  Proof.
    intros HC Lt E. unfold mterm, herm. rewrite zlist_eqb. destruct (list_eq_dec Z.eq_dec I J); [contradiction|]. cbn [negb].
    rewrite astar_scal, (den_star Majorana (gmaj c) (gmaj_rep c HC) (mstr t)) by apply mstr_ok.
    rewrite <- ascal_add_l. destruct (mcoef_mag t Lt) as [P _].
    destruct (Qc_eq_dec (im (mcoef t)) 0) as [Ez|Ez].
    - cbn [tval fst snd]. apply ascal_eq, real_double, Ez.
    - destruct P as [P|P]; [|contradiction]. rewrite imag_cancel by exact P. cbn [tval]. symmetry. apply ascal_0.
  Qed.
  Lemma mts_sum {A : StarAlg} (c : Z -> A) l :
    means c (somes (map mterm l)) == asum (map (fun t => tval c (mterm t)) l).
  Proof.
    unfold means. induction l as [|t l IHl]; [reflexivity|]. cbn [map].
    destruct (mterm t) as [q|] eqn:E; cbn [somes map].
    - rewrite !asum_cons, IHl. apply aadd_proper; [|reflexivity]. cbn [tval].
      unfold meaning. rewrite (mterm_str t q E). destruct (mstr_ok t) as (_ & (-> & _) & _). reflexivity.
    - rewrite asum_cons, IHl. cbn [tval]. symmetry; apply aadd_0_l.
  Qed.

  Lemma mts_means {A : StarAlg} (c : Z -> A) : CAR A c -> means c mts == fden c s.
  Proof.
    intros HC. rewrite (form_fden c I J s F). fold p. unfold mts. rewrite mts_sum. pose proof (EW c HC) as EW.
    assert (L : length ops = length ks) by (unfold ops; apply map_length).
    destruct (list_eq_dec Z.eq_dec I J) as [E|E].
    - rewrite EW. apply asum_ext. intros t _. rewrite mterm_val_eq by auto. reflexivity.
    - rewrite EW, asum_star, map_map, <- asum_map_add. apply asum_ext. intros t Ht. apply choices_in in Ht.
      apply mterm_val_neq; auto. rewrite L; auto.
  Qed.

  (** Whether some choice survives. *)
  Definition survives (incl : bool) : Prop :=
    (I = [] -> J = [] -> incl = true) /\ (I = J \/ p = g1 \/ ~ Permutation I J).

  Lemma wf_first ops0 : forall t, length t = length ops0 -> wf ops0 t = [] -> forall q, In q ops0 -> fst q = FCDagC.
  Proof.
    induction ops0 as [|[f l] r IH]; intros [|b t] Lt E q Hq; try discriminate; [destruct Hq|].
    cbn [wf] in E. apply app_eq_nil in E. destruct E as [E1 E2]. destruct Hq as [<-|Hq]; [destruct f, b; try discriminate; auto|].
    eapply IH; eauto.
  Qed.

  (* changing the choice at a C or CDag multiplies the coefficient by i or -i *)
  Lemma zf_toggle ops0 : (exists q, In q ops0 /\ fst q <> FCDagC) -> forall t, length t = length ops0 ->
    exists u k, length u = length ops0 /\ zf ops0 u = gmul k (zf ops0 t) /\ (k = gi \/ k = gopp gi).
  Proof.
    assert (HH : gmul half gi = gmul gi half) by ring.
    induction ops0 as [|[f l] r IH]; intros (q & Hq & Nq) [|b t] Lt; try discriminate; [destruct Hq|].
    simpl in Lt. destruct (match f with FCDagC => false | _ => true end) eqn:Ef.
    - exists (negb b :: t). destruct f; try discriminate; destruct b; cbn [negb zf zf1].
      + exists gi. split; [simpl; lia|]. split; auto. 
        transitivity (gmul (gmul gi (gopp (gmul half gi))) (zf r t)); [|ring]. f_equal.
        apply GC_ext; apply Qc_is_canon; reflexivity.
      + exists (gopp gi). split; [simpl; lia|]. split; auto. ring.
      + exists (gopp gi). split; [simpl; lia|]. split; auto.
        transitivity (gmul (gmul (gopp gi) (gmul half gi)) (zf r t)); [|ring]. f_equal.
        apply GC_ext; apply Qc_is_canon; reflexivity.
      + exists gi. split; [simpl; lia|]. split; auto. ring.
    - destruct f; try discriminate. destruct (IH) with (t := t) as (u & k & Lu & Eu & Hk); [|lia|].
      + exists q. destruct Hq as [<-|Hq]; [cbn in Nq; congruence|auto].
      + exists (b :: u), k. split; [simpl; lia|]. split; auto. cbn [zf]. rewrite Eu. ring.
  Qed.
  Lemma zf_real ops0 : (forall q, In q ops0 -> fst q = FCDagC) -> forall t, im (zf ops0 t) = 0%Qc.
  Proof.
    induction ops0 as [|[f l] r IH]; intros Hq [|b t]; try reflexivity. cbn [zf].
    assert (f = FCDagC) by (apply (Hq (f, l)); simpl; auto). subst f.
    assert (E : im (zf1 FCDagC b) = 0%Qc) by (destruct b; apply Qc_is_canon; reflexivity).
    cbn [gmul im]. rewrite E, (IH (fun q Hin => Hq q (or_intror Hin)) t). ring.
  Qed.

  Lemma mts_nonempty incl : survives incl ->
    exists t q, length t = length ks /\ mterm t = Some q /\ (is_nil (wf ops t) && negb incl)%bool = false.
  Proof.
    intros [S1 S2].
    assert (L : length ops = length ks) by (unfold ops; apply map_length).
    set (t0 := repeat false (length ks)).
    assert (L0 : length t0 = length ks) by apply repeat_length.
    assert (W0 : (is_nil (wf ops t0) && negb incl)%bool = false).
    { destruct ks as [|k ks'] eqn:Ek.
      - rewrite S1; [apply andb_false_r| |].
        + destruct I as [|i I']; auto. exfalso. apply (Hks i). left; left; auto.
        + destruct J as [|j J']; auto. exfalso. apply (Hks j). right; left; auto.
      - unfold t0, ops. cbn [length repeat map]. unfold fop at 1. cbn [wf]. destruct (typ I J k); reflexivity. }
    destruct herm eqn:Eh.
    - unfold mterm. rewrite Eh.
      destruct (Qc_eq_dec (im (mcoef t0)) 0) as [Ez|Ez].
      { exists t0. destruct (Qc_eq_dec (im (mcoef t0)) 0); [eauto|contradiction]. }
      destruct (existsb (fun q => negb (ftype_eqb (fst q) FCDagC)) ops) eqn:Ex.
      + apply existsb_exists in Ex. destruct Ex as (q & Hq & Nq).
        assert (Nq' : fst q <> FCDagC) by (intros E; rewrite E in Nq; discriminate).
        destruct (zf_toggle ops) with (t := t0) as (u & k & Lu & Eu & Hk); eauto; [congruence|].
        exists u. assert (Eu' : mcoef u = gmul k (mcoef t0)).
        { unfold mcoef. rewrite !mstr_pref by congruence. rewrite Eu. unfold gdiv. ring. }
        destruct (mcoef_mag t0) as [P _]; [congruence|]. destruct P as [P|P]; [|contradiction].
        assert (Z : im (mcoef u) = 0%Qc).
        { rewrite Eu'. destruct Hk as [->| ->]; cbn [gmul gopp gi re im]; rewrite P; ring. }
        destruct (Qc_eq_dec (im (mcoef u)) 0) as [_|]; [|contradiction].
        exists (gmul (mcoef u) g2, mstr u). split; [congruence|]. split; auto.
        destruct (wf ops u) as [|x r] eqn:Ew; auto. exfalso. apply Nq'. eapply (wf_first ops u); eauto.
      + (* only number operators: the prefactor is 1 *)
        assert (Hall : forall q, In q ops -> fst q = FCDagC).
        { intros q Hq. destruct (ftype_eqb (fst q) FCDagC) eqn:E; [destruct (fst q); auto; discriminate|].
          assert (existsb (fun q => negb (ftype_eqb (fst q) FCDagC)) ops = true) by (apply existsb_exists; exists q; rewrite E; auto).
          congruence. }
        assert (PIJ : Permutation I J).
        { apply NoDup_Permutation; auto. intros l.
          assert (K : In l I \/ In l J -> In l I /\ In l J).
          { intros Hl. apply Hks in Hl. assert (Hf : In (fop I J l) ops) by (apply in_map; auto).
            apply Hall in Hf. unfold fop, typ in Hf. cbn [fst] in Hf.
            destruct (in_dec Z.eq_dec l I), (in_dec Z.eq_dec l J); try discriminate; auto. }
          tauto. }
        assert (NE : I <> J).
        { intros E. unfold herm in Eh. rewrite zlist_eqb in Eh. destruct (list_eq_dec Z.eq_dec I J); [discriminate|contradiction]. }
        destruct S2 as [S2|[S2|S2]]; [contradiction| |contradiction].
        exfalso. apply Ez. unfold mcoef. rewrite S2, mstr_pref by congruence.
        assert (N0 : ndeg ops = 0).
        { unfold ndeg. destruct (filter _ ops) as [|x r] eqn:Ef; auto. exfalso.
          assert (Hx : In x (filter (fun p0 => negb (ftype_eqb (fst p0) FCDagC)) ops)) by (rewrite Ef; left; auto).
          apply filter_In in Hx. destruct Hx as [Hx1 Hx2]. rewrite (Hall x Hx1) in Hx2. discriminate. }
        rewrite N0. pose proof (zf_real ops Hall t0) as R.
        replace (gmul (gmul (gdiv (zf ops t0) (majorana_phase 0)) (gz sg)) g1) with (gmul (gz sg) (zf ops t0)).
        * cbn [gmul im]. rewrite R. change (im (gz sg)) with 0%Qc. ring.
        * change (majorana_phase 0) with g1. field. intros E; discriminate (f_equal re E).
    - exists t0. unfold mterm. rewrite Eh. eauto.
  Qed.
End Main.

Lemma NoDup_without (ts : list (GC * OS)) : NoDup (map snd ts) -> NoDup (map snd (without_identity ts)).
Proof.
  unfold without_identity. intros HN. induction ts as [|x r IH]; simpl; [constructor|]. inversion HN; subst.
  destruct (os_ops (snd x)); auto. simpl. constructor; auto. intros Hin. apply H1.
  apply in_map_iff in Hin. destruct Hin as (y & <- & Hy). apply filter_In in Hy. apply in_map; tauto.
Qed.

(** Number of orbitals of a Fermion string. *)

Lemma ferm_setup I J : NoDup I -> NoDup J -> exists ks,
  ferm_ops (label_types I J) (zsort (I ++ rev J)) [] = Ok (map (fop I J) ks) /\
  StronglySorted Z.lt ks /\ (forall l, In l ks <-> In l I \/ In l J) /\ length ks = orbitals I J.
Proof.
  intros NI NJ. destruct (ferm_ops_ok I J NJ (zsort (I ++ rev J)) []) as (ks & E & S & Hk).
  - intros l Hl. apply (proj1 (zsort_in _ _)) in Hl. apply in_app_iff in Hl. rewrite <- in_rev in Hl. auto.
  - apply zsort_sorted.
  - constructor.
  - intros p l [].
  - assert (Hk' : forall l, In l ks <-> In l I \/ In l J).
    { intros l. rewrite Hk. simpl. split.
      - intros [[]|Hl]. apply (proj1 (zsort_in _ _)) in Hl. apply in_app_iff in Hl. rewrite <- in_rev in Hl. auto.
      - intros Hl. right. apply zsort_in, in_app_iff. rewrite <- in_rev. auto. }
    exists ks. split; [exact E|]. split; auto. split; auto. unfold orbitals. apply Permutation_length, NoDup_Permutation.
    + clear - S. induction S as [|x l S IH Hx]; constructor; auto.
      intros Hin. rewrite Forall_forall in Hx. apply Hx in Hin. lia.
    + apply NoDup_nodup.
    + intros l. rewrite nodup_In, in_app_iff. apply Hk'.
Qed.

(** The Majorana strings of the result. *)
Definition good_maj (I J : list Z) (q : GC * OS) : Prop :=
  string_ok Majorana (snd q) /\ canonical (snd q) /\ (forall l, In l (os_labels (snd q)) -> In l I \/ In l J) /\
  StronglySorted Z.lt (os_labels (snd q)) /\ (I <> J -> im (fst q) = 0%Qc).

Lemma labels_of_form I J s : fermion_form I J s -> labels_of OCDag s = I /\ rev (labels_of OC s) = J.
Proof.
  intros F. destruct (form_labs I J s F) as [E1 E2]. split; [exact E1|]. unfold labels_of. rewrite E2. apply rev_involutive.
Qed.

Section Conv.
  Variables (s : OS) (I J : list Z).
  Hypothesis F : fermion_form I J s.
  Hypothesis NI : NoDup I.
  Hypothesis NJ : NoDup J.
  Hypothesis Hn : I = J \/ orbitals I J <= 51.

  Lemma ferm_conv_terms : exists ks,
    StronglySorted Z.lt ks /\ (forall l, In l ks <-> In l I \/ In l J) /\
    forall incl, convert_fermion_string s incl =
      op_of_terms (if incl then mts s I J ks else without_identity (mts s I J ks)) None.
  Proof.
    destruct (ferm_setup I J NI NJ) as (ks & E & S & Hk & Hlen). exists ks. split; auto. split; auto. intros incl.
    destruct (labels_of_form I J s F) as [L1 L2]. unfold convert_fermion_string. rewrite L1, L2.
    rewrite zsort_sign, E. cbn [rbind].
    assert (L : length (map (fop I J) ks) = length ks) by apply map_length.
    rewrite (rmap_pure _ (fun t => if is_nil (wf (map (fop I J) ks) t) && negb incl then None else mterm s I J ks t)).
    2:{ intros t Ht. apply choices_in in Ht. 
        pose proof (ferm_term_eq s I J ks F S incl t Ht) as ET. rewrite zsort_sign in ET. cbn [snd] in ET. apply ET.
        intros Eh. rewrite Hlen. destruct Hn as [En|]; auto. exfalso. unfold herm in Eh. rewrite zlist_eqb in Eh.
        destruct (list_eq_dec Z.eq_dec I J); [discriminate|contradiction]. }
    cbn [rbind]. f_equal. rewrite L. destruct incl.
    - unfold mts. f_equal. apply map_ext. intros t. rewrite andb_false_r. reflexivity.
    - unfold mts, without_identity. rewrite <- (somes_filter (mterm s I J ks) (fun t => negb (is_nil (wf (map (fop I J) ks) t)))).
      + f_equal. apply map_ext. intros t. rewrite andb_true_r. destruct (is_nil _); reflexivity.
      + intros t q Ht Eq. rewrite (mterm_str s I J ks t q Eq).
        destruct (mstr_ok s I J ks S t) as (_ & _ & -> & _). destruct (wf (map (fop I J) ks) t); reflexivity.
  Qed.

  Theorem ferm_conv : exists ts,
    (forall incl, produces I J (pval (os_pref s)) incl ->
       exists o, convert_fermion_string s incl = Ok o /\ op_ok o /\ o_type o = Majorana /\
         op_terms o = (if incl then ts else without_identity ts)) /\
    (forall q, In q ts -> good_maj I J q) /\
    (forall (A : StarAlg) (c : Z -> A), CAR A c -> means c ts == fden c s).
  Proof.
    destruct ferm_conv_terms as (ks & S & Hk & E). exists (mts s I J ks).
    assert (G : forall q, In q (mts s I J ks) -> good_maj I J q).
    { intros q Hq. apply (mts_good s I J ks S Hk q Hq). }
    split; [|split]; auto.
    - intros incl Hp. rewrite E.
      assert (Hsub : forall r, In r (if incl then mts s I J ks else without_identity (mts s I J ks)) -> In r (mts s I J ks)).
      { destruct incl; auto. intros r Hr. apply filter_In in Hr. tauto. }
      destruct (mts_nonempty s I J ks F NI NJ S Hk incl Hp) as (t & q & Lt & Et & Wt).
      assert (Hq : In q (if incl then mts s I J ks else without_identity (mts s I J ks))).
      { assert (Hin : In q (mts s I J ks)) by (apply somes_in; exists t; split; auto; apply choices_in; auto).
        destruct incl; auto. apply filter_In. split; auto. rewrite (mterm_str s I J ks t q Et).
        destruct (mstr_ok s I J ks S t) as (_ & _ & -> & _). rewrite andb_true_r in Wt.
        destruct (wf (map (fop I J) ks) t); [discriminate|reflexivity]. }
      destruct (op_of_terms_ok (if incl then mts s I J ks else without_identity (mts s I J ks)) None) as (o & E1 & E2 & E3 & _).
      + intros r Hr. apply canonical_std, (G r (Hsub r Hr)).
      + destruct incl; [|apply NoDup_without]; apply mts_nodup; auto.
      + left. intros En. rewrite En in Hq. destruct Hq.
      + exists o. split; auto. split; auto. split; auto.
        rewrite (op_terms_type o _ q E2 E3 Hq).
        * apply (G q (Hsub q Hq)).
        * intros r Hr. destruct (G q (Hsub q Hq)) as ((-> & _) & _). apply (G r (Hsub r Hr)).
    - intros A c HC. apply mts_means; auto.
  Qed.

  Lemma mag_nonzero n z : mag n z -> re z = 0%Qc -> im z = 0%Qc -> False.
  Proof.
    intros [_ M] R E. assert (M0 : norm2 z = 0%Qc) by (unfold norm2; rewrite R, E; ring).
    rewrite M in M0. pose proof (proj1 (q4_step n)) as Q. rewrite M0 in Q. apply (Qclt_not_eq _ _ Q). reflexivity.
  Qed.
  Lemma re_imag x z y : im x = 0%Qc -> im z = 0%Qc -> y = gi -> re (gmul (gmul (gdiv x g1) z) y) = 0%Qc.
  Proof.
    intros Ex Ez ->. replace (gdiv x g1) with x by (field; intros X; discriminate (f_equal re X)).
    cbn [gmul gi re im]. rewrite Ex, Ez. ring.
  Qed.
  Lemma mcoef_imag ks t : StronglySorted Z.lt ks -> length t = length (map (fop I J) ks) -> pval (os_pref s) = gi ->
    (forall q, In q (map (fop I J) ks) -> fst q = FCDagC) -> re (mcoef s I J ks t) = 0%Qc.
  Proof.
    intros S Lt Hp Hall.
    assert (N0 : ndeg (map (fop I J) ks) = 0).
    { unfold ndeg. rewrite filter_none; auto. intros x Hx. rewrite (Hall x Hx). reflexivity. }
    unfold mcoef. rewrite (mstr_pref s I J ks S t Lt), N0. apply re_imag; auto. apply zf_real; auto.
  Qed.

  Lemma some_eq_dec (q : GC * OS) (x : Qc) (v : GC * OS) :
    (if Qc_eq_dec x 0 then Some v else None) = Some q -> x = 0%Qc.
  Proof. destruct (Qc_eq_dec x 0); [auto|discriminate]. Qed.
  Lemma mterm_some_neq ks t q : I <> J -> mterm s I J ks t = Some q -> im (mcoef s I J ks t) = 0%Qc.
  Proof.
    intros NE. unfold mterm, herm. rewrite zlist_eqb. destruct (list_eq_dec Z.eq_dec I J); [contradiction|]. apply some_eq_dec.
  Qed.
  Lemma none_perm ks q : StronglySorted Z.lt ks -> (forall l, In l ks <-> In l I \/ In l J) ->
    In q (mts s I J ks) -> I = J \/ pval (os_pref s) = g1 \/ ~ Permutation I J.
  Proof.
    intros S Hk Hin. destruct (list_eq_dec Z.eq_dec I J) as [EI|NE]; auto. right.
    apply somes_in in Hin. destruct Hin as (t & Ht & Et). apply choices_in in Ht.
    assert (L : length (map (fop I J) ks) = length ks) by apply map_length.
    assert (Lt : length t = length (map (fop I J) ks)) by (rewrite L; exact Ht).
    destruct F as (_ & _ & _ & [Hp|Hp]); auto. right. intros P.
    apply (mag_nonzero (length ks) (mcoef s I J ks t)).
    - apply mcoef_mag; auto.
    - apply mcoef_imag; auto. intros x Hx. apply in_map_iff in Hx. destruct Hx as (l & <- & Hl). apply Hk in Hl. cbn [fop fst]. unfold typ.
      assert (In l I /\ In l J) by (split; destruct Hl as [Hl|Hl]; auto; [symmetry in P|]; eapply Permutation_in; eauto).
      destruct (in_dec Z.eq_dec l I), (in_dec Z.eq_dec l J); tauto.
    - apply (mterm_some_neq ks t q NE Et).
  Qed.
  Lemma none_identity ks q : StronglySorted Z.lt ks -> (forall l, In l ks <-> In l I \/ In l J) ->
    I = [] -> J = [] -> In q (without_identity (mts s I J ks)) -> False.
  Proof.
    intros S Hk EI EJ Hq.
    assert (Ek : ks = []).
    { destruct ks as [|k]; auto; exfalso; destruct (proj1 (Hk k) (or_introl eq_refl)) as [Hx|Hx]; [rewrite EI in Hx | rewrite EJ in Hx]; destruct Hx. }
    unfold without_identity in Hq. apply filter_In in Hq. destruct Hq as [Hq1 Hq2].
    apply somes_in in Hq1. destruct Hq1 as (t & _ & Et). rewrite (mterm_str s I J ks t q Et) in Hq2.
    destruct (mstr_ok s I J ks S t) as (_ & _ & Eo & _). rewrite Eo, Ek in Hq2. discriminate.
  Qed.

  (** Otherwise no term is left and the constructor of Operator raises. *)
  Theorem ferm_conv_none incl : ~ produces I J (pval (os_pref s)) incl ->
    convert_fermion_string s incl = Err ValueError.
  Proof.
    intros NP. destruct ferm_conv_terms as (ks & S & Hk & E). rewrite E.
    assert (Hnil : (if incl then mts s I J ks else without_identity (mts s I J ks)) = []).
    { destruct (if incl then mts s I J ks else without_identity (mts s I J ks)) as [|q r] eqn:El; auto. exfalso. apply NP.
      assert (Hq : In q (if incl then mts s I J ks else without_identity (mts s I J ks))) by (rewrite El; left; auto).
      clear El. split.
      - intros EI EJ. destruct incl; auto. exfalso. eapply none_identity; eauto.
      - apply (none_perm ks q); auto. destruct incl; auto. apply filter_In in Hq. tauto. }
    rewrite Hnil. reflexivity.
  Qed.
  (** ... although the operator is zero (or the identity, when the identity is left out). *)
  Theorem ferm_conv_zero (A : StarAlg) (c : Z -> A) : CAR A c -> ~ produces I J (pval (os_pref s)) true -> fden c s == azero.
  Proof.
    intros HC NP. destruct ferm_conv_terms as (ks & S & Hk & E).
    assert (Hm : means c (mts s I J ks) == fden c s) by (apply mts_means; auto).
    destruct (mts s I J ks) as [|q r] eqn:El.
    - rewrite <- Hm. reflexivity.
    - exfalso. apply NP. split; auto. apply (none_perm ks q); auto. rewrite El. left; auto.
  Qed.
End Conv.
