(** Lemmas on cluster_basis. *)
From Coq Require Import String List ZArith Bool Arith Lia Sorted Permutation.
From Verif Require Import GC Exn S_Alg S_Den S_Basis S_Built S_Cluster M_OpString M_Tools M_Basis M_Cluster
  L_StrAlg L_StrOp L_Basis L_Operator L_Struct.
Import ListNotations.
Local Open Scope nat_scope.

(* ------------------------------------------------------ combinations *)

Lemma increasing_cons x l : increasing (x :: l) <-> increasing l /\ forall y, In y l -> (x < y)%Z.
Proof. split; [intros H; inversion H; subst; split; auto; apply Forall_forall; auto | intros [H1 H2]; constructor; auto; apply Forall_forall; auto]. Qed.
Lemma increasing_NoDup l : increasing l -> NoDup l.
Proof.
  induction l as [|x l IH]; intros H; constructor; apply increasing_cons in H; destruct H as [H1 H2]; auto.
  intros Hin. specialize (H2 _ Hin). lia.
Qed.

Lemma combinations_in (l : list Z) : increasing l -> forall m c,
  In c (combinations m l) <-> increasing c /\ (forall x, In x c -> In x l) /\ length c = m.
Proof.
  induction l as [|x l IH]; intros Hl m c.
  - destruct m; simpl; split.
    + intros [<-|[]]. split; [constructor|]. split; [intros ? []|reflexivity].
    + intros (_ & _ & H). destruct c; [auto|discriminate].
    + intros [].
    + intros (_ & H & E). destruct c as [|y c]; [discriminate|]. destruct (H y). left; auto.
  - apply increasing_cons in Hl. destruct Hl as [Hl Hx]. destruct m as [|m].
    + simpl. split.
      * intros [<-|[]]. split; [constructor|]. split; [intros ? []|reflexivity].
      * intros (_ & _ & H). destruct c; [auto|discriminate].
    + cbn [combinations]. rewrite in_app_iff, in_map_iff. split.
      * intros [(d & <- & Hd)|Hc].
        -- apply IH in Hd; auto. destruct Hd as (I1 & I2 & I3). split; [apply increasing_cons; split; auto|].
           split; [intros y [<-|Hy]; [left; auto | right; auto]|]. simpl. congruence.
        -- apply IH in Hc; auto. destruct Hc as (I1 & I2 & I3). split; auto. split; auto. intros y Hy; right; auto.
      * intros (I1 & I2 & I3). destruct c as [|y c]; [discriminate|]. apply increasing_cons in I1. destruct I1 as [I1 Hy].
        destruct (I2 y (or_introl eq_refl)) as [<-|Hyl].
        -- left. exists c. split; auto. apply IH; auto. split; auto. split; [|simpl in I3; congruence].
           intros z Hz. destruct (I2 z (or_intror Hz)) as [<-|Hzl]; auto. specialize (Hy _ Hz). lia.
        -- right. apply IH; auto. split; [apply increasing_cons; auto|]. split; auto.
           intros z Hz. destruct (I2 z Hz) as [<-|Hzl]; auto. destruct Hz as [<-|Hz]; auto.
           specialize (Hx _ Hyl). specialize (Hy _ Hz). lia.
Qed.

Lemma combinations_length {T} (l : list T) : forall m, length (combinations m l) = binom (length l) m.
Proof.
  induction l as [|x l IH]; intros [|m]; simpl; auto. rewrite app_length, map_length, !IH. reflexivity.
Qed.

Lemma combinations_sorted l : increasing l -> forall m, StronglySorted lex_before (combinations m l).
Proof.
  induction l as [|x l IH]; intros Hl [|m]; cbn [combinations]; try (repeat constructor; fail).
  apply increasing_cons in Hl. destruct Hl as [Hl Hx].
  assert (P : forall (a b : list (list Z)), StronglySorted lex_before a -> StronglySorted lex_before b ->
     (forall u v, In u a -> In v b -> lex_before u v) -> StronglySorted lex_before (a ++ b)).
  { intros a. induction a as [|u a IHa]; intros b Ha Hb Hab; auto. simpl. inversion Ha; subst. constructor.
    - apply IHa; auto. intros; apply Hab; simpl; auto.
    - apply Forall_app. split; auto. apply Forall_forall. intros; apply Hab; simpl; auto. }
  apply P; auto.
  - pose proof (IH Hl m) as S. clear -S. induction S as [|c cs H IHS HF]; simpl; constructor; auto.
    apply Forall_map. eapply Forall_impl; [|exact HF]. intros d (c0 & y & z & b' & f' & L & E1 & E2).
    exists (x :: c0), y, z, b', f'. split; auto. rewrite E1, E2. auto.
  - intros u v Hu Hv. apply in_map_iff in Hu. destruct Hu as (d & <- & Hd).
    apply combinations_in in Hv; auto. destruct Hv as (I1 & I2 & I3). destruct v as [|y v]; [discriminate|].
    exists [], x, y, d, v. split; auto. apply Hx, I2. left; auto.
Qed.

Lemma lex_irrefl b : ~ lex_before b b.
Proof.
  intros (c & x & y & b' & f' & L & E1 & E2). rewrite E1 in E2. apply app_inv_head in E2. injection E2 as E _. lia.
Qed.
Lemma lex_asym b f : lex_before b f -> ~ lex_before f b.
Proof.
  intros (c & x & y & b' & f' & L & E1 & E2) (d & z & w & g' & h' & M & F1 & F2).
  rewrite E1 in F2. rewrite E2 in F1. clear E1 E2.
  revert d F1 F2. induction c as [|a c IH]; intros [|e d] F1 F2; simpl in *; try congruence.
  - injection F1 as -> _. injection F2 as -> _. lia.
  - injection F1 as -> _. injection F2 as -> _. lia.
  - injection F1 as -> _. injection F2 as -> _. lia.
  - injection F1 as _ F1. injection F2 as _ F2. eauto.
Qed.

Lemma sorted_NoDup (l : list (list Z)) : StronglySorted lex_before l -> NoDup l.
Proof.
  induction 1 as [|a l H IH HF]; constructor; auto. intros Hin. rewrite Forall_forall in HF.
  apply (lex_irrefl a). auto.
Qed.
Lemma combinations_NoDup l m : increasing l -> NoDup (combinations m l).
Proof. intros H. apply sorted_NoDup, combinations_sorted; auto. Qed.

Lemma firstn_sorted (l : list (list Z)) : StronglySorted lex_before l -> forall i f b, nth_error l i = Some f ->
  (In b (firstn i l) <-> In b l /\ lex_before b f).
Proof.
  induction 1 as [|a l H IH HF]; intros [|i] f b Hn; try discriminate.
  - injection Hn as ->. simpl. split; [intros []|]. intros [[->|Hb] L]; [apply (lex_irrefl b); auto|].
    rewrite Forall_forall in HF. apply (lex_asym b f); auto.
  - simpl in *. rewrite (IH _ _ _ Hn). split.
    + intros [->|[Hb L]]; auto. split; auto. rewrite Forall_forall in HF. apply HF. eapply nth_error_In; eauto.
    + intros [[->|Hb] L]; auto.
Qed.

(* ------------------------------------------------------------ tuples *)

Lemma tuples_in {T} (l : list T) m : forall t, In t (tuples m l) <-> length t = m /\ forall x, In x t -> In x l.
Proof.
  induction m as [|m IH]; intros t; cbn [tuples].
  - split; [intros [<-|[]]; split; [reflexivity | intros ? []] | intros [H _]; destruct t; [left; auto | discriminate]].
  - rewrite in_flat_map. split.
    + intros (x & Hx & Ht). apply in_map_iff in Ht. destruct Ht as (u & <- & Hu). apply IH in Hu. destruct Hu as [H1 H2].
      split; [simpl; congruence|]. intros y [<-|Hy]; auto.
    + intros [H1 H2]. destruct t as [|x t]; [discriminate|]. exists x. split; [apply H2; left; auto|].
      apply in_map. apply IH. split; [simpl in H1; congruence|]. intros y Hy; apply H2; right; auto.
Qed.

Lemma NoDup_app2 {T} (a b : list T) : NoDup a -> NoDup b -> (forall x, In x a -> In x b -> False) -> NoDup (a ++ b).
Proof.
  induction 1 as [|x a H N IH]; intros Hb D; auto. simpl. constructor.
  - rewrite in_app_iff. intros [H'|H']; auto. apply (D x); simpl; auto.
  - apply IH; auto. intros y Hy; apply D; simpl; auto.
Qed.
Lemma NoDup_flat_map {T U} (f : T -> list U) l : NoDup l -> (forall x, In x l -> NoDup (f x)) ->
  (forall x y z, In x l -> In y l -> x <> y -> In z (f x) -> In z (f y) -> False) -> NoDup (flat_map f l).
Proof.
  induction 1 as [|x l H N IH]; intros Hf D; simpl; [constructor|]. apply NoDup_app2.
  - apply Hf; left; auto.
  - apply IH; [intros; apply Hf; right; auto|]. intros a b c Ha Hb; apply D; right; auto.
  - intros z Hz Hz'. apply in_flat_map in Hz'. destruct Hz' as (y & Hy & Hz'). apply (D x y z); simpl; auto.
    intros ->; auto.
Qed.
Lemma NoDup_map_inj {T U} (f : T -> U) l : (forall x y, In x l -> In y l -> f x = f y -> x = y) -> NoDup l -> NoDup (map f l).
Proof.
  intros Hf N. induction N as [|x l H N IH]; simpl; constructor.
  - intros Hin. apply in_map_iff in Hin. destruct Hin as (y & E & Hy). apply H. rewrite (Hf x y); simpl; auto.
  - apply IH. intros; apply Hf; simpl; auto.
Qed.

Lemma tuples_NoDup {T} (l : list T) m : NoDup l -> NoDup (tuples m l).
Proof.
  intros N. induction m as [|m IH]; cbn [tuples]; [repeat constructor; auto|]. apply NoDup_flat_map; auto.
  - intros x _. apply NoDup_map_inj; auto. intros; congruence.
  - intros x y z _ _ D Hx Hy. apply in_map_iff in Hx. apply in_map_iff in Hy. destruct Hx as (u & <- & _), Hy as (v & E & _). congruence.
Qed.
Lemma flat_map_length_const {T U} (f : T -> list U) l n : (forall x, In x l -> length (f x) = n) -> length (flat_map f l) = length l * n.
Proof.
  induction l as [|x l IH]; intros H; simpl; auto. rewrite app_length, H by (left; auto). rewrite IH; auto. intros; apply H; right; auto.
Qed.
Lemma tuples_length {T} (l : list T) m : length (tuples m l) = length l ^ m.
Proof.
  induction m as [|m IH]; cbn [tuples]; auto. rewrite (flat_map_length_const _ _ (length l ^ m)).
  - simpl. reflexivity.
  - intros x _. rewrite map_length. auto.
Qed.

(* ------------------------------------------------------ visited_nums *)

Lemma num_okb_ok k m : num_okb k m = true <-> num_ok k m.
Proof.
  destruct k; simpl.
  - apply Z.leb_le.
  - rewrite existsb_exists. split; [intros (x & Hx & E); apply Z.eqb_eq in E; subst; auto | intros H; exists (Z.of_nat m); split; auto; apply Z.eqb_refl].
  - split; [discriminate | tauto].
Qed.

Lemma zmax_ok l : l <> [] -> exists m, zmax l = Ok m /\ In m l /\ forall x, In x l -> (x <= m)%Z.
Proof.
  induction l as [|x [|y l] IH]; intros H; [congruence| |].
  - exists x. split; auto. split; [left; auto|]. intros y [<-|[]]. lia.
  - destruct IH as (m & E & Hm & Hx); [discriminate|]. exists (Z.max x m). cbn [zmax]. cbn [zmax] in E. rewrite E.
    split; auto. split.
    + destruct (Z.max_spec x m) as [[_ ->]|[_ ->]]; [right; auto | left; auto].
    + intros z [<-|Hz]; [lia|]. specialize (Hx _ Hz). lia.
Qed.

Lemma allowed_valid k : k_valid k -> exists al, allowed_nums k = Ok al /\ al <> [] /\
  forall m, existsb (Z.eqb (Z.of_nat m)) al = num_okb k m.
Proof.
  destruct k as [n|l|]; simpl; intros H; [| |tauto].
  - eexists. split; [reflexivity|]. split.
    + destruct (Z.to_nat (n + 1)) eqn:E; [lia|]. discriminate.
    + intros m. apply eq_true_iff_eq. rewrite existsb_exists, Z.leb_le. split.
      * intros (x & Hx & E). apply Z.eqb_eq in E. subst. apply in_map_iff in Hx. destruct Hx as (j & E & Hj).
        apply in_seq in Hj. lia.
      * intros Hm. exists (Z.of_nat m). split; [|apply Z.eqb_refl]. apply in_map. apply in_seq. lia.
  - exists l. auto.
Qed.

Lemma filter_none {T} (f : T -> bool) l : (forall x, In x l -> f x = false) -> filter f l = [].
Proof. induction l as [|x l IH]; intros H; simpl; auto. rewrite H by (left; auto). apply IH. intros; apply H; right; auto. Qed.

Lemma visited_ok k n : k_valid k -> visited_nums k n = Ok (filter (num_okb k) (seq 1 n)).
Proof.
  intros Hk. destruct (allowed_valid k Hk) as (al & E & Hne & Hal). unfold visited_nums. rewrite E. cbn [rbind].
  destruct (zmax_ok al Hne) as (mx & Em & Hin & Hmax). rewrite Em. cbn [rbind]. f_equal.
  rewrite (filter_ext _ _ (fun m => Hal m)).
  set (j := Z.to_nat (Z.min (Z.of_nat n) mx)). assert (Hj : j <= n) by lia.
  replace n with (j + (n - j)) at 1 by lia. rewrite seq_app, filter_app.
  rewrite (filter_none _ (seq (1 + j) (n - j))); [rewrite app_nil_r; auto|].
  intros m Hm. apply in_seq in Hm. destruct (num_okb k m) eqn:F; auto. rewrite <- Hal in F.
  apply existsb_exists in F. destruct F as (x & Hx & F). apply Z.eqb_eq in F. subst. specialize (Hmax _ Hx). lia.
Qed.
Lemma visited_bad k n : ~ k_valid k -> visited_nums k n = Err ValueError.
Proof.
  unfold visited_nums. destruct k as [z|l|]; simpl; intros H; auto.
  - replace (Z.to_nat (z + 1)) with 0 by lia. reflexivity.
  - destruct l; [reflexivity | destruct H; discriminate].
Qed.

(* ------------------------------------------------------ add_new *)

Lemma add_new_fold strs : forall start, (forall s, In s (start ++ strs) -> std s) -> NoDup (start ++ strs) ->
  fold_left add_new strs start = start ++ strs.
Proof.
  induction strs as [|s strs IH]; intros start Hs N; simpl; [symmetry; apply app_nil_r|].
  assert (E : add_new start s = start ++ [s]).
  { unfold add_new. replace (existsb _ start) with false; auto. symmetry. apply not_true_is_false. rewrite existsb_exists.
    intros (t & Ht & K). apply os_key_spec in K. apply std_key in K; [|apply Hs, in_or_app; auto | apply Hs, in_or_app; right; left; auto].
    subst. apply NoDup_remove_2 in N. apply N, in_or_app; auto. }
  rewrite E, IH; rewrite <- app_assoc; auto.
Qed.

(* ------------------------------------------------------ sorting *)

Lemma sinsert_perm {T} (ltb : T -> T -> bool) x l : Permutation (sinsert ltb x l) (x :: l).
Proof.
  induction l as [|y l IH]; simpl; auto. destruct (ltb y x); auto. rewrite IH. apply perm_swap.
Qed.
Lemma stable_sort_perm {T} (ltb : T -> T -> bool) l : Permutation (stable_sort ltb l) l.
Proof. induction l as [|x l IH]; simpl; auto. rewrite sinsert_perm. auto. Qed.
Lemma sinsert_increasing x l : increasing l -> ~ In x l -> increasing (sinsert Z.ltb x l).
Proof.
  induction l as [|y l IH]; intros Hl Hx; simpl; [apply increasing_cons; split; [constructor | intros ? []]|].
  apply increasing_cons in Hl. destruct Hl as [Hl Hy]. destruct (Z.ltb_spec y x).
  - apply increasing_cons. split; [apply IH; auto; intros H'; apply Hx; right; auto|].
    intros z Hz. apply (Permutation_in _ (sinsert_perm _ _ _)) in Hz. destruct Hz as [<-|Hz]; auto.
  - assert (x <> y) by (intros ->; apply Hx; left; auto). apply increasing_cons. split; [apply increasing_cons; auto|].
    intros z [<-|Hz]; [lia|]. specialize (Hy _ Hz). lia.
Qed.
Lemma stable_sort_increasing l : NoDup l -> increasing (stable_sort Z.ltb l).
Proof.
  induction 1 as [|x l H N IH]; simpl; [constructor|]. apply sinsert_increasing; auto.
  intros Hx. apply H. eapply Permutation_in; [apply stable_sort_perm | exact Hx].
Qed.

(* ------------------------------------------------------ candidates *)

(** The string the constructor makes from a candidate. *)
Definition mk (ty : optype) (c : list op * list Z * pref) : OS :=
  mkOS (fst (fst c)) (snd (fst c)) ty
       (match ty with Majorana => majorana_pref (fst (fst c)) (snd (fst c)) (snd c) | _ => snd c end).
Definition cand_ok (ty : optype) (c : list op * list Z * pref) : Prop :=
  length (fst (fst c)) = length (snd (fst c)) /\ (snd c = p_one \/ ty = Fermion /\ snd c = p_j).

Lemma g_eqb_refl z : gc_eqb z z = true.
Proof. apply gc_eqb_eq; auto. Qed.
Lemma os_make_mk ty c : cand_ok ty c -> os_make (fst (fst c)) (snd (fst c)) ty (snd c) = Ok (mk ty c).
Proof.
  destruct c as [[ops labs] p]. intros [Hl Hp]. simpl in *. unfold mk, os_make; simpl. destruct ty.
  - destruct Hp as [->|[E _]]; [|discriminate]. reflexivity.
  - destruct Hp as [->|[E _]]; [|discriminate].
    replace (length ops <? length labs) with false by (symmetry; apply Nat.ltb_ge; lia).
    unfold majorana_pref. destruct (Nat.odd _); reflexivity.
  - destruct Hp as [->|[_ ->]]; reflexivity.
Qed.
Lemma mk_std ty c : cand_ok ty c -> std (mk ty c).
Proof.
  intros [_ Hp]. unfold std, std_pref, mk; simpl. destruct ty; [| |destruct Hp as [->|[_ ->]]; auto].
  - destruct Hp as [->|[E _]]; [auto | discriminate].
  - destruct Hp as [->|[E _]]; [|discriminate]. unfold majorana_pref. destruct (Nat.odd _); auto.
Qed.
Lemma rmap_mk ty cs : (forall c, In c cs -> cand_ok ty c) ->
  rmap (fun c => os_make (fst (fst c)) (snd (fst c)) ty (snd c)) cs = Ok (map (mk ty) cs).
Proof.
  intros H. apply rmap_ok. induction cs as [|c cs IH]; simpl; constructor.
  - apply os_make_mk, H. left; auto.
  - apply IH. intros; apply H; right; auto.
Qed.

(** Pauli and Majorana. *)
Lemma orbital_ops_in ty o : ty <> Fermion -> (In o (orbital_ops ty) <-> is_op_of ty o = true).
Proof.
  intros Hty. destruct ty; [| |congruence]; simpl; split; intros H; try (destruct o; try discriminate H; tauto);
    destruct H as [<-|[<-|[<-|[]]]]; reflexivity.
Qed.
Lemma spin_cand_in ty cluster nums c : increasing cluster -> (In c (spin_candidates ty cluster nums) <->
  snd c = p_one /\ In (length (snd (fst c))) nums /\ increasing (snd (fst c)) /\ (forall x, In x (snd (fst c)) -> In x cluster) /\
  length (fst (fst c)) = length (snd (fst c)) /\ (forall o, In o (fst (fst c)) -> In o (orbital_ops ty))).
Proof.
  intros Hi. unfold spin_candidates. rewrite in_flat_map. split.
  - intros (m & Hm & H). apply in_flat_map in H. destruct H as (labs & Hl & H). apply in_map_iff in H. destruct H as (ops & <- & Ho).
    simpl. apply combinations_in in Hl; auto. apply tuples_in in Ho. destruct Hl as (H1 & H2 & <-), Ho as [H3 H4]. auto 10.
  - destruct c as [[ops labs] p]. simpl. intros (-> & Hn & H1 & H2 & H3 & H4). exists (length labs). split; auto.
    apply in_flat_map. exists labs. split; [apply combinations_in; auto|]. apply in_map_iff. exists ops. split; auto. apply tuples_in; auto.
Qed.
Lemma spin_cand_NoDup ty cluster nums : increasing cluster -> NoDup nums -> NoDup (spin_candidates ty cluster nums).
Proof.
  intros Hi Hn. unfold spin_candidates. apply NoDup_flat_map; auto.
  - intros m _. apply NoDup_flat_map; [apply combinations_NoDup; auto| |].
    + intros labs _. apply NoDup_map_inj; [intros; congruence|]. apply tuples_NoDup. destruct ty; simpl; repeat (constructor; [simpl; intuition discriminate|]); constructor.
    + intros x y z _ _ D Hx Hy. apply in_map_iff in Hx. apply in_map_iff in Hy. destruct Hx as (u & <- & _), Hy as (v & E & _). congruence.
  - intros m m' z _ _ D H H'. apply in_flat_map in H. apply in_flat_map in H'. destruct H as (l & Hl & H), H' as (l' & Hl' & H').
    apply in_map_iff in H. apply in_map_iff in H'. destruct H as (u & <- & _), H' as (v & E & _). injection E as _ <-.
    apply combinations_in in Hl; auto. apply combinations_in in Hl'; auto. destruct Hl as (_ & _ & <-), Hl' as (_ & _ & <-). auto.
Qed.
Lemma list_sum_map_length {T U} (f : T -> list U) l : length (flat_map f l) = list_sum (map (fun x => length (f x)) l).
Proof. induction l as [|x l IH]; simpl; auto. rewrite app_length, IH. auto. Qed.
Lemma sum_filter k n f : list_sum (map f (filter (num_okb k) (seq 1 n))) = sum_nums k n f.
Proof.
  unfold sum_nums. generalize 1. induction n as [|n IH]; intros a; cbn [seq filter map]; auto.
  destruct (num_okb k a) eqn:E; cbn [map list_sum fold_right]; change (fold_right Nat.add 0) with list_sum; rewrite ?IH; reflexivity.
Qed.
Lemma spin_cand_length ty cluster nums : ty <> Fermion -> length (spin_candidates ty cluster nums) = list_sum (map (count_strings ty (length cluster)) nums).
Proof.
  intros Hty. unfold spin_candidates. rewrite list_sum_map_length. f_equal. apply map_ext. intros m.
  rewrite (flat_map_length_const _ _ (3 ^ m)); [rewrite combinations_length; destruct ty; auto; congruence|].
  intros l _. rewrite map_length, tuples_length. destruct ty; auto; congruence.
Qed.
Lemma mk_spin ty k n s cluster : ty <> Fermion -> increasing cluster -> length cluster = n -> 
  (In s (map (mk ty) (spin_candidates ty cluster (filter (num_okb k) (seq 1 n)))) <->
   spin_string ty k s /\ forall x, In x (os_labels s) -> In x cluster).
Proof.
  intros Hty Hi Hn. rewrite in_map_iff. split.
  - intros (c & <- & Hc). apply spin_cand_in in Hc; auto. destruct c as [[ops labs] p]. simpl in Hc.
    destruct Hc as (-> & Hm & H1 & H2 & H3 & H4). apply filter_In in Hm. destruct Hm as [Hm Hk].
    apply in_seq in Hm. apply num_okb_ok in Hk. split; [|exact H2].
    destruct (os_new_ok ty ops labs) as (t & E & Ht & E1 & E2 & E3); auto.
    { intros o Ho. apply orbital_ops_in; auto. }
    { apply increasing_NoDup; auto. }
    assert (Em : mk ty (ops, labs, p_one) = t).
    { pose proof (os_make_mk ty (ops, labs, p_one)) as Q. simpl in Q. unfold os_new in E. rewrite Q in E; [injection E; auto|].
      split; simpl; auto. }
    rewrite Em. split; [exact Ht|]. split; [split; [rewrite E2; exact H1 | exact E3]|]. rewrite E2. split; auto.
    intros ->. simpl in Hm. lia.
  - intros [(Hs & Hc & Hne & Hk) Hin]. destruct s as [ops labs t p]. destruct Hs as (Ht & Hl & Ho & Hd & Hp). destruct Hc as [Hc Hp'].
    simpl in *. subst t. exists (ops, labs, p_one). split.
    + unfold mk; simpl. f_equal. destruct ty; [| |congruence].
      * destruct Hp' as [->| ->]; auto. apply (f_equal im) in Hp. vm_compute in Hp. discriminate.
      * unfold majorana_pref. pose proof (labels_ab_length (mkOS ops labs Majorana p) Hl) as Q. simpl in Q. rewrite Q.
        unfold majorana_phase in Hp. destruct (Nat.odd _); destruct Hp' as [->| ->]; auto; apply (f_equal im) in Hp; vm_compute in Hp; discriminate.
    + apply spin_cand_in; auto. simpl. split; auto. split; [|split; [auto|split; auto]].
      * apply filter_In. split; [|apply num_okb_ok; auto]. apply in_seq.
        assert (length labs <= length cluster) by (apply NoDup_incl_length; auto). destruct labs; [congruence|]. simpl in *. lia.
      * split; auto. intros o Hoin. apply orbital_ops_in; auto.
Qed.

(** Fermion. *)
Definition is_cdag (o : op) : bool := match o with OCDag => true | _ => false end.
Lemma count_cdag a b : length (filter is_cdag (repeat OCDag a ++ repeat OC b)) = a.
Proof.
  rewrite filter_app, app_length. assert (H1 : filter is_cdag (repeat OC b) = []) by (induction b; auto).
  rewrite H1. induction a; simpl in *; auto.
Qed.
Lemma fermion_cand_inj p f b p' f' b' : fermion_candidate p f b = fermion_candidate p' f' b' -> p = p' /\ f = f' /\ b = b'.
Proof.
  unfold fermion_candidate. intros E. injection E as E1 E2 E3. split; auto.
  assert (L : length f = length f').
  { pose proof (f_equal (fun l => length (filter is_cdag l)) E1) as Q. cbv beta in Q. rewrite !count_cdag in Q. auto. }
  assert (Hf : f = f').
  { apply (f_equal (firstn (length f))) in E2. rewrite firstn_app, Nat.sub_diag, firstn_O, app_nil_r, firstn_all in E2.
    rewrite L, firstn_app, Nat.sub_diag, firstn_O, app_nil_r, firstn_all in E2. auto. }
  split; auto. subst f'. apply app_inv_head in E2. auto.
Qed.

Lemma type23_from_in cluster m c : forall fwds i, In c (type23_from cluster m i fwds) <->
  exists j f, nth_error fwds j = Some f /\ In c (type23_row cluster m (i + j) f).
Proof.
  induction fwds as [|f r IH]; intros i; cbn [type23_from].
  - split; [intros [] | intros (j & f & H & _); destruct j; discriminate].
  - rewrite in_app_iff, IH. split.
    + intros [H|(j & g & H1 & H2)]; [exists 0, f; rewrite Nat.add_0_r; auto | exists (S j), g; rewrite <- plus_n_Sm; auto].
    + intros ([|j] & g & H1 & H2); [left; injection H1 as ->; rewrite Nat.add_0_r in H2; auto | right; exists j, g; rewrite <- plus_n_Sm in H2; auto].
Qed.
Lemma type23_row_in cluster m i f c : increasing cluster -> nth_error (combinations m cluster) i = Some f ->
  (In c (type23_row cluster m i f) <->
   exists b p, c = fermion_candidate p f b /\ (p = p_one \/ p = p_j) /\ increasing b /\ (forall x, In x b -> In x cluster) /\
     (length b < m \/ length b = m /\ lex_before b f)).
Proof.
  intros Hi Hn. unfold type23_row. rewrite in_flat_map. split.
  - intros (l & Hl & H). apply in_seq in Hl. apply in_flat_map in H. destruct H as (p & Hp & H). apply in_map_iff in H.
    destruct H as (b & <- & Hb). exists b, p. split; auto. split; [destruct Hp as [<-|[<-|[]]]; auto|].
    destruct (Nat.eqb_spec l m) as [->|D].
    + apply (firstn_sorted _ (combinations_sorted _ Hi m) i f b Hn) in Hb. destruct Hb as [Hb L].
      apply combinations_in in Hb; auto. destruct Hb as (H1 & H2 & H3). auto.
    + apply combinations_in in Hb; auto. destruct Hb as (H1 & H2 & H3). split; auto. split; auto. left. lia.
  - intros (b & p & -> & Hp & H1 & H2 & H3). exists (length b). split; [apply in_seq; lia|]. apply in_flat_map. exists p.
    split; [destruct Hp as [->| ->]; simpl; auto|]. apply in_map. destruct H3 as [H3|[H3 H4]].
    + replace (length b =? m) with false by (symmetry; apply Nat.eqb_neq; lia). apply combinations_in; auto.
    + rewrite H3, Nat.eqb_refl. apply (firstn_sorted _ (combinations_sorted _ Hi m) i f b Hn). split; auto. apply combinations_in; auto.
Qed.

Lemma nth_error_skip {T} (l : list T) i j : nth_error (skipn i l) j = nth_error l (i + j).
Proof. revert l. induction i as [|i IH]; intros l; auto. destruct l; simpl; auto. destruct j; auto. Qed.

Lemma firstn_NoDup {T} n (l : list T) : NoDup l -> NoDup (firstn n l).
Proof.
  revert n. induction l as [|x l IH]; intros [|n] H; simpl; try constructor; inversion H; subst; auto.
  intros Hin. apply H2. rewrite <- (firstn_skipn n l). apply in_or_app; auto.
Qed.
Lemma type23_row_NoDup cluster m i f : increasing cluster -> NoDup (type23_row cluster m i f).
Proof.
  intros Hi. unfold type23_row. apply NoDup_flat_map; [apply seq_NoDup| |].
  - intros l _. apply NoDup_flat_map.
    + constructor; [intros [E|[]]; discriminate E|]. constructor; [intros []|constructor].
    + intros p _. apply NoDup_map_inj; [intros x y _ _ E; apply fermion_cand_inj in E; tauto|].
      destruct (l =? m); [apply firstn_NoDup|]; apply combinations_NoDup; auto.
    + intros p q z _ _ D Hp Hq. apply in_map_iff in Hp. apply in_map_iff in Hq. destruct Hp as (b & <- & _), Hq as (b' & E & _).
      apply fermion_cand_inj in E. destruct E as (E & _). auto.
  - intros l l' z _ _ D H H'. apply in_flat_map in H. apply in_flat_map in H'. destruct H as (p & _ & H), H' as (p' & _ & H').
    apply in_map_iff in H. apply in_map_iff in H'. destruct H as (b & <- & Hb), H' as (b' & E & Hb').
    apply fermion_cand_inj in E. destruct E as (_ & _ & <-).
    assert (Q : forall j, In b' (if j =? m then firstn i (combinations j cluster) else combinations j cluster) -> length b' = j).
    { intros j Hj. assert (In b' (combinations j cluster)).
      { destruct (j =? m); auto. rewrite <- (firstn_skipn i). apply in_or_app; auto. }
      apply combinations_in in H; auto. tauto. }
    apply Q in Hb. apply Q in Hb'. congruence.
Qed.
Lemma type23_from_NoDup cluster m : increasing cluster -> forall fwds i, NoDup fwds -> NoDup (type23_from cluster m i fwds).
Proof.
  intros Hi. induction fwds as [|f r IH]; intros i H; cbn [type23_from]; [constructor|]. inversion H; subst.
  apply NoDup_app2; auto; [apply type23_row_NoDup; auto|]. intros c Hc Hc'. apply type23_from_in in Hc'. destruct Hc' as (j & g & Hj & Hc').
  assert (Q : forall k h, In c (type23_row cluster m k h) -> exists b p, c = fermion_candidate p h b).
  { intros k h Hin. unfold type23_row in Hin. apply in_flat_map in Hin. destruct Hin as (l & _ & Hin).
    apply in_flat_map in Hin. destruct Hin as (p & _ & Hin). apply in_map_iff in Hin. destruct Hin as (b & <- & _). eauto. }
  apply Q in Hc. apply Q in Hc'. destruct Hc as (b & p & ->), Hc' as (b' & p' & E). apply fermion_cand_inj in E. destruct E as (_ & -> & _).
  apply nth_error_In in Hj. auto.
Qed.

Lemma sorted_rev_single f : increasing f -> increasing (rev f) -> length f <= 1.
Proof.
  intros H1 H2. destruct f as [|x [|y f]]; simpl; auto. exfalso.
  apply increasing_cons in H1. destruct H1 as [_ H1]. specialize (H1 y (or_introl eq_refl)).
  simpl in H2. rewrite <- app_assoc in H2. simpl in H2. clear -H1 H2. induction (rev f) as [|z l IH]; simpl in H2.
  - apply increasing_cons in H2. destruct H2 as [_ H2]. specialize (H2 x (or_introl eq_refl)). lia.
  - apply increasing_cons in H2. tauto.
Qed.

Lemma fermion_cand_in cluster nums c : increasing cluster -> (In c (fermion_candidates cluster nums) <->
  exists f b p, c = fermion_candidate p f b /\ In (length f) nums /\ increasing f /\ (forall x, In x f -> In x cluster) /\
    ((p = p_one /\ b = rev f) \/
     ((p = p_one \/ p = p_j) /\ increasing b /\ (forall x, In x b -> In x cluster) /\ (length b < length f \/ length b = length f /\ lex_before b f)))).
Proof.
  intros Hi. unfold fermion_candidates. rewrite in_flat_map. split.
  - intros (m & Hm & H). apply in_app_iff in H. destruct H as [H|H].
    + unfold type1_candidates in H. apply in_map_iff in H. destruct H as (f & <- & Hf). apply combinations_in in Hf; auto.
      destruct Hf as (H1 & H2 & H3). exists f, (rev f), p_one. rewrite H3. auto 10.
    + apply type23_from_in in H. destruct H as (j & f & Hj & H). simpl in H. apply type23_row_in in H; auto.
      pose proof (nth_error_In _ _ Hj) as Hf. apply combinations_in in Hf; auto. destruct Hf as (F1 & F2 & F3).
      destruct H as (b & p & E & Hp & H1 & H2 & H3). exists f, b, p. rewrite F3. auto 10.
  - intros (f & b & p & -> & Hm & H1 & H2 & H3). exists (length f). split; auto. apply in_app_iff.
    assert (Hf : In f (combinations (length f) cluster)) by (apply combinations_in; auto).
    destruct H3 as [[-> ->]|(Hp & B1 & B2 & B3)].
    + left. unfold type1_candidates. apply in_map_iff. eauto.
    + right. apply type23_from_in. destruct (In_nth_error _ _ Hf) as (j & Hj). exists j, f. split; auto. simpl.
      apply type23_row_in; auto. exists b, p. auto.
Qed.
Lemma fermion_cand_NoDup cluster nums : increasing cluster -> NoDup nums -> (forall m, In m nums -> 1 <= m) -> NoDup (fermion_candidates cluster nums).
Proof.
  intros Hi Hn H1. unfold fermion_candidates. apply NoDup_flat_map; auto.
  - intros m _. apply NoDup_app2.
    + unfold type1_candidates. apply NoDup_map_inj; [intros x y _ _ E; apply fermion_cand_inj in E; tauto | apply combinations_NoDup; auto].
    + apply type23_from_NoDup; auto. apply combinations_NoDup; auto.
    + intros c Hc Hc'. unfold type1_candidates in Hc. apply in_map_iff in Hc. destruct Hc as (f & <- & Hf). apply combinations_in in Hf; auto.
      destruct Hf as (F1 & F2 & F3). apply type23_from_in in Hc'. destruct Hc' as (j & g & Hj & Hc). simpl in Hc. apply type23_row_in in Hc; auto.
      destruct Hc as (b & p & E & Hp & B1 & B2 & B3). apply fermion_cand_inj in E. destruct E as (<- & <- & <-).
      rewrite rev_length in B3. destruct B3 as [B3|[_ B3]]; [lia|].
      pose proof (sorted_rev_single f F1 B1) as L. destruct f as [|x [|y f]]; [|apply (lex_irrefl [x]); auto|simpl in L; lia].
      apply (lex_irrefl []); auto.
  - intros m m' c _ _ D H H'.
    assert (Q : forall m, In c (type1_candidates cluster m ++ type23_from cluster m 0 (combinations m cluster)) ->
       exists f b p, c = fermion_candidate p f b /\ length f = m).
    { intros k H0. apply in_app_iff in H0. destruct H0 as [H0|H0].
      - unfold type1_candidates in H0. apply in_map_iff in H0. destruct H0 as (f & <- & Hf). apply combinations_in in Hf; auto.
        destruct Hf as (_ & _ & Hf). eauto.
      - apply type23_from_in in H0. destruct H0 as (j & f & Hj & H0). apply type23_row_in in H0; auto. destruct H0 as (b & p & E & _).
        apply nth_error_In, combinations_in in Hj; auto. destruct Hj as (_ & _ & Hj). eauto. }
    apply Q in H. apply Q in H'. destruct H as (f & b & p & -> & <-), H' as (f' & b' & p' & E & <-).
    apply fermion_cand_inj in E. destruct E as (_ & -> & _). auto.
Qed.

Lemma type23_row_length cluster m i f : i <= length (combinations m cluster) ->
  length (type23_row cluster m i f) = 2 * list_sum (map (binom (length cluster)) (seq 0 m)) + 2 * i.
Proof.
  intros Hi. unfold type23_row. rewrite list_sum_map_length, seq_S, map_app, list_sum_app. simpl (0 + m). cbn [map list_sum fold_right].
  rewrite Nat.eqb_refl. cbn [flat_map]. rewrite !app_length, !map_length, firstn_length_le by auto. simpl (length []).
  f_equal; [|lia].
  assert (Q : forall a, (forall x, In x a -> x < m) -> list_sum (map (fun x => length (flat_map (fun p => map (fermion_candidate p f)
     (if x =? m then firstn i (combinations x cluster) else combinations x cluster)) [p_one; p_j])) a) = 2 * list_sum (map (binom (length cluster)) a)).
  { induction a as [|x a IH]; intros Ha; auto. cbn [map list_sum fold_right]. change (fold_right Nat.add 0) with list_sum.
    rewrite IH by (intros; apply Ha; right; auto). assert (x < m) by (apply Ha; left; auto).
    replace (x =? m) with false by (symmetry; apply Nat.eqb_neq; lia). cbn [flat_map]. rewrite !app_length, !map_length, combinations_length. simpl. lia. }
  apply Q. intros x Hx. apply in_seq in Hx. lia.
Qed.
Lemma type23_from_length cluster m S0 : S0 = 2 * list_sum (map (binom (length cluster)) (seq 0 m)) -> forall fwds i,
  i + length fwds <= length (combinations m cluster) ->
  length (type23_from cluster m i fwds) + length fwds = length fwds * S0 + 2 * i * length fwds + length fwds * length fwds.
Proof.
  intros -> . induction fwds as [|f r IH]; intros i Hi; cbn [type23_from length]; [lia|]. simpl in Hi.
  rewrite app_length, type23_row_length by lia. specialize (IH (S i)). cbn [length] in IH. rewrite <- plus_n_Sm in Hi.
  specialize (IH Hi). lia.
Qed.
Lemma fermion_cand_length cluster nums : length (fermion_candidates cluster nums) = list_sum (map (count_strings Fermion (length cluster)) nums).
Proof.
  unfold fermion_candidates. rewrite list_sum_map_length. f_equal. apply map_ext. intros m. rewrite app_length.
  unfold type1_candidates. rewrite map_length. pose proof (type23_from_length cluster m _ eq_refl (combinations m cluster) 0 (le_n _)) as Q.
  rewrite combinations_length in *. cbn [count_strings]. lia.
Qed.

Lemma mk_fermion k n s cluster : increasing cluster -> length cluster = n ->
  (In s (map (mk Fermion) (fermion_candidates cluster (filter (num_okb k) (seq 1 n)))) <->
   fermion_string k s /\ forall x, In x (os_labels s) -> In x cluster).
Proof.
  intros Hi Hn. rewrite in_map_iff. split.
  - intros (c & <- & Hc). apply fermion_cand_in in Hc; auto. destruct Hc as (f & b & p & -> & Hm & F1 & F2 & F3).
    apply filter_In in Hm. destruct Hm as [Hm Hk]. apply in_seq in Hm. apply num_okb_ok in Hk. split.
    + exists f, b, p. split; [reflexivity|]. split; auto. split; [intros ->; simpl in Hm; lia|]. split; auto.
      destruct F3 as [F3|(P & B1 & B2 & B3)]; auto.
    + intros x Hx. simpl in Hx. apply in_app_iff in Hx. destruct Hx as [Hx|Hx]; auto.
      destruct F3 as [[_ ->]|(P & B1 & B2 & B3)]; auto. apply in_rev in Hx. auto.
  - intros [(f & b & p & -> & F1 & F2 & F3 & F4) Hin]. cbn [os_labels] in Hin. exists (fermion_candidate p f b). split; [reflexivity|].
    apply fermion_cand_in; auto. exists f, b, p. split; auto.
    assert (If : forall x, In x f -> In x cluster) by (intros; apply Hin, in_or_app; auto).
    split.
    + apply filter_In. split; [|apply num_okb_ok; auto]. apply in_seq.
      assert (length f <= length cluster) by (apply NoDup_incl_length; auto; apply increasing_NoDup; auto).
      destruct f; [congruence|]. simpl in *. lia.
    + split; auto. split; auto. destruct F4 as [F4|(P & B1 & B3)]; auto. right. split; auto. split; auto. split; auto.
      intros; apply Hin, in_or_app; auto.
Qed.

(* ------------------------------------------------------ cluster_basis *)

Lemma local_nonempty ty k s : local_string ty k s -> os_labels s <> [].
Proof.
  destruct ty; simpl; [intros (_ & _ & H & _); auto | intros (_ & _ & H & _); auto|].
  intros (f & b & p & -> & _ & H & _). simpl. destruct f; [congruence | discriminate].
Qed.

Lemma cluster_ok k labels ty id : NoDup labels -> k_valid k ->
  exists b, cluster_basis k labels ty id = Ok b /\ basis_ok b /\
    (forall s, In s (b_strings b) <-> (id = true /\ s = identity_string ty) \/ (local_string ty k s /\ forall x, In x (os_labels s) -> In x labels)) /\
    NoDup (b_strings b) /\ (forall s, In s (b_strings b) -> std s) /\
    basis_len b = (if id then 1 else 0) + sum_nums k (length labels) (count_strings ty (length labels)).
Proof.
  intros Hn Hk. unfold cluster_basis. set (cl := stable_sort Z.ltb labels).
  assert (P : Permutation cl labels) by apply stable_sort_perm.
  assert (Hi : increasing cl) by (apply stable_sort_increasing; auto).
  assert (Hl : length cl = length labels) by (apply Permutation_length; auto).
  set (start := if id then [identity_string ty] else []).
  replace (if id then let! s := os_new [] [] ty in Ok [s] else Ok []) with (Ok start : res (list OS)) by (unfold start; destruct id, ty; reflexivity).
  cbn [rbind]. rewrite visited_ok by auto. cbn [rbind]. rewrite Hl. set (nums := filter (num_okb k) (seq 1 (length labels))).
  set (cands := match ty with Fermion => fermion_candidates cl nums | _ => spin_candidates ty cl nums end).
  assert (Nn : NoDup nums) by (apply NoDup_filter, seq_NoDup).
  assert (N1 : forall m, In m nums -> 1 <= m) by (intros m Hm; apply filter_In in Hm; destruct Hm as [Hm _]; apply in_seq in Hm; lia).
  assert (Cok : forall c, In c cands -> cand_ok ty c).
  { intros c Hc. unfold cands in Hc. destruct ty.
    - apply spin_cand_in in Hc; auto. destruct Hc as (Hp & _ & _ & _ & H & _). split; auto.
    - apply spin_cand_in in Hc; auto. destruct Hc as (Hp & _ & _ & _ & H & _). split; auto.
    - apply fermion_cand_in in Hc; auto. destruct Hc as (f & b & p & -> & _ & _ & _ & H). split.
      + simpl. rewrite !app_length, !repeat_length. auto.
      + simpl. destruct H as [[-> _]|([->| ->] & _)]; auto. }
  rewrite rmap_mk by auto. cbn [rbind]. set (strs := map (mk ty) cands).
  assert (Cin : forall s, In s strs <-> local_string ty k s /\ forall x, In x (os_labels s) -> In x labels).
  { intros s. assert (E : (forall x, In x (os_labels s) -> In x labels) <-> (forall x, In x (os_labels s) -> In x cl)).
    { split; intros H x Hx; [apply Permutation_sym in P|]; eapply Permutation_in; eauto. }
    rewrite E. unfold strs, cands, nums. destruct ty; [apply mk_spin | apply mk_spin | apply mk_fermion]; auto; discriminate. }
  assert (Cn : NoDup strs).
  { unfold strs. apply NoDup_map_inj.
    - intros x y Hx Hy E. unfold mk in E. injection E as E1 E2 E3. destruct x as [[o l] p], y as [[o' l'] p']. simpl in *. subst.
      f_equal. destruct ty; auto. apply Cok in Hx. apply Cok in Hy. destruct Hx as [_ [Hx|[Hx _]]]; [|discriminate]. destruct Hy as [_ [Hy|[Hy _]]]; [|discriminate].
      simpl in *. congruence.
    - unfold cands. destruct ty; [apply spin_cand_NoDup | apply spin_cand_NoDup | apply fermion_cand_NoDup]; auto. }
  assert (Sstd : forall s, In s (start ++ strs) -> std s).
  { intros s Hs. apply in_app_iff in Hs. destruct Hs as [Hs|Hs].
    - unfold start in Hs. destruct id; [destruct Hs as [<-|[]]; left; reflexivity | destruct Hs].
    - unfold strs in Hs. apply in_map_iff in Hs. destruct Hs as (c & <- & Hc). apply mk_std; auto. }
  assert (SN : NoDup (start ++ strs)).
  { apply NoDup_app2; auto.
    - unfold start. destruct id; repeat constructor; auto.
    - intros s H1 H2. unfold start in H1. destruct id; [|destruct H1]. destruct H1 as [<-|[]]. apply Cin in H2. destruct H2 as [H2 _].
      apply local_nonempty in H2. apply H2. reflexivity. }
  rewrite add_new_fold by auto.
  destruct (proj1 (basis_new_spec (start ++ strs)) (std_distinct _ Sstd SN)) as (b & Eb & Es & Hb).
  exists b. split; auto. split; auto. rewrite Es. split; [|split; auto; split; auto].
  - intros s. rewrite in_app_iff, Cin. unfold start. destruct id; simpl; intuition congruence.
  - unfold basis_len. rewrite Es, app_length. f_equal; [unfold start; destruct id; reflexivity|].
    unfold strs. rewrite map_length. rewrite <- sum_filter. fold nums. rewrite <- Hl. unfold cands.
    destruct ty; [apply spin_cand_length | apply spin_cand_length | apply fermion_cand_length]; discriminate.
Qed.

Lemma cluster_bad k labels ty id : ~ k_valid k -> cluster_basis k labels ty id = Err ValueError.
Proof.
  intros H. unfold cluster_basis.
  destruct id, ty; simpl; rewrite visited_bad; auto.
Qed.

