(** Lemmas about lattices: what [index] returns. *)
From Coq Require Import String List ZArith Bool Arith QArith Qcanon Lia.
From Verif Require Import GC Exn M_Basis M_Lattice S_Lattice L_Lattice1 L_Lattice2.
Import ListNotations.
Local Open Scope Qc_scope.

Lemma plus_padd p : forall q, plus p q = padd p q.
Proof. unfold plus. induction p as [|x p IH]; intros [|y q]; simpl; auto. rewrite IH. reflexivity. Qed.

Fixpoint zadd (z w : list Z) : list Z := match z, w with x :: z', y :: w' => (x + y)%Z :: zadd z' w' | _, _ => [] end.
Lemma zadd_length z : forall w, length z = length w -> length (zadd z w) = length z.
Proof. induction z as [|x z IH]; intros [|y w] H; simpl in *; try reflexivity; try discriminate. f_equal. apply IH. lia. Qed.
Lemma periods_length ns : forall m, length m = length ns -> length (periods ns m) = length ns.
Proof. induction ns as [|n ns IH]; intros [|x m] H; simpl in *; auto; try discriminate. Qed.
Lemma combo_zadd i : forall vs z w, length z = length w -> combo i (zadd z w) vs = combo i z vs + combo i w vs.
Proof.
  induction vs as [|v vs IH]; intros [|x z] [|y w] H; simpl in *; try discriminate; try ring.
  rewrite IH by lia. change (Q2Qc (inject_Z (x + y))) with (qz (x + y)). rewrite qz_add. unfold qz. ring.
Qed.
Lemma crystal_shift d vs ns z m a : length z = length ns -> length m = length ns -> 
  padd (crystal d vs z a) (shift d vs ns m) = crystal d vs (zadd z (periods ns m)) a.
Proof.
  intros Hz Hm. apply pvec_ext with d.
  - rewrite padd_length, shift_length, crystal_length. lia.
  - apply crystal_length.
  - intros i Hi. rewrite coord_padd by (rewrite shift_length, crystal_length; auto).
    rewrite !coord_crystal, coord_shift by auto. rewrite combo_zadd by (rewrite periods_length; lia). ring.
Qed.

(* --------------------------------------------------- meaning of index *)

Section Index.
Variables (show : pvec -> string) (d : nat) (uc : UnitCell) (ns : list Z) (per : list bool) (tol : Qc) (L : Lattice).
Hypothesis HS : cell_shape d uc.
Hypothesis Hns : length ns = d.
Hypothesis Hper : length per = d.
Hypothesis HL : lattice_new show uc ns (Some per) tol = Ok L.
Let vs := uc_vectors uc.
Let ats := atoms uc.

Lemma lat : l_cell L = uc /\ l_ncells L = ns /\ l_periodic L = per /\ l_tol L = tol /\
    l_orbitals L = all_orbitals d tol vs ats (cell_coords ns) /\
    dict_of show (l_orbitals L, l_indices L) /\ (exists t, l_bvecs L = pzero d :: t) /\
    forall b, In b (l_bvecs L) <-> exists m, length m = d /\ near_image per m /\ b = shift d vs ns m.
Proof.
  destruct (lattice_new_ok show d uc ns per tol HS Hns Hper) as (L' & t & E & H).
  rewrite HL in E. injection E as <-. destruct H as (H1 & H2 & H3 & H4 & H5 & H6 & H7 & H8).
  split; [exact H1|]. split; [exact H2|]. split; [exact H3|]. split; [exact H4|]. split; [exact H5|]. split; [exact H6|]. split; [eauto|exact H8].
Qed.

Lemma count_ok : l_len L = (num_cells ns * per_cell ats)%nat.
Proof. unfold l_len. destruct lat as (_ & _ & _ & _ & -> & _). apply all_length. Qed.

Lemma orbital_ok c j k a os name : in_cells ns c -> nth_error ats j = Some (a, os) -> nth_error os k = Some name ->
  nth_error (l_orbitals L) (label_of ns ats c j k) = Some (rounded tol (crystal d vs c a), name, c).
Proof. destruct lat as (_ & _ & _ & _ & -> & _). apply nth_label. Qed.
Lemma orbital_inv i o : nth_error (l_orbitals L) i = Some o ->
  exists c j k a os name, in_cells ns c /\ nth_error ats j = Some (a, os) /\ nth_error os k = Some name /\
    i = label_of ns ats c j k /\ o = (rounded tol (crystal d vs c a), name, c).
Proof. destruct lat as (_ & _ & _ & _ & -> & _). apply nth_label_inv. Qed.

Lemma dget_sound k i : dget key_eqb (l_indices L) k = Some i -> exists o, nth_error (l_orbitals L) i = Some o /\ okey show o = k.
Proof. destruct lat as (_ & _ & _ & _ & _ & [H _] & _). apply H. Qed.
Lemma dget_complete i o : nth_error (l_orbitals L) i = Some o -> dget key_eqb (l_indices L) (okey show o) <> None.
Proof. destruct lat as (_ & _ & _ & _ & _ & [_ H] & _). intros E. destruct (H _ _ E) as [j Hj]. simpl in Hj. rewrite Hj. discriminate. Qed.
Lemma bvec_iff b : In b (l_bvecs L) <-> exists m, length m = d /\ near_image per m /\ b = shift d vs ns m.
Proof. destruct lat as (_ & _ & _ & _ & _ & _ & _ & H). apply H. Qed.
Lemma tol_ok : l_tol L = tol.
Proof. destruct lat as (_ & _ & _ & H & _). exact H. Qed.

Lemma index_meaning p name :
  (l_index show L p name = (-1)%Z /\
     forall m o, length m = d -> near_image per m -> In o (l_orbitals L) -> ~ matches show tol (plus p (shift d vs ns m)) name o) \/
  (exists i o m, l_index show L p name = Z.of_nat i /\ nth_error (l_orbitals L) i = Some o /\
     length m = d /\ near_image per m /\ matches show tol (plus p (shift d vs ns m)) name o).
Proof.
  unfold l_index. destruct (index_range show L p name (l_bvecs L)) as [E|E].
  - left. split; auto. intros m o Hm Hi Ho [M1 M2].
    assert (Hb : In (shift d vs ns m) (l_bvecs L)) by (apply bvec_iff; eauto).
    pose proof (index_none_inv _ _ _ _ _ E _ Hb) as G. rewrite clean_rounded, tol_ok in G.
    apply In_nth_error in Ho. destruct Ho as [i Ho]. apply dget_complete in Ho. apply Ho.
    unfold okey. rewrite M1, M2, plus_padd. exact G.
  - right. apply index_sound in E. destruct E as (b & i & Hb & Ei & Ed). apply bvec_iff in Hb. destruct Hb as (m & Hm & Hn & ->).
    rewrite clean_rounded, tol_ok in Ed. apply dget_sound in Ed. destruct Ed as (o & Ho & Ek).
    exists i, o, m. repeat (split; auto). 
    + rewrite plus_padd. unfold okey in Ek. congruence.
    + unfold okey in Ek. congruence.
Qed.

Hypothesis Hnames : names_differ ats.

Lemma name_position j a os k k' name : nth_error ats j = Some (a, os) -> nth_error os k = Some name -> nth_error os k' = Some name -> k = k'.
Proof.
  intros H1 H2 H3. apply nth_error_In in H1. specialize (Hnames _ _ H1).
  apply (proj1 (NoDup_nth_error os) Hnames); [apply nth_error_Some|]; congruence.
Qed.

Lemma index_own B i p name c : (0 <= tol) -> told_apart show tol d vs ats B -> Forall (fun n => (n <= B)%Z) ns ->
  nth_error (l_orbitals L) i = Some (p, name, c) -> l_index show L p name = Z.of_nat i.
Proof.
  intros Ht HT HB E. destruct (orbital_inv _ _ E) as (c1 & j & k & a & os & nm & Hc & Ha & Hk & Hi & Ho).
  injection Ho as -> -> ->. unfold l_index. destruct lat as (_ & _ & _ & _ & _ & _ & (t & ->) & _).
  simpl. rewrite padd_zero by (rewrite rounded_length; apply crystal_length). rewrite clean_rounded, tol_ok, rounded_idem by auto.
  pose proof (dget_complete _ _ E) as G. unfold okey in G. simpl in G.
  destruct (dget key_eqb _ _) as [i'|] eqn:Ed; [|congruence]. f_equal. apply dget_sound in Ed. destruct Ed as (o & Ho & Ek).
  destruct (orbital_inv _ _ Ho) as (c2 & j2 & k2 & a2 & os2 & nm2 & Hc2 & Ha2 & Hk2 & Hi2 & Ho2). subst o.
  unfold okey in Ek. simpl in Ek. injection Ek as Ek ->.
  assert (bounded : forall c0, in_cells ns c0 -> Forall (fun x => (Z.abs x <= B)%Z) c0).
  { clear - HB. intros c0 H. induction H; constructor; inversion HB; subst; auto. lia. }
  destruct (HT c2 c1 j2 j a2 a os2 os nm) as [-> ->]; auto; try (eapply nth_error_In; eassumption);
    try (rewrite (in_cells_length ns); auto).
  rewrite Hi, Hi2. f_equal. rewrite Ha in Ha2. injection Ha2 as <- <-. eapply name_position; eauto.
Qed.

(* ------------------------------------------------ periodic boundaries *)

Lemma index_crystal B name z j k a os : told_apart show tol d vs ats B ->
  Forall2 (fun n x => (Z.abs x + n <= B)%Z) ns z ->
  nth_error ats j = Some (a, os) -> nth_error os k = Some name ->
  (wrapped ns per z -> l_index show L (crystal d vs z a) name = Z.of_nat (label_of ns ats (home ns z) j k)) /\
  (~ wrapped ns per z -> l_index show L (crystal d vs z a) name = (-1)%Z).
Proof.
  intros HT HB Ha Hk.
  assert (Lz : length z = length ns) by (clear - HB; induction HB; simpl; auto).
  assert (Hf : forall b i, In b (l_bvecs L) -> dget key_eqb (l_indices L) (show (clean (l_tol L) (padd (crystal d vs z a) b)), name) = Some i ->
     wrapped ns per z /\ i = label_of ns ats (home ns z) j k).
  { intros b i Hb Hd. apply bvec_iff in Hb. destruct Hb as (m & Hm & Hn & ->).
    rewrite crystal_shift in Hd by congruence. rewrite clean_rounded, tol_ok in Hd.
    apply dget_sound in Hd. destruct Hd as (o & Ho & Ek).
    destruct (orbital_inv _ _ Ho) as (c2 & j2 & k2 & a2 & os2 & nm2 & Hc2 & Ha2 & Hk2 & Hi2 & Ho2). subst o.
    unfold okey in Ek. simpl in Ek. injection Ek as Ek ->.
    assert (n0 : Forall (fun n => (0 < n)%Z) ns) by (clear - Hc2; induction Hc2; constructor; auto; lia).
    assert (HE : c2 = zadd z (periods ns m) /\ j2 = j).
    { eapply HT with (9 := Ek); eauto; try (eapply nth_error_In; eassumption).
      - rewrite (in_cells_length ns); auto.
      - rewrite zadd_length; rewrite ?periods_length; congruence.
      - clear - Hc2 HB. revert z HB. induction Hc2 as [|n x ns c Hx Hc IH]; intros z HB; constructor; inversion HB; subst; [lia|]. eauto.
      - destruct Hn as [_ Hn]. assert (Hm' : length m = length ns) by congruence. clear - HB Hn Hm' n0. revert m Hm' Hn.
        induction HB as [|n x ns z Hx HB IH]; intros [|y m] Hm Hn; simpl in *; try discriminate; constructor.
        + assert (Hy := Forall_inv Hn). assert (Hp := Forall_inv n0). simpl in Hy, Hp. nia.
        + apply IH; [exact (Forall_inv_tail n0)|lia|exact (Forall_inv_tail Hn)]. }
    destruct HE as [E1 ->]. rewrite Ha in Ha2. injection Ha2 as <- <-.
    rewrite (name_position _ _ _ _ _ _ Ha Hk Hk2).
    assert (W : wrapped ns per z /\ c2 = home ns z).
    { subst c2. clear - Hc2 Hn Hm Lz Hper Hns. assert (Hm' : length m = length ns) by congruence.
      assert (Hp' : length per = length ns) by congruence. clear Hm Hper Hns.
      revert per m z Hm' Hp' Lz Hn Hc2. induction ns as [|n ns' IH]; intros [|p per'] [|y m] [|x z] Hm Hp Hz [Hi Hn] Hc; try discriminate; cbn [wrapped home periods zadd image length in_cells] in *; auto.
      destruct Hi as [Hy Hi]. inversion Hc as [|? ? ? ? Hx Hc']; subst.
      destruct (IH per' m z) as [W1 W2]; try lia; auto; [split; [auto|exact (Forall_inv_tail Hn)]|].
      assert (Hy1 := Forall_inv Hn). simpl in Hy1. split.
      - split; auto. destruct p; [assert (Yc : y = (-1)%Z \/ y = 0%Z \/ y = 1%Z) by lia; destruct Yc as [Yc|[Yc|Yc]]; rewrite Yc in Hx; lia|]. rewrite Hy in Hx by auto. lia.
      - f_equal; auto. apply Z.mod_unique with (- y)%Z; [lia|nia]. }
    destruct W as [W1 W2]. subst c2. rewrite <- W2. auto. }
  split; intros HW; unfold l_index.
  - apply index_found; [intros b i Hb Hd; apply (Hf b i Hb Hd)|].
    assert (M : exists m, length m = length ns /\ near_image per m /\ zadd z (periods ns m) = home ns z /\ in_cells ns (home ns z)).
    { clear - HW Lz Hper Hns. assert (Hp : length per = length ns) by congruence. clear Hper Hns. revert per z Hp Lz HW.
      induction ns as [|n ns' IH]; intros [|p per'] [|x z] Hp Lz HW; try discriminate; cbn [wrapped home periods zadd image length in_cells] in *.
      - exists []. split; auto. split; [split; [exact I|constructor]|]. split; auto. constructor.
      - destruct HW as [Hx HW]. destruct (IH per' z) as (m & M1 & M2 & M3 & M4); auto.
        assert (Y : exists y, (-1 <= y <= 1)%Z /\ (p = false -> y = 0%Z) /\ (x + y * n = x mod n)%Z /\ (0 <= x mod n < n)%Z).
        { destruct p.
          - assert (Hn : (0 < n)%Z) by lia. pose proof (Z.mod_pos_bound x n Hn) as Hb.
            pose proof (Z.div_mod x n) as Hd. exists (- (x / n))%Z. split; [|split; [discriminate|split; [|auto]]]; nia.
          - exists 0%Z. rewrite Z.mod_small by lia. split; [lia|]. split; auto. split; lia. }
        destruct Y as (y & Y1 & Y2 & Y3 & Y4). exists (y :: m). split; [simpl; congruence|].
        split; [split; [split; [auto|apply M2]|constructor; [auto|apply M2]]|]. split; [simpl; congruence|]. constructor; auto. }
    destruct M as (m & M1 & M2 & M3 & M4). exists (shift d vs ns m). split; [apply bvec_iff; exists m; split; [congruence|auto]|].
    rewrite crystal_shift by congruence. rewrite M3, clean_rounded, tol_ok.
    pose proof (orbital_ok _ _ _ _ _ _ M4 Ha Hk) as G. apply dget_complete in G. exact G.
  - apply index_none. intros b Hb. destruct (dget _ _ _) as [i|] eqn:E; auto. destruct (Hf b i Hb E). contradiction.
Qed.
End Index.
