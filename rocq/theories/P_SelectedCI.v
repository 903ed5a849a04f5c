(** Property C105: the earlier searches of algorithms.py never find an Operator. *)
From Coq Require Import String List ZArith Bool Arith Lia QArith Qcanon.
From Verif Require Import GC Exn M_OpString M_Algebra M_Basis M_OpAlg M_Explore M_SelectedCI
  S_Alg S_Den S_Basis S_Built S_OpAlg S_Explore S_Fock S_SelectedCI
  L_Alg L_StrAlg L_StrOp L_Indep L_PropStr L_Basis L_Operator L_Heap L_PropBasis L_OpAlg L_Struct L_PropOpAlg L_Explore L_Explore2 L_Explore3 L_Explore4
  L_Fock L_Lie L_Greedy1 P_OpAlg P_Explore.
Import ListNotations.
Local Open Scope nat_scope.
Local Open Scope alg_scope.

Section Steps.
  Variable ty : optype.
  Hypothesis Hty : ty <> Fermion.
  Variable H : Operator.
  Hypothesis HH : std_op ty H.

  Lemma commutes_iff s t u : string_ok ty s -> string_ok ty t -> ((exists k, operation_opstring MCommutator s t = Ok (k, Some u)) <-> commutes_to ty s t u).
  Proof.
    intros Hs Ht. destruct (mode_spec ty MCommutator s t Hty Hs Ht) as (c & oc & R). rewrite (mr_run _ _ _ _ _ _ R). split.
    - intros (k & E). injection E as <- ->. destruct (mr_some _ _ _ _ _ _ R u eq_refl) as ((k & _ & Hk & Hc) & Hu & Hcu & _).
      split; auto. split; auto. exists c. split; [|intros A g Hr; apply (mr_den _ _ _ _ _ _ R A g Hr)].
      destruct Hk as [<-|[<-|[<-|[<-|[]]]]]; destruct Hc as [-> | ->]; intros F; vm_compute in F; discriminate.
    - intros (Hu & Hcu & d & Hd & Du). pose proof (fock_rep ty Hty) as Hr. pose proof (mr_den _ _ _ _ _ _ R Fock fock_gen Hr) as D1.
      pose proof (Du Fock fock_gen Hr) as D2. exists c. do 2 f_equal. destruct oc as [w|].
      + destruct (mr_some _ _ _ _ _ _ R w eq_refl) as (_ & Hw & Hcw & _). f_equal. symmetry.
        apply (multiple_unique ty fock_gen d c u w Hr fock_nontrivial); auto. rewrite <- D2. exact D1.
      + exfalso. apply Hd. destruct (multiple_unique ty fock_gen d g0 u u Hr fock_nontrivial) as [E _]; auto.
        rewrite <- D2, D1. symmetry. apply ascal_0.
  Qed.
  Definition near (a : option (list Z)) (t : OS) : Prop := match a with None => True | Some ls => touches ls t end.
  Lemma terms_near_in a t : In t (map snd (terms_near a H)) <-> In t (b_strings (o_basis H)) /\ near a t.
  Proof.
    assert (E : b_strings (o_basis H) = map snd (op_terms H)).
    { destruct HH as [(Hm & _ & _) _]. apply made_ok in Hm. unfold op_terms. rewrite map_snd_combine; auto. apply Hm. }
    rewrite E. unfold terms_near. rewrite !in_map_iff. split.
    - intros (p & <- & Hp). apply filter_In in Hp. destruct Hp as [Hp Ha]. split; [exists p; auto|]. destruct a as [ls|]; cbn; auto.
      apply existsb_exists in Ha. destruct Ha as (l & H1 & H2). exists l. split; auto. destruct (in_dec Z.eq_dec l ls); congruence.
    - intros [(p & <- & Hp) Ha]. exists p. split; auto. apply filter_In. split; auto. destruct a as [ls|]; auto. destruct Ha as (l & H1 & H2).
      apply existsb_exists. exists l. split; auto. destruct (in_dec Z.eq_dec l ls); congruence.
  Qed.
  Lemma canonical_is_std b : canonical_basis ty b -> std_basis ty b.
  Proof. intros [H1 H2]. split; [split; auto; intros s Hs; apply H2; auto|]. intros s Hs. apply canonical_std, H2; auto. Qed.
  Lemma explore_steps a b x : explored ty H x -> std_basis ty b ->
    exists L e x', explore b H x a = Ok (L, e, x') /\ explored ty H x' /\ std_basis ty e /\
      forall u, In u (b_strings e) <-> exists s t, In s (b_strings b) /\ In t (b_strings (o_basis H)) /\ near a t /\ commutes_to ty s t u.
  Proof.
    intros Hx Hb. destruct (C60_explore ty H x b a Hty HH Hx Hb) as (L & e & x' & E & Hx' & HC & _ & _ & HI & _).
    exists L, e, x'. split; auto. split; auto. split; [apply canonical_is_std; auto|]. intros u. rewrite HI. split.
    - intros (s & t & k & Hs & Ht & Ek). exists s, (snd t). assert (K : In (snd t) (map snd (terms_near a H))) by (apply in_map; auto).
      apply terms_near_in in K. destruct K as [K1 K2]. split; auto. split; auto. split; auto. apply commutes_iff; eauto; [apply Hb; auto | apply HH; auto].
    - intros (s & t & Hs & Ht & Ha & Hc). assert (K : In t (map snd (terms_near a H))) by (apply terms_near_in; auto). apply in_map_iff in K. destruct K as (p & <- & Hp).
      apply commutes_iff in Hc; [|apply Hb; auto | apply HH; auto]. destruct Hc as (k & Ek). exists s, p, k. auto.
  Qed.
  Lemma explore_twice a1 a2 b x : explored ty H x -> std_basis ty b ->
    exists L1 e1 x1 L2 e2 x2, explore b H x a1 = Ok (L1, e1, x1) /\ explore e1 H x1 a2 = Ok (L2, e2, x2) /\ explored ty H x2 /\ std_basis ty e2 /\
      forall u, In u (b_strings e2) <-> two_steps ty H (near a1) (near a2) (b_strings b) u.
  Proof.
    intros Hx Hb. destruct (explore_steps a1 b x Hx Hb) as (L1 & e1 & x1 & E1 & Hx1 & He1 & I1).
    destruct (explore_steps a2 e1 x1 Hx1 He1) as (L2 & e2 & x2 & E2 & Hx2 & He2 & I2). exists L1, e1, x1, L2, e2, x2. do 4 (split; auto).
    intros u. rewrite I2. split.
    - intros (e & t2 & K1 & K2 & K3 & K4). apply I1 in K1. destruct K1 as (s & t1 & J1 & J2 & J3 & J4). exists s, t1, e, t2. auto 10.
    - intros (s & t1 & e & t2 & J1 & J2 & J3 & J4 & J5 & J6 & J7). exists e, t2. split; [apply I1; exists s, t1|]; auto.
  Qed.

  Lemma mem_std b s : std_basis ty b -> std s -> (basis_mem b s = true <-> In s (b_strings b)).
  Proof.
    intros Hb Hs. rewrite basis_ok_mem by (apply built_ok, Hb). split; [|intros K; exists s; split; [auto | apply same_key_refl]].
    intros (t & Ht & K). apply std_key in K; [subst; auto | apply Hb; auto | auto].
  Qed.
  Lemma in_dec_std b s : std_basis ty b -> std s -> In s (b_strings b) \/ ~ In s (b_strings b).
  Proof. intros Hb Hs. rewrite <- (mem_std b s Hb Hs). destruct (basis_mem b s); [left | right]; congruence. Qed.
  Lemma iadd_nothing b e : (forall u, In u (b_strings e) -> basis_mem b u = true) -> basis_iadd b e = b.
  Proof.
    unfold basis_iadd. intros K. induction (b_strings e) as [|u l IH]; cbn [iadd_loop]; auto. rewrite K by (left; auto). apply IH. intros v Hv. apply K. right; auto.
  Qed.
  Lemma iadd_std b e : std_basis ty b -> std_basis ty e -> std_basis ty (basis_iadd b e).
  Proof.
    intros Hb He. apply std_basis_ok in Hb. apply std_basis_ok in He. apply std_basis_ok. destruct (basis_iadd_ok b e (proj1 Hb)) as [K1 K2]. split; auto.
    intros s Hs. destruct (append_new_in _ _ _ K2 s Hs); [apply Hb | apply He]; auto.
  Qed.
  Lemma same_set_iadd b e : std_basis ty b -> std_basis ty e ->
    (same_set (basis_iadd b e) b = true <-> forall u, In u (b_strings e) -> In u (b_strings b)).
  Proof.
    intros Hb He. pose proof (iadd_std b e Hb He) as Hi. destruct (basis_iadd_ok b e (built_ok _ (proj1 (proj1 Hb)))) as [_ Ha]. unfold same_set. rewrite andb_true_iff, !forallb_forall. split.
    - intros [K _] u Hu. destruct (append_new_right _ _ _ Ha u Hu) as (v & Hv & Kv). apply std_key in Kv; [|apply Hi; auto|apply He; auto]. subst v.
      apply mem_std; auto. apply He; auto.
    - intros K. rewrite iadd_nothing by (intros u Hu; apply mem_std; auto; apply He; auto).
      split; intros u Hu; apply mem_std; auto; apply Hb; auto.
  Qed.
  Lemma terms_nonempty s : In s (b_strings (o_basis H)) -> exists t l, op_terms H = t :: l.
  Proof.
    intros Hs. destruct (op_terms H) as [|t l] eqn:E; eauto. destruct HH as [(Hm & _ & _) _]. apply made_ok in Hm. unfold op_terms in E.
    destruct Hm as (_ & Hl & _). destruct (b_strings (o_basis H)); [destruct Hs|]. unfold basis_len in Hl. destruct (o_coeffs H); discriminate.
  Qed.
End Steps.

Lemma start_std ty o : std_op ty o -> basis_iadd basis_empty (o_basis o) = o_basis o /\ std_basis ty (o_basis o).
Proof.
  intros [(Hm & _ & Hs) Hd]. apply made_ok in Hm. destruct Hm as (Hb & _). split; [apply basis_iadd_empty; auto|]. apply std_basis_ok. split; auto. intros s K. split; auto.
Qed.

(** C105: [selected_ci_simple] returns the initial Operator if no steps are asked for, and raises
    NameError otherwise. *)
Theorem C105_simple : forall ty H init n, ty <> Fermion -> std_op ty H -> std_op ty init ->
  selected_ci_simple init H n = match n with 0 => Ok (init, None, [], []) | S _ => Err NameError end.
Proof.
  intros ty H init [|n] Hty HH Hi; [reflexivity|]. cbn [selected_ci_simple]. destruct (start_std ty init Hi) as [-> Hb]. destruct (start_std ty H HH) as [_ HHb]. unfold simple_step.
  assert (T0 : (0 <= tol16)%Qc) by (apply Qclt_le_weak; reflexivity). assert (T1 : (tol16 <= 1)%Qc) by (apply Qclt_le_weak; reflexivity).
  destruct (C15_structure_constants ty MCommutator tol16 (o_basis init) (o_basis H) Hty T0 T1 (proj1 Hb) (proj1 HHb)) as (N1 & e1 & -> & _ & C1 & _). cbn [rbind].
  pose proof (iadd_std ty _ _ Hb (canonical_is_std ty _ C1)) as Hb1.
  destruct (C15_structure_constants ty MCommutator tol16 _ (o_basis H) Hty T0 T1 (proj1 Hb1) (proj1 HHb)) as (N2 & e2 & -> & _). reflexivity.
Qed.
Print Assumptions C105_simple.

(** [selected_ci] returns the initial Operator, with infinite norm and nothing recorded, if no
    steps are asked for or if the strings of the initial Operator are closed under commuting
    twice with strings of H.  Otherwise it raises IndexError. *)
Theorem C105_selected_ci : forall ty H init n x, ty <> Fermion -> std_op ty H -> std_op ty init -> explored ty H x ->
  let new u := two_steps ty H (fun _ => True) (fun _ => True) (b_strings (o_basis init)) u /\ ~ In u (b_strings (o_basis init)) in
  (n = 0 \/ (forall u, ~ new u) -> selected_ci init H n x = Ok (init, None, [], [])) /\
  (n <> 0 -> (exists u, new u) -> selected_ci init H n x = Err IndexError).
Proof.
  intros ty H init n x Hty HH Hi Hx new. destruct n as [|n]; [split; [reflexivity | congruence]|]. cbn [selected_ci].
  destruct (start_std ty init Hi) as [Es Hb]. rewrite Es.
  destruct (explore_twice ty Hty H HH None None (o_basis init) x Hx Hb) as (L1 & e1 & x1 & L2 & e2 & x2 & E1 & E2 & Hx2 & He2 & I2).
  rewrite E1. cbn [rbind]. rewrite E2. cbn [rbind]. pose proof (same_set_iadd ty (o_basis init) e2 Hb He2) as Hss.
  destruct (same_set (basis_iadd (o_basis init) e2) (o_basis init)) eqn:Es2; split.
  - reflexivity.
  - intros _ (u & U1 & U2). exfalso. apply U2, Hss; auto. apply I2. exact U1.
  - intros [F|F]; [discriminate|]. exfalso. assert (K : false = true) by (apply Hss; intros u Hu; destruct (in_dec_std ty (o_basis init) u Hb (proj2 He2 u Hu)) as [|N]; auto; exfalso; apply (F u); split; auto; apply I2; auto). discriminate.
  - intros _ (u & (s & t1 & e & t2 & J1 & J2 & _) & _). destruct (explore_steps ty Hty H HH None _ x2 Hx2 (iadd_std ty _ _ Hb He2)) as (L & e3 & x3 & E3 & _).
    rewrite E3. cbn [rbind]. unfold l_matrix_of_matrix. destruct (terms_nonempty ty H HH t1 J2) as (t & l & ->). reflexivity.
Qed.
Print Assumptions C105_selected_ci.

Lemma np_max_spec l : match np_max l with Ok m => In m l /\ forall i, In i l -> (i <= m)%Z | Err e => e = ValueError /\ l = [] end.
Proof.
  destruct l as [|a l]; cbn [np_max]; [auto|]. revert a. induction l as [|b l IH]; intros a; cbn [fold_left]; [split; [left; auto|]; intros i [<-|[]]; lia|].
  destruct (IH (Z.max a b)) as [I1 I2]. split.
  - destruct I1 as [I1|I1]; [|right; right; auto]. destruct (Z.max_spec a b) as [[_ E]|[_ E]]; rewrite E in I1 at 1; [right; left | left]; congruence.
  - intros i [<-|[<-|Hi]]; [| |apply I2; right; auto]; specialize (I2 _ (or_introl eq_refl)); lia.
Qed.
Lemma np_min_spec l : match np_min l with Ok m => In m l /\ forall i, In i l -> (m <= i)%Z | Err e => e = ValueError /\ l = [] end.
Proof.
  destruct l as [|a l]; cbn [np_min]; [auto|]. revert a. induction l as [|b l IH]; intros a; cbn [fold_left]; [split; [left; auto|]; intros i [<-|[]]; lia|].
  destruct (IH (Z.min a b)) as [I1 I2]. split.
  - destruct I1 as [I1|I1]; [|right; right; auto]. destruct (Z.min_spec a b) as [[_ E]|[_ E]]; rewrite E in I1 at 1; [left | right; left]; congruence.
  - intros i [<-|[<-|Hi]]; [| |apply I2; right; auto]; specialize (I2 _ (or_introl eq_refl)); lia.
Qed.
Lemma all_labels_in b i : In i (all_labels b) <-> exists s, In s (b_strings b) /\ In i (os_labels s).
Proof. unfold all_labels. apply in_flat_map. Qed.

(** [selected_ci_greedy_simple] also raises in its first step. *)
Theorem C105_greedy_simple : forall ty H init n x, ty <> Fermion -> std_op ty H -> std_op ty init -> explored ty H x ->
  selected_ci_greedy_simple init H n x =
    if forallb (fun s => match os_labels s with [] => true | _ => false end) (b_strings (o_basis H)) then Err ValueError
    else match n with 0 => Ok (init, None, [], []) | S _ => Err IndexError end.
Proof.
  intros ty H init n x Hty HH Hi Hx. unfold selected_ci_greedy_simple. pose proof (np_max_spec (all_labels (o_basis H))) as M.
  destruct (np_max (all_labels (o_basis H))) as [m|e]; cbn [rbind].
  - destruct M as [M _]. apply all_labels_in in M. destruct M as (s & S1 & S2).
    replace (forallb _ _) with false.
    2:{ symmetry. apply not_true_is_false. intros F. rewrite forallb_forall in F. specialize (F s S1). destruct (os_labels s); [destruct S2 | discriminate]. }
    destruct n as [|n]; [reflexivity|]. destruct (start_std ty init Hi) as [-> Hb].
    destruct (explore_steps ty Hty H HH None _ x Hx Hb) as (L & e3 & x3 & E3 & _). rewrite E3. cbn [rbind].
    unfold l_matrix_of_matrix. destruct (terms_nonempty ty H HH s S1) as (t & l & ->). reflexivity.
  - destruct M as [-> M]. replace (forallb _ _) with true; [reflexivity|]. symmetry. apply forallb_forall. intros s Hs. destruct (os_labels s) as [|a l] eqn:El; auto.
    exfalso. assert (K : In a (all_labels (o_basis H))) by (apply all_labels_in; exists s; rewrite El; split; [|left]; auto). rewrite M in K. destruct K.
Qed.
Print Assumptions C105_greedy_simple.

Section Sweep.
  Variable ty : optype.
  Hypothesis Hty : ty <> Fermion.
  Variable H : Operator.
  Hypothesis HH : std_op ty H.
  Variable b : Basis.
  Hypothesis Hb : std_basis ty b.
  Variable m : Z.

  Definition sites1 (i : Z) : list Z := [i; Z.min (i + 1) m].
  Definition sites2 (i : Z) : list Z := [Z.max 0 (i - 1); i; Z.min (i + 1) m; Z.min (i + 2) m].
  Definition new_at (i : Z) (u : OS) : Prop := two_steps ty H (touches (sites1 i)) (touches (sites2 i)) (b_strings b) u /\ ~ In u (b_strings b).

  Lemma site_ok x i : explored ty H x -> (exists u, new_at i u) /\ sweep_site H None m b (b, x) i = Err IndexError \/
    (forall u, ~ new_at i u) /\ exists x', explored ty H x' /\ sweep_site H None m b (b, x) i = Ok (b, x').
  Proof.
    intros Hx. unfold sweep_site.
    destruct (explore_twice ty Hty H HH (Some (sites1 i)) (Some (sites2 i)) b x Hx Hb) as (L1 & e1 & x1 & L2 & e2 & x2 & E1 & E2 & Hx2 & He2 & I2).
    unfold sites1, sites2 in *. rewrite E1. cbn [rbind]. rewrite E2. cbn [rbind]. pose proof (same_set_iadd ty b e2 Hb He2) as Hss.
    destruct (same_set (basis_iadd b e2) b) eqn:Es2.
    - right. pose proof (proj1 Hss eq_refl) as K. split; [intros u [U1 U2]; apply U2, K, I2; auto|]. exists x2. split; auto. rewrite iadd_nothing; auto.
      intros u Hu. apply (mem_std ty); auto. apply He2; auto.
    - left. assert (N : exists u, In u (b_strings e2) /\ ~ In u (b_strings b)).
      { destruct (forallb (basis_mem b) (b_strings e2)) eqn:Ef.
        - exfalso. assert (K : false = true); [|discriminate]. apply Hss. intros u Hu. rewrite forallb_forall in Ef. apply (mem_std ty); auto. apply He2; auto.
        - apply not_true_iff_false in Ef. destruct (existsb (fun u => negb (basis_mem b u)) (b_strings e2)) eqn:Ex.
          + apply existsb_exists in Ex. destruct Ex as (u & U1 & U2). exists u. split; auto. rewrite <- (mem_std ty b u Hb (proj2 He2 u U1)). destruct (basis_mem b u); discriminate.
          + exfalso. apply Ef, forallb_forall. intros u Hu. destruct (basis_mem b u) eqn:Eu; auto. exfalso. apply not_true_iff_false in Ex. apply Ex, existsb_exists. exists u. rewrite Eu. auto. }
      destruct N as (u & N1 & N2). apply I2 in N1. split; [exists u; split; auto|]. destruct N1 as (s & t1 & e & t2 & J1 & J2 & _).
      destruct (explore_steps ty Hty H HH None _ x2 Hx2 (iadd_std ty _ _ Hb He2)) as (L & e3 & x3 & E3 & _).
      rewrite E3. cbn [rbind]. unfold l_matrix_of_matrix. destruct (terms_nonempty ty H HH t1 J2) as (t & l & ->). reflexivity.
  Qed.
  Lemma sites_ok : forall sites x, explored ty H x -> (exists i u, In i sites /\ new_at i u) /\ rfold (sweep_site H None m b) sites (b, x) = Err IndexError \/
    (forall i u, In i sites -> ~ new_at i u) /\ exists x', explored ty H x' /\ rfold (sweep_site H None m b) sites (b, x) = Ok (b, x').
  Proof.
    induction sites as [|i sites IH]; intros x Hx; cbn [rfold].
    - right. split; [intros i u []|]. exists x; auto.
    - destruct (site_ok x i Hx) as [[(u & U) ->]|[U (x' & Hx' & ->)]]; cbn [rbind].
      + left. split; auto. exists i, u. split; [left|]; auto.
      + destruct (IH x' Hx') as [[(j & u & U1 & U2) ->]|[U2 (x2 & Hx2 & ->)]].
        * left. split; auto. exists j, u. split; [right|]; auto.
        * right. split; [|eauto]. intros j u [<-|Hj]; auto.
  Qed.
  Lemma once_ok up x : explored ty H x -> (exists i, In i (all_labels b)) ->
    (exists i u, between_labels (b_strings b) i /\ new_at i u) /\ sweep_once H None m b up (b, x) = Err IndexError \/
    (forall i u, between_labels (b_strings b) i -> ~ new_at i u) /\ exists x', explored ty H x' /\ sweep_once H None m b up (b, x) = Ok (b, x').
  Proof.
    intros Hx Hl. unfold sweep_once. cbn [fst]. pose proof (np_min_spec (all_labels b)) as M0. pose proof (np_max_spec (all_labels b)) as M1.
    destruct (np_min (all_labels b)) as [i0|]; [|destruct M0 as [_ M0]; rewrite M0 in Hl; destruct Hl as (? & [])].
    destruct (np_max (all_labels b)) as [i1|]; [|destruct M1 as [_ M1]; rewrite M1 in Hl; destruct Hl as (? & [])]. cbn [rbind].
    set (sites := map _ _).
    assert (B : forall i, In i (if up then sites else rev sites) <-> between_labels (b_strings b) i).
    { intros i. assert (B1 : In i sites <-> (i0 <= i <= i1)%Z).
      { unfold sites. rewrite in_map_iff. split.
        - intros (k & <- & Hk). apply in_seq in Hk. lia.
        - intros K. exists (Z.to_nat (i - i0)). split; [lia|]. apply in_seq. lia. }
      transitivity (In i sites); [destruct up; [reflexivity | symmetry; apply in_rev]|]. rewrite B1. destruct M0 as [M0 M0'], M1 as [M1 M1']. split.
      - intros K. apply all_labels_in in M0. destruct M0 as (s & S1 & S2). apply all_labels_in in M1. destruct M1 as (t & T1 & T2). exists s, t, i0, i1. auto 10.
      - intros (s & t & a & c & S1 & S2 & T1 & T2 & K). assert (In a (all_labels b)) by (apply all_labels_in; eauto). assert (In c (all_labels b)) by (apply all_labels_in; eauto).
        pose proof (M0' a ltac:(assumption)). pose proof (M1' c ltac:(assumption)). lia. }
    destruct (sites_ok (if up then sites else rev sites) x Hx) as [[(i & u & U1 & U2) K]|[U K]]; [left|right]; split; auto.
    - exists i, u. split; auto. apply B; auto.
    - intros i u Hi. apply U, B; auto.
  Qed.
  Lemma sweeps_ok : forall n up x, explored ty H x -> (exists i, In i (all_labels b)) -> (forall i u, between_labels (b_strings b) i -> ~ new_at i u) ->
    exists acc, sweeps H None m b n up (b, x) = Ok acc.
  Proof.
    induction n as [|n IH]; intros up x Hx Hl HN; cbn [sweeps]; [eauto|].
    destruct (once_ok up x Hx Hl) as [[(i & u & U1 & U2) _]|[_ (x' & Hx' & ->)]]; [exfalso; eapply HN; eauto|]. cbn [rbind]. apply IH; auto.
  Qed.
End Sweep.

(** [selected_ci_sweep] returns only what it was given, whatever the optional arguments are.
    Without pre_filter_fun, it raises IndexError in the first sweep if a new string can be reached at a
    site by commuting twice with strings of H near that site. *)
Theorem C105_sweep : forall H init n pre x r, selected_ci_sweep init H n pre x = Ok r -> r = (init, None, [], []).
Proof.
  intros H init n pre x r E. unfold selected_ci_sweep in E. destruct (np_max _); [|discriminate]. cbn [rbind] in E.
  destruct (sweeps _ _ _ _ _ _ _); [|discriminate]. injection E as <-. reflexivity.
Qed.
Print Assumptions C105_sweep.
Theorem C105_sweep_raises : forall ty H init n x m i0, ty <> Fermion -> std_op ty H -> std_op ty init -> explored ty H x ->
  largest_label (b_strings (o_basis H)) m -> between_labels (b_strings (o_basis init)) i0 ->
  let new u := exists i, between_labels (b_strings (o_basis init)) i /\ ~ In u (b_strings (o_basis init)) /\
    two_steps ty H (touches [i; Z.min (i + 1) m]) (touches [Z.max 0 (i - 1); i; Z.min (i + 1) m; Z.min (i + 2) m]) (b_strings (o_basis init)) u in
  (n = 0 \/ (forall u, ~ new u) -> selected_ci_sweep init H n None x = Ok (init, None, [], [])) /\
  (n <> 0 -> (exists u, new u) -> selected_ci_sweep init H n None x = Err IndexError).
Proof.
  intros ty H init n x m i0 Hty HH Hi Hx Hm (s & t & a & c & S1 & S2 & _) new. unfold selected_ci_sweep. destruct (start_std ty init Hi) as [-> Hb].
  assert (Hl : exists i, In i (all_labels (o_basis init))) by (exists a; apply all_labels_in; eauto).
  assert (E : np_max (all_labels (o_basis H)) = Ok m).
  { pose proof (np_max_spec (all_labels (o_basis H))) as M. destruct Hm as [(s' & M1 & M2) M3]. assert (Hin : In m (all_labels (o_basis H))) by (apply all_labels_in; eauto).
    destruct (np_max _) as [k|]; [|destruct M as [_ M]; rewrite M in Hin; destruct Hin]. destruct M as [M4 M5]. f_equal.
    apply all_labels_in in M4. destruct M4 as (s'' & M4 & M6). specialize (M3 _ _ M4 M6). specialize (M5 m Hin). lia. }
  rewrite E. cbn [rbind]. split.
  - intros [-> | HN]; [reflexivity|]. destruct (sweeps_ok ty Hty H HH _ Hb m n true x Hx Hl) as (acc & ->); [|reflexivity].
    intros i u B [U1 U2]. apply (HN u). exists i. auto.
  - intros Hn (u & i & U1 & U2 & U3). destruct n as [|n]; [congruence|]. cbn [sweeps].
    destruct (once_ok ty Hty H HH _ Hb m true x Hx Hl) as [[_ ->]|[U _]]; [reflexivity|]. exfalso. apply (U i u U1). split; auto.
Qed.
Print Assumptions C105_sweep_raises.

(** H = X_1 + Z_1, starting from X_1: Z_1 is new.  H = Z_1, starting from X_1: nothing is new. *)
Definition sc_init : Operator := mkOperator [g1] (mkBasis [sX1] [(sX1, 0)]) Pauli.
Definition sc_H : Operator := mkOperator [g1; g1] (mkBasis [sX1; sZ1] [(sX1, 0); (sZ1, 1)]) Pauli.
Definition sc_Z : Operator := mkOperator [g1] (mkBasis [sZ1] [(sZ1, 0)]) Pauli.
Lemma sc_std : std_op Pauli sc_init /\ std_op Pauli sc_H /\ std_op Pauli sc_Z.
Proof.
  split; [|split]; (split; [|intros s Hs; cbn in Hs; repeat destruct Hs as [<-|Hs]; try destruct Hs; left; reflexivity]).
  - apply (good_op_intro Pauli [g1] [sX1]); try reflexivity. intros s [<-|[]]; apply ok_X1.
  - apply (good_op_intro Pauli [g1; g1] [sX1; sZ1]); try reflexivity. intros s [<-|[<-|[]]]; [apply ok_X1 | apply ok_Z1].
  - apply (good_op_intro Pauli [g1] [sZ1]); try reflexivity. intros s [<-|[]]; apply ok_Z1.
Qed.
Lemma sc_step s t u k : string_ok Pauli s -> string_ok Pauli t -> operation_opstring MCommutator s t = Ok (k, Some u) -> commutes_to Pauli s t u.
Proof. intros Hs Ht E. apply (commutes_iff Pauli ltac:(discriminate)); eauto. Qed.
Example C105_example : std_op Pauli sc_init /\ std_op Pauli sc_H /\ std_op Pauli sc_Z /\ explored Pauli sc_H cache_empty /\
  two_steps Pauli sc_H (fun _ => True) (fun _ => True) (b_strings (o_basis sc_init)) sZ1 /\ ~ In sZ1 (b_strings (o_basis sc_init)) /\
  two_steps Pauli sc_H (touches [1%Z; Z.min (1 + 1) 1]) (touches [Z.max 0 (1 - 1); 1%Z; Z.min (1 + 1) 1; Z.min (1 + 2) 1]) (b_strings (o_basis sc_init)) sZ1 /\
  largest_label (b_strings (o_basis sc_H)) 1 /\ between_labels (b_strings (o_basis sc_init)) 1 /\
  selected_ci sc_init sc_H 3 cache_empty = Err IndexError /\ selected_ci_sweep sc_init sc_H 3 None cache_empty = Err IndexError /\
  selected_ci_greedy_simple sc_init sc_H 3 cache_empty = Err IndexError /\ selected_ci_simple sc_init sc_H 3 = Err NameError /\
  selected_ci sc_init sc_Z 3 cache_empty = Ok (sc_init, None, [], []) /\ selected_ci_sweep sc_init sc_Z 3 None cache_empty = Ok (sc_init, None, [], []).
Proof.
  destruct sc_std as (S1 & S2 & S3). split; auto. split; auto. split; auto. split; [constructor|].
  assert (C1 : commutes_to Pauli sX1 sZ1 sY1) by (eapply sc_step; [apply ok_X1 | apply ok_Z1 | vm_compute; reflexivity]).
  assert (C2 : commutes_to Pauli sY1 sX1 sZ1) by (eapply sc_step; [apply ok_Y1 | apply ok_X1 | vm_compute; reflexivity]).
  split; [exists sX1, sZ1, sY1, sX1; cbn; auto 10|]. split; [intros [F|[]]; discriminate|].
  split; [exists sX1, sZ1, sY1, sX1; cbn; repeat (split; auto 10; try (exists 1%Z; cbn; auto))|].
  split; [split; [exists sX1; cbn; auto|]; intros s i [<-|[<-|[]]] [<-|[]]; lia|].
  split; [exists sX1, sX1, 1%Z, 1%Z; cbn; repeat (split; auto); lia|].
  split; [vm_compute; reflexivity|]. split; [vm_compute; reflexivity|]. split; [vm_compute; reflexivity|]. split; [vm_compute; reflexivity|].
  split; vm_compute; reflexivity.
Qed.
