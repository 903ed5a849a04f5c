(** symmetrize_basis: invariance, disjointness and completeness. *)
From Coq Require Import List Arith Lia ZArith Bool Setoid Morphisms Sorted Permutation QArith Qcanon Ring Field.
From Verif Require Import GC Exn S_Alg S_Den S_Basis S_Built S_OpAlg S_Tools S_Transform S_Symm S_Fock M_OpString M_Tools M_Algebra M_Basis M_OpAlg M_Transform M_Symm
  L_Alg L_Module L_StrAlg L_StrOp L_PropStr L_Basis L_Operator L_VSum L_Struct L_Sum L_ConvLin L_Conversion2 L_Perm L_Tools L_PropTools L_Cluster
  L_Trans1 L_Trans2 L_Trans3 L_Trans4 L_Trans5 L_Trans6 L_Trans7 L_Trans8 L_Symm L_Symm2.
Import ListNotations.
Local Open Scope nat_scope.

Lemma gsum_perm (l m : list GC) : Permutation l m -> gsum l = gsum m.
Proof. intros H. exact (@asum_perm gc_alg l m H). Qed.

Section Full.
  Context (ty : optype) (Hty : ty <> Fermion) (n : nat) (gens : list (list nat)).
  Hypothesis Hgens : forall g, In g gens -> is_perm n g.
  Context (G : list (list nat)).
  Hypothesis HN : NoDup G.
  Hypothesis HG : forall g, In g G <-> generated n gens g.
  Notation V := (valid ty n).
  Notation P := (is_perm n).

  Lemma G_perm g : In g G -> P g.
  Proof. intros H. apply (generated_perm n gens Hgens), HG; auto. Qed.
  Lemma G_mul h g : In h G -> In g G -> In (after h g) G.
  Proof.
    rewrite !HG. intros Hh Hg. induction Hg as [|p q Hp IH Hq].
    - rewrite (after_id_r n); auto. apply (generated_perm n gens); auto.
    - rewrite <- (after_assoc n); auto; [constructor; auto | apply (generated_perm n gens); auto].
  Qed.
  Lemma G_id : In (seq 0 n) G.
  Proof. apply HG. constructor. Qed.
  Lemma gens_G h : In h gens -> In h G.
  Proof. intros Hh. apply HG. rewrite <- (after_id_l n h) by auto. constructor; auto. constructor. Qed.
  Lemma left_shift h : In h G -> Permutation (map (after h) G) G.
  Proof.
    intros Hh. apply NoDup_Permutation_bis.
    - apply NoDup_map_inj; auto. intros p q Hp Hq. apply (after_inj n); apply G_perm; auto.
    - rewrite map_length. lia.
    - intros x Hx. apply in_map_iff in Hx. destruct Hx as (g & <- & Hg). apply G_mul; auto.
  Qed.
  Lemma G_inv h : In h G -> exists g, In g G /\ after h g = seq 0 n.
  Proof.
    intros Hh. pose proof G_id as H. apply (Permutation_in _ (Permutation_sym (left_shift h Hh))) in H. apply in_map_iff in H. destruct H as (g & E & Hg). exists g. auto.
  Qed.
  Lemma right_shift h : In h G -> Permutation (map (fun g => after g h) G) G.
  Proof.
    intros Hh. apply NoDup_Permutation_bis.
    - apply NoDup_map_inj; auto. intros p q Hp Hq E. destruct (G_inv h Hh) as (i & Hi & Ei).
      pose proof (f_equal (fun x => after x i) E) as F. cbn beta in F. rewrite !(after_assoc n) in F by (apply G_perm; auto).
      rewrite Ei, !(after_id_r n) in F by (apply G_perm; auto). exact F.
    - rewrite map_length. lia.
    - intros x Hx. apply in_map_iff in Hx. destruct Hx as (g & <- & Hg). apply G_mul; auto.
  Qed.

  Lemma vg_ext F F' ts : (forall t, In t (map snd ts) -> F t = F' t) -> vg F ts = vg F' ts.
  Proof. intros H. unfold vg. apply gsum_map_ext. intros t Ht. rewrite (H (snd t)); auto. apply in_map; auto. Qed.

  Lemma ssum_left F h s : In h G -> V s -> ssum G (fun t => vg F (TF (perm_of h) t)) s = ssum G F s.
  Proof.
    intros Hh Hs. unfold ssum. transitivity (gsum (map (fun g => vg F (TF (perm_of g) s)) (map (after h) G))).
    - rewrite map_map. apply gsum_map_ext. intros g Hg. symmetry. apply (after_vg ty Hty n); auto using G_perm.
    - apply gsum_perm, Permutation_map, left_shift; auto.
  Qed.
  Lemma ssum_right F g s k t : In g G -> V s -> one_term (perm_of g s) k t -> V t -> k = g1 \/ k = gm1 -> ssum G F t = gmul k (ssum G F s).
  Proof.
    intros Hg Hs A Ht Hk. assert (E : ssum G F s = gmul k (ssum G F t)).
    { unfold ssum at 1. transitivity (gsum (map (fun g => vg F (TF (perm_of g) s)) (map (fun h => after h g) G))).
      - apply gsum_perm, Permutation_map, Permutation_sym, right_shift; auto.
      - rewrite map_map. unfold ssum. rewrite <- gsum_map_mul. apply gsum_map_ext. intros h Hh.
        rewrite (after_vg ty Hty n) by auto using G_perm. rewrite (TF_one _ _ _ _ A), vg_one. reflexivity. }
    rewrite E. destruct Hk as [->| ->]; [ring | unfold gm1; ring].
  Qed.

  (* ------------------------------------------------------------- invariance *)

  Lemma from_invariant root s o h : V s -> from_string ty n root G s o -> In h G -> exists r, apply (perm_of h) (TOperator o) = Ok r /\ same_coeffs r o.
  Proof.
    intros Hs (Po & To & Vo & So & N & HN0 & _ & Fo) Hh.
    destruct (apply_vsum ty (perm_of h) (perm_keeps ty h) o Po To) as [A1 A2].
    destruct (proj2 A1) as (r & Er).
    { intros [c t] Ht. cbn [snd]. assert (In t (b_strings (o_basis o))) by (rewrite <- (op_terms_snd o (proper_ok _ Po)); apply (in_map snd) in Ht; auto).
      destruct (act ty Hty n h t (G_perm h Hh) (Vo t H)) as (k & u & (m & Em & _) & _). exists m; auto. }
    exists r. split; auto. destruct (A2 r Er) as (Pr & Tr & Vr). apply same_coeffs_vsum; auto using proper_ok.
    intros F. pose proof (Vr gc_alg F) as X. change (vg F (op_terms r) = vg (fun t => vg F (TF (perm_of h) t)) (op_terms o)) in X.
    change (vg F (op_terms r) = vg F (op_terms o)). rewrite X, !Fo. rewrite (ssum_left F h s Hh Hs). reflexivity.
  Qed.

  (* ------------------------------------------------------------- the loop *)

  Definition reaches (s t : OS) : Prop := exists g k, In g G /\ one_term (perm_of g s) k t.
  Lemma reach_V s t : V s -> reaches s t -> V t /\ exists g k, In g G /\ one_term (perm_of g s) k t /\ (k = g1 \/ k = gm1).
  Proof.
    intros Hs (g & k & Hg & A). destruct (act ty Hty n g s (G_perm g Hg) Hs) as (k' & t' & B1 & B2 & B3).
    destruct (one_term_fun _ _ _ _ _ A B1) as [-> ->]. split; auto. exists g, k'. auto.
  Qed.
  Lemma reach_trans s t u : V s -> reaches s t -> reaches t u -> reaches s u.
  Proof.
    intros Hs (g & k & Hg & A) (h & k2 & Hh & B). exists (after h g), (gmul k k2). split; [apply G_mul; auto|].
    apply (act_after ty Hty n h g s k t); auto using G_perm.
  Qed.
  Lemma reach_refl s : V s -> reaches s s.
  Proof. intros Hs. exists (seq 0 n), g1. split; [apply G_id | apply (act_id ty Hty n); auto]. Qed.
  Lemma reach_sym s t : V s -> reaches s t -> reaches t s.
  Proof.
    intros Hs R. destruct (reach_V s t Hs R) as [Ht (g & k & Hg & A & _)].
    destruct (G_inv g Hg) as (i & Hi & Ei). destruct (G_inv i Hi) as (j & Hj & Ej).
    assert (Eig : after i g = seq 0 n).
    { rewrite <- (after_id_r n (after i g)) by (apply G_perm, G_mul; auto). rewrite <- Ej at 1. rewrite <- (after_assoc n) by (apply G_perm; auto).
      rewrite (after_assoc n i g i) by (apply G_perm; auto). rewrite Ei, (after_id_r n) by (apply G_perm; auto). exact Ej. }
    destruct (act ty Hty n i t (G_perm i Hi) Ht) as (k2 & u & B1 & B2 & B3).
    pose proof (act_after ty Hty n i g s k t k2 u (G_perm i Hi) (G_perm g Hg) Hs A B1) as C. rewrite Eig in C.
    destruct (one_term_fun _ _ _ _ _ C (act_id ty Hty n s Hs)) as [_ ->]. exists i, k2. auto.
  Qed.

  Definition covered (root : Qc -> Qc) (ops : list Operator) (s : OS) : Prop :=
    exists s0, V s0 /\ reaches s0 s /\ ((forall F, ssum G F s0 = g0) \/ exists o, In o ops /\ from_string ty n root G s0 o).

  Lemma V_key s t : V s -> V t -> same_key s t -> s = t.
  Proof. intros Hs Ht. apply std_key; eapply valid_std; eauto. Qed.

  Lemma loop_spec root tol strs : forall visited, (forall s, In s strs -> V s) -> (forall v, In v visited -> V v) ->
    (forall v t, In v visited -> reaches v t -> In t visited) ->
    exists ops, symmetrize_loop root tol G strs visited = Ok ops /\
      (forall o, In o ops -> exists s, In s strs /\ V s /\ from_string ty n root G s o /\ forall t, In t (b_strings (o_basis o)) -> ~ In t visited) /\
      ForallOrdPairs no_common ops /\
      ((tol * tol < 1)%Qc -> forall s, In s strs -> In s visited \/ covered root ops s).
  Proof.
    induction strs as [|s strs IH]; intros visited Hs Hv Hcl.
    - exists []. split; auto. split; [intros o []|]. split; [constructor | intros _ s []].
    - assert (Vs : V s) by (apply Hs; left; auto).
      cbn [symmetrize_loop]. destruct (existsb (fun v => os_key v s) visited) eqn:Ex.
      + apply existsb_exists in Ex. destruct Ex as (v & Hin & K). apply os_key_same in K. apply V_key in K; auto. subst v.
        destruct (IH visited ltac:(intros; apply Hs; right; auto) Hv Hcl) as (ops & E & A & B & C). exists ops. split; auto. split; [|split; auto].
        * intros o Ho. destruct (A o Ho) as (s0 & A1 & A2). exists s0. split; auto. right; auto.
        * intros Ht s0 [<-|H0]; auto.
      + assert (Nv : ~ In s visited).
        { intros H. assert (existsb (fun v => os_key v s) visited = true); [|congruence]. apply existsb_exists. exists s. split; auto. apply os_key_same, same_key_refl. }
        destruct (symm_spec ty Hty n s G Vs G_perm) as (o & Eo & Po & To & Vo & So & Fo). rewrite Eo. cbn [rbind].
        destruct (op_remove_zeros_ok tol16 o (proper_ok _ Po)) as (q & Eq & Hq & Tq). rewrite Eq. cbn [rbind].
        assert (Hv' : forall v, In v (visited ++ b_strings (o_basis o)) -> V v) by (intros v H; apply in_app_or in H; destruct H; auto).
        destruct (IH (visited ++ b_strings (o_basis o)) ltac:(intros; apply Hs; right; auto) Hv') as (ops & E & A & B & C).
        { intros v t H R. apply in_app_or in H. apply in_or_app. destruct H as [H|H]; [left; apply (Hcl v); auto|]. right. apply So in H. apply So. apply (reach_trans s v t Vs H R). }
        rewrite E. cbn [rbind].
        destruct (string_done ty Hty n root G tol s o q Vs G_perm Eo Eq) as [D1 D2].
        assert (A' : forall p, In p ops -> exists s0, In s0 (s :: strs) /\ V s0 /\ from_string ty n root G s0 p /\ forall t, In t (b_strings (o_basis p)) -> ~ In t visited).
        { intros p Hp. destruct (A p Hp) as (s0 & A1 & A2 & A3 & A4). exists s0. split; [right; auto|]. split; auto. split; auto. intros t Ht H. apply (A4 t Ht). apply in_or_app; auto. }
        assert (Cov : forall ops', incl ops ops' -> ((tol * tol < 1)%Qc -> covered root ops' s) -> (tol * tol < 1)%Qc -> forall u, In u (s :: strs) -> In u visited \/ covered root ops' u).
        { intros ops' Hi Hcs Ht u [<-|Hu]; [right; auto|]. destruct (C Ht u Hu) as [H|(s0 & K1 & K2 & K3)].
          - apply in_app_or in H. destruct H as [H|H]; auto. right. apply So in H. destruct (Hcs Ht) as (s0 & K1 & K2 & K3). exists s0. split; auto. split; auto. apply (reach_trans s0 s u K1 K2 H).
          - right. exists s0. split; auto. split; auto. destruct K3 as [K3|(p & Hp & K3)]; auto. right. exists p. split; auto. }
        destruct (qc_ltb (tol * tol) (op_norm2 q)) eqn:En.
        * specialize (D1 eq_refl). exists (op_normalize root q :: ops). split; auto. split; [|split].
          -- intros p [<-|Hp]; [|apply A'; auto]. exists s. split; [left; auto|]. split; auto. split; auto. intros t Ht H.
             destruct D1 as (_ & _ & _ & D1 & _). apply Nv. apply (Hcl t); auto. apply (reach_sym s t Vs). apply D1; auto.
          -- constructor; auto. apply Forall_forall. intros p Hp s1 t1 H1 H2 K. destruct (A p Hp) as (s0 & A1 & A2 & A3 & A4).
             assert (s1 = t1). { apply V_key; auto; [apply D1; auto | apply A3; auto]. } subst t1.
             apply (A4 s1 H2). apply in_or_app. right. apply So. destruct D1 as (_ & _ & _ & D1 & _). apply D1; auto.
          -- apply Cov; [intros x; right; auto|]. intros _. exists s. split; auto. split; [apply reach_refl; auto|]. right. exists (op_normalize root q). split; [left; auto | auto].
        * exists ops. split; auto. split; auto. split; auto. apply Cov; [intros x; auto|]. intros Ht. exists s. split; auto. split; [apply reach_refl; auto|]. left. apply D2; auto.
  Qed.

  (* ------------------------------------------------------------- completeness *)

  Lemma invariant_G o h : proper o -> o_type o = ty -> (forall t, In t (b_strings (o_basis o)) -> V t) ->
    (forall h, In h gens -> exists r, apply (perm_of h) (TOperator o) = Ok r /\ same_coeffs r o) -> In h G ->
    forall u, vg (fun t => vg (keyed u) (TF (perm_of h) t)) (op_terms o) = vg (keyed u) (op_terms o).
  Proof.
    intros Po To Vo Hinv Hh. apply HG in Hh.
    (* invariance in terms of coefficient functions *)
    assert (Base : forall g, In g gens -> forall F : OS -> GC, vg (fun t => vg F (TF (perm_of g) t)) (op_terms o) = vg F (op_terms o)).
    { intros g Hg F. destruct (Hinv g Hg) as (r & Er & Sc). destruct (apply_vsum ty (perm_of g) (perm_keeps ty g) o Po To) as [_ A2].
      destruct (A2 r Er) as (Pr & Tr & Vr). pose proof (Vr gc_alg F) as X. change (vg F (op_terms r) = vg (fun t => vg F (TF (perm_of g) t)) (op_terms o)) in X. rewrite <- X.
      (* equal coefficients give equal sums *)
      pose proof (proper_ok _ Po) as Ho. pose proof (proper_ok _ Pr) as Hr.
      assert (Dr : distinct_keys (b_strings (o_basis r))) by apply Hr.
      assert (Q : forall (w : Operator) (L : list OS), proper w -> o_type w = ty -> distinct_keys L -> (forall s, In s L -> std s) -> (forall s, In s (b_strings (o_basis w)) -> In s L) ->
                 vg F (op_terms w) = gsum (map (fun u => gmul (cf w u) (F u)) L)).
      { clear. intros w L Pw Tw DL SL Hsub. pose proof (proper_ok _ Pw) as Hw.
        transitivity (gsum (map (fun u => gsum (map (fun t => if os_key (snd t) u then gmul (fst t) (F u) else g0) (op_terms w))) L)).
        - rewrite gsum_swap. unfold vg. apply gsum_map_ext. intros [c t] Ht. cbn [fst snd].
          assert (Hin : In t (b_strings (o_basis w))) by (rewrite <- (op_terms_snd w Hw); apply (in_map snd) in Ht; auto).
          assert (St : std t) by (apply (proj2 (proj2 Pw)); auto). specialize (Hsub t Hin). clear Ht Hin.
          induction L as [|u L IH]; [destruct Hsub|]. cbn [map]. change (gsum (?x :: ?l)) with (gadd x (gsum l)).
          apply distinct_cons in DL. destruct DL as [DL Nu]. destruct (os_key t u) eqn:K.
          + apply os_key_same in K. apply std_key in K; auto; [|apply SL; left; auto]. subst u.
            rewrite gsum_map_zero; [ring|]. intros x Hx. destruct (os_key t x) eqn:K; auto. apply os_key_same in K. exfalso. apply (Nu x Hx). auto.
          + destruct Hsub as [->|Hsub]; [assert (os_key t t = true) by (apply os_key_same, same_key_refl); congruence|].
            rewrite <- IH; auto; [ring | intros; apply SL; right; auto].
        - apply gsum_map_ext. intros u _. unfold cf. rewrite vsum_gsum.
          replace (gmul (gsum (map (fun t => gmul (fst t) (keyed u (snd t))) (op_terms w))) (F u)) with (gmul (F u) (gsum (map (fun t => gmul (fst t) (keyed u (snd t))) (op_terms w)))) by ring.
          rewrite <- gsum_map_mul. apply gsum_map_ext. intros t _. unfold keyed. destruct (os_key (snd t) u); ring. }
      (* a common list of strings *)
      assert (exists L, distinct_keys L /\ (forall s, In s L -> std s) /\ (forall s, In s (b_strings (o_basis o)) -> In s L) /\ (forall s, In s (b_strings (o_basis r)) -> In s L)) as (L & L1 & L2 & L3 & L4).
      { destruct (op_iadd_ok o r Ho Hr ltac:(congruence)) as (m & Em & _). destruct (proper_add o r m Po Pr ltac:(congruence) Em) as (Pm & _ & Am & _).
        exists (b_strings (o_basis m)). split; [apply (proper_ok _ Pm)|]. split; [apply (proj2 (proj2 Pm))|]. split; [apply (append_new_left _ _ _ Am)|].
        intros t Ht. destruct (append_new_right _ _ _ Am t Ht) as (v & Hv & K). apply std_key in K; [subst; auto| apply (proj2 (proj2 Pm)); auto | apply (proj2 (proj2 Pr)); auto]. }
      rewrite (Q o L Po To L1 L2 L3), (Q r L Pr Tr L1 L2 L4). apply gsum_map_ext. intros u _. f_equal.
      apply (has_coeff_keyed o u (cf r u) Ho). apply Sc. apply (has_coeff_keyed r u (cf r u) Hr). reflexivity. }
    intros u. assert (forall F : OS -> GC, vg (fun t => vg F (TF (perm_of h) t)) (op_terms o) = vg F (op_terms o)); [|auto].
    induction Hh as [|p q Hp IH Hq]; intros F.
    - apply vg_ext. intros t Ht. rewrite (op_terms_snd o (proper_ok _ Po)) in Ht. rewrite (TF_one _ _ _ _ (act_id ty Hty n t (Vo t Ht))), vg_one. ring.
    - rewrite <- (IH F), <- (Base q Hq (fun t => vg F (TF (perm_of p) t))). apply vg_ext. intros t Ht. rewrite (op_terms_snd o (proper_ok _ Po)) in Ht.
      apply (after_vg ty Hty n); auto. apply (generated_perm n gens); auto.
  Qed.

  Lemma size_G : gq (Q2Qc (inject_Z (Z.of_nat (length G)))) <> g0.
  Proof.
    pose proof G_id as H. destruct G as [|g r]; [destruct H|]. intros E. apply (f_equal re) in E. cbn [gq re g0] in E.
    apply (proj1 (Q2Qc_eq_iff _ _)) in E. unfold Qeq, inject_Z in E. cbn [Qnum Qden length] in E. lia.
  Qed.
  Lemma gsum_const (c : GC) (l : list (list nat)) : gsum (map (fun _ => c) l) = gmul (gq (Q2Qc (inject_Z (Z.of_nat (length l))))) c.
  Proof.
    induction l as [|x l IH]; [apply GC_ext; cbn [gmul gq re im gsum map fold_right g0 length]; change (Q2Qc (inject_Z (Z.of_nat 0))) with 0%Qc; ring|]. cbn [map]. change (gsum (?x :: ?l)) with (gadd x (gsum l)). rewrite IH. cbn [length].
    replace (gq (Q2Qc (inject_Z (Z.of_nat (S (length l)))))) with (gadd g1 (gq (Q2Qc (inject_Z (Z.of_nat (length l)))))); [ring|].
    apply GC_ext; cbn [gadd gq g1 re im]; [|ring]. apply Qc_is_canon. unfold Qcplus, Q2Qc. cbn [this]. rewrite !Qred_correct, Nat2Z.inj_succ, <- Z.add_1_l, inject_Z_plus. reflexivity.
  Qed.

  Lemma root_nonzero (root : Qc -> Qc) N : root N <> 0%Qc -> gq (root N) <> g0.
  Proof. intros E Z. apply E. exact (f_equal re Z). Qed.

  Lemma weighted_app u a b x y : weighted u a x -> weighted u b y -> weighted u (a ++ b) (gadd x y).
  Proof.
    induction 1 as [|k o r p q H1 H2 IH]; intros H; cbn [app]; [replace (gadd g0 y) with y by ring; auto|].
    replace (gadd (gadd (gmul k p) q) y) with (gadd (gmul k p) (gadd q y)) by ring. constructor; auto.
  Qed.

  Lemma cover_terms root ops ts : (forall x, (0 < x)%Qc -> root x <> 0%Qc) -> (forall t, In t (map snd ts) -> V t /\ covered root ops t) ->
    exists ws, incl (map snd ws) ops /\ forall u, weighted u ws (vg (fun t => ssum G (keyed u) t) ts).
  Proof.
    intros Hroot Hc. induction ts as [|[c t] ts IH].
      - exists []. split; [intros x []|]. intros u. constructor.
      - destruct IH as (ws & I1 & I2). { intros x Hx; apply Hc; right; auto. }
        destruct (Hc t (or_introl eq_refl)) as [Vt (s0 & V0 & R & K)]. destruct (reach_V s0 t V0 R) as [_ (g & k & Hg & A & Uk)].
        destruct K as [K|(p & Hp & K)].
        + exists ws. split; auto. intros u. unfold vg. cbn [map fst snd]. change (gsum (?x :: ?l)) with (gadd x (gsum l)).
          rewrite (ssum_right (keyed u) g s0 k t Hg V0 A Vt Uk), (K (keyed u)). unfold vg in I2.
          replace (gadd (gmul c (gmul k g0)) (gsum (map (fun t0 => gmul (fst t0) (ssum G (keyed u) (snd t0))) ts))) with (gsum (map (fun t0 => gmul (fst t0) (ssum G (keyed u) (snd t0))) ts)) by ring.
          apply I2.
        + destruct K as (Pp & Tp & _ & _ & N & N0 & _ & Fp). pose proof (root_nonzero root N (Hroot N N0)) as Nz.
          exists ((gmul (gmul c k) (gq (root N)), p) :: ws). split; [intros x [<-|Hx]; auto|]. intros u. unfold vg. cbn [map fst snd]. change (gsum (?x :: ?l)) with (gadd x (gsum l)).
          rewrite (ssum_right (keyed u) g s0 k t Hg V0 A Vt Uk).
          replace (gmul c (gmul k (ssum G (keyed u) s0))) with (gmul (gmul (gmul c k) (gq (root N))) (gdiv (ssum G (keyed u) s0) (gq (root N)))) by (field; auto).
          constructor; [|apply I2]. rewrite <- Fp. apply (proj2 (has_coeff_keyed p u _ (proper_ok _ Pp))). reflexivity. 
  Qed.

  Lemma complete root ops o : (forall p, In p ops -> op_ok p) -> (forall x, (0 < x)%Qc -> root x <> 0%Qc) -> proper o -> o_type o = ty -> (forall t, In t (b_strings (o_basis o)) -> V t /\ covered root ops t) ->
    (forall h, In h gens -> exists r, apply (perm_of h) (TOperator o) = Ok r /\ same_coeffs r o) ->
    exists ws, incl (map snd ws) ops /\ forall u c, has_coeff (op_terms o) u c <-> weighted u ws c.
  Proof.
    intros Hops Hroot Po To Hcov Hinv. pose proof (proper_ok _ Po) as Ho.
    set (M := gq (Q2Qc (inject_Z (Z.of_nat (length G))))).
    assert (Avg : forall u, gmul M (cf o u) = vg (fun t => ssum G (keyed u) t) (op_terms o)).
    { intros u. unfold M. rewrite <- gsum_const.
      transitivity (gsum (map (fun h => vg (fun t => vg (keyed u) (TF (perm_of h) t)) (op_terms o)) G)).
      - apply gsum_map_ext. intros h Hh. symmetry. apply invariant_G; auto. intros t Ht. apply Hcov; auto.
      - unfold vg at 1. rewrite gsum_swap. unfold vg at 2. apply gsum_map_ext. intros t _. unfold ssum. rewrite gsum_map_mul. reflexivity. }
    assert (Ex : exists ws, incl (map snd ws) ops /\ forall u, weighted u ws (vg (fun t => ssum G (keyed u) t) (op_terms o))).
    { apply (cover_terms root); auto. intros t Ht. apply Hcov; rewrite <- (op_terms_snd o Ho); auto. }
    destruct Ex as (ws & W1 & W2).
    exists (map (fun w => (gdiv (fst w) M, snd w)) ws). split.
    - intros x Hx. rewrite map_map in Hx. apply W1. exact Hx.
    - assert (Wt : forall u c l, weighted u l c -> weighted u (map (fun w => (gdiv (fst w) M, snd w)) l) (gdiv c M)).
      { intros u c l H. clear - H. induction H as [|k p r x y H1 H2 IH]; cbn [map fst snd].
        - replace (gdiv g0 M) with g0 by (unfold gdiv; ring). constructor.
        - replace (gdiv (gadd (gmul k x) y) M) with (gadd (gmul (gdiv k M) x) (gdiv y M)) by (unfold gdiv; ring). constructor; auto. }
      assert (Ew : forall u, weighted u (map (fun w => (gdiv (fst w) M, snd w)) ws) (cf o u)).
      { intros u. replace (cf o u) with (gdiv (gmul M (cf o u)) M) by (field; apply size_G). rewrite Avg. apply Wt, W2. }
      intros u c. rewrite (has_coeff_keyed o u c Ho). change (vsum (keyed u) (op_terms o)) with (cf o u). split; [intros ->; apply Ew|].
      intros H. pose proof (Ew u) as H'.
      assert (Un : forall l x, weighted u l x -> (forall p, In p (map snd l) -> op_ok p) -> forall y, weighted u l y -> x = y).
      { intros l x Hx. induction Hx as [|k p r a b H1 H2 IH]; intros Hok y Hy; inversion Hy as [|k' p' r' a' b' K1 K2]; subst; auto.
        rewrite (has_coeff_fun p u a a' (Hok p (or_introl eq_refl)) H1 K1). f_equal. apply IH; auto. intros; apply Hok; right; auto. }
      apply (Un _ c H); auto. intros p Hp. apply Hops, W1. rewrite map_map in Hp. exact Hp.
  Qed.
End Full.
