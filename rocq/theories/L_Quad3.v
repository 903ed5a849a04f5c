(** The tight-binding and Bogoliubov-de Gennes matrices. *)
From Coq Require Import List ZArith Bool Arith QArith Qcanon Lia Setoid Morphisms Permutation.
From Verif Require Import GC Exn S_Alg S_Den S_Basis S_Conv S_Quad L_Alg L_Module M_OpString M_Tools M_Basis M_Conversion M_Quad
  L_Operator L_ConvAlg L_ConvLin L_Conversion L_Conversion2 L_Quad L_Quad2.
Import ListNotations.
Local Open Scope alg_scope.

(** The operators denoted by hopping and pairing strings. *)
Lemma hop_diag {A : StarAlg} (c : Z -> A) s i : os_ops s = [OCDag; OC] -> os_labels s = [i; i] ->
  fden c s == pval (os_pref s) · ((c i)^* * c i).
Proof.
  intros Ho Hl. unfold fden, den. rewrite Ho, Hl. cbn [combine filter op_eqb fst snd map rev app].
  destruct (list_eq_dec Z.eq_dec [i] [i]); [|congruence]. cbn [aprod fold_right gferm]. rewrite amul_1_r. reflexivity.
Qed.
Lemma hop_off {A : StarAlg} (c : Z -> A) s i j : os_ops s = [OCDag; OC] -> os_labels s = [i; j] -> i <> j ->
  fden c s == pval (os_pref s) · ((c i)^* * c j) + gconj (pval (os_pref s)) · ((c j)^* * c i).
Proof.
  intros Ho Hl N. unfold fden, den. rewrite Ho, Hl. cbn [combine filter op_eqb fst snd map rev app].
  destruct (list_eq_dec Z.eq_dec [i] [j]); [congruence|]. cbn [aprod fold_right gferm]. rewrite amul_1_r.
  rewrite astar_scal, astar_mul, astar_star. reflexivity.
Qed.
Lemma pair_den {A : StarAlg} (c : Z -> A) s i j : os_ops s = [OCDag; OCDag] -> os_labels s = [i; j] ->
  fden c s == pval (os_pref s) · ((c i)^* * (c j)^*) + gconj (pval (os_pref s)) · (c j * c i).
Proof.
  intros Ho Hl. unfold fden, den. rewrite Ho, Hl. cbn [combine filter op_eqb fst snd map rev app].
  destruct (list_eq_dec Z.eq_dec [i; j] []); [congruence|]. cbn [aprod fold_right gferm]. rewrite amul_1_r.
  rewrite astar_scal, astar_mul, !astar_star. reflexivity.
Qed.

(* ---------------------------------------------------------- tight-binding *)

Lemma real_conj x : real x -> gconj x = x.
Proof. intros H. unfold real in H. apply GC_ext; cbn; auto. rewrite H. ring. Qed.
Lemma gconj_mul x y : gconj (gmul x y) = gmul (gconj x) (gconj y).
Proof. apply GC_ext; cbn; ring. Qed.

Lemma tb_term_ok n t : hopping n (snd t) -> exists d, tb_term t = Ok d /\ (forall u, In u d -> fits n u) /\
  hermitian (zentry (mkZMat n d)) /\
  (real (fst t) -> forall (A : StarAlg) (c : Z -> A), fst t · fden c (snd t) == tform (fun j => (c j)^*) c d).
Proof.
  destruct t as [x s]. cbn [fst snd]. intros (i & j & Ht & Ho & Hl & Bi & Bj & Hp). unfold tb_term. cbn [fst snd]. rewrite Ho, Hl.
  eexists. split; [reflexivity|]. apply below_in in Bi, Bj. destruct (Z.eqb_spec i j) as [->|N].
  - split; [intros u [<-|[]]; split; auto|]. split.
    + intros a b. unfold zentry. cbn [z_data map fold_right fst snd].
      destruct (Z.eqb_spec j a), (Z.eqb_spec j b); cbn [andb]; apply GC_ext; cbn; ring.
    + intros Hr A c. rewrite (hop_diag c s j Ho Hl). unfold tform. cbn [map fst snd asum fold_right].
      destruct Hp as [-> | [_ Hn] ]; [|congruence]. replace (gq (re (gmul x g1))) with x by (apply GC_ext; cbn; [ring | rewrite Hr; ring]).
      generalize ((c j)^* * c j). intros u. msolve [u]; ring.
  - split; [intros u [<-|[<-|[] ] ]; split; auto|]. split.
    + intros a b. unfold zentry. cbn [z_data map fold_right fst snd].
      destruct (Z.eqb_spec i a), (Z.eqb_spec i b), (Z.eqb_spec j a), (Z.eqb_spec j b); cbn [andb]; apply GC_ext; cbn; ring.
    + intros Hr A c. rewrite (hop_off c s i j Ho Hl N). unfold tform. cbn [map fst snd asum fold_right].
      rewrite gconj_mul, (real_conj x Hr). generalize ((c i)^* * c j) ((c j)^* * c i). intros u v. msolve [u; v]; ring.
Qed.

Lemma herm_sum M N : hermitian M -> hermitian N -> hermitian (fun j k => gadd (M j k) (N j k)).
Proof. intros HM HN j k. rewrite HM, HN. apply GC_ext; cbn; ring. Qed.

Theorem tightbinding_ok o r n : convert (COperator o) Fermion false = Ok r ->
  (forall t, In t (op_terms r) -> hopping n (snd t)) -> exists M,
  tightbinding_matrix o n = Ok M /\ z_dim M = n /\ hermitian (zentry M) /\
  ((forall t, In t (op_terms r) -> real (fst t)) -> forall (A : StarAlg) (c : Z -> A),
     means c (op_terms r) == form n (zentry M) (fun j => (c j)^*) c).
Proof.
  intros Er H. unfold tightbinding_matrix. rewrite Er. cbn [rbind].
  destruct (concat_terms_ok tb_term (op_terms r)) as (l & F & E).
  { intros t Ht. destruct (tb_term_ok n t (H t Ht)) as (d & Ed & _). eauto. }
  rewrite E. cbn [rbind]. assert (Fit : forall t, In t (concat l) -> fits n t).
  { apply (Forall2_concat _ _ _ _ F). intros t d Ht Ed. destruct (tb_term_ok n t (H t Ht)) as (d' & Ed' & Hf & _).
    rewrite Ed in Ed'. injection Ed' as <-. auto. }
  rewrite (zcsr_ok _ _ Fit). eexists. split; [reflexivity|]. split; [reflexivity|]. split.
  - apply (Forall2_entries _ _ _ _ _ F).
    + intros M N HM HP j k. rewrite <- !HM. apply HP.
    + intros j k. apply GC_ext; cbn; ring.
    + intros M N. apply herm_sum.
    + intros t d Ht Ed. destruct (tb_term_ok n t (H t Ht)) as (d' & Ed' & _ & Hh & _). rewrite Ed in Ed'. injection Ed' as <-. auto.
  - intros Hr A c. rewrite (form_triples _ _ _ _ _ Fit), tform_concat. unfold means.
    apply (asum_Forall2 _ _ _ _ _ F). intros t d Ht Ed. destruct (tb_term_ok n t (H t Ht)) as (d' & Ed' & _ & _ & Hd).
    rewrite Ed in Ed'. injection Ed' as <-. unfold meaning. destruct (H t Ht) as (? & ? & -> & _). apply Hd; auto.
Qed.

(* -------------------------------------------------------------------- BdG *)

Lemma nambu_low {A : StarAlg} n (c : Z -> A) j : (0 <= j < Z.of_nat n)%Z -> nambu n c j = c j.
Proof. intros H. unfold nambu. replace (j <? Z.of_nat n)%Z with true; auto. symmetry. apply Z.ltb_lt. lia. Qed.
Lemma nambu_high {A : StarAlg} n (c : Z -> A) j : (0 <= j < Z.of_nat n)%Z -> nambu n c (j + Z.of_nat n)%Z = (c j)^*.
Proof.
  intros H. unfold nambu. replace (j + Z.of_nat n <? Z.of_nat n)%Z with false by (symmetry; apply Z.ltb_ge; lia).
  do 2 f_equal. lia.
Qed.

Lemma trace_add n M N : trace n (fun j k => gadd (M j k) (N j k)) = gadd (trace n M) (trace n N).
Proof. unfold trace. induction (below n) as [|j l IH]; cbn [map fold_right]; [ring|]. rewrite IH. ring. Qed.
Lemma trace_ext n M N : (forall j, In j (below n) -> M j j = N j j) -> trace n M = trace n N.
Proof.
  unfold trace. induction (below n) as [|j l IH]; intros H; cbn [map fold_right]; auto.
  rewrite IH by (intros; apply H; right; auto). rewrite H by (left; auto). auto.
Qed.
Lemma trace_none n M : (forall j, In j (below n) -> M j j = g0) -> trace n M = g0.
Proof.
  unfold trace. induction (below n) as [|j l IH]; intros H; cbn [map fold_right]; auto.
  rewrite IH by (intros; apply H; right; auto). rewrite H by (left; auto). ring.
Qed.
Lemma trace_one n M i : In i (below n) -> (forall j, In j (below n) -> j <> i -> M j j = g0) -> trace n M = M i i.
Proof.
  unfold trace. pose proof (below_nodup n) as ND. induction (below n) as [|j l IH]; intros Hin H; [destruct Hin|].
  inversion_clear ND as [|? ? Nj ND']. cbn [map fold_right]. destruct Hin as [->|Hin].
  - replace (fold_right gadd g0 (map (fun j => M j j) l)) with g0; [ring|]. symmetry.
    assert (X : forall k, In k l -> M k k = g0) by (intros k Hk; apply H; [right; auto | intros ->; auto]).
    clear - X. induction l as [|k l IH]; cbn [map fold_right]; auto. rewrite X by (left; auto). rewrite IH by (intros; apply X; right; auto). ring.
  - rewrite (H j); [| left; auto | intros ->; auto]. rewrite IH; auto; [ring | intros; apply H; auto; right; auto].
Qed.

Lemma trip_swap i j z a b : trip (j, i, gconj z) b a = gconj (trip (i, j, z) a b).
Proof. unfold trip. cbn [fst snd]. rewrite andb_comm. destruct (_ && _); auto. Qed.
Lemma herm_pair i j z a b : gadd (trip (i, j, z) b a) (trip (j, i, gconj z) b a) = gconj (gadd (trip (i, j, z) a b) (trip (j, i, gconj z) a b)).
Proof.
  rewrite trip_swap. replace z with (gconj (gconj z)) at 1 by (apply GC_ext; cbn; ring). rewrite trip_swap.
  generalize (trip (i, j, z) a b) (trip (j, i, gconj z) a b). intros u v. apply GC_ext; cbn; ring.
Qed.
Ltac shifts n := repeat match goal with
  | |- context [Z.eqb (?x + Z.of_nat n) (?y + Z.of_nat n)] =>
      replace (Z.eqb (x + Z.of_nat n) (y + Z.of_nat n)) with (Z.eqb x y) by (destruct (Z.eqb_spec x y), (Z.eqb_spec (x + Z.of_nat n) (y + Z.of_nat n)); auto; lia)
  | |- context [Z.eqb (?x + Z.of_nat n) ?y] => replace (Z.eqb (x + Z.of_nat n) y) with false by (symmetry; apply Z.eqb_neq; lia)
  | |- context [Z.eqb ?x (?y + Z.of_nat n)] => replace (Z.eqb x (y + Z.of_nat n)) with false by (symmetry; apply Z.eqb_neq; lia)
  end.
Ltac entries n :=
  unfold zentry; cbn [z_data map fold_right fst snd]; shifts n; rewrite ?andb_false_r; cbn [andb];
  repeat match goal with |- context [Z.eqb ?x ?y] => destruct (Z.eqb_spec x y); try (exfalso; lia); cbn [andb] end.
Lemma four_sum a b c d u v : gadd a b = u -> gadd c d = v -> gadd a (gadd c (gadd d (gadd b g0))) = gadd u v /\ gadd a (gadd b (gadd c (gadd d g0))) = gadd u v.
Proof. intros <- <-. split; ring. Qed.
Ltac herm_four H1 H2 :=
  pose proof (four_sum _ _ _ _ _ _ H1 H2) as [X1 X2]; rewrite ?X1, ?X2;
  repeat match goal with |- context [trip ?t ?a ?b] => generalize (trip t a b); intro end; apply GC_ext; cbn; ring.
Ltac trips := rewrite !zentry_cons; change (zentry (mkZMat _ []) _ _) with g0.

Lemma ghalf z : z = gadd (gmul half z) (gmul half z).
Proof. replace (gadd (gmul half z) (gmul half z)) with (gmul (gadd half half) z) by ring. replace (gadd half half) with g1; [ring|]. apply GC_ext; apply Qc_is_canon; reflexivity. Qed.

Lemma bdg_term_ok n t : quadratic_fermion n (snd t) -> real (fst t) -> exists d, bdg_term n t = Ok d /\ (forall u, In u d -> fits (2 * n) u) /\
  hermitian (zentry (mkZMat (2 * n) d)) /\ ph_symmetric n (zentry (mkZMat (2 * n) d)) /\
  (forall (A : StarAlg) (c : Z -> A), CAR A c ->
     fst t · fden c (snd t) == half · tform (fun j => (nambu n c j)^*) (nambu n c) d + gmul half (trace n (zentry (mkZMat (2 * n) d))) · aone).
Proof.
  destruct t as [x s]. cbn [fst snd]. intros [(i & j & Ht & Ho & Hl & Bi & Bj & Hp) | (i & j & Ht & Ho & Hl & Bi & Bj & Hij & Hp)] Hr;
    unfold bdg_term; cbn [fst snd]; rewrite Ho, Hl.
  - destruct (Z.eqb_spec i j) as [->|Nij].
    + assert (P1 : pval (os_pref s) = g1) by (destruct Hp as [|[_ X] ]; auto; congruence). rewrite P1.
      replace (gmul x g1) with x by ring. rewrite (real_conj x Hr).
      eexists. split; [reflexivity|]. split; [intros u [<-|[<-|[] ] ]; split; apply below_in; cbn [fst snd]; lia|]. split; [|split].
      * intros a b. unfold zentry; cbn [z_data map fold_right fst snd]. rewrite (andb_comm (j =? b)%Z), (andb_comm (j + Z.of_nat n =? b)%Z).
        destruct (_ && _), (_ && _); apply GC_ext; cbn; rewrite ?Hr; ring.
      * intros a b Ba Bb. split; entries n; apply GC_ext; cbn; rewrite ?Hr; ring.
      * intros A c HC. rewrite (hop_diag c s j Ho Hl), P1. unfold tform. cbn [map fst snd asum fold_right].
        rewrite (nambu_low n c j Bj), (nambu_high n c j Bj), astar_star.
        rewrite (trace_one n _ j); [|apply below_in; lia | intros k Hk Nk; apply below_in in Hk; entries n; ring].
        assert (E : zentry (mkZMat (2 * n) [(j, j, x); ((j + Z.of_nat n)%Z, (j + Z.of_nat n)%Z, gopp x)]) j j = x) by (entries n; ring). rewrite E.
        rewrite <- (c_cdag_same A c HC j). generalize ((c j)^* * c j) (c j * (c j)^*). intros u v.
        msolve [u; v]; (etransitivity; [apply ghalf|]); ring.
    + set (p := pval (os_pref s)) in *. eexists. split; [reflexivity|].
      split; [intros u [<-|[<-|[<-|[<-|[] ] ] ] ]; split; apply below_in; cbn [fst snd]; lia|]. split; [|split].
      * intros a b. pose proof (herm_pair i j (gmul x p) a b) as H1.
        pose proof (herm_pair (i + Z.of_nat n) (j + Z.of_nat n) (gopp (gconj (gmul x p))) a b) as H2.
        replace (gconj (gopp (gconj (gmul x p)))) with (gopp (gmul x p)) in H2 by (apply GC_ext; cbn; ring).
        trips. herm_four H1 H2.
      * intros a b Ba Bb. split; entries n; apply GC_ext; cbn; ring.
      * intros A c HC. rewrite (hop_off c s i j Ho Hl Nij). fold p. unfold tform. cbn [map fst snd asum fold_right].
        rewrite !(nambu_low n c _ Bi), !(nambu_low n c _ Bj), !(nambu_high n c _ Bi), !(nambu_high n c _ Bj), !astar_star.
        rewrite trace_none; [|intros k Hk; apply below_in in Hk; entries n; ring].
        rewrite (c_cdag_diff A c HC i j), (c_cdag_diff A c HC j i) by auto. rewrite gconj_mul, (real_conj x Hr).
        generalize ((c i)^* * c j) ((c j)^* * c i) (aone : A). intros u v w.
        msolve [u; v; w]; (etransitivity; [apply ghalf|]); unfold gm1; ring.
  - destruct (Z.eqb_spec i j) as [E|_]; [contradiction|]. set (p := pval (os_pref s)) in *. eexists. split; [reflexivity|].
    split; [intros u [<-|[<-|[<-|[<-|[] ] ] ] ]; split; apply below_in; cbn [fst snd]; lia|]. split; [|split].
    + intros a b. pose proof (herm_pair i (j + Z.of_nat n) (gmul x p) a b) as H1.
      pose proof (herm_pair j (i + Z.of_nat n) (gopp (gmul x p)) a b) as H2.
      replace (gconj (gopp (gmul x p))) with (gopp (gconj (gmul x p))) in H2 by (apply GC_ext; cbn; ring).
      trips. herm_four H1 H2.
    + intros a b Ba Bb. split; entries n; apply GC_ext; cbn; ring.
    + intros A c HC. rewrite (pair_den c s i j Ho Hl). fold p. unfold tform. cbn [map fst snd asum fold_right].
      rewrite !(nambu_low n c _ Bi), !(nambu_low n c _ Bj), !(nambu_high n c _ Bi), !(nambu_high n c _ Bj), !astar_star.
      rewrite trace_none; [|intros k Hk; apply below_in in Hk; entries n; ring].
      rewrite (c_anti A c HC i j). assert (E : (c j)^* * (c i)^* == gm1 · ((c i)^* * (c j)^*)).
      { rewrite <- !astar_mul, (c_anti A c HC i j), astar_scal. apply ascal_eq. apply GC_ext; cbn; ring. }
      rewrite E. rewrite gconj_mul, (real_conj x Hr).
      generalize ((c i)^* * (c j)^*) (c j * c i) (aone : A). intros u v w.
      msolve [u; v; w]; (etransitivity; [apply ghalf|]); unfold gm1; ring.
Qed.

Theorem bdg_ok o0 o n : (o_type o0 = Fermion /\ o = o0) \/ (o_type o0 = Majorana /\ convert (COperator o0) Fermion false = Ok o) ->
  (forall t, In t (op_terms o) -> real (fst t) /\ quadratic_fermion n (snd t)) -> exists M,
  bdg_matrix o0 n = Ok M /\ z_dim M = (2 * n)%nat /\ hermitian (zentry M) /\ ph_symmetric n (zentry M) /\
  (forall (A : StarAlg) (c : Z -> A), CAR A c ->
     means c (op_terms o) == half · form (2 * n) (zentry M) (fun j => (nambu n c j)^*) (nambu n c) + gmul half (trace n (zentry M)) · aone).
Proof.
  intros Ty H. assert (Eb : bdg_matrix o0 n = let! d := concat_terms (bdg_term n) (op_terms o) in zcsr (2 * n) d).
  { unfold bdg_matrix. destruct Ty as [ [-> ->] | [-> ->] ]; reflexivity. }
  rewrite Eb. clear Eb Ty.
  assert (H' : forall t, In t (op_terms o) -> quadratic_fermion n (snd t) /\ real (fst t)) by (intros t Ht; destruct (H t Ht); auto). clear H.
  destruct (concat_terms_ok (bdg_term n) (op_terms o)) as (l & F & E).
  { intros t Ht. destruct (H' t Ht) as [H1 H2]. destruct (bdg_term_ok n t H1 H2) as (d & Ed & _). eauto. }
  rewrite E. cbn [rbind]. assert (Fit : forall t, In t (concat l) -> fits (2 * n) t).
  { apply (Forall2_concat _ _ _ _ F). intros t d Ht Ed. destruct (H' t Ht) as [H1 H2]. destruct (bdg_term_ok n t H1 H2) as (d' & Ed' & Hf & _).
    rewrite Ed in Ed'. injection Ed' as <-. auto. }
  rewrite (zcsr_ok _ _ Fit). eexists. split; [reflexivity|]. split; [reflexivity|]. split; [|split].
  - apply (Forall2_entries _ _ _ _ _ F).
    + intros M N HM HP j k. rewrite <- !HM. apply HP.
    + intros j k. apply GC_ext; cbn; ring.
    + intros M N. apply herm_sum.
    + intros t d Ht Ed. destruct (H' t Ht) as [H1 H2]. destruct (bdg_term_ok n t H1 H2) as (d' & Ed' & _ & Hh & _).
      rewrite Ed in Ed'. injection Ed' as <-. auto.
  - apply (Forall2_entries _ _ _ _ _ F).
    + intros M N HM HP j k Bj Bk. rewrite <- !HM. apply HP; auto.
    + intros j k _ _. split; apply GC_ext; cbn; ring.
    + intros M N HM HN j k Bj Bk. destruct (HM j k Bj Bk) as [-> ->], (HN j k Bj Bk) as [-> ->]. split; apply GC_ext; cbn; ring.
    + intros t d Ht Ed. destruct (H' t Ht) as [H1 H2]. destruct (bdg_term_ok n t H1 H2) as (d' & Ed' & _ & _ & Hh & _).
      rewrite Ed in Ed'. injection Ed' as <-. auto.
  - intros A c HC. rewrite (form_triples _ _ _ _ _ Fit). unfold means.
    clear E Fit. revert H'. induction F as [|t d ts l Hr F IH]; intros H'.
    + cbn [map concat]. unfold tform. cbn [map asum fold_right].
      rewrite trace_none; [|reflexivity]. rewrite ascal_zero. replace (gmul half g0) with g0 by ring. rewrite ascal_0, aadd_0_l. reflexivity.
    + cbn [map concat]. change (asum (?a :: ?b)) with (a + asum b). rewrite (IH (fun t Ht => H' t (or_intror Ht))).
      destruct (H' t (or_introl eq_refl)) as [H1 H2]. destruct (bdg_term_ok n t H1 H2) as (d' & Ed' & _ & _ & _ & Hd).
      rewrite Hr in Ed'. injection Ed' as <-. assert (Em : meaning c (snd t) = fden c (snd t)).
      { unfold meaning. destruct H1 as [(? & ? & -> & _) | (? & ? & -> & _)]; reflexivity. }
      rewrite Em, (Hd A c HC), tform_app.
      rewrite (trace_ext n (zentry (mkZMat (2 * n) (d ++ concat l))) (fun j k => gadd (zentry (mkZMat (2 * n) d) j k) (zentry (mkZMat (2 * n) (concat l)) j k)))
        by (intros; apply zentry_app).
      rewrite trace_add. generalize (tform (fun j => (nambu n c j)^*) (nambu n c) d) (tform (fun j => (nambu n c j)^*) (nambu n c) (concat l)) (aone : A)
        (trace n (zentry (mkZMat (2 * n) d))) (trace n (zentry (mkZMat (2 * n) (concat l)))). intros u v w p q. msolve [u; v; w]; ring.
Qed.
