(** Lemmas on matrices of quadratic Operators. *)
From Coq Require Import List ZArith Bool Arith QArith Qcanon Lia Setoid Morphisms Permutation.
From Verif Require Import GC Exn S_Alg S_Den S_Basis S_Conv S_Quad L_Alg L_Module M_OpString M_Tools M_Basis M_Conversion M_Quad
  L_Operator L_ConvAlg L_ConvLin L_Conversion L_Conversion2 L_Conversion3 L_Conversion4.
Import ListNotations.
Local Open Scope alg_scope.

(* ---------------------------------------------------------------- below *)

Lemma below_in n j : In j (below n) <-> (0 <= j < Z.of_nat n)%Z.
Proof.
  unfold below. rewrite in_map_iff. split.
  - intros (k & <- & H). apply in_seq in H. lia.
  - intros H. exists (Z.to_nat j). split; [lia|]. apply in_seq. lia.
Qed.
Lemma below_nodup n : NoDup (below n).
Proof. apply FinFun.Injective_map_NoDup; [intros x y; apply Nat2Z.inj | apply seq_NoDup]. Qed.
Lemma inside_iff n i : inside n i = true <-> In i (below n).
Proof. rewrite below_in. unfold inside. rewrite andb_true_iff, Z.leb_le, Z.ltb_lt. tauto. Qed.

Definition trip (t : triple) (j k : Z) : GC := if (fst (fst t) =? j)%Z && (snd (fst t) =? k)%Z then snd t else g0.
Definition fits (n : nat) (t : triple) : Prop := In (fst (fst t)) (below n) /\ In (snd (fst t)) (below n).

Lemma zcsr_ok n d : (forall t, In t d -> fits n t) -> zcsr n d = Ok (mkZMat n d).
Proof.
  intros H. unfold zcsr. match goal with |- context [if ?b then _ else _] => replace b with true; auto end. symmetry. apply forallb_forall. intros t Ht.
  destruct (H t Ht). apply andb_true_iff. split; apply inside_iff; auto.
Qed.
Lemma zcsr_inv n d M : zcsr n d = Ok M -> M = mkZMat n d /\ forall t, In t d -> fits n t.
Proof.
  unfold zcsr. match goal with |- context [if ?b then _ else _] => destruct b eqn:E end; [|discriminate]. intros H. injection H as <-. split; auto.
  intros t Ht. rewrite forallb_forall in E. specialize (E t Ht). apply andb_true_iff in E. destruct E.
  split; apply inside_iff; auto.
Qed.
Lemma zentry_cons n t d j k : zentry (mkZMat n (t :: d)) j k = gadd (trip t j k) (zentry (mkZMat n d) j k).
Proof. reflexivity. Qed.
Lemma zentry_app n d e j k : zentry (mkZMat n (d ++ e)) j k = gadd (zentry (mkZMat n d) j k) (zentry (mkZMat n e) j k).
Proof. induction d as [|t d IH]; cbn [app]; [unfold zentry at 2; cbn; ring|]. rewrite !zentry_cons, IH. ring. Qed.

Section form.
  Context {A : StarAlg} (x y : Z -> A) (n : nat).
  Lemma form_ext M N : (forall j k, In j (below n) -> In k (below n) -> M j k = N j k) -> form n M x y == form n N x y.
  Proof. intros H. apply asum_ext. intros j Hj. apply asum_ext. intros k Hk. rewrite H; auto. reflexivity. Qed.
  Lemma form_add M N : form n (fun j k => gadd (M j k) (N j k)) x y == form n M x y + form n N x y.
  Proof.
    unfold form. rewrite <- asum_map_add. apply asum_ext. intros j Hj. rewrite <- asum_map_add. apply asum_ext.
    intros k Hk. apply ascal_add_l.
  Qed.
  Lemma form_zero : form n (fun _ _ => g0) x y == azero.
  Proof. apply asum_zero. intros j _. apply asum_zero. intros k _. apply ascal_0. Qed.
  Lemma delta_sum (f : Z -> A) j l : NoDup l -> In j l -> (forall k, In k l -> k <> j -> f k == azero) -> asum (map f l) == f j.
  Proof.
    induction l as [|a l IH]; intros ND Hin Hz; [destruct Hin|]. inversion_clear ND as [|? ? Na ND']. change (asum (map f (a :: l))) with (f a + asum (map f l)).
    destruct Hin as [Ha|Hin].
    - subst a. rewrite (asum_zero f l); [apply aadd_0_r|]. intros k Hk. apply Hz; [right; auto|]. intros ->. auto.
    - rewrite (Hz a); [|left; auto | intros ->; auto]. rewrite aadd_0_l. apply IH; auto. intros; apply Hz; auto. right; auto.
  Qed.
  Lemma form_trip t : fits n t -> form n (trip t) x y == snd t · (x (fst (fst t)) * y (snd (fst t))).
  Proof.
    destruct t as [[i j] z]. intros [Hi Hj]. cbn [fst snd] in *. unfold form.
    rewrite (delta_sum _ i (below n)); auto using below_nodup.
    - rewrite (delta_sum _ j (below n)); auto using below_nodup.
      + unfold trip. cbn [fst snd]. rewrite !Z.eqb_refl. reflexivity.
      + intros k _ Hk. unfold trip. cbn [fst snd]. replace (j =? k)%Z with false by (symmetry; apply Z.eqb_neq; auto).
        rewrite andb_false_r. apply ascal_0.
    - intros k _ Hk. apply asum_zero. intros m _. unfold trip. cbn [fst snd].
      replace (i =? k)%Z with false by (symmetry; apply Z.eqb_neq; auto). apply ascal_0.
  Qed.
  Definition tform (d : list triple) : A := asum (map (fun t => snd t · (x (fst (fst t)) * y (snd (fst t)))) d).
  Lemma form_triples d m : (forall t, In t d -> fits n t) -> form n (zentry (mkZMat m d)) x y == tform d.
  Proof.
    induction d as [|t d IH]; intros H.
    - rewrite <- form_zero. apply form_ext. reflexivity.
    - rewrite (form_ext _ (fun j k => gadd (trip t j k) (zentry (mkZMat m d) j k))) by (intros; apply zentry_cons).
      rewrite form_add, form_trip, IH; [reflexivity | intros; apply H; right; auto | apply H; left; auto].
  Qed.
  Lemma tform_app d e : tform (d ++ e) == tform d + tform e.
  Proof. unfold tform. rewrite map_app. apply asum_app. Qed.
  Lemma tform_concat l : tform (concat l) == asum (map tform l).
  Proof. induction l as [|d l IH]; [reflexivity|]. cbn [concat map]. rewrite tform_app, IH. reflexivity. Qed.
End form.

(** Term by term. *)
Lemma concat_terms_ok f ts : (forall t, In t ts -> exists d, f t = Ok d) -> exists l, Forall2 (fun t d => f t = Ok d) ts l /\ concat_terms f ts = Ok (concat l).
Proof.
  intros H. assert (X : exists l, Forall2 (fun t d => f t = Ok d) ts l).
  { induction ts as [|t ts IH]; [exists []; constructor|]. destruct (H t (or_introl eq_refl)) as (d & E).
    destruct IH as (l & F); [intros; apply H; right; auto|]. exists (d :: l). constructor; auto. }
  destruct X as (l & F). exists l. split; auto. unfold concat_terms. apply rmap_ok in F. rewrite F. reflexivity.
Qed.
Lemma concat_terms_inv f ts d : concat_terms f ts = Ok d -> exists l, Forall2 (fun t e => f t = Ok e) ts l /\ d = concat l.
Proof.
  unfold concat_terms. destruct (rmap f ts) as [l|e] eqn:E; cbn [rbind]; [|discriminate]. intros H. injection H as <-.
  exists l. split; auto. apply rmap_ok; auto.
Qed.
Lemma Forall2_concat {T U} (R : T -> list U -> Prop) (P : U -> Prop) ts l : Forall2 R ts l ->
  (forall t d, In t ts -> R t d -> forall u, In u d -> P u) -> forall u, In u (concat l) -> P u.
Proof.
  induction 1 as [|t d ts l Hr F IH]; intros H u Hu; [destruct Hu|]. cbn [concat] in Hu. apply in_app_iff in Hu. destruct Hu as [Hu|Hu].
  - apply (H t d); auto. left; auto.
  - apply IH; auto. intros t' d' Ht. apply H. right; auto.
Qed.
(** A property of entries additive in the list of triples. *)
Lemma Forall2_entries {T} (R : T -> list triple -> Prop) (P : (Z -> Z -> GC) -> Prop) n ts l : Forall2 R ts l ->
  (forall M N, (forall j k, M j k = N j k) -> P M -> P N) ->
  P (fun _ _ => g0) -> (forall M N, P M -> P N -> P (fun j k => gadd (M j k) (N j k))) ->
  (forall t d, In t ts -> R t d -> P (zentry (mkZMat n d))) -> P (zentry (mkZMat n (concat l))).
Proof.
  intros F Hext H0 Hadd. induction F as [|t d ts l Hr F IH]; intros H.
  - apply (Hext (fun _ _ => g0)); auto.
  - cbn [concat]. apply (Hext (fun j k => gadd (zentry (mkZMat n d) j k) (zentry (mkZMat n (concat l)) j k))).
    + intros j k. symmetry. apply zentry_app.
    + apply Hadd; [apply (H t); auto; left; auto | apply IH; intros; apply (H t0); auto; right; auto].
Qed.
Lemma asum_Forall2 {A : StarAlg} {T U} (R : T -> U -> Prop) (f : T -> A) (g : U -> A) ts l : Forall2 R ts l ->
  (forall t u, In t ts -> R t u -> f t == g u) -> asum (map f ts) == asum (map g l).
Proof.
  induction 1 as [|t u ts l Hr F IH]; intros H; [reflexivity|]. change (f t + asum (map f ts) == g u + asum (map g l)).
  rewrite (H t u), IH; auto; [reflexivity | intros; apply H; auto; right; auto | left; auto].
Qed.

(* ------------------------------------------------------------- Majorana *)

Lemma maj_even {A : StarAlg} (g : op -> Z -> A) l : maj g (2 * l) = g OA l.
Proof.
  unfold maj. rewrite Z.even_mul. cbn [Z.even orb]. replace (2 * l / 2)%Z with l; auto.
  rewrite Z.mul_comm, Z.div_mul; lia.
Qed.
Lemma maj_odd {A : StarAlg} (g : op -> Z -> A) l : maj g (2 * l + 1) = g OB l.
Proof.
  unfold maj. rewrite Z.even_add, Z.even_mul. cbn [Z.even orb Bool.eqb].
  replace ((2 * l + 1) / 2)%Z with l; auto. apply (Z.div_unique _ _ _ 1); lia.
Qed.
Lemma maj_of {A : StarAlg} (g : op -> Z -> A) o l : o = OA \/ o = OB -> maj g (maj_index o l) = g o l.
Proof. intros [-> | ->]; [apply maj_even | apply maj_odd]. Qed.
Lemma maj_index_below n o l : (0 <= l < Z.of_nat n)%Z -> In (maj_index o l) (below (2 * n)).
Proof. intros H. apply below_in. destruct o; cbn [maj_index]; lia. Qed.

Lemma maj_anti {A : StarAlg} (g : op -> Z -> A) o1 o2 l1 l2 : rep Majorana g -> o1 = OA \/ o1 = OB -> o2 = OA \/ o2 = OB -> l1 <> l2 ->
  g o2 l2 * g o1 l1 == gm1 · (g o1 l1 * g o2 l2).
Proof.
  intros R. destruct R as [? ? ? ? H1 H2 H3 ?]. intros [-> | ->] [-> | ->] H; auto.
  rewrite (H3 l1 l2). rewrite gm1_gm1. reflexivity.
Qed.

Lemma pair_antisym n i j z : antisymmetric (zentry (mkZMat n [(i, j, z); (j, i, gopp z)])).
Proof.
  intros a b. unfold zentry. cbn [z_data map fold_right fst snd].
  destruct (Z.eqb_spec i b), (Z.eqb_spec j a), (Z.eqb_spec i a), (Z.eqb_spec j b); cbn [andb]; ring.
Qed.
Lemma quad_entries_anti n i j sg c : antisymmetric (zentry (mkZMat n (quad_entries i j sg c))).
Proof.
  unfold quad_entries. replace (gmul (gmul (gopp g2) (gq (re c))) sg) with (gopp (gmul (gmul g2 (gq (re c))) sg)) by ring.
  apply pair_antisym.
Qed.
Lemma quad_entries_real n i j sg c : im sg = 0%Qc -> real_entries (zentry (mkZMat n (quad_entries i j sg c))).
Proof.
  intros H a b. unfold zentry, quad_entries. cbn [z_data map fold_right fst snd].
  destruct (_ && _), (_ && _); cbn; rewrite ?H; ring.
Qed.

Lemma real_gq x : real x -> gq (re x) = x.
Proof. intros H. apply GC_ext; cbn; auto. Qed.

Lemma gquarter z : z = gmul (gmul (gmul g2 g2) (gmul half half)) z.
Proof. replace (gmul (gmul g2 g2) (gmul half half)) with g1; [ring|]. apply GC_ext; apply Qc_is_canon; vm_compute; reflexivity. Qed.
(** One term. *)
Lemma quad_term_ok n t : string_ok Majorana (snd t) -> quadratic_majorana n (snd t) -> exists i j sg,
  quad_term t = Ok (quad_entries i j sg (fst t)) /\ im sg = 0%Qc /\ In i (below (2 * n)) /\ In j (below (2 * n)) /\
  (real (fst t) -> forall (A : StarAlg) (g : op -> Z -> A), rep Majorana g ->
     fst t · den g (snd t) == gmul gi (gmul half half) · tform (maj g) (maj g) (quad_entries i j sg (fst t))).
Proof.
  destruct t as [x s]. cbn [fst snd]. intros (Ht & Hl & Ho & Hn & Hp) (Hlab & Hq). unfold quad_term. cbn [fst snd].
  destruct Hq as [Hq | (o1 & o2 & Hq & N1 & N2)]; rewrite Hq in *.
  - destruct (os_labels s) as [|l [|]] eqn:El; try discriminate. exists (2 * l)%Z, (2 * l + 1)%Z, gm1.
    assert (B : (0 <= l < Z.of_nat n)%Z) by (apply Hlab; left; auto).
    split; auto. split; [reflexivity|]. split; [apply below_in; lia|]. split; [apply below_in; lia|].
    intros Hr A g R. unfold den. rewrite Hq, El. cbn [combine map fst snd]. unfold tform, quad_entries. cbn [map fst snd].
    rewrite maj_even, maj_odd, (real_gq x Hr). cbn [asum fold_right]. unfold aprod. cbn [fold_right]. rewrite amul_1_r.
    destruct R as [? ? ? ? ? ? H3 H4]. rewrite (H4 l). assert (E : g OB l * g OA l == gm1 · (g OA l * g OB l)).
    { rewrite (H3 l l). rewrite gm1_gm1. reflexivity. }
    rewrite E. cbn in Hp. rewrite Hp. generalize (g OA l * g OB l). intros u. msolve [u]; (etransitivity; [apply gquarter|]); gring.
  - destruct (os_labels s) as [|l1 [|l2 [|]]] eqn:El; try discriminate.
    assert (K : forall o, In o [o1; o2] -> o <> OD -> o = OA \/ o = OB).
    { intros o Hin Hd. specialize (Ho o Hin). destruct o; cbn in Ho; try discriminate; auto. congruence. }
    assert (K1 : o1 = OA \/ o1 = OB) by (apply K; cbn; auto). assert (K2 : o2 = OA \/ o2 = OB) by (apply K; cbn; auto).
    assert (Hab : is_ab o1 = true /\ is_ab o2 = true) by (destruct K1, K2; subst; auto). destruct Hab as [A1 A2].
    exists (maj_index o1 l1), (maj_index o2 l2), g1. split.
    { destruct o1; try (destruct K1; discriminate); rewrite A1, A2; reflexivity. }
    split; [reflexivity|]. split; [apply maj_index_below, Hlab; cbn; auto|]. split; [apply maj_index_below, Hlab; cbn; auto|].
    intros Hr A g R. unfold den. rewrite Hq, El. cbn [combine map fst snd]. unfold tform, quad_entries. cbn [map fst snd].
    rewrite !maj_of by auto. rewrite (real_gq x Hr). cbn [asum fold_right]. unfold aprod. cbn [fold_right]. rewrite amul_1_r.
    rewrite (maj_anti g o1 o2 l1 l2 R K1 K2) by (inversion Hn as [|? ? Nn]; subst; intros ->; apply Nn; left; auto).
    cbn [filter length] in Hp. rewrite A1, A2 in Hp. cbn in Hp. rewrite Hp. generalize (g o1 l1 * g o2 l2). intros u. msolve [u]; (etransitivity; [apply gquarter|]); gring.
Qed.

Theorem majorana_quadratic o n : op_ok o -> o_type o = Majorana ->
  (forall t, In t (op_terms o) -> string_ok Majorana (snd t) /\ quadratic_majorana n (snd t)) -> exists M,
  quadratic_matrix o n = Ok M /\ z_dim M = (2 * n)%nat /\ antisymmetric (zentry M) /\ real_entries (zentry M) /\
  ((forall t, In t (op_terms o) -> real (fst t)) -> forall (A : StarAlg) (g : op -> Z -> A), rep Majorana g ->
     lincomb g (op_terms o) == gmul gi (gmul half half) · form (2 * n) (zentry M) (maj g) (maj g)).
Proof.
  intros Ho Ty H. unfold quadratic_matrix. rewrite Ty. cbn [rbind].
  destruct (concat_terms_ok quad_term (op_terms o)) as (l & F & E).
  { intros t Ht. destruct (H t Ht) as [H1 H2]. destruct (quad_term_ok n t H1 H2) as (i & j & sg & Eq & _). eauto. }
  rewrite E. cbn [rbind]. assert (Fit : forall t, In t (concat l) -> fits (2 * n) t).
  { apply (Forall2_concat _ _ _ _ F). intros t d Ht Ed u Hu. destruct (H t Ht) as [H1 H2].
    destruct (quad_term_ok n t H1 H2) as (i & j & sg & Eq & _ & Bi & Bj & _). rewrite Ed in Eq. injection Eq as ->.
    destruct Hu as [<- | [<- | [] ] ]; split; auto. }
  rewrite (zcsr_ok _ _ Fit). eexists. split; [reflexivity|]. split; [reflexivity|]. split; [|split].
  - apply (Forall2_entries _ _ _ _ _ F).
    + intros M N HM HP j k. rewrite <- !HM. apply HP.
    + intros j k. reflexivity.
    + intros M N HM HN j k. rewrite HM, HN. ring.
    + intros t d Ht Ed. destruct (H t Ht) as [H1 H2]. destruct (quad_term_ok n t H1 H2) as (i & j & sg & Eq & _).
      rewrite Ed in Eq. injection Eq as ->. apply quad_entries_anti.
  - apply (Forall2_entries _ _ _ _ _ F).
    + intros M N HM HP j k. rewrite <- !HM. apply HP.
    + intros j k. reflexivity.
    + intros M N HM HN j k. cbn. rewrite HM, HN. ring.
    + intros t d Ht Ed. destruct (H t Ht) as [H1 H2]. destruct (quad_term_ok n t H1 H2) as (i & j & sg & Eq & S & _).
      rewrite Ed in Eq. injection Eq as ->. apply quad_entries_real; auto.
  - intros Hr A g R. rewrite (form_triples _ _ _ _ _ Fit), tform_concat, asum_scal, map_map. unfold lincomb.
    apply (asum_Forall2 _ _ _ _ _ F). intros t d Ht Ed. destruct (H t Ht) as [H1 H2].
    destruct (quad_term_ok n t H1 H2) as (i & j & sg & Eq & _ & _ & _ & HA). rewrite Ed in Eq. injection Eq as ->.
    apply HA; auto.
Qed.
