(** Conversion of strings between all types. *)
From Coq Require Import List Arith Lia ZArith Bool Setoid Morphisms Sorted Permutation Qcanon.
From Verif Require Import GC Exn S_Alg S_Den S_Basis S_Conv S_Fock M_OpString M_Algebra M_Basis M_Conversion
  L_Alg L_Module L_StrAlg L_Basis L_Operator L_Fock L_Indep L_PropStr L_VSum L_ConvAlg L_ConvMaj2 L_ConvFerm L_JW2 L_ConvLin.
Import ListNotations.
Local Open Scope nat_scope.
Local Open Scope alg_scope.

(* ------------------------------------------------ fermions from Majoranas *)

(** c = (a + i b)/2. *)
Definition cmaj {A : StarAlg} (g : op -> Z -> A) (l : Z) : A := half · (g OA l + gi · g OB l).

Section Cmaj.
  Context {A : StarAlg} (g : op -> Z -> A).
  Hypothesis H : MajoranaRel A (g OA) (g OB) (g OD).
  Lemma cmaj_star l : (cmaj g l)^* == half · (g OA l + gopp gi · g OB l).
  Proof.
    unfold cmaj. rewrite astar_scal, astar_add, astar_scal, (ma_star A _ _ _ H), (mb_star A _ _ _ H).
    msolve [g OA l; g OB l]; apply GC_ext; apply Qc_is_canon; reflexivity.
  Qed.
  Lemma prod4 (z w : GC) l m : (half · (g OA l + z · g OB l)) * (half · (g OA m + w · g OB m)) ==
    gmul half half · (g OA l * g OA m + w · (g OA l * g OB m) + z · (g OB l * g OA m) + gmul z w · (g OB l * g OB m)).
  Proof.
    rewrite ascal_mul_l, ascal_mul_r, amul_add_l, !amul_add_r, !ascal_mul_l, !ascal_mul_r.
    msolve [g OA l * g OA m; g OA l * g OB m; g OB l * g OA m; g OB l * g OB m]; ring.
  Qed.
  Theorem cmaj_car : CAR A (cmaj g).
  Proof.
    split.
    - intros l m. unfold cmaj. rewrite !prod4. destruct (Z.eq_dec l m) as [<-|N].
      + rewrite (ma_sq A _ _ _ H), (mb_sq A _ _ _ H), (maj_ba _ _ _ H l l).
        msolve [aone : A; g OA l * g OB l]; apply GC_ext; apply Qc_is_canon; reflexivity.
      + rewrite (ma_anti A _ _ _ H l m N), (mb_anti A _ _ _ H l m N), (mab_anti A _ _ _ H l m), (maj_ba _ _ _ H l m).
        msolve [g OA m * g OA l; g OA m * g OB l; g OB m * g OA l; g OB m * g OB l]; apply GC_ext; apply Qc_is_canon; reflexivity.
    - intros l. rewrite cmaj_star. unfold cmaj. rewrite !prod4.
      rewrite (ma_sq A _ _ _ H), (mb_sq A _ _ _ H), (maj_ba _ _ _ H l l).
      msolve [aone : A; g OA l * g OB l]; apply GC_ext; apply Qc_is_canon; reflexivity.
    - intros l m N. rewrite cmaj_star. unfold cmaj. rewrite !prod4.
      rewrite (ma_anti A _ _ _ H l m N), (mb_anti A _ _ _ H l m N), (mab_anti A _ _ _ H l m), (maj_ba _ _ _ H l m).
      msolve [g OA m * g OA l; g OA m * g OB l; g OB m * g OA l; g OB m * g OB l]; apply GC_ext; apply Qc_is_canon; reflexivity.
  Qed.
End Cmaj.

Lemma fock_car : CAR Fock (cmaj fock_gen).
Proof. apply cmaj_car. exact fock_majorana. Qed.

(* ------------------------------------------------ identity terms *)

Lemma means_vsum {A : StarAlg} (c : Z -> A) ts : means c ts = vsum (meaning c) ts.
Proof. reflexivity. Qed.
Lemma identity_meaning {A : StarAlg} (c : Z -> A) s : os_ops s = [] -> meaning c s == pval (os_pref s) · aone.
Proof.
  intros E. unfold meaning, fden, den. rewrite E. cbn [combine map filter rev].
  destruct (os_type s); try reflexivity.
Qed.
Lemma without_means ts : exists k, (forall (A : StarAlg) (c : Z -> A), means c ts == means c (without_identity ts) + k · aone).
Proof.
  induction ts as [|[x s] ts (k & IH)].
  - exists g0. intros A c. unfold means; cbn. rewrite ascal_0, aadd_0_l. reflexivity.
  - destruct (os_ops s) as [|o ops] eqn:E.
    + exists (gadd (gmul x (pval (os_pref s))) k). intros A c. unfold without_identity. cbn [filter snd]. rewrite E.
      fold (without_identity ts). rewrite !means_vsum, vsum_cons, <- means_vsum, (IH A c), (identity_meaning c s E), means_vsum.
      msolve [aone : A; vsum (meaning c) (without_identity ts)]; ring.
    + exists k. intros A c. unfold without_identity. cbn [filter snd]. rewrite E. fold (without_identity ts).
      rewrite !means_vsum, !vsum_cons, <- !means_vsum, (IH A c). apply aadd_assoc.
Qed.

(* ------------------------------------------------ Jordan-Wigner images *)

Lemma unit_nonzero k : gmul k (gconj k) = g1 -> k <> g0.
Proof. intros H E. subst k. assert (X : gmul g0 (gconj g0) = g0) by ring. rewrite X in H. discriminate (f_equal re H). Qed.

Lemma jw_inj s t k k' u : string_ok Majorana s -> canonical s -> nonneg s -> string_ok Majorana t -> canonical t -> nonneg t ->
  jordan_wigner s = Ok (k, u) -> jordan_wigner t = Ok (k', u) -> s = t.
Proof.
  intros S1 S2 S3 T1 T2 T3 Es Et.
  destruct (jw_from_majorana s S1 S3) as (k1 & m1 & E1 & U1 & _ & _ & _ & D1 & _).
  destruct (jw_from_majorana t T1 T3) as (k2 & m2 & E2 & U2 & _ & _ & _ & D2 & _).
  rewrite Es in E1. injection E1 as <- <-. rewrite Et in E2. injection E2 as <- <-.
  apply (multiple_unique Majorana fock_gen k' k s t fock_majorana fock_nontrivial); auto using unit_nonzero.
  rewrite (D1 Fock fock_gen fock_majorana), (D2 Fock fock_gen fock_majorana), !ascal_ascal. apply ascal_eq. ring.
Qed.

Lemma string_nil ty s : string_ok ty s -> canonical s -> os_ops s = [] -> s = mkOS [] [] ty p_one.
Proof.
  intros (Ht & Hl & _ & _ & Hp) [_ Hc] E. destruct s as [ops labels ty' p]. cbn in *. subst. destruct labels; [|discriminate].
  f_equal. destruct Hc as [->| ->]; auto. exfalso.
  assert (X : gi = g1) by (destruct ty; exact Hp). discriminate (f_equal re X).
Qed.

Lemma jw_nil s k u : string_ok Majorana s -> canonical s -> nonneg s -> jordan_wigner s = Ok (k, u) ->
  (os_ops u = [] <-> os_ops s = []).
Proof.
  intros S1 S2 S3 E. 
  destruct (jw_from_majorana s S1 S3) as (k1 & m1 & E1 & U1 & M1 & M2 & _ & D1 & _).
  rewrite E in E1. injection E1 as <- <-.
  set (e := mkOS [] [] Majorana p_one).
  assert (He : jordan_wigner e = Ok (g1, mkOS [] [] Pauli p_one)) by reflexivity.
  assert (Oe : string_ok Majorana e).
  { repeat split; cbn; auto; try tauto. constructor. }
  assert (Ce : canonical e) by (split; cbn; [constructor|auto]).
  assert (Ne : nonneg e) by (intros l []).
  split; intros En.
  - assert (s = e); [|subst; reflexivity].
    apply (jw_inj s e k g1 (mkOS [] [] Pauli p_one)); auto. rewrite E. repeat f_equal. apply string_nil; auto.
  - assert (s = e) by (apply string_nil; auto). subst s. rewrite He in E. injection E as _ <-. reflexivity.
Qed.

Definition jwq (q : GC * OS) : GC * OS :=
  match jordan_wigner (snd q) with Ok (k, u) => (gmul k (fst q), u) | _ => q end.
Definition jw_ready (q : GC * OS) : Prop := string_ok Majorana (snd q) /\ canonical (snd q) /\ nonneg (snd q).

Lemma jwq_ok q : jw_ready q -> exists k u, jordan_wigner (snd q) = Ok (k, u) /\ jwq q = (gmul k (fst q), u) /\
  string_ok Pauli u /\ canonical u /\ (os_ops u = [] <-> os_ops (snd q) = []) /\
  (forall (A : StarAlg) c, CAR A c -> fst (jwq q) · meaning c u == fst q · meaning c (snd q)).
Proof.
  intros (S1 & S2 & S3). destruct (jw_from_majorana (snd q) S1 S3) as (k & u & E & U & M1 & M2 & _ & D & _).
  exists k, u. split; auto. assert (Ej : jwq q = (gmul k (fst q), u)) by (unfold jwq; rewrite E; auto).
  split; auto. split; auto. split; auto. split; [eapply jw_nil; eauto|]. intros A c Hc. rewrite Ej. cbn [fst].
  unfold meaning. destruct S1 as (-> & _). destruct M1 as (-> & _). rewrite (D A (gmaj c) (gmaj_rep c Hc)), ascal_ascal.
  apply ascal_eq. ring.
Qed.
Lemma jwq_nodup ts : (forall q, In q ts -> jw_ready q) -> NoDup (map snd ts) -> NoDup (map snd (map jwq ts)).
Proof.
  induction ts as [|q ts IH]; intros Hall N; cbn [map]; [constructor|]. inversion N as [|x l N1 N2]; subst.
  constructor; [|apply IH; auto; intros; apply Hall; right; auto]. intros Hin. apply N1.
  apply in_map_iff in Hin. destruct Hin as (p & Ep & Hp). apply in_map_iff in Hp. destruct Hp as (r & <- & Hr).
  pose proof (Hall q (or_introl eq_refl)) as Rq. pose proof (Hall r (or_intror Hr)) as Rr.
  destruct (jwq_ok q Rq) as (k & u & E & Ej & _). destruct (jwq_ok r Rr) as (k' & u' & E' & Ej' & _).
  rewrite Ej, Ej' in Ep. cbn [snd] in Ep. subst u'. destruct Rq as (A1 & A2 & A3), Rr as (B1 & B2 & B3).
  rewrite (jw_inj (snd q) (snd r) k k' u); auto. apply in_map; auto.
Qed.
Lemma jwq_means ts : (forall q, In q ts -> jw_ready q) -> forall (A : StarAlg) c, CAR A c -> means c (map jwq ts) == means c ts.
Proof.
  intros Hall A c Hc. induction ts as [|q ts IH]; [reflexivity|]. unfold means in *. cbn [map asum fold_right].
  fold (@asum A). apply aadd_proper; [|apply IH; intros; apply Hall; right; auto].
  destruct (jwq_ok q (Hall q (or_introl eq_refl))) as (k & u & E & Ej & _ & _ & _ & D). rewrite <- (D A c Hc), Ej. reflexivity.
Qed.
Lemma jwq_without ts : (forall q, In q ts -> jw_ready q) -> without_identity (map jwq ts) = map jwq (without_identity ts).
Proof.
  induction ts as [|q ts IH]; intros Hall; [reflexivity|]. unfold without_identity in *. cbn [map filter].
  destruct (jwq_ok q (Hall q (or_introl eq_refl))) as (k & u & E & Ej & _ & _ & N & _). rewrite Ej at 1. cbn [snd].
  rewrite IH by (intros; apply Hall; right; auto).
  destruct (os_ops (snd q)) as [|o l] eqn:Eo; destruct (os_ops u) as [|o' l'] eqn:Eu; auto.
  - destruct N as [_ N]. specialize (N eq_refl). discriminate.
  - destruct N as [N _]. specialize (N eq_refl). discriminate.
Qed.

(* ------------------------------------------------ all type pairs *)

Lemma good_maj_ready I J q : good_maj I J q -> (forall l, In l I \/ In l J -> (0 <= l)%Z) -> jw_ready q.
Proof. intros (H1 & H2 & H3 & _) Hn. split; auto. split; auto. intros l Hl. auto. Qed.

Lemma single_ok k s ty : exists o, op_of_terms [(k, s)] ty = Ok o /\ op_ok o /\ o_type o = os_type s /\ op_terms o = [(k, s)].
Proof.
  destruct (op_new_ok [k] [s] ty) as (o & E & Ho & Hc & Hb & _); [apply distinct_single | auto | left; discriminate |].
  exists o. split; auto. split; auto. split; [destruct Ho as (_ & _ & Ht); eapply Ht; eauto|]. unfold op_terms. rewrite Hc, Hb. reflexivity.
Qed.
Lemma means_single {A : StarAlg} (c : Z -> A) k s : means c [(k, s)] == k · meaning c s.
Proof. unfold means. cbn. apply aadd_0_r. Qed.

Lemma conv_same s ty incl : os_type s = ty -> convert_string s ty incl = op_of_terms [(g1, s)] None.
Proof. intros <-. unfold convert_string. rewrite optype_eqb_refl. reflexivity. Qed.

Definition scaled (k : GC) (ts : list (GC * OS)) : list (GC * OS) := map (fun t => (gmul (fst t) k, snd t)) ts.
Lemma scaled_without k ts : without_identity (scaled k ts) = scaled k (without_identity ts).
Proof.
  unfold without_identity, scaled. induction ts as [|q ts IH]; [reflexivity|]. cbn [map filter snd].
  rewrite IH. destruct (os_ops (snd q)); reflexivity.
Qed.
Lemma scaled_terms k o r : o_basis r = o_basis o -> o_coeffs r = map (fun c => gmul c k) (o_coeffs o) -> op_terms r = scaled k (op_terms o).
Proof.
  intros Hb Hc. unfold op_terms, scaled. rewrite Hb, Hc. generalize (o_coeffs o) (b_strings (o_basis o)).
  induction l as [|x l IH]; intros [|s m]; cbn; auto. f_equal. auto.
Qed.

Theorem conv_string s ty : conv_dom s ty -> exists ts,
  (forall incl, conv_prod s ty incl -> exists o, convert_string s ty incl = Ok o /\ op_ok o /\ o_type o = ty /\
     (op_terms o = ts \/ incl = false /\ op_terms o = without_identity ts)) /\
  (os_type s <> ty -> forall q, In q ts -> std (snd q)) /\
  (forall (A : StarAlg) (c : Z -> A), CAR A c -> means c ts == meaning c s).
Proof.
  intros [Hs Hn]. destruct (optype_eqb (os_type s) ty) eqn:Et.
  { apply optype_eqb_eq in Et. exists [(g1, s)]. split; [|split].
    - intros incl _. rewrite (conv_same s ty incl Et). destruct (single_ok g1 s None) as (o & E & Ho & Ht & HT).
      exists o. split; auto. split; auto. split; [congruence|auto].
    - congruence.
    - intros A c _. rewrite means_single, ascal_1. reflexivity. }
  assert (Ne : os_type s <> ty) by (intros E; rewrite E, optype_eqb_refl in Et; discriminate).
  specialize (Hn Ne). destruct (os_type s) eqn:Es.
  - (* Pauli *)
    specialize (Hn (or_introl eq_refl)). destruct (jw_from_pauli s Hs Hn) as (k & m & E & U & M1 & M2 & M3 & D).
    destruct ty; [congruence| |].
    + exists [(k, m)]. split; [|split].
      * intros incl _. unfold convert_string. rewrite Es. cbn [optype_eqb]. rewrite E. cbn [rbind].
        destruct (single_ok k m (Some Majorana)) as (o & Eo & Ho & Ht & HT). exists o. split; auto. split; auto.
        split; [rewrite Ht; apply M1|auto].
      * intros _ q [<-|[]]. apply canonical_std; auto.
      * intros A c Hc. rewrite means_single. unfold meaning. rewrite Es. destruct M1 as (-> & _). symmetry. apply D. apply gmaj_rep; auto.
    + destruct (maj_conv m M1) as (ts & Hconv & Hg & Hm). exists (scaled k ts). split; [|split].
      * intros incl _. unfold convert_string. rewrite Es. cbn [optype_eqb]. rewrite E. cbn [rbind].
        destruct (Hconv incl) as (o & Eo & Ho & Ht & HT). rewrite Eo. cbn [rbind].
        destruct (op_scale_ok k o Ho) as (r & Er & Hr & Tr & Br & Cr & _). exists r. split; auto. split; auto. split; [congruence|].
        rewrite (scaled_terms k o r Br Cr), HT. destruct incl; auto. right. rewrite scaled_without; auto.
      * intros _ q Hq. apply in_map_iff in Hq. destruct Hq as (r & <- & Hr). cbn [snd].
        destruct (Hg r Hr) as (f & I & J & -> & Hf & _). apply FS_std; auto.
      * intros A c Hc. rewrite means_vsum. unfold scaled. rewrite vsum_scal, <- means_vsum, (Hm A c Hc).
        unfold meaning. rewrite Es. symmetry. apply D. apply gmaj_rep; auto.
  - (* Majorana *)
    destruct ty; [|congruence|].
    + specialize (Hn (or_intror eq_refl)). destruct (jw_from_majorana s Hs Hn) as (k & m & E & U & M1 & M2 & M3 & D & _).
      exists [(k, m)]. split; [|split].
      * intros incl _. unfold convert_string. rewrite Es. cbn [optype_eqb]. rewrite E. cbn [rbind].
        destruct (single_ok k m (Some Pauli)) as (o & Eo & Ho & Ht & HT). exists o. split; auto. split; auto.
        split; [rewrite Ht; apply M1|auto].
      * intros _ q [<-|[]]. apply canonical_std; auto.
      * intros A c Hc. rewrite means_single. unfold meaning. rewrite Es. destruct M1 as (-> & _). symmetry. apply D. apply gmaj_rep; auto.
    + destruct (maj_conv s Hs) as (ts & Hconv & Hg & Hm). exists ts. split; [|split].
      * intros incl _. destruct (Hconv incl) as (o & Eo & Ho & Ht & HT). exists o. unfold convert_string. rewrite Es. cbn [optype_eqb].
        split; auto. split; auto. split; auto. destruct incl; auto.
      * intros _ q Hq. destruct (Hg q Hq) as (f & I & J & -> & Hf & _). apply FS_std; auto.
      * intros A c Hc. rewrite (Hm A c Hc). unfold meaning. rewrite Es. reflexivity.
  - (* Fermion *)
    destruct Hs as (I & J & F & NI & NJ & Hb). destruct (ferm_conv s I J F NI NJ Hb) as (ts & Hconv & Hg & Hm).
    destruct ty; [| |congruence].
    + specialize (Hn (or_intror eq_refl)).
      assert (Hl : forall l, In l I \/ In l J -> (0 <= l)%Z).
      { intros l Hl. apply Hn. destruct F as (_ & _ & -> & _). apply in_or_app. rewrite <- in_rev. auto. }
      assert (Hr : forall q, In q ts -> jw_ready q) by (intros q Hq; eapply good_maj_ready; eauto).
      exists (map jwq ts). split; [|split].
      * intros incl Hp. destruct (Hconv incl) as (o & Eo & Ho & Ht & HT); [apply Hp; auto; discriminate|].
        unfold convert_string. rewrite Es. cbn [optype_eqb]. rewrite Eo. cbn [rbind].
        assert (Hr' : forall q, In q (op_terms o) -> jw_ready q).
        { intros q Hq. apply Hr. rewrite HT in Hq. destruct incl; auto. apply filter_In in Hq. tauto. }
        rewrite (rmap_pure _ jwq).
        2:{ intros q Hq. destruct (jwq_ok q (Hr' q Hq)) as (k & u & E & Ej & _). rewrite E, Ej. reflexivity. }
        cbn [rbind]. destruct (op_of_terms_ok (map jwq (op_terms o)) (Some Pauli)) as (r & Er & Hor & HTr & Htr).
        { intros q Hq. apply in_map_iff in Hq. destruct Hq as (q' & <- & Hq'). destruct (jwq_ok q' (Hr' q' Hq')) as (k & u & _ & -> & _ & C & _).
          apply canonical_std; auto. }
        { apply jwq_nodup; auto. rewrite (op_terms_snd o Ho). apply distinct_NoDup. apply Ho. }
        { right; discriminate. }
        exists r. split; auto. split; auto. split.
        -- destruct (map jwq (op_terms o)) as [|q us] eqn:Em; [specialize (Htr eq_refl); congruence|].
           assert (Hall : forall x, In x (q :: us) -> os_type (snd x) = Pauli).
           { intros x Hx. rewrite <- Em in Hx. apply in_map_iff in Hx. destruct Hx as (q' & <- & Hq').
             destruct (jwq_ok q' (Hr' q' Hq')) as (k & u & _ & -> & (C & _) & _). exact C. }
           rewrite (op_terms_type r _ q Hor HTr); [apply Hall; left; auto | left; auto |].
           intros x Hx. rewrite (Hall x Hx), (Hall q); auto. left; auto.
        -- rewrite HTr, HT. destruct incl; auto. right. rewrite jwq_without; auto.
      * intros _ q Hq. apply in_map_iff in Hq. destruct Hq as (q' & <- & Hq').
        destruct (jwq_ok q' (Hr q' Hq')) as (k & u & _ & -> & _ & C & _). apply canonical_std; auto.
      * intros A c Hc. rewrite (jwq_means ts Hr A c Hc), (Hm A c Hc). unfold meaning. rewrite Es. reflexivity.
    + exists ts. split; [|split].
      * intros incl Hp. destruct (Hconv incl) as (o & Eo & Ho & Ht & HT); [apply Hp; auto; discriminate|]. exists o.
        unfold convert_string. rewrite Es. cbn [optype_eqb]. split; auto. split; auto. split; auto. destruct incl; auto.
      * intros _ q Hq. apply canonical_std, (Hg q Hq).
      * intros A c Hc. rewrite (Hm A c Hc). unfold meaning. rewrite Es. reflexivity.
Qed.

(** One conversion. *)
Theorem conv_string_denotes s ty incl : conv_dom s ty -> conv_prod s ty incl -> exists o k,
  convert_string s ty incl = Ok o /\ op_ok o /\ o_type o = ty /\ (incl = true -> k = g0) /\
  (std s -> op_std o) /\
  (forall (A : StarAlg) (c : Z -> A), CAR A c -> meaning c s == means c (op_terms o) + k · aone).
Proof.
  intros Hd Hp. destruct (conv_string s ty Hd) as (ts & Hc & Hs & Hm). destruct (Hc incl Hp) as (o & E & Ho & Ht & HT).
  assert (Hst : std s -> op_std o).
  { intros St u Hu. rewrite <- (op_terms_snd o Ho) in Hu. apply in_map_iff in Hu. destruct Hu as (q & <- & Hq).
    destruct (optype_eqb (os_type s) ty) eqn:Ety.
    - apply optype_eqb_eq in Ety. rewrite (conv_same s ty incl Ety) in E. destruct (single_ok g1 s None) as (o' & E' & _ & _ & HT').
      rewrite E in E'. injection E' as <-. rewrite HT' in Hq. destruct Hq as [<-|[]]. exact St.
    - apply Hs; [intros E1; rewrite E1, optype_eqb_refl in Ety; discriminate|].
      destruct HT as [<-|[_ HT]]; auto. rewrite HT in Hq. apply filter_In in Hq. tauto. }
  destruct HT as [HT|[-> HT]].
  - exists o, g0. do 5 (split; auto). intros A c Hcar. rewrite HT, (Hm A c Hcar), ascal_0. symmetry. apply aadd_0_r.
  - destruct (without_means ts) as (k & Hk). exists o, k. split; auto. split; auto. split; auto. split; [discriminate|]. split; auto.
    intros A c Hcar. rewrite <- (Hm A c Hcar), HT. apply Hk.
Qed.
