(** Conversion of Operators: the shape of every result, and linearity. *)
From Coq Require Import List Arith Lia ZArith Bool Setoid Morphisms Sorted Permutation.
From Verif Require Import GC Exn S_Alg S_Den S_Basis S_Conv M_OpString M_Tools M_Algebra M_Basis M_Conversion
  L_Alg L_StrAlg L_Basis L_Operator L_ConvMaj2.
Import ListNotations.
Local Open Scope nat_scope.

(* -------------------------------------------------------- types of results *)

Lemma os_make_type ops labels ty p s : os_make ops labels ty p = Ok s -> os_type s = ty.
Proof.
  unfold os_make. destruct ty.
  - destruct (pref_ok _ _); [|discriminate]. intros E; injection E as <-; auto.
  - destruct (_ <? _); [discriminate|]. cbv zeta. destruct (pref_ok _ _); [|discriminate]. intros E; injection E as <-; auto.
  - destruct (pref_ok _ _); [|discriminate]. intros E; injection E as <-; auto.
Qed.
Lemma os_new_type ops labels ty s : os_new ops labels ty = Ok s -> os_type s = ty.
Proof. apply os_make_type. Qed.
Lemma finish_type m ty z st k C : finish_op m ty z st = Ok (k, Some C) -> os_type C = ty.
Proof.
  unfold finish_op. destruct (abs_ltb _ _); [discriminate|].
  destruct (os_new _ _ ty) as [D|e] eqn:E; [|discriminate]. apply os_new_type in E. cbn [rbind].
  destruct m; intros H; injection H as <- <-; auto.
Qed.
Lemma operation_type m A B k C : operation_opstring m A B = Ok (k, Some C) -> os_type C = os_type A.
Proof.
  unfold operation_opstring. destruct (os_type A) eqn:ET; [| |discriminate].
  - destruct (match m with MProduct => os_eqb A B | _ => false end).
    + destruct (os_new [] [] Pauli) as [D|e] eqn:E; [|discriminate]. apply os_new_type in E. cbn [rbind].
      intros H; injection H as _ <-; auto.
    + cbv zeta. destruct (rfold _ _ _) as [st|e]; [|discriminate]. cbn [rbind]. apply finish_type.
  - destruct (match m with MProduct => os_eqb A B | _ => false end).
    + destruct (os_new [] [] Majorana) as [D|e] eqn:E; [|discriminate]. apply os_new_type in E. cbn [rbind].
      intros H; injection H as _ <-; auto.
    + cbv zeta. destruct (os_type B); try discriminate. destruct (rfold _ _ _) as [st|e]; [|discriminate]. cbn [rbind]. apply finish_type.
Qed.
Lemma jw_loop_type jw w : forall total r k m, jw_loop jw w total r = Ok (k, m) -> os_type m = os_type r.
Proof.
  induction w as [|[o l] w IH]; intros total r k m; cbn [jw_loop].
  - intros E; injection E as _ <-; auto.
  - destruct (jw o l) as [s|e]; [|discriminate]. cbn [rbind].
    destruct (product r s) as [[z [c|]]|e] eqn:E; try discriminate. cbn [rbind].
    intros H. rewrite (IH _ _ _ _ H). eapply operation_type; eauto.
Qed.
Lemma jordan_wigner_type s k m : jordan_wigner s = Ok (k, m) ->
  (os_type s = Pauli /\ os_type m = Majorana) \/ (os_type s = Majorana /\ os_type m = Pauli).
Proof.
  unfold jordan_wigner. destruct (os_type s) eqn:ET; [| |discriminate].
  - destruct (_ <? _); [discriminate|]. destruct (os_new [] [] Majorana) as [e|x] eqn:E; [|discriminate].
    apply os_new_type in E. cbn [rbind]. intros H. apply jw_loop_type in H. left. split; congruence.
  - destruct (_ <? _); [discriminate|]. destruct (os_new [] [] Pauli) as [e|x] eqn:E; [|discriminate].
    apply os_new_type in E. cbn [rbind]. intros H. apply jw_loop_type in H. right. split; congruence.
Qed.

Lemma op_of_terms_inv ts ty o : op_of_terms ts ty = Ok o ->
  op_ok o /\ op_terms o = ts /\ distinct_keys (map snd ts) /\ (ts = [] -> Some (o_type o) = ty) /\
  (forall t, (forall q, In q ts -> os_type (snd q) = t) -> ts <> [] -> o_type o = t).
Proof.
  intros E. unfold op_of_terms in E.
  destruct (distinct_dec (map snd ts)) as [D|D].
  2:{ exfalso. unfold op_new in E. rewrite (proj2 (basis_new_spec _) D) in E. discriminate. }
  assert (Hne : map snd ts <> [] \/ ty <> None).
  { destruct ts as [|q ts]; [|left; discriminate]. right. intros ->. cbn in E. discriminate. }
  destruct (op_new_ok (map fst ts) (map snd ts) ty D) as (o' & Eo & Ho & Hc & Hb & Ht); [rewrite !map_length; auto | auto |].
  rewrite Eo in E. injection E as ->.
  assert (ET : op_terms o = ts) by (unfold op_terms; rewrite Hc, Hb; apply combine_split_eq).
  split; auto. split; auto. split; auto. split.
  - intros ->. auto.
  - intros t Hall Hn. destruct ts as [|q ts]; [congruence|].
    rewrite (op_terms_type o (q :: ts) q Ho ET); [apply Hall; left; auto | left; auto |].
    intros r Hr. rewrite (Hall r Hr), (Hall q); auto. left; auto.
Qed.

Lemma rmap_somes_in {X Y} (f : X -> res (option Y)) l m q : rmap f l = Ok m -> In q (somes m) -> exists x, In x l /\ f x = Ok (Some q).
Proof.
  intros H. apply rmap_ok in H. induction H as [|x y l m Hxy H IH]; cbn [somes]; [intros []|].
  destruct y as [y|].
  - intros [<-|Hq]; [exists x; split; [left; auto|auto]|]. destruct (IH Hq) as (x' & ? & ?). exists x'. split; [right|]; auto.
  - intros Hq. destruct (IH Hq) as (x' & ? & ?). exists x'. split; [right|]; auto.
Qed.
Lemma maj_term_type incl large w p t q : maj_term incl large w p t = Ok (Some q) -> os_type (snd q) = Fermion.
Proof.
  unfold maj_term. destruct (maj_expand large w t p) as [[c fl] n]. destruct (_ && _); [discriminate|].
  unfold maj_emit. destruct (sort_sign fl) as [srt sg]. cbv zeta.
  destruct (_ <? 0)%Z; [discriminate|]. unfold fermion_string_from. destruct (_ =? 0)%Z.
  - destruct (os_make _ _ _ _) eqn:E; [|discriminate]. apply os_make_type in E. cbn [rbind]. intros H; injection H as <-; auto.
  - destruct (abs_ltb _ _).
    + destruct (os_make _ _ _ _) eqn:E; [|discriminate]. apply os_make_type in E. cbn [rbind]. intros H; injection H as <-; auto.
    + destruct (abs_ltb _ _); [|discriminate].
      destruct (os_make _ _ _ _) eqn:E; [|discriminate]. apply os_make_type in E. cbn [rbind]. intros H; injection H as <-; auto.
Qed.
Lemma ferm_term_type incl herm ops sg p t q : ferm_term incl herm ops sg p t = Ok (Some q) -> os_type (snd q) = Majorana.
Proof.
  unfold ferm_term. destruct (ferm_expand ops t g1) as [c w]. destruct (_ && _); [discriminate|].
  destruct (os_new _ _ _) as [m|e] eqn:E; [|discriminate]. apply os_new_type in E. cbn [rbind]. cbv zeta. destruct herm.
  - destruct (abs_gtb _ _); [discriminate|]. intros H; injection H as <-; auto.
  - intros H; injection H as <-; auto.
Qed.

Lemma conv_maj_shape s incl o : convert_majorana_string s incl = Ok o -> op_ok o /\ o_type o = Fermion.
Proof.
  unfold convert_majorana_string. destruct (os_type s); try discriminate. destruct (os_ops s) as [|o0 ops0].
  - destruct incl.
    + destruct (os_new [] [] Fermion) as [e|x] eqn:E; [|discriminate]. apply os_new_type in E. cbn [rbind]. intros H.
      apply op_of_terms_inv in H. destruct H as (H1 & _ & _ & _ & H2). split; auto. apply H2; [|discriminate].
      intros q [<-|[]]; auto.
    + intros H. apply op_of_terms_inv in H. destruct H as (H1 & _ & _ & H2 & _). split; auto. specialize (H2 eq_refl). congruence.
  - destruct (M_Cluster.zmax _) as [mx|e]; [|discriminate]. cbn [rbind]. cbv zeta. destruct (_ <? _); [discriminate|].
    destruct (rmap _ _) as [ts|e] eqn:E; [|discriminate]. cbn [rbind]. intros H.
    apply op_of_terms_inv in H. destruct H as (H1 & _ & _ & H2 & H3). split; auto.
    destruct (somes ts) as [|q us] eqn:Es; [specialize (H2 eq_refl); discriminate|]. apply H3; [|discriminate].
    intros r Hr. rewrite <- Es in Hr. destruct (rmap_somes_in _ _ _ _ E Hr) as (x & _ & Hx). eapply maj_term_type; eauto.
Qed.
Lemma conv_ferm_shape s incl o : convert_fermion_string s incl = Ok o ->
  op_ok o /\ o_type o = Majorana /\ forall q, In q (op_terms o) -> os_type (snd q) = Majorana.
Proof.
  unfold convert_fermion_string. cbv zeta. destruct (sort_sign _) as [srt sg].
  destruct (ferm_ops _ _ _) as [ops|e]; [|discriminate]. cbn [rbind].
  destruct (rmap _ _) as [ts|e] eqn:E; [|discriminate]. cbn [rbind]. intros H.
  apply op_of_terms_inv in H. destruct H as (H1 & HT & _ & H2 & H3). split; auto.
  assert (Hall : forall q, In q (somes ts) -> os_type (snd q) = Majorana).
  { intros r Hr. destruct (rmap_somes_in _ _ _ _ E Hr) as (x & _ & Hx). eapply ferm_term_type; eauto. }
  split; [|rewrite HT; auto].
  destruct (somes ts) as [|q us] eqn:Es; [specialize (H2 eq_refl); discriminate|]. apply H3; [auto|discriminate].
Qed.

Theorem conv_shape s ty incl o : convert_string s ty incl = Ok o -> op_ok o /\ o_type o = ty.
Proof.
  unfold convert_string. destruct (optype_eqb (os_type s) ty) eqn:Eq.
  - apply optype_eqb_eq in Eq. intros H. apply op_of_terms_inv in H. destruct H as (H1 & _ & _ & _ & H2). split; auto.
    apply H2; [|discriminate]. intros q [<-|[]]; auto.
  - assert (JW : forall ty', (let! (k, t) := jordan_wigner s in op_of_terms [(k, t)] (Some ty')) = Ok o ->
        (os_type s = Pauli -> ty' = Majorana) -> (os_type s = Majorana -> ty' = Pauli) -> op_ok o /\ o_type o = ty').
    { intros ty' H HP HM. destruct (jordan_wigner s) as [[k t]|e] eqn:E; [|discriminate]. cbn [rbind] in H.
      apply op_of_terms_inv in H. destruct H as (H1 & _ & _ & _ & H2). split; auto. apply H2; [|discriminate].
      intros q [<-|[]]. cbn [snd]. destruct (jordan_wigner_type s k t E) as [[A B]|[A B]]; rewrite B; symmetry; auto. }
    destruct (os_type s) eqn:Es, ty; try discriminate.
    + intros H. apply JW; auto; discriminate.
    + destruct (jordan_wigner s) as [[k t]|e]; [|discriminate]. cbn [rbind].
      destruct (convert_majorana_string t incl) as [f|e] eqn:E; [|discriminate]. cbn [rbind]. intros H.
      apply conv_maj_shape in E. destruct E as [E1 E2].
      destruct (op_scale_ok k f E1) as (r & Er & Hr & Ht & _). rewrite Er in H. injection H as <-. split; auto. congruence.
    + intros H. apply JW; auto; discriminate.
    + apply conv_maj_shape.
    + destruct (convert_fermion_string s incl) as [m|e] eqn:E; [|discriminate]. cbn [rbind].
      destruct (rmap _ _) as [ts|e] eqn:Et; [|discriminate]. cbn [rbind]. intros H.
      apply op_of_terms_inv in H. destruct H as (H1 & _ & _ & H2 & H3). split; auto.
      apply rmap_ok in Et. destruct ts as [|q ts]; [specialize (H2 eq_refl); congruence|]. apply H3; [|discriminate].
      destruct (conv_ferm_shape s incl m E) as (_ & _ & Hm). clear - Et Hm.
      revert Hm Et. generalize (op_terms m) (q :: ts). intros l us Hm Et.
      induction Et as [|x y l' m' Hxy H IH]; [intros r []|].
      intros r [<-|Hr]; [|apply IH; auto; intros z Hz; apply Hm; right; auto].
      destruct (jordan_wigner (snd x)) as [[k u]|e] eqn:E; [|discriminate]. cbn [rbind] in Hxy. injection Hxy as <-. cbn [snd].
      apply jordan_wigner_type in E. specialize (Hm x (or_introl eq_refl)). destruct E as [[A B]|[A B]]; congruence.
    + intros H. apply conv_ferm_shape in H. tauto.
Qed.

(* -------------------------------------------------------- Operators *)

(** The coefficient of [u] in Σ x_a convert(S_a). *)
Inductive combined (ty : optype) (incl : bool) (u : OS) : list (GC * OS) -> GC -> Prop :=
| cb_nil : combined ty incl u [] g0
| cb_cons x s ts o c d : convert (CString s) ty incl = Ok o -> has_coeff (op_terms o) u c ->
    combined ty incl u ts d -> combined ty incl u ((x, s) :: ts) (gadd (gmul x c) d).

Definition conv_step (ty : optype) (incl : bool) (acc : Operator) (t : GC * OS) : res Operator :=
  let! n := convert_string (snd t) ty incl in
  let! m := op_scale (fst t) n in
  op_iadd acc m.

Lemma op_empty ty : exists z, op_new [] [] (Some ty) = Ok z /\ op_ok z /\ o_type z = ty /\ op_terms z = [].
Proof.
  destruct (op_new_ok [] [] (Some ty)) as (z & E & H & Hc & Hb & Ht); [intros [|i] j s t; discriminate | auto | right; discriminate |].
  exists z. split; auto. split; auto. specialize (Ht eq_refl). split; [congruence|]. unfold op_terms. rewrite Hc. reflexivity.
Qed.

Lemma conv_step_ok ty incl acc x s n : op_ok acc -> o_type acc = ty -> convert_string s ty incl = Ok n ->
  exists m r, op_scale x n = Ok m /\ op_ok m /\ o_type m = ty /\ o_basis m = o_basis n /\
    o_coeffs m = map (fun c => gmul c x) (o_coeffs n) /\
    conv_step ty incl acc (x, s) = Ok r /\ op_iadd acc m = Ok r /\ adds acc m r /\
    (forall u c, has_coeff (op_terms n) u c -> has_coeff (op_terms m) u (gmul x c)).
Proof.
  intros Ha Ht E. destruct (conv_shape s ty incl n E) as [Hn Tn].
  destruct (op_scale_ok x n Hn) as (m & Em & Hm & Tm & Bm & Cm & Hc).
  destruct (op_iadd_ok acc m Ha Hm) as (r & Er & Hr); [congruence|].
  exists m, r. unfold conv_step. cbn [fst snd]. rewrite E. cbn [rbind]. rewrite Em. cbn [rbind].
  repeat (split; auto). congruence.
Qed.

Lemma conv_fold_ok ty incl ts : forall acc, op_ok acc -> o_type acc = ty ->
  (forall t, In t ts -> exists n, convert_string (snd t) ty incl = Ok n) ->
  exists r, rfold (conv_step ty incl) ts acc = Ok r /\ op_ok r /\ o_type r = ty /\
    forall u a c, has_coeff (op_terms acc) u a -> combined ty incl u ts c -> has_coeff (op_terms r) u (gadd a c).
Proof.
  induction ts as [|[x s] ts IH]; intros acc Ha Ht Hall.
  - exists acc. split; [reflexivity|]. split; auto. split; auto. intros u a c Hu Hc. inversion Hc; subst.
    replace (gadd a g0) with a by ring. auto.
  - destruct (Hall (x, s) (or_introl eq_refl)) as (n & En). cbn [snd] in En.
    destruct (conv_step_ok ty incl acc x s n Ha Ht En) as (m & r & Em & Hm & Tm & _ & _ & Er & _ & (Hr & Tr & _ & Hsum) & Hc).
    destruct (IH r Hr) as (r' & Er' & Hr' & Tr' & Hsum'); [congruence | intros; apply Hall; right; auto |].
    exists r'. cbn [rfold]. rewrite Er. cbn [rbind]. split; auto. split; auto. split; auto.
    intros u a c Hu Hcb. inversion Hcb as [|x' s' ts' o' c' d' Eo Hc' Hd]; subst. cbn [convert] in Eo. rewrite En in Eo. injection Eo as <-.
    replace (gadd a (gadd (gmul x c') d')) with (gadd (gadd a (gmul x c')) d') by ring. auto.
Qed.
Lemma conv_fold_inv ty incl ts : forall acc r, op_ok acc -> o_type acc = ty -> rfold (conv_step ty incl) ts acc = Ok r ->
  forall t, In t ts -> exists n, convert_string (snd t) ty incl = Ok n.
Proof.
  induction ts as [|[x s] ts IH]; intros acc r Ha Ht E t; [intros []|].
  cbn [rfold] in E. destruct (convert_string s ty incl) as [n|e] eqn:En.
  - destruct (conv_step_ok ty incl acc x s n Ha Ht En) as (m & r1 & Em & Hm & Tm & _ & _ & Er & _ & (Hr & Tr & _) & _).
    rewrite Er in E. cbn [rbind] in E. intros [<-|Hin]; [exists n; auto|]. apply (IH r1 r Hr); auto. congruence.
  - replace (conv_step ty incl acc (x, s)) with (@Err Operator e) in E; [discriminate|].
    unfold conv_step. cbn [snd]. rewrite En. reflexivity.
Qed.
Lemma conv_fold_err ty incl ts1 x s ts2 e : forall acc, op_ok acc -> o_type acc = ty ->
  (forall t, In t ts1 -> exists n, convert_string (snd t) ty incl = Ok n) -> convert_string s ty incl = Err e ->
  rfold (conv_step ty incl) (ts1 ++ (x, s) :: ts2) acc = Err e.
Proof.
  induction ts1 as [|[y t] ts1 IH]; intros acc Ha Ht Hall E.
  - cbn [app rfold]. replace (conv_step ty incl acc (x, s)) with (@Err Operator e); [reflexivity|].
    unfold conv_step. cbn [snd]. rewrite E. reflexivity.
  - destruct (Hall (y, t) (or_introl eq_refl)) as (n & En). cbn [snd] in En.
    destruct (conv_step_ok ty incl acc y t n Ha Ht En) as (m & r1 & Em & Hm & Tm & _ & _ & Er & _ & (Hr & Tr & _) & _).
    cbn [app rfold]. rewrite Er. cbn [rbind]. apply IH; auto. congruence. intros; apply Hall; right; auto.
Qed.

Lemma conv_operator_eq o ty incl z : op_ok o -> op_new [] [] (Some ty) = Ok z ->
  convert_operator o ty incl = rfold (conv_step ty incl) (op_terms o) z.
Proof.
  intros (_ & Hl & _) Ez. unfold convert_operator. rewrite Ez. cbn [rbind].
  assert (El : (length (o_coeffs o) <? op_len o) = false).
  { apply Nat.ltb_ge. unfold op_len, basis_len. lia. }
  rewrite El. unfold conv_step. destruct (rfold _ _ _); reflexivity.
Qed.

Lemma combined_total ty incl u ts : (forall t, In t ts -> exists n, convert_string (snd t) ty incl = Ok n) ->
  exists c, combined ty incl u ts c.
Proof.
  induction ts as [|[x s] ts IH]; intros H; [exists g0; constructor|].
  destruct (H (x, s) (or_introl eq_refl)) as (n & En). cbn [snd] in En.
  destruct (has_coeff_total n u (proj1 (conv_shape _ _ _ _ En))) as (c & Hc).
  destruct IH as (d & Hd); [intros; apply H; right; auto|]. eexists. econstructor; eauto.
Qed.

Theorem conv_linear o ty incl : op_ok o ->
  ((exists r, convert (COperator o) ty incl = Ok r) <->
   (forall t, In t (op_terms o) -> exists n, convert (CString (snd t)) ty incl = Ok n)) /\
  (forall r, convert (COperator o) ty incl = Ok r -> op_ok r /\ o_type r = ty /\
     forall u c, has_coeff (op_terms r) u c <-> combined ty incl u (op_terms o) c).
Proof.
  intros Ho. destruct (op_empty ty) as (z & Ez & Hz & Tz & Nz). cbn [convert].
  rewrite (conv_operator_eq o ty incl z Ho Ez). split; [split|].
  - intros (r & Er). apply (conv_fold_inv ty incl (op_terms o) z r); auto.
  - intros H. destruct (conv_fold_ok ty incl (op_terms o) z Hz Tz H) as (r & Er & _). exists r; auto.
  - intros r Er. pose proof (conv_fold_inv ty incl (op_terms o) z r Hz Tz Er) as Hall.
    destruct (conv_fold_ok ty incl (op_terms o) z Hz Tz Hall) as (r' & Er' & Hr' & Tr' & Hsum).
    rewrite Er in Er'. injection Er' as <-. split; auto. split; auto.
    assert (Z0 : forall u, has_coeff (op_terms z) u g0).
    { intros u. right. split; auto. rewrite Nz. intros d t []. }
    assert (H1 : forall u c, combined ty incl u (op_terms o) c -> has_coeff (op_terms r) u c).
    { intros u c Hc. replace c with (gadd g0 c) by ring. auto. }
    intros u c. split; [|apply H1]. intros Hc. destruct (combined_total ty incl u (op_terms o) Hall) as (d & Hd).
    rewrite (has_coeff_fun r u c d Hr' Hc (H1 u d Hd)). auto.
Qed.
Theorem conv_error o ty incl ts1 x s ts2 e : op_ok o -> op_terms o = ts1 ++ (x, s) :: ts2 ->
  (forall t, In t ts1 -> exists n, convert (CString (snd t)) ty incl = Ok n) -> convert (CString s) ty incl = Err e ->
  convert (COperator o) ty incl = Err e.
Proof.
  intros Ho E Hall He. destruct (op_empty ty) as (z & Ez & Hz & Tz & Nz). cbn [convert] in *.
  rewrite (conv_operator_eq o ty incl z Ho Ez), E. apply conv_fold_err; auto.
Qed.
