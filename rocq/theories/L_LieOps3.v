(** The loops of generate_lie_algebra for a list of Operators. *)
From Coq Require Import List ZArith Bool Arith Lia Setoid Morphisms Reals QArith Qreals Qcanon Lra.
From Coquelicot Require Import Complex.
From Verif Require Import GC Exn M_OpString M_Tools M_Algebra M_Basis M_OpAlg M_Transform M_LinAlg M_Core M_Greedy M_LieOps
  S_Alg S_Den S_Basis S_Built S_OpAlg S_RScal S_CFock S_CScal S_LinAlg S_Core S_Invariant S_Sparsify S_Generate S_Cumulative S_LieOps
  L_Alg L_Sort L_StrAlg L_StrOp L_Indep L_PropStr L_Operator L_Basis L_Heap L_PropBasis L_OpAlg L_Sum L_Struct L_Commutant L_Lie L_CScal L_LinAlg L_Inter L_Core L_Commuting L_PartIso L_Invariant L_Generate2 L_Dim L_Cumulative L_Cumul2 L_Cumul3 L_Cumul4
  L_LieOps L_LieOps2.
Import ListNotations.
Local Open Scope nat_scope.

(* ------------------------------------------------------------ combinations *)

Lemma combination_snoc l o v c s : length v = length l -> combination (l ++ [o]) (v ++ [c]) s = (combination l v s + c * coefficient o s)%C.
Proof.
  revert v. induction l as [|p l IH]; intros [|x v] L; try discriminate.
  - unfold combination. simpl. ring.
  - cbn [app]. unfold combination in *. cbn [combine map fold_right fst snd]. rewrite IH by (simpl in L; lia). ring.
Qed.
Lemma combination_vzero l s n : combination l (vzero n) s = RtoC 0.
Proof. revert n. induction l as [|p l IH]; intros [|n]; auto. unfold combination in *. simpl. unfold vzero in IH. rewrite IH. ring. Qed.
Lemma combination_scale l z v s : combination l (map (Cmult z) v) s = (z * combination l v s)%C.
Proof. revert v. induction l as [|p l IH]; intros [|x v]; unfold combination in *; simpl; try ring. rewrite IH. ring. Qed.
Lemma combination_outside l v s : (forall o t, In o l -> In t (b_strings (c_basis o)) -> ~ same_key t s) -> combination l v s = RtoC 0.
Proof.
  revert v. induction l as [|o l IH]; intros [|c v] H; auto. unfold combination in *. cbn [combine map fold_right fst snd]. rewrite IH by (intros; apply (H o0); auto; right; auto).
  replace (coefficient o s) with (RtoC 0); [ring|]. symmetry. change (tcoef (c_terms o) s = RtoC 0). apply tcoef_zero. intros [x t] Hin _. cbn [snd]. apply not_true_is_false. intros K.
  apply in_combine_r in Hin. apply (H o t); auto; [left; auto | apply os_key_spec; auto].
Qed.
Lemma near_snoc eps l o f : near eps l f -> near eps (l ++ [o]) f.
Proof.
  intros (v & strs & L & D & H1 & H2). exists (v ++ [RtoC 0]), strs. rewrite !app_length, L. split; auto. split; auto.
  assert (E : forall s, combination (l ++ [o]) (v ++ [RtoC 0]) s = combination l v s) by (intros s; rewrite combination_snoc by auto; ring).
  split; [intros s Hs; rewrite E; auto|]. erewrite map_ext; [exact H2|]. intros s. cbv beta. rewrite E. reflexivity.
Qed.
Lemma norm2c_scale z v : norm2c (map (Cmult z) v) = ((fst z * fst z + snd z * snd z) * norm2c v)%R.
Proof. unfold norm2c. induction v as [|x v IH]; simpl in *; [ring|]. rewrite IH. ring. Qed.
Lemma near_scale eps l f z h : (fst z * fst z + snd z * snd z = 1)%R -> near eps l f -> (forall s, h s = (z * f s)%C) -> near eps l h.
Proof.
  intros Hz (v & strs & L & D & H1 & H2) Hh. exists (map (Cmult z) v), strs. rewrite map_length. split; auto. split; auto.
  split; [intros s Hs; rewrite Hh, combination_scale, H1; auto|].
  replace (map (fun s => (h s - combination l (map (Cmult z) v) s)%C) strs) with (map (Cmult z) (map (fun s => (f s - combination l v s)%C) strs)).
  - rewrite norm2c_scale, Hz. lra.
  - rewrite map_map. apply map_ext. intros s. rewrite Hh, combination_scale. ring.
Qed.

(* ----------------------------------------------------------- normalisation *)

Lemma coefficient_scaled z cs b ty0 o s : c_coeffs o = map (Cmult z) cs -> c_basis o = b -> coefficient o s = (z * coefficient (mkCOp cs b ty0) s)%C.
Proof.
  intros E <-. change (tcoef (c_terms o) s = (z * tcoef (combine cs (b_strings (c_basis o))) s)%C). unfold c_terms. rewrite E, <- tcoef_scale. f_equal. f_equal. apply map_ext. intros; ring.
Qed.
Lemma coefficient_strings o p s : c_coeffs o = c_coeffs p -> b_strings (c_basis o) = b_strings (c_basis p) -> coefficient o s = coefficient p s.
Proof. intros E F. unfold coefficient, c_terms. rewrite E, F. reflexivity. Qed.
Lemma vnorm_hs cs b t : vnorm cs = hs_norm (mkCOp cs b t).
Proof. reflexivity. Qed.
Lemma normalised_ok ty D tol : (0 <= tol)%R -> good_cop ty D ->
  exists D', cop_scale (Copp Ci) D = Ok D' /\ vnorm (c_coeffs D') = hs_norm D /\
    ((tol < hs_norm D)%R -> exists oc, cop_normalize D' = Some oc /\ good_cop ty oc /\ b_strings (c_basis oc) = b_strings (c_basis D) /\ norm2c (c_coeffs oc) = 1%R /\
       forall s, coefficient oc s = (- Ci * coefficient D s / RtoC (hs_norm D))%C).
Proof.
  intros Ht (Hb & Hl & Hty & Hs). unfold cop_scale.
  destruct (cop_new_ok ty (map (fun c => Cmult c (Copp Ci)) (c_coeffs D)) (b_strings (c_basis D)) (Some (c_type D))) as (p & Ep & Gp & Cp & Sp).
  - apply built_nodup; auto. - auto. - rewrite map_length; auto. - intros _; congruence.
  - exists p. split; auto.
    assert (Cp' : c_coeffs p = map (Cmult (Copp Ci)) (c_coeffs D)) by (rewrite Cp; apply map_ext; intros; ring).
    assert (N2 : norm2c (c_coeffs p) = norm2c (c_coeffs D)) by (rewrite Cp', norm2c_scale; cbn; ring).
    assert (N : vnorm (c_coeffs p) = hs_norm D) by (unfold vnorm, hs_norm; fold (norm2c (c_coeffs p)); f_equal; auto).
    split; auto. intros Hlt. assert (N0 : vnorm (c_coeffs p) <> 0%R) by lra.
    set (q := mkCOp (vscale (RtoC (/ vnorm (c_coeffs p))) (c_coeffs p)) (c_basis p) (c_type p)).
    exists q. destruct Gp as (Gb & Gl & Gt & Gs). split; [|split; [|split; [|split]]].
    + unfold cop_normalize, unit_vec. destruct (c_coeffs p) eqn:E.
      * exfalso. apply N0. unfold vnorm. simpl. apply sqrt_0.
      * destruct (Req_EM_T (vnorm (c :: l)) 0) as [|_]; [contradiction | reflexivity].
    + split; auto. split; auto. unfold q. cbn [c_coeffs c_basis]. rewrite vscale_length. auto.
    + exact Sp.
    + change (c_coeffs q) with (vscale (RtoC (/ vnorm (c_coeffs p))) (c_coeffs p)). rewrite <- sqsum_norm2c. apply RtoC_inj. rewrite <- inner_self. apply unit_normalised; auto.
    + intros s. unfold q. rewrite (coefficient_scaled (RtoC (/ vnorm (c_coeffs p))) (c_coeffs p) (c_basis p) (c_type p)) by reflexivity.
      assert (E : coefficient (mkCOp (c_coeffs p) (c_basis p) (c_type p)) s = (Copp Ci * coefficient D s)%C).
      { change (tcoef (combine (c_coeffs p) (b_strings (c_basis p))) s = (Copp Ci * tcoef (c_terms D) s)%C). rewrite Sp, Cp. apply tcoef_scale. }
      rewrite E, N, RtoC_inv by (rewrite N in N0; auto). field. intros X. apply RtoC_inj in X. rewrite N in N0. auto.
Qed.

Lemma inner_self_terms ty o U : NoDup U -> (forall s, In s U -> string_ok ty s) -> inU ty U o -> inner (coords U (c_terms o)) (coords U (c_terms o)) = RtoC (norm2c (c_coeffs o)).
Proof.
  intros Hn Ho Hi. rewrite (inner_coords ty U Hn Ho) by (apply (terms_inU ty U o Hi)). destruct Hi as [(Hb & Hl & Ht & Hs) Hi].
  transitivity (csum (map (fun t : C * OS => (Cconj (fst t) * fst t)%C) (c_terms o))).
  - apply csum_ext. intros [c s] Hin. cbn [fst snd]. f_equal. apply In_nth_error in Hin. destruct Hin as (i & Hin). unfold c_terms in *.
    assert (A : nth_error (c_coeffs o) i = Some c /\ nth_error (b_strings (c_basis o)) i = Some s).
    { clear - Hin. revert i Hin. generalize (b_strings (c_basis o)). induction (c_coeffs o) as [|x l IH]; intros [|y m] [|i] H; try discriminate; simpl in *; [injection H as -> ->; auto | auto]. }
    destruct A as [A1 A2]. rewrite (tcoef_nth ty _ (built_nodup _ Hb) Hs _ i s A2). apply nth_error_nth; auto.
  - rewrite <- sqsum_norm2c, <- inner_self. unfold c_terms. clear - Hl. revert Hl. generalize (b_strings (c_basis o)). induction (c_coeffs o) as [|x l IH]; intros [|y m] H; try discriminate; auto.
    cbn. unfold csum in IH. rewrite IH; auto.
Qed.

(* ---------------------------------------------------------------- the loop *)

Section Run.
  Variables (ty : optype) (tol : R) (ops0 : list COp).
  Hypotheses (Hty : ty <> Fermion) (Ht : (0 <= tol)%R).
  Let l0 := b_strings (ccombined ops0).
  Let uni := L_Lie.universe ty l0.
  Let labs := L_Lie.labels0 l0.
  Definition cols (b : Basis) (ops : list COp) : list vec := map (fun o => coords (b_strings b) (c_terms o)) ops.
  Definition in_uni (s : OS) : Prop := In s uni /\ forall l, In l (os_labels s) -> In l labs.

  Record geo (ops : list COp) (b : Basis) (vs : list vec) : Prop := {
    ge_b : good_basis ty b;
    ge_ops : forall o, In o ops -> inU ty (b_strings b) o;
    ge_v : vectors (basis_len b) vs;
    ge_o : orthonormal vs;
    ge_span : forall v, span (basis_len b) vs v <-> span (basis_len b) (cols b ops) v;
    ge_ind : independent_ops ops0 -> independent (basis_len b) (cols b ops);
    ge_len : length ops <= length ops0 + length vs;
    ge_uni : forall s, In s (b_strings b) -> in_uni s
  }.
  Lemma cols_vectors b ops : vectors (basis_len b) (cols b ops).
  Proof. intros x Hx. apply in_map_iff in Hx. destruct Hx as (o & <- & _). apply map_length. Qed.

  Lemma projected_zeros n z vs w : vectors n vs -> projected n (repeat (vzero n) z ++ vs) w = projected n vs w.
  Proof.
    intros V. induction z as [|z IH]; auto. cbn [repeat app]. unfold projected in *. cbn [fold_right]. rewrite IH, vscale_zero.
    rewrite <- (projected_length n vs w V) at 1. apply vadd_zero_l.
  Qed.
  Lemma pad_zeros n z k vs : map (pad k) (repeat (vzero n) z ++ vs) = repeat (vzero (n + k)) z ++ map (pad k) vs.
  Proof.
    rewrite map_app. f_equal. induction z as [|z IH]; auto. cbn [repeat map]. rewrite IH. f_equal. unfold pad, vzero. symmetry. apply repeat_app.
  Qed.

  Lemma lo_extend_ok l : forall b, good_basis ty b -> (forall s, In s l -> string_ok ty s) ->
    exists W, good_basis ty (lo_extend b l) /\ b_strings (lo_extend b l) = b_strings b ++ W /\
      (forall s, In s l -> In s (b_strings (lo_extend b l))) /\ forall s, In s W -> In s l.
  Proof.
    induction l as [|s l IH]; intros b Hb Hl.
    - exists []. rewrite app_nil_r. split; auto. split; auto. split; [intros s []|intros s []].
    - unfold lo_extend in *. cbn [fold_left]. pose proof Hb as [Hbb Hbs]. apply built_ok in Hbb.
      assert (K : exists W1, good_basis ty (if basis_mem b s then b else basis_iadd_string b s) /\ b_strings (if basis_mem b s then b else basis_iadd_string b s) = b_strings b ++ W1 /\
                  In s (b_strings (if basis_mem b s then b else basis_iadd_string b s)) /\ forall t, In t W1 -> t = s).
      { destruct (basis_mem b s) eqn:Em.
        - exists []. rewrite app_nil_r. split; auto. split; auto. split; [|intros t []]. apply (basis_ok_mem b s Hbb) in Em. destruct Em as (t & Hin & K).
          rewrite <- (key_string_ok ty t s); auto. apply Hl; left; auto.
        - destruct (basis_iadd_string_ok b s Hbb) as [K1 K2]. pose proof (append_new_prefix _ _ _ K2) as (W1 & E). 
          assert (InW : forall t, In t (b_strings (basis_iadd_string b s)) -> In t (b_strings b) \/ t = s).
          { intros t Hin. destruct (append_new_in _ _ _ K2 t Hin) as [|[X|[]]]; auto. }
          assert (Gs : good_basis ty (basis_iadd_string b s)).
          { split; [apply built_iff; auto|]. intros t Hin. destruct (InW t Hin) as [| ->]; auto. apply Hl; left; auto. }
          exists W1. split; auto. split; auto. split.
          + destruct (append_new_right _ _ _ K2 s) as (t & Hin & K); [left; auto|]. assert (t = s) by (apply (key_string_ok ty); auto; [apply Gs; auto | apply Hl; left; auto]). subst t; auto.
          + intros t Hin. destruct (InW t) as [X|]; auto; [rewrite E; apply in_or_app; auto|]. exfalso.
            pose proof (distinct_NoDup _ (proj1 K1)) as Nd. rewrite E in Nd. apply in_split in X. destruct X as (x1 & x2 & X). rewrite X in Nd. rewrite <- app_assoc in Nd. simpl in Nd. apply NoDup_remove_2 in Nd.
            apply Nd. apply in_or_app. right. apply in_or_app. auto. }
      destruct K as (W1 & G1 & E1 & I1 & F1). destruct (IH _ G1) as (W2 & G2 & E2 & I2 & F2); [intros; apply Hl; right; auto|].
      exists (W1 ++ W2). split; auto. split; [rewrite E2, E1, app_assoc; auto|]. split.
      + intros t [<-|Hin]; auto. rewrite E2. apply in_or_app. auto.
      + intros t Hin. apply in_app_or in Hin. destruct Hin as [Hin|Hin]; [left; symmetry; auto | right; auto].
  Qed.

  Lemma geo_extend ops b vs b' W : geo ops b vs -> good_basis ty b' -> b_strings b' = b_strings b ++ W -> (forall s, In s W -> in_uni s) ->
    geo ops b' (map (pad (basis_len b' - basis_len b)) vs).
  Proof.
    intros G Gb E HW. destruct G as [G1 G2 G3 G4 G5 G6 G7 G8].
    assert (Ln : basis_len b' = basis_len b + length W) by (unfold basis_len; rewrite E, app_length; auto).
    replace (basis_len b' - basis_len b) with (length W) by lia. set (k := length W) in *.
    assert (Nd : NoDup (b_strings b ++ W)) by (rewrite <- E; apply built_nodup, Gb).
    assert (So : forall s, In s (b_strings b ++ W) -> string_ok ty s) by (rewrite <- E; apply Gb).
    assert (Ec : cols b' ops = map (pad k) (cols b ops)).
    { unfold cols. rewrite map_map. apply map_ext_in. intros o Ho. rewrite E. apply (coords_pad ty); auto. }
    constructor; rewrite ?Ln, ?Ec; auto.
    - intros o Ho. destruct (G2 o Ho) as [A B]. split; auto. intros s Hs. rewrite E. apply in_or_app. auto.
    - apply pad_vectors; auto.
    - apply (pad_orthonormal (basis_len b)); auto.
    - intros v. rewrite (pad_span _ _ _ _ G3), (pad_span _ _ _ _ (cols_vectors b ops)). split; intros (u & -> & Hu); exists u; split; auto; apply G5; auto.
    - intros Hi. apply pad_independent; [apply cols_vectors | auto].
    - rewrite map_length. auto.
    - intros s Hs. rewrite E in Hs. apply in_app_or in Hs. destruct Hs; auto.
  Qed.

  Lemma lo_add_ok ops b z vs oc : geo ops b vs -> good_cop ty oc -> norm2c (c_coeffs oc) = 1%R -> (forall s, In s (b_strings (c_basis oc)) -> in_uni s) ->
    exists ops' b' vs', lo_add tol ops b (repeat (vzero (basis_len b)) z ++ vs) oc = Ok (Some (ops', b', repeat (vzero (basis_len b')) z ++ vs')) /\ geo ops' b' vs' /\ near tol ops' (coefficient oc) /\ (ops' = ops \/ ops' = ops ++ [oc]).
  Proof.
    intros G Goc N1 Hu. destruct (lo_extend_ok (b_strings (c_basis oc)) b (ge_b _ _ _ G)) as (W & Gb & E & I & F); [apply Goc|].
    unfold lo_add. set (b' := lo_extend b (b_strings (c_basis oc))) in *.
    pose proof (geo_extend ops b vs b' W G Gb E (fun s Hs => Hu s (F s Hs))) as G'.
    rewrite pad_zeros. replace (basis_len b + (basis_len b' - basis_len b)) with (basis_len b') by (unfold basis_len; rewrite E, app_length; lia). set (vs' := map (pad (basis_len b' - basis_len b)) vs) in *. clearbody vs'. clear G.
    assert (Hoc : inU ty (b_strings b') oc) by (split; auto).
    rewrite (coeff_column_coords ty b' oc Gb Hoc). cbn [rbind]. cbv zeta.
    set (n := basis_len b') in *. set (w := coords (b_strings b') (c_terms oc)) in *. set (p := projected n vs' w).
    rewrite (projected_zeros n z vs' w) by apply (ge_v _ _ _ G'). fold p.
    destruct G' as [G1 G2 G3 G4 G5 G6 G7 G8]. fold n in G3, G5, G6.
    assert (Lw : length w = n) by apply map_length.
    assert (Nd : NoDup (b_strings b')) by (apply built_nodup, Gb).
    assert (Iw : inner w w = RtoC 1) by (unfold w; rewrite (inner_self_terms ty) by (auto; apply Gb); rewrite N1; auto).
    pose proof (res_norm n vs' w G3 G4 Lw Iw) as En. fold p in En. pose proof (res_length n vs' w G3 Lw) as Lr. pose proof (res_orth n vs' w G3 G4 Lw) as Or. fold p in Lr, Or.
    set (r := vsub w p) in *.
    assert (Em : Cmod (vdot w p - RtoC 1)%C = sqsum r).
    { rewrite vdot_inner, En, Cmod_opp, Cmod_R. apply Rabs_pos_eq, sqsum_nonneg. }
    assert (Sp : span n (cols b' ops) p) by (apply G5, projected_span; auto).
    unfold lt_dec. change (basis_len b') with n. rewrite Em. destruct (Rlt_dec tol (sqsum r)) as [Lt|Lt].
    - assert (N0 : vnorm r <> 0%R). { intros X. pose proof (vnorm_sq r) as Y. rewrite X in Y. lra. }
      unfold unit_vec. destruct (Req_EM_T (vnorm r) 0) as [|_]; [contradiction|]. set (u := vscale (RtoC (/ vnorm r)) r).
      assert (Lu : length u = n) by (unfold u; rewrite vscale_length; auto).
      exists (ops ++ [oc]), b', (vs' ++ [u]). split; [fold n; rewrite app_assoc; reflexivity|].
      assert (Vu : vectors n (vs' ++ [u])) by (intros x Hx; apply in_app_or in Hx; destruct Hx as [Hx|[<-|[]]]; auto).
      assert (Ec : cols b' (ops ++ [oc]) = cols b' ops ++ [w]) by (unfold cols; rewrite map_app; auto).
      assert (Vw : vectors n (cols b' ops ++ [w])) by (rewrite <- Ec; apply cols_vectors).
      assert (Nw : ~ span n (cols b' ops) w).
      { intros X. apply G5 in X. pose proof (res_zero n vs' w G3 G4 Lw X) as Z. fold p r in Z. apply N0. rewrite Z. apply vnorm_vzero. }
      split; [|split; [|right; auto]].
      + constructor; fold n; auto.
        * intros o Ho. apply in_app_or in Ho. destruct Ho as [Ho|[<-|[]]]; auto.
        * apply ortho_snoc; auto; [apply unit_normalised; auto|]. intros v Hv. unfold u. rewrite inner_scale_r, (Or v Hv). ring.
        * intros v. rewrite Ec. split; apply span_sub; auto.
          -- intros x Hx. apply in_app_or in Hx. destruct Hx as [Hx|[<-|[]]].
             ++ apply (span_mono n (cols b' ops)); [intros y Hy; apply in_or_app; auto|]. apply G5. apply span_member; auto.
             ++ unfold u. apply span_scale. unfold r. apply (span_minus n _ Vw); [apply span_member; auto; apply in_or_app; right; left; auto|].
                apply (span_mono n (cols b' ops)); [intros y Hy; apply in_or_app; auto | auto].
          -- intros x Hx. apply in_app_or in Hx. destruct Hx as [Hx|[<-|[]]].
             ++ apply (span_mono n vs'); [intros y Hy; apply in_or_app; auto|]. apply G5. apply span_member; auto. apply (cols_vectors b' ops); auto.
             ++ rewrite <- (res_sum n vs' w G3 Lw). fold p r. apply (span_plus n _ Vu).
                ** replace r with (vscale (RtoC (vnorm r)) u); [apply span_scale, span_member; auto; apply in_or_app; right; left; auto|].
                   unfold u. rewrite vscale_vscale, <- RtoC_mult, Rinv_r by auto. apply vscale_one.
                ** apply (span_mono n vs'); [intros y Hy; apply in_or_app; auto|]. apply projected_span; auto.
        * intros Hi. rewrite Ec. apply independent_snoc; auto.
        * rewrite !app_length. simpl. lia.
      + exists (vzero (length ops) ++ [RtoC 1]), []. rewrite !app_length, vzero_length. split; auto. split; [apply distinct_nil|]. split.
        * intros s _. rewrite combination_snoc, combination_vzero by apply vzero_length. ring.
        * cbn. lra.
    - eexists _, _, _. split; [reflexivity|]. split; [|split; [|left; auto]].
      + constructor; auto.
      + destruct (span_mat_vec n (cols b' ops) (cols_vectors b' ops) p Sp) as (x & Lx & Ex). unfold cols in Lx. rewrite map_length in Lx.
        exists x, (b_strings b'). split; auto. split; [apply built_ok; apply Gb|]. split.
        * intros s Hs. rewrite combination_outside; [|intros o t Ho Hin; apply Hs, (G2 o Ho); auto].
          change (tcoef (c_terms oc) s = RtoC 0). apply tcoef_zero. intros [c t] Hin _. cbn [snd]. apply not_true_is_false. intros K. apply in_combine_r in Hin. apply os_key_spec in K. apply (Hs t); auto. 
        * apply Rnot_lt_le in Lt. eapply Rle_trans; [|exact Lt]. change (sqsum r) with (norm2c r). right. f_equal. unfold r.
          rewrite Ex. unfold cols, n, basis_len. rewrite mat_vec_combination. unfold w, coords, vsub. clear. induction (b_strings b') as [|s l IH]; simpl; f_equal; auto.
  Qed.

  Definition pair_near (ops : list COp) (p : nat * nat) : Prop :=
    forall A B, nth_error ops (fst p) = Some A -> nth_error ops (snd p) = Some B ->
      exists D, is_commutator ty A B D /\ ((hs_norm D <= tol)%R \/ near tol ops (fun s => coefficient D s / RtoC (hs_norm D))%C).
  Record lo_inv (st : lo_st) : Prop := {
    li_geo : exists z vs, lo_vecs st = repeat (vzero (basis_len (lo_basis st))) z ++ vs /\ geo (lo_ops st) (lo_basis st) vs;
    li_pre : exists m, lo_ops st = ops0 ++ m;
    li_by : by_commutators ty tol (length ops0) (lo_ops st);
    li_done : forall p, In p (lo_done st) -> fst p < length (lo_ops st) /\ snd p < length (lo_ops st) /\ pair_near (lo_ops st) p;
    li_cov : forall i j, i < lo_a st -> j < i -> In (i, j) (lo_done st) \/ In (j, i) (lo_done st);
    li_cur : forall j, j < lo_b st -> j <> lo_a st -> In (lo_a st, j) (lo_done st) \/ In (j, lo_a st) (lo_done st);
    li_bb : lo_b st <= length (lo_ops st)
  }.

  Lemma pair_near_snoc ops o p : fst p < length ops -> snd p < length ops -> pair_near ops p -> pair_near (ops ++ [o]) p.
  Proof.
    intros H1 H2 H A B HA HB. rewrite nth_error_app1 in HA, HB by auto. destruct (H A B HA HB) as (D & H3 & H4). exists D. split; auto. destruct H4; auto. right. apply near_snoc; auto.
  Qed.

  Lemma lo_step_ok st : lo_inv st ->
    (exists st', lo_step tol st = Ok (LoMore st') /\ lo_inv st' /\
       ((lo_a st' = lo_a st /\ lo_b st' = S (lo_b st) /\ lo_a st < length (lo_ops st) /\ lo_b st < length (lo_ops st)) \/
        (lo_a st' = S (lo_a st) /\ lo_b st' = 0 /\ lo_a st < length (lo_ops st)))) \/
    (lo_step tol st = Ok (LoDone (lo_ops st)) /\ length (lo_ops st) <= lo_a st).
  Proof.
    intros I. destruct st as [ops b vs don ia ib]. destruct I as [(z & vs1 & Evs & I1) I2 I3 I4 I5 I6 I7]. cbn [lo_ops lo_basis lo_vecs lo_done lo_a lo_b] in *. subst vs.
    unfold lo_step. destruct (Nat.ltb_spec ia (length ops)) as [La|La]; [|right; auto]. left.
    destruct (Nat.ltb_spec ib (length ops)) as [Lb|Lb].
    2:{ eexists. split; [reflexivity|]. cbn [lo_ops lo_basis lo_vecs lo_done lo_a lo_b]. split; [|right; auto].
        constructor; cbn [lo_ops lo_basis lo_vecs lo_done lo_a lo_b]; eauto; [|intros j Hj; lia | lia].
        intros i j Hi Hj. destruct (Nat.eq_dec i ia) as [-> |]; [apply I6; lia | apply I5; lia]. }
    destruct (Nat.eqb ia ib || pair_mem (ia, ib) don || pair_mem (ib, ia) don) eqn:Ep.
    { eexists. split; [reflexivity|]. cbn [lo_ops lo_basis lo_vecs lo_done lo_a lo_b]. split; [|left; auto].
      constructor; cbn [lo_ops lo_basis lo_vecs lo_done lo_a lo_b]; eauto.
      intros j Hj Nj. destruct (Nat.eq_dec j ib) as [-> |]; [|apply I6; lia].
      apply orb_true_iff in Ep. rewrite orb_true_iff, !pair_mem_in in Ep. destruct Ep as [[Ep|Ep]|Ep]; auto. apply Nat.eqb_eq in Ep. congruence. }
    assert (Nab : ia <> ib). { intros X. rewrite X, Nat.eqb_refl in Ep. discriminate. }
    destruct (nth_len ops ia La) as (A & HA). destruct (nth_len ops ib Lb) as (B & HB).
    rewrite HA, HB. cbn [of_option rbind].
    destruct (ge_ops _ _ _ I1 A) as [GA UA]; [eapply nth_error_In; eauto|]. destruct (ge_ops _ _ _ I1 B) as [GB UB]; [eapply nth_error_In; eauto|].
    destruct (cop_commutator_ok ty A B Hty GA GB) as (D & ED & CD & SD). rewrite ED. cbn [rbind].
    destruct (normalised_ok ty D tol Ht (proj1 CD)) as (D' & ED' & ND & HD'). rewrite ED'. cbn [rbind]. rewrite ND.
    assert (Cur : forall j, j < S ib -> j <> ia -> In (ia, j) ((ia, ib) :: don) \/ In (j, ia) ((ia, ib) :: don)).
    { intros j Hj Nj. destruct (Nat.eq_dec j ib) as [-> |]; [simpl; auto|]. destruct (I6 j); simpl; auto; lia. }
    assert (Cov : forall i j, i < ia -> j < i -> In (i, j) ((ia, ib) :: don) \/ In (j, i) ((ia, ib) :: don)).
    { intros i j Hi Hj. destruct (I5 i j Hi Hj); simpl; auto. }
    unfold lt_dec. destruct (Rlt_dec tol (hs_norm D)) as [Lt|Lt].
    - destruct (HD' Lt) as (oc & Eoc & Goc & Soc & Noc & Coc). rewrite Eoc.
      assert (Uoc : forall s, In s (b_strings (c_basis oc)) -> in_uni s).
      { intros s Hs. assert (Hs' := Hs). rewrite Soc in Hs. destruct (SD s Hs) as [Can Lab].
        assert (Ll : forall l, In l (os_labels s) -> In l labs).
        { intros l Hl. destruct (Lab l Hl) as (t & [Hin|Hin] & Hlt); apply (ge_uni _ _ _ I1 t); auto. }
        split; auto. unfold uni, L_Lie.universe. apply in_or_app. right. apply in_all_strings; auto. apply Goc; auto. }
      destruct (lo_add_ok ops b z vs1 oc I1 Goc Noc Uoc) as (ops' & b' & vs' & Ea & G' & Near & Hops). rewrite Ea. cbn [rbind].
      eexists. split; [reflexivity|]. cbn [lo_ops lo_basis lo_vecs lo_done lo_a lo_b]. split; [|left; auto].
      assert (Len : length ops <= length ops') by (destruct Hops as [-> | ->]; rewrite ?app_length; lia).
      constructor; cbn [lo_ops lo_basis lo_vecs lo_done lo_a lo_b]; eauto; [| | |lia].
      + destruct I2 as (m & ->). destruct Hops as [-> | ->]; [exists m | exists (m ++ [oc]); rewrite app_assoc]; auto.
      + destruct Hops as [-> | ->]; auto. intros k o Hk Ho. destruct (Nat.lt_ge_cases k (length ops)) as [Lk|Lk].
        * rewrite nth_error_app1 in Ho by auto. destruct (I3 k o Hk Ho) as (Go & i & j & A0 & B0 & D0 & Hi & Hj & HA0 & HB0 & R). split; auto.
          exists i, j, A0, B0, D0. rewrite !nth_error_app1 by lia. auto.
        * rewrite nth_error_app2 in Ho by auto. destruct (k - length ops) as [|d] eqn:Ek; [|destruct d; discriminate]. injection Ho as <-.
          split; auto. exists ia, ib, A, B, D. rewrite !nth_error_app1 by auto. split; [lia|]. split; [lia|]. auto.
      + intros p [<-|Hp].
        * cbn [fst snd]. split; [lia|]. split; [lia|]. intros A' B' HA' HB'. cbn [fst snd] in *.
          assert (A' = A /\ B' = B) as [-> ->].
          { destruct Hops as [-> | ->]; [|rewrite nth_error_app1 in HA', HB' by auto]; rewrite HA in HA'; rewrite HB in HB'; split; congruence. }
          exists D. split; auto. right. apply (near_scale _ _ _ Ci _ ltac:(cbn; lra) Near). intros s. rewrite Coc.
          unfold Cdiv. generalize (coefficient D s) (Cinv (RtoC (hs_norm D))). intros [a1 a2] [k1 k2]. apply injective_projections; cbn; ring.
        * destruct (I4 p Hp) as (P1 & P2 & P3). split; [lia|]. split; [lia|]. destruct Hops as [-> | ->]; auto. apply pair_near_snoc; auto.
    - eexists. split; [reflexivity|]. cbn [lo_ops lo_basis lo_vecs lo_done lo_a lo_b]. split; [|left; auto].
      constructor; cbn [lo_ops lo_basis lo_vecs lo_done lo_a lo_b]; eauto.
      intros p [<-|Hp]; auto. cbn [fst snd]. split; auto. split; auto. intros A' B' HA' HB'. cbn [fst snd] in *. assert (A' = A /\ B' = B) as [-> ->] by (split; congruence).
      exists D. split; auto. left. apply Rnot_lt_le; auto.
  Qed.

  Lemma lo_len st : lo_inv st -> length (lo_ops st) <= length ops0 + length uni.
  Proof.
    intros I. destruct (li_geo st I) as (z & vs1 & _ & [G1 G2 G3 G4 G5 G6 G7 G8]). pose proof (orthonormal_bound _ _ G3 G4) as B.
    assert (basis_len (lo_basis st) <= length uni); [|unfold vec in *; lia].
    apply NoDup_incl_length; [apply built_nodup, G1|]. intros s Hs. apply (G8 s Hs).
  Qed.
  Definition lo_measure (st : lo_st) : nat :=
    let N := length ops0 + length uni in (N - lo_a st) * (N + 2) + (N + 1 - lo_b st).
  Lemma lo_run_ok : forall n st, lo_measure st < n -> lo_inv st ->
    exists st', lo_inv st' /\ length (lo_ops st') <= lo_a st' /\ forall fuel, n <= fuel -> lo_run fuel tol st = Some (Ok (Some (lo_ops st'))).
  Proof.
    induction n as [|n IH]; intros st Hm I; [lia|]. pose proof (lo_len st I) as Hlen.
    destruct (lo_step_ok st I) as [(st' & Hs & I' & Hcase)|[Hs Hfin]].
    - assert (Hm' : lo_measure st' < lo_measure st).
      { unfold lo_measure in *. cbv zeta in *. set (N := length ops0 + length uni) in *. destruct Hcase as [(-> & -> & H1 & H2)|(-> & -> & H1)]; [lia|].
        replace (N - lo_a st) with (S (N - S (lo_a st))) by lia. pose proof (li_bb st I). simpl. lia. }
      destruct (IH st') as (st2 & J & Hf & Hrun); auto; [lia|]. exists st2. split; auto. split; auto.
      intros fuel Hfuel. destruct fuel as [|fuel]; [lia|]. cbn [lo_run]. rewrite Hs. apply Hrun. lia.
    - exists st. split; auto. split; auto. intros fuel Hfuel. destruct fuel as [|fuel]; [lia|]. cbn [lo_run]. rewrite Hs. auto.
  Qed.
End Run.

Lemma zero_commutator ty A : good_cop ty A -> exists D, is_commutator ty A A D /\ hs_norm D = 0%R /\ forall s, coefficient D s = RtoC 0.
Proof.
  intros _. exists (mkCOp [] basis_empty ty). split; [|split; [unfold hs_norm; cbn; apply sqrt_0 | reflexivity]].
  split; [split; [apply built_empty|]; split; auto; split; auto; intros s []|]. exists []. split; [simpl; lia|]. split; [intros t []|].
  intros X S g Hr. cbv zeta. unfold clincomb at 1 2. simpl. rewrite aadd_0_l. symmetry. apply asub_self.
Qed.

(** The two notions of vanishing agree. *)
Lemma coords_zero ty U o : NoDup U -> (forall s, In s U -> string_ok ty s) -> inU ty U o -> coords U (c_terms o) = vzero (length U) -> hs_norm o = 0%R.
Proof.
  intros Hn Ho Hi E. pose proof (inner_self_terms ty o U Hn Ho Hi) as H. rewrite E, inner_zero_l in H. apply RtoC_inj in H. unfold hs_norm. rewrite <- H. apply sqrt_0.
Qed.

Lemma gs_zero n tol z : forall rest qs, (forall q, In q z -> q = vzero n) -> vectors n rest -> gs_loop tol (z ++ qs) rest = z ++ gs_loop tol qs rest.
Proof.
  assert (P : forall z w, (forall q, In q z -> q = vzero n) -> length w = n -> gs_project z w = w).
  { induction z0 as [|q z0 IH]; intros w Hz L; auto. unfold gs_project in *. cbn [fold_left]. rewrite (Hz q), vscale_zero by (left; auto).
    replace (vsub w (vzero n)) with w; [apply IH; auto; intros; apply Hz; right; auto|].
    rewrite vsub_as_add, vscale_zero, <- L. symmetry. apply vadd_zero_r. }
  induction rest as [|c rest IH]; intros qs Hz Hr; auto. cbn [gs_loop].
  assert (E : gs_project (z ++ qs) c = gs_project qs c).
  { unfold gs_project. rewrite fold_left_app. f_equal. apply (P z c); auto. apply Hr; left; auto. }
  rewrite E. assert (Hr' : vectors n rest) by (intros x Hx; apply Hr; right; auto).
  destruct (Rlt_dec tol (vnorm (gs_project qs c))); [rewrite <- app_assoc|]; apply IH; auto.
Qed.
Lemma gs_sparse_ok n cols : cols <> [] -> vectors n cols ->
  exists z vs, gram_schmidt_sparse n 0 cols = repeat (vzero n) z ++ vs /\ vectors n vs /\ orthonormal vs /\ forall v, span n vs v <-> span n cols v.
Proof.
  intros Hc V. destruct cols as [|c rest]; [congruence|]. clear Hc. unfold gram_schmidt_sparse.
  assert (On : orthonormal []) by (split; [intros v [] | intros [|i] j v w H; discriminate]).
  destruct (Nat.eqb_spec n 0) as [->|Hn].
  - exists (length (c :: rest)), []. split; [|split; [intros v []|split; auto]].
    + rewrite app_nil_r. generalize dependent (c :: rest). clear. induction l as [|x l IH]; intros V; auto. cbn [length repeat]. f_equal; [|apply IH; intros y Hy; apply V; right; auto].
      assert (length x = 0) by (apply V; left; auto). destruct x; [reflexivity | discriminate].
    + intros v. split; intros H.
      * eapply span_mono; [|exact H]. intros x [].
      * pose proof (span_length 0 _ V v H) as L. destruct v; [|discriminate]. apply (span_zero 0 []).
  - assert (Lc : length c = n) by (apply V; left; auto). assert (Vr : vectors n rest) by (intros x Hx; apply V; right; auto).
    assert (K : forall qs, gs_inv n 0 [c] qs -> vectors n (gs_loop 0 qs rest) /\ orthonormal (gs_loop 0 qs rest) /\ forall v, span n (gs_loop 0 qs rest) v <-> span n (c :: rest) v).
    { intros qs Hq. destruct (gs_loop_inv n 0 rest (Rle_refl 0) Vr [c] qs ltac:(intros x [<-|[]]; auto) Hq) as (A & B & D & F). cbn [app] in *. split; auto. split; auto.
      intros v. split; apply span_sub; auto. intros x Hx. destruct (F x Hx) as (s & r & Hs & -> & Hr & Lr).
      assert (Er : r = vzero (length r)) by (apply vnorm_zero; pose proof (vnorm_nonneg r); lra).
      replace (vadd r s) with s; [exact Hs|]. rewrite Er, Lr. rewrite <- (span_length n _ A s Hs). symmetry. apply vadd_zero_l. }
    unfold unit_vec. destruct (Req_EM_T (vnorm c) 0) as [Z|NZ].
    + pose proof (vnorm_zero c Z) as Ec. rewrite Lc in Ec. exists 1, (gs_loop 0 [] rest). split.
      * rewrite Ec. apply (gs_zero n 0 [vzero n] rest []); auto. intros q [<-|[]]; auto.
      * apply K. split; [intros x []|]. split; auto. split; [intros q []|]. intros x [<-|[]]. exists (vzero n), (vzero n). split; [apply span_zero|].
        rewrite vnorm_vzero, vzero_length. split; [rewrite Ec at 1; symmetry; apply vadd_vzero | split; [lra | auto]].
    + exists 0, (gs_loop 0 [vscale (RtoC (/ vnorm c)) c] rest). split; [reflexivity|]. apply K. apply gs_first; auto. lra.
Qed.

Lemma lie_operators_proof ty tol o rest : ty <> Fermion -> (0 <= tol)%R -> (forall p, In p (o :: rest) -> good_cop ty p) ->
  (forall p c, In p (o :: rest) -> In c (c_coeffs p) -> c = RtoC 0 \/ (tol < Cmod c)%R) ->
  exists fuel0 l, (forall fuel, fuel0 <= fuel -> generate_lie_operators fuel tol (o :: rest) = Some (Ok (Some l))) /\
    (exists m, l = (o :: rest) ++ m) /\ by_commutators ty tol (length (o :: rest)) l /\ closed_up_to ty tol l /\
    (independent_ops (o :: rest) -> independent_ops l).
Proof.
  intros Hty Ht Hg Hc. set (ops0 := o :: rest) in *. destruct (ccombined_ok ty ops0 Hg) as [Gb Gi]. set (b := ccombined ops0) in *. set (n := basis_len b) in *.
  assert (Hu : forall p, In p ops0 -> inU ty (b_strings b) p) by (intros p Hp; split; auto; intros s; apply Gi; auto).
  assert (Nd : NoDup (b_strings b)) by (apply built_nodup, Gb).
  assert (EC : rmap (lie_column b tol) ops0 = Ok (cols b ops0)).
  { assert (K : forall ps, incl ps ops0 -> rmap (lie_column b tol) ps = Ok (cols b ps)); [|apply K, incl_refl]. induction ps as [|p ps IH]; intros Hi; auto.
    cbn [rmap cols map]. rewrite (lie_column_coords ty b tol p Gb) by (try apply Hu; try (intros c; apply (Hc p c)); apply Hi; left; auto). cbn [rbind].
    fold (cols b ps). rewrite IH by (intros x Hx; apply Hi; right; auto). reflexivity. }
  assert (V0 : vectors n (cols b ops0)) by apply cols_vectors.
  destruct (gs_sparse_ok n (cols b ops0)) as (z & vs & EG & Vq & Oq & S12); [discriminate | auto|].
  set (st := mkLo ops0 b (gram_schmidt_sparse n 0 (cols b ops0)) [] 0 0).
  assert (I : lo_inv ty tol ops0 st).
  { constructor; cbn [st lo_ops lo_basis lo_vecs lo_done lo_a lo_b].
    - exists z, vs. split; [exact EG|]. constructor; auto.
      + intros Hi. apply injective_independent; auto. apply (independent_columns ty (b_strings b)); auto.
      + lia.
      + intros s Hs. split; [unfold L_Lie.universe; apply in_or_app; auto|]. intros l Hl. unfold labels0. apply in_flat_map. exists s; auto.
    - exists []. rewrite app_nil_r. auto.
    - intros m p Hm Hp. exfalso. apply nth_error_None in Hm. congruence.
    - intros p [].
    - intros; lia.
    - intros; lia.
    - lia. }
  destruct (lo_run_ok ty tol ops0 Hty Ht (S (lo_measure ty ops0 st)) st ltac:(lia) I) as (st' & I' & Hend & Hrun).
  exists (S (lo_measure ty ops0 st)), (lo_ops st'). destruct I' as [(z' & vs' & _ & G) I2 I3 I4 I5 I6 I7].
  split; [|split; [|split; [|split]]]; auto.
  - intros fuel Hf. unfold generate_lie_operators. unfold ops0 at 1. fold ops0. cbv zeta. fold b. rewrite EC. apply Hrun; auto.
  - intros i j A B HA HB.
    assert (Li : i < length (lo_ops st')) by (apply nth_error_Some; congruence). assert (Lj : j < length (lo_ops st')) by (apply nth_error_Some; congruence).
    destruct (Nat.eq_dec i j) as [<-|Nij].
    { assert (A = B) as <- by congruence. destruct (zero_commutator ty A) as (D & H1 & H2 & _); [apply (ge_ops _ _ _ _ _ G); eapply nth_error_In; eauto|]. exists D. split; auto. left. lra. }
    assert (X : In (i, j) (lo_done st') \/ In (j, i) (lo_done st')).
    { destruct (Nat.lt_ge_cases j i); [apply I5; lia|]. destruct (I5 j i); auto; lia. }
    destruct X as [X|X]; destruct (I4 _ X) as (_ & _ & P); [apply (P A B); auto|].
    destruct (P B A) as (D & CD & HD); auto. destruct (is_commutator_swap ty B A D CD) as (D' & CD' & ND & ED). exists D'. split; auto. rewrite ND. destruct HD as [HD|HD]; auto. right.
    apply (near_scale _ _ _ (RtoC (-1)) _ ltac:(cbn; lra) HD). intros s. rewrite ED. unfold Cdiv. generalize (coefficient D s) (Cinv (RtoC (hs_norm D))). intros [a1 a2] [k1 k2]. apply injective_projections; cbn; ring.
  - intros Hi. apply (independent_columns ty (b_strings (lo_basis st'))).
    + apply (ge_ops _ _ _ _ _ G).
    + apply independent_injective; [apply cols_vectors | apply (ge_ind _ _ _ _ _ G); auto].
Qed.
