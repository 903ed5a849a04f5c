(** Kernels, projections and the loops of the noncumulative generator. *)
From Coq Require Import List ZArith Bool Arith Lia Reals Lra.
From Coquelicot Require Import Complex.
From Verif Require Import GC Exn S_Alg M_OpString M_Algebra M_Basis M_Transform M_LinAlg M_Core S_Den S_Basis S_Built S_OpAlg S_Transform S_RScal S_CScal S_LinAlg S_Core S_Invariant S_Sparsify S_Generate
  L_LinAlg L_Inter L_Herm L_Core L_Commuting L_Trans5 L_PartIso L_Invariant3 L_Sparsify.
Import ListNotations.
Local Open Scope nat_scope.

Lemma hermitian_linear n D : hermitian n D -> forall c u w, length u = n -> length w = n ->
  rows_vec D (vadd (vscale c u) w) = vadd (vscale c (rows_vec D u)) (rows_vec D w).
Proof.
  intros [LD H] c u w Lu Lw.
  assert (Lr : forall x, length (rows_vec D x) = n) by (intros; rewrite rows_vec_length; auto).
  assert (Ls : forall d (x : vec), length x = n -> length (vscale d x) = n) by (intros; rewrite vscale_length; auto).
  apply (inner_ext n); [apply Lr | apply vadd_length; auto|]. intros x Lx.
  rewrite H, (inner_add_r n), inner_scale_r, <- !H, (inner_add_r n), inner_scale_r by (auto; apply vadd_length; auto). reflexivity.
Qed.
Lemma hermitian_zero n D : hermitian n D -> rows_vec D (vzero n) = vzero n.
Proof.
  intros [LD H]. apply (inner_ext n); [rewrite rows_vec_length; auto | apply vzero_length|]. intros x Lx.
  rewrite H, !inner_zero_r by (auto using vzero_length). reflexivity.
Qed.
Lemma span_kernel n D vs : hermitian n D -> (forall v, In v vs -> length v = n /\ rows_vec D v = vzero n) ->
  forall v, span n vs v -> length v = n /\ rows_vec D v = vzero n.
Proof.
  intros HD Hv v. induction 1 as [|c u w Hu Hw [Lw Ew]]; [split; [apply vzero_length | apply hermitian_zero; auto]|].
  destruct (Hv u Hu) as [Lu Eu]. split; [apply (vadd_length n); [exact (eq_trans (vscale_length _ _) Lu) | exact Lw]|].
  change (rows_vec D (vadd (vscale c u) w) = vzero n). rewrite (hermitian_linear n) by auto. rewrite Eu, Ew, vscale_zero. apply vadd_vzero.
Qed.
(** The kept eigenvectors of an exact solution span the kernel. *)
Lemma exact_kept n D ps tol : hermitian n D -> (0 < tol)%R -> exact_pairs tol D ps ->
  let vs := keep (fun e => lt_dec (Rabs e) tol) ps in
  vectors n vs /\ orthonormal vs /\ (forall v, In v vs -> rows_vec D v = vzero n) /\
  forall v, span n vs v <-> length v = n /\ rows_vec D v = vzero n.
Proof.
  intros HD Ht ((He & Hs) & Ho & Hg) vs. unfold vec in *. pose proof (proj1 HD : length D = n) as LD. rewrite LD in Hs.
  assert (Hv : forall v, In v vs -> length v = n /\ rows_vec D v = vzero n).
  { intros v Hv. apply keep_in in Hv. destruct Hv as (l & Hin & T). apply lt_dec_true in T. destruct (He l v Hin) as (Lv & _ & Ev).
    rewrite LD in Lv. split; auto. destruct (Hg l) as [->|G]; [apply in_map_iff; exists (l, v); auto | | exfalso; lra].
    rewrite Ev. change (vscale (RtoC 0) v = vzero n). rewrite vscale_0, Lv. reflexivity. }
  split; [intros v Hv'; apply Hv; auto|]. split; [apply keep_orthonormal; auto|]. split; [intros v Hv'; apply Hv; auto|].
  intros v. split; [apply span_kernel; auto|]. intros [Lv Ev].
  apply (select_complete n D (fun e => lt_dec (Rabs e) tol) ps 0%R v HD).
  - intros l w Hin. destruct (He l w Hin) as (Lw & _ & Ew). rewrite LD in Lw. split; auto.
  - apply lt_dec_true. rewrite Rabs_R0. auto.
  - auto.
  - rewrite vscale_0, Lv. auto.
  - apply Hs; auto.
Qed.
Lemma one_minus_hermitian n s D : vectors n D -> hermitian n D -> hermitian n (one_minus n s D).
Proof.
  intros VD [LD HD]. split; [apply one_minus_length|]. intros x y Lx Ly. rewrite !one_minus_apply by auto.
  assert (Lr : forall x, length (rows_vec D x) = n) by (intros; rewrite rows_vec_length; auto).
  rewrite (inner_sub_r n), (inner_sub_l n), inner_scale_r, inner_scale_l, Cconj_R, HD by (auto; rewrite vscale_length; auto). reflexivity.
Qed.
Lemma keep_shift s tol ps : (s * s = 1)%R -> keep (fun e => lt_dec (Rabs (e - s)) tol) ps = keep (fun e => lt_dec (Rabs e) tol) (map (fun p => (1 - s * fst p, snd p)%R) ps).
Proof.
  intros Hs. unfold keep. induction ps as [|[e v] ps IH]; simpl; auto.
  replace (Rabs (1 - s * e)) with (Rabs (e - s)).
  - destruct (lt_dec (Rabs (e - s)) tol); simpl; rewrite IH; auto.
  - replace (1 - s * e)%R with (- s * (e - s))%R by nra. rewrite Rabs_mult.
    replace (Rabs (- s)) with 1%R; [lra|]. rewrite Rabs_Ropp. assert (s = 1 \/ s = -1)%R as [-> | ->].
    { destruct (Req_dec s 1); auto. right. assert ((s - 1) * (s + 1) = 0)%R by lra. apply Rmult_integral in H0. destruct H0; lra. }
    + rewrite Rabs_R1; auto. + rewrite Rabs_left; lra.
Qed.

(* ------------------------------------------------------------ one search *)

Section Search.
  Variables (ty : optype) (Or : oracles) (b : cbasis) (tol : R).
  Hypotheses (Hb : good_cbasis ty b) (Ht : (0 < tol)%R).
  Let n := cbasis_len b.
  Lemma search_ok y : good_sym ty Or b y -> y_num y = None ->
    exists f, search Or b y tol = Ok f /\ hermitian n (f_super f) /\
      (exact_pairs tol (f_super f) (combine (f_evals f) (f_evecs f)) -> vectors n (f_ops f) /\ orthonormal (f_ops f) /\
         forall v, span n (f_ops f) v <-> length v = n /\ rows_vec (f_super f) v = vzero n) /\
      forall (A : StarAlg) (S : RScal A) (g : op -> Z -> A), rep ty g -> ~ (@aone A == azero)%alg ->
        forall v, length v = n -> (rows_vec (f_super f) v = vzero n <-> satisfies S g b y v).
  Proof.
    unfold good_sym, search, satisfies. destruct (y_sym y) as [o|T|]; [| |tauto].
    - intros (Hty & Ho & Hm) ->. destruct (op_mode (y_mode y)) as [m|] eqn:Em; [|congruence].
      destruct (commuting_proof ty (y_mode y) m b o Hty Hb Ho Em (or_eig Or) None tol) as (f & C & cols & Hf & HD & HC & Vc & Lc & Eo & _ & Ev & Ec & D).
      exists f. split; auto. assert (HH : hermitian n (f_super f)) by (rewrite HD; unfold n; rewrite <- Lc; apply (gram_hermitian (basis_len C)); auto).
      split; auto. split.
      + rewrite Ev, Ec, Eo. replace (combine (map fst (or_eig Or None (f_super f))) (map snd (or_eig Or None (f_super f)))) with (or_eig Or None (f_super f)).
        * intros HE. destruct (exact_kept n _ _ tol HH Ht HE) as (A1 & A2 & _ & A4). auto.
        * generalize (or_eig Or None (f_super f)). induction l as [|[a c] l IH]; simpl; f_equal; auto.
      + intros A S g Hr Hn v Lv. rewrite HD. apply (commuting_kernel ty m b o C cols A S g); auto.
    - intros ((H1 & H2 & H3 & H4 & H5 & H6) & s & Hs) ->. rewrite Hs. apply gsign_trans in Hs.
      destruct (invariant_proof ty (or_eig Or) (or_pinv Or) b T (y_mode y) s None tol H1 H2 H3 H4 H5 H6 Hs) as (f & H & E & LH & VH & HH & Es & Eo & Ev & Ec & Ew & Ek & _).
      pose proof (gsign_sq _ _ Hs) as Q. exists f. split; auto. fold n in LH, VH, HH, Es, Ek |- *.
      assert (HH' : hermitian n (f_super f)) by (rewrite Es; apply one_minus_hermitian; auto).
      split; auto. split.
      + rewrite Ev, Ec, Eo, combine_pairs, (keep_shift s) by auto.
        intros HE. destruct (exact_kept n _ _ tol HH' Ht HE) as (A1 & A2 & _ & A4). auto.
      + intros A S g Hr Hn v Lv. rewrite <- (Ek v Lv A S g Hr Hn), Es. rewrite <- (one_minus_eigen n s H v s Q LH VH Lv).
        replace (1 - s * s)%R with 0%R by lra. rewrite vscale_0, Lv. reflexivity.
  Qed.
End Search.

(* ------------------------------------------------------------ projection *)

Lemma project_zero n P sup : (forall p, In p P -> rows_vec sup p = vzero n) -> project_super P sup = map (fun _ => vzero (length P)) P.
Proof.
  intros H. unfold project_super. apply map_ext. intros p. unfold vzero, vec in *. clear - H.
  induction P as [|q P IH]; simpl; auto. rewrite (H q), vdot_inner by (left; auto). rewrite (inner_zero_r n). f_equal. apply IH. intros; apply H; right; auto.
Qed.
Lemma zero_rows k (Q : list vec) x : rows_vec (map (fun _ => vzero k) Q) x = vzero (length Q).
Proof.
  unfold rows_vec, vzero. rewrite map_map. assert (E : csum (zip_with Cmult (repeat (RtoC 0) k) x) = RtoC 0).
  { revert x. induction k as [|k IH]; intros [|z x]; auto. cbn. unfold csum in *. cbn. rewrite IH. ring. }
  rewrite E. clear. induction Q; simpl; f_equal; auto.
Qed.
Lemma orthonormal_map {T} (f : T -> vec) (l : list T) : (forall i j x y, nth_error l i = Some x -> nth_error l j = Some y -> inner (f x) (f y) = if Nat.eqb i j then RtoC 1 else RtoC 0) -> orthonormal (map f l).
Proof.
  intros H. split.
  - intros v Hv. apply in_map_iff in Hv. destruct Hv as (x & <- & Hx). apply In_nth_error in Hx. destruct Hx as (i & Hi).
    rewrite (H i i x x Hi Hi), Nat.eqb_refl. auto.
  - intros i j v w Hi Hj Hij. rewrite nth_error_map in Hi, Hj. destruct (nth_error l i) eqn:Ei; [|discriminate]. destruct (nth_error l j) eqn:Ej; [|discriminate].
    injection Hi as <-. injection Hj as <-. rewrite (H i j _ _ Ei Ej). destruct (Nat.eqb_spec i j); congruence.
Qed.
Lemma lift_ok n P es : vectors n P -> orthonormal P -> vectors (length P) es -> orthonormal es -> (forall x, length x = length P -> span (length P) es x) ->
  vectors n (map (mat_vec n P) es) /\ orthonormal (map (mat_vec n P) es) /\ forall v, span n (map (mat_vec n P) es) v <-> span n P v.
Proof.
  intros VP OP Ve Oe Hs. assert (Vm : vectors n (map (mat_vec n P) es)) by (intros v Hv; apply in_map_iff in Hv; destruct Hv as (e & <- & _); apply mat_vec_length; auto).
  split; auto. split.
  - apply orthonormal_map. intros i j x y Hi Hj. rewrite (isometry n) by (auto; apply Ve; eapply nth_error_In; eauto). destruct Oe as [O1 O2].
    destruct (Nat.eqb_spec i j) as [<-|N]; [|eapply O2; eauto]. rewrite Hi in Hj. injection Hj as <-. apply O1. eapply nth_error_In; eauto.
  - intros v. split.
    + apply span_sub; auto. intros w Hw. apply in_map_iff in Hw. destruct Hw as (e & <- & _). apply mat_vec_span; auto.
    + intros Hv. destruct (span_mat_vec n P VP v Hv) as (x & Lx & ->). specialize (Hs x Lx). clear Hv Lx.
      induction Hs as [|c u w Hu Hw IH]; [fold (vzero (length P)); rewrite mat_vec_zero by auto; apply span_zero|].
      change (span n (map (mat_vec n P) es) (mat_vec n P (vadd (vscale c u) w))).
      assert (Lw : length w = length P) by (eapply L_LinAlg.span_length; [exact Ve | exact Hw]). 
      rewrite mat_vec_add, mat_vec_scale by (auto; rewrite vscale_length; apply Ve; auto). apply span_add; auto. apply in_map; auto.
Qed.
(** The matrix of the intersection is a Gram matrix. *)
Lemma inter_hermitian n A B : vectors n A -> vectors n B -> hermitian (length (hstack_neg A B)) (gram (hstack_neg A B)).
Proof.
  intros VA VB. apply (gram_hermitian n). intros v Hv. apply in_app_or in Hv. destruct Hv as [Hv|Hv]; auto.
  apply in_map_iff in Hv. destruct Hv as (w & <- & Hw). rewrite vscale_length. auto.
Qed.
Lemma tol10_pos : (0 < tol10r)%R.
Proof. unfold tol10r. simpl. lra. Qed.

Section Project.
  Variables (Or : oracles) (n : nat) (tol : R).
  Hypothesis Ht : (0 < tol)%R.
  (** One step of the projection. *)
  Definition inter_solver (D : list vec) : list vec := keep (fun e => lt_dec (Rabs e) tol10r) (or_eig Or None D).
  Lemma project_step cur prev sup : vectors n cur -> orthonormal cur -> vectors n prev -> orthonormal prev -> hermitian n sup ->
    (forall v, span n cur v -> rows_vec sup v = vzero n) ->
    exact_pairs tol10r (gram (hstack_neg cur prev)) (or_eig Or None (gram (hstack_neg cur prev))) ->
    (forall P, intersection inter_solver n n cur prev = Ok (Some P) ->
       full_solution (project_super P sup) (or_eig Or None (project_super P sup)) /\ orthonormal (map snd (or_eig Or None (project_super P sup)))) ->
    exists P, intersection inter_solver n n cur prev = Ok (Some P) /\
      let out := map (mat_vec n P) (keep (fun e => lt_dec (Rabs e) tol) (or_eig Or None (project_super P sup))) in
      vectors n out /\ orthonormal out /\ forall v, span n out v <-> span n cur v /\ span n prev v.
  Proof.
    intros VC OC VP OP HS Hk HE HP. unfold vec in *.
    pose proof (inter_hermitian n cur prev VC VP) as HD. destruct (exact_kept _ _ _ _ HD tol10_pos HE) as (E1 & E2 & E3 & E4).
    assert (EK : exact_kernel inter_solver (gram (hstack_neg cur prev))).
    { unfold exact_kernel. rewrite gram_length. split; [exact E1|]. split; [exact E2|]. split; [exact E3|]. intros x Lx Ex. apply E4. auto. }
    destruct (intersection_proof inter_solver n cur prev VC VP OC OP EK) as (P & Ei & V & O & S).
    exists P. split; auto. destruct (HP P Ei) as [[He Hs] Ho]. cbv zeta.
    assert (Z : forall p, In p P -> rows_vec sup p = vzero n). { intros p Hp. apply Hk. apply S. clear - Hp V.
      replace p with (zip_with Cplus (map (Cmult (RtoC 1)) p) (repeat (RtoC 0) n)); [apply span_add; [auto | apply span_zero]|].
      change (vadd (vscale (RtoC 1) p) (vzero n) = p). rewrite vscale_one. apply vadd_0r. apply V; auto. }
    pose proof (project_zero n P sup Z) as EZ. 
    assert (LS : length (project_super P sup) = length P) by (unfold project_super; apply map_length). unfold vec in LS.
    assert (Ka : keep (fun e => lt_dec (Rabs e) tol) (or_eig Or None (project_super P sup)) = map snd (or_eig Or None (project_super P sup))).
    { unfold keep. f_equal. assert (G : forall l v, In (l, v) (or_eig Or None (project_super P sup)) -> l = 0%R).
      { intros l v Hin. destruct (He l v Hin) as (Lv & Nz & Ev). rewrite EZ, zero_rows in Ev.
        destruct (Req_dec l 0) as [|Nl]; auto. exfalso. apply Nz. rewrite LS in Lv |- *.
        change (v = vzero (length P)). change (vzero (length P) = vscale (RtoC l) v) in Ev.
        rewrite <- (vscale_one v), <- (Rinv_l l Nl), RtoC_mult, <- vscale_vscale, <- Ev. apply vscale_zero. }
      revert G. generalize (or_eig Or None (project_super P sup)). induction l as [|[e v] l IH]; intros G; simpl; auto.
      rewrite (G e v) by (left; auto). replace (lt_dec (Rabs 0) tol) with true; [f_equal; apply IH; intros; eapply G; right; eauto|].
      symmetry. apply lt_dec_true. rewrite Rabs_R0. auto. }
    rewrite Ka. rewrite LS in Hs.
    assert (Ve : vectors (length P) (map snd (or_eig Or None (project_super P sup)))).
    { intros v Hv. apply in_map_iff in Hv. destruct Hv as ([l w] & <- & Hin). destruct (He l w Hin) as (Lw & _). rewrite LS in Lw. auto. }
    destruct (lift_ok n P _ V O Ve Ho Hs) as (L1 & L2 & L3). split; auto. split; auto. intros v. rewrite L3. apply S.
  Qed.
End Project.

(* ------------------------------------------------------------ the loops *)

(** The results of the first loop. *)
Definition add_found (st : nstate) (f : found) : nstate :=
  mkN (n_super st ++ [f_super f]) (n_evals st ++ [f_evals f]) (n_evecs st ++ [f_evecs f]) (n_out st ++ [f_ops f])
      (n_psuper st) (n_pevals st) (n_pevecs st) (n_pout st) (n_inter st).
Definition omap {A B} (f : A -> B) (r : res (option A)) : res (option B) :=
  match r with Ok (Some x) => Ok (Some (f x)) | Ok None => Ok None | Err e => Err e end.
Lemma rfold_app {S T} (f : S -> T -> res S) l m s : rfold f (l ++ m) s = (let! s' := rfold f l s in rfold f m s').
Proof. revert s. induction l as [|x l IH]; intros s; simpl; auto. destruct (f s x); simpl; auto. Qed.
Lemma ofold_app {S T} (f : S -> T -> res (option S)) l m s : ofold f (l ++ m) s =
  match ofold f l s with Ok (Some s') => ofold f m s' | Ok None => Ok None | Err e => Err e end.
Proof.
  unfold ofold. rewrite rfold_app. destruct (rfold _ l (Some s)) as [[s'|]|e]; simpl; auto.
  clear. induction m as [|x m IH]; simpl; auto.
Qed.
Definition same_found (st st' : nstate) : Prop := n_super st' = n_super st /\ n_evals st' = n_evals st /\ n_evecs st' = n_evecs st /\ n_out st' = n_out st.
Definition counts (k : nat) (st : nstate) : Prop := length (n_super st) = k /\ length (n_evals st) = k /\ length (n_evecs st) = k /\ length (n_out st) = k.

Lemma project_add Or n tol st f i y k : counts k st -> i < k -> n_project Or n tol (add_found st f) (i, y) = omap (fun s => add_found s f) (n_project Or n tol st (i, y)).
Proof.
  intros (C1 & C2 & C3 & C4) Hi. unfold n_project, add_found. cbn [n_super n_evals n_evecs n_out n_psuper n_pevals n_pevecs n_pout n_inter].
  rewrite !nth_error_app1 by lia. destruct (nth_error (n_out st) i) as [cur|]; simpl; auto. destruct (nth_error (n_super st) i) as [sup|]; simpl; auto.
  destruct (Nat.eqb i 0).
  - destruct (nth_error (n_evals st) i); simpl; auto. destruct (nth_error (n_evecs st) i); simpl; auto.
  - destruct (nth_error (n_pout st) (i - 1)) as [prev|]; simpl; auto. destruct (intersection _ _ _ _ _) as [[P|]|]; simpl; auto.
Qed.
Lemma project_same Or n tol st i y st' : n_project Or n tol st (i, y) = Ok (Some st') -> same_found st st' /\ length (n_pout st') = S (length (n_pout st)).
Proof.
  unfold n_project. destruct (nth_error (n_out st) i) as [cur|]; simpl; [|discriminate]. destruct (nth_error (n_super st) i) as [sup|]; simpl; [|discriminate].
  destruct (Nat.eqb i 0).
  - destruct (nth_error (n_evals st) i); simpl; [|discriminate]. destruct (nth_error (n_evecs st) i); simpl; [|discriminate].
    intros E. injection E as <-. split; [repeat split|]. simpl. rewrite app_length. simpl. lia.
  - destruct (nth_error (n_pout st) (i - 1)) as [prev|]; simpl; [|discriminate]. destruct (intersection _ _ _ _ _) as [[P|]|]; simpl; try discriminate.
    intros E. injection E as <-. split; [repeat split|]. simpl. rewrite app_length. simpl. lia.
Qed.
Local Arguments n_project : simpl never.
Local Arguments n_generate : simpl never.
Lemma projects_add Or n tol f k : forall l st, counts k st -> (forall i y, In (i, y) l -> i < k) ->
  ofold (n_project Or n tol) l (add_found st f) = omap (fun s => add_found s f) (ofold (n_project Or n tol) l st) /\
  (forall st', ofold (n_project Or n tol) l st = Ok (Some st') -> same_found st st' /\ length (n_pout st') = length l + length (n_pout st)).
Proof.
  unfold ofold. induction l as [|[i y] l IH]; intros st Hc Hl.
  - simpl. split; auto. intros st' E. injection E as <-. split; [repeat split|auto].
  - simpl. rewrite (project_add Or n tol st f i y k Hc) by (eapply Hl; left; eauto).
    destruct (n_project Or n tol st (i, y)) as [[s|]|e] eqn:E; simpl.
    + destruct (project_same _ _ _ _ _ _ _ E) as [(S1 & S2 & S3 & S4) S5].
      destruct (IH s) as [I1 I2]; [unfold counts in *; rewrite S1, S2, S3, S4; auto | intros; eapply Hl; right; eauto|]. split; auto.
      intros st' E'. destruct (I2 st' E') as [(T1 & T2 & T3 & T4) T5]. split; [repeat split; congruence | lia].
    + assert (G : forall (X : Type) (F : X -> nat * entry_sym -> res (option X)) m, rfold (fun os x => match os with Some s => F s x | None => Ok None end) m (@None X) = Ok None).
      { clear. intros X F. induction m as [|x m IHm]; simpl; auto. }
      rewrite !G. simpl. split; auto. discriminate.
    + split; auto. discriminate.
Qed.

Section Loops.
  Variables (Or : oracles) (b : cbasis) (tol : R).
  Let n := cbasis_len b.
  Let gen syms := generate_noncumulative Or b syms false false tol n_fresh.

  Lemma first_loop syms : (forall y, In y syms -> exists f, search Or b y tol = Ok f) -> forall st, 
    exists st', rfold (n_generate Or b tol) syms st = Ok st' /\ (forall k, counts k st -> counts (length syms + k) st') /\ n_pout st' = n_pout st.
  Proof.
    induction syms as [|y syms IH]; intros H st; simpl.
    - exists st. auto.
    - destruct (H y) as [f Hf]; [left; auto|]. unfold n_generate at 1. rewrite Hf. simpl.
      destruct (IH ltac:(intros; apply H; right; auto) (add_found st f)) as (st' & E & C & P). exists st'. split; [exact E|]. split; [|exact P].
      intros k (C1 & C2 & C3 & C4). replace (S (length syms + k)) with (length syms + S k) by lia. apply C. unfold counts, add_found. simpl.
      rewrite !app_length, C1, C2, C3, C4. simpl. repeat split; lia.
  Qed.
  (** One more symmetry. *)
  Lemma generate_snoc syms y f : (forall z, In z syms -> exists f, search Or b z tol = Ok f) -> search Or b y tol = Ok f ->
    gen (syms ++ [y]) = match gen syms with
                        | Ok (Some st) => n_project Or n tol (add_found st f) (length syms, y)
                        | Ok None => Ok None
                        | Err e => Err e
                        end /\
    forall st, gen syms = Ok (Some st) -> counts (length syms) st /\ length (n_pout st) = length syms.
  Proof.
    intros Hs Hf. unfold gen, generate_noncumulative. rewrite rfold_app.
    destruct (first_loop syms Hs n_fresh) as (st1 & E1 & C1 & P1). rewrite E1. cbn [rbind rfold]. unfold n_generate. rewrite Hf. cbn [rbind]. fold (add_found st1 f).
    specialize (C1 0 ltac:(repeat split)). rewrite Nat.add_0_r in C1.
    rewrite app_length, seq_app. simpl (length [y]). rewrite combine_app_eq by (rewrite seq_length; auto). rewrite ofold_app. fold n.
    destruct (projects_add Or n tol f (length syms) (combine (seq 0 (length syms)) syms) st1 C1) as [Q1 Q2].
    { intros i z Hin. apply in_combine_l, in_seq in Hin. lia. }
    rewrite Q1. destruct (ofold (n_project Or n tol) (combine (seq 0 (length syms)) syms) st1) as [[s|]|e] eqn:E; simpl; split; try discriminate; auto.
    - unfold ofold. simpl. destruct (n_project Or n tol (add_found s f) (length syms, y)) as [[z|]|]; reflexivity.
    - intros st Es. injection Es as <-. destruct (Q2 s eq_refl) as [(S1 & S2 & S3 & S4) S5]. split; [unfold counts in *; rewrite S1, S2, S3, S4; auto|].
      rewrite S5, combine_length, seq_length, P1. simpl. lia.
  Qed.
End Loops.
