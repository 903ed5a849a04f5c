(** Proofs about the caching exploration: the invariant of the cache. *)
From Coq Require Import String List ZArith Bool Arith Lia Sorted Permutation QArith Qcanon.
From Verif Require Import GC Exn S_Alg S_Den S_Basis S_Built S_OpAlg S_Explore M_OpString M_Algebra M_Basis M_OpAlg M_Explore
  L_Alg L_StrAlg L_StrOp L_Indep L_PropStr L_Basis L_Operator L_Heap L_PropBasis L_OpAlg L_Struct.
Import ListNotations.
Local Open Scope nat_scope.
Local Open Scope alg_scope.

(** What one string finds: the commutators of the strings [As] with [B]. *)
Definition found (B A : OS) : list (OS * OS * GC) :=
  match operation_opstring MCommutator A B with Ok (k, Some c) => [(c, A, k)] | _ => [] end.
Definition comms (B : OS) (As : list OS) : list (OS * OS * GC) := flat_map (found B) As.
Lemma comms_app B As Bs : comms B (As ++ Bs) = comms B As ++ comms B Bs.
Proof. apply flat_map_app. Qed.

(** Triplets of positions in [E] and [X] stand for strings. *)
Definition stands (E X : list OS) (t : nat * nat * GC) (u : OS * OS * GC) : Prop :=
  nth_error E (fst (fst t)) = Some (fst (fst u)) /\ nth_error X (snd (fst t)) = Some (snd (fst u)) /\ snd t = snd u.
Definition decode (E X : list OS) : trips -> list (OS * OS * GC) -> Prop := Forall2 (stands E X).

Lemma nth_app_some {T} (l m : list T) i x : nth_error l i = Some x -> nth_error (l ++ m) i = Some x.
Proof. intros H. rewrite nth_error_app1; auto. apply nth_error_Some. congruence. Qed.
Lemma stands_extend E X D Y t u : stands E X t u -> stands (E ++ D) (X ++ Y) t u.
Proof. intros (H1 & H2 & H3). split; [|split]; auto; apply nth_app_some; auto. Qed.
Lemma decode_extend E X D Y ts us : decode E X ts us -> decode (E ++ D) (X ++ Y) ts us.
Proof. induction 1; constructor; auto. apply stands_extend; auto. Qed.

Section SC.
  Variables (ty : optype).
  Hypothesis Hty : ty <> Fermion.

  Lemma found_cases S B : string_ok ty S -> string_ok ty B ->
    (exists k, operation_opstring MCommutator S B = Ok (k, None) /\ found B S = [] /\
       forall (A : StarAlg) (g : op -> Z -> A), rep ty g -> exact MCommutator (den g S) (den g B) == azero) \/
    (exists k c, operation_opstring MCommutator S B = Ok (k, Some c) /\ found B S = [(c, S, k)] /\ abs_ltb k tol16 = false /\
       string_ok ty c /\ canonical c /\
       forall (A : StarAlg) (g : op -> Z -> A), rep ty g -> exact MCommutator (den g S) (den g B) == k · den g c).
  Proof.
    intros HS HB. destruct (mode_spec ty MCommutator S B Hty HS HB) as (k & oc & R).
    pose proof (mr_run _ _ _ _ _ _ R) as Hrun. unfold found. destruct oc as [c|].
    - right. exists k, c. rewrite Hrun. split; auto. split; auto. split; [apply (mode_not_small _ _ _ _ _ _ _ R tol16_ok)|].
      destruct (mr_some _ _ _ _ _ _ R c eq_refl) as (_ & Hc & Hcan & _). split; auto. split; auto.
      intros A g Hr. apply (mr_den _ _ _ _ _ _ R A g Hr).
    - left. exists k. rewrite Hrun. split; auto. split; auto. intros A g Hr. apply (mr_den _ _ _ _ _ _ R A g Hr).
  Qed.

  Definition canon_ok (C : Basis) : Prop := basis_ok C /\ forall c, In c (b_strings C) -> string_ok ty c /\ canonical c.

  Lemma canon_iadd C c : canon_ok C -> string_ok ty c -> canonical c ->
    canon_ok (basis_iadd_string C c) /\ (exists D, b_strings (basis_iadd_string C c) = b_strings C ++ D) /\
    exists ic, basis_index (basis_iadd_string C c) c = Ok ic /\ nth_error (b_strings (basis_iadd_string C c)) ic = Some c.
  Proof.
    intros [HC HP] Hs Hc. destruct (iadd_string_index ty (fun _ => True) C c) as ([X1 X2] & X3 & X4); auto.
    - split; auto. intros d Hd. destruct (HP d Hd). auto.
    - split; auto. split; auto. intros d Hd. destruct (X2 d Hd) as (? & ? & _). auto.
  Qed.

  Lemma sc_inner_decode B : string_ok ty B -> forall As pre C data,
    (forall S, In S As -> string_ok ty S) -> canon_ok C ->
    exists C' new D, sc_inner MCommutator tol16 B (length pre) As C data = Ok (C', data ++ new) /\ canon_ok C' /\
      b_strings C' = b_strings C ++ D /\ decode (b_strings C') (pre ++ As) new (comms B As).
  Proof.
    intros HB. induction As as [|S As IH]; intros pre C data HAs HC.
    - exists C, [], []. rewrite !app_nil_r. repeat split; try apply HC; auto. constructor.
    - assert (HS : string_ok ty S) by (apply HAs; left; auto). cbn [sc_inner comms flat_map].
      assert (HAs' : forall S, In S As -> string_ok ty S) by (intros; apply HAs; right; auto).
      assert (El : Datatypes.S (length pre) = length (pre ++ [S])) by (rewrite app_length; cbn; lia).
      destruct (found_cases S B HS HB) as [(k & Er & Ef & _) | (k & c & Er & Ef & Es & Hc & Hcan & _)]; rewrite Er, Ef; cbn [rbind app].
      + rewrite El. destruct (IH (pre ++ [S]) C data HAs' HC) as (C' & new & D & X1 & X2 & X3 & X4).
        exists C', new, D. split; auto. split; auto. split; auto. rewrite <- app_assoc in X4. exact X4.
      + rewrite Es. destruct (canon_iadd C c HC Hc Hcan) as (HC1 & (D1 & HD1) & ic & Hic & Hn). rewrite Hic. cbn [rbind].
        rewrite El. destruct (IH (pre ++ [S]) (basis_iadd_string C c) (data ++ [(ic, length pre, k)]) HAs' HC1) as (C' & new & D & X1 & X2 & X3 & X4).
        exists C', ((ic, length pre, k) :: new), (D1 ++ D). rewrite <- El in X1. rewrite El in X1.
        rewrite X1, <- app_assoc. split; auto. split; auto. split; [rewrite X3, HD1, app_assoc; auto|].
        rewrite <- app_assoc in X4. constructor; auto. split; [|split]; cbn [fst snd]; auto.
        * rewrite X3. apply nth_app_some; auto.
        * rewrite nth_error_app2, Nat.sub_diag; auto.
  Qed.

  Lemma sc_outer_decode As : (forall S, In S As -> string_ok ty S) -> forall Bs C md,
    (forall B, In B Bs -> string_ok ty B) -> distinct_keys (map fst md ++ Bs) -> canon_ok C ->
    (forall B ts, In (B, ts) md -> decode (b_strings C) As ts (comms B As)) ->
    exists C' new, sc_outer MCommutator tol16 As Bs C md = Ok (C', md ++ new) /\ canon_ok C' /\ map fst new = Bs /\
      forall B ts, In (B, ts) (md ++ new) -> decode (b_strings C') As ts (comms B As).
  Proof.
    intros HAs. induction Bs as [|B Bs IH]; intros C md HBs Hd HC Hmd.
    - exists C, []. rewrite app_nil_r. auto.
    - cbn [sc_outer].
      destruct (sc_inner_decode B (HBs B (or_introl eq_refl)) As [] C [] HAs HC) as (C1 & new & D & He & HC1 & HD & Hdec).
      cbn [length app] in He, Hdec. rewrite He. cbn [rbind].
      assert (Hnone : dget os_key md B = None).
      { apply dget_not_in. intros k v Hin K. apply in_map with (f := fst) in Hin.
        apply distinct_app in Hd. destruct Hd as (_ & _ & Hd). apply (Hd k B); simpl; auto. }
      rewrite dset_none by auto.
      destruct (IH C1 (md ++ [(B, new)])) as (C2 & new2 & He2 & HC2 & Em & Hall).
      + intros; apply HBs; right; auto.
      + rewrite map_app, <- app_assoc. auto.
      + auto.
      + intros B' ts Hin. apply in_app_or in Hin. destruct Hin as [Hin|[E|[] ] ].
        * rewrite HD. rewrite <- (app_nil_r As) at 1. apply decode_extend. auto.
        * injection E as <- <-. auto.
      + exists C2, ((B, new) :: new2). rewrite He2, <- app_assoc. split; auto. split; auto. split; [simpl; congruence|].
        intros B' ts. replace (md ++ (B, new) :: new2) with ((md ++ [(B, new)]) ++ new2) by (rewrite <- app_assoc; auto). auto.
  Qed.

  (** The invariant: the data of every string of the Operator are the commutators with all explored strings. *)
  Definition std_list (l : list OS) : Prop := forall s, In s l -> string_ok ty s /\ std s.
  Definition cache_ok (Hs : list OS) (st : cache) : Prop :=
    basis_ok (x_basis st) /\ std_list (b_strings (x_basis st)) /\ canon_ok (x_ext st) /\
    forall s, In s Hs -> decode (b_strings (x_ext st)) (b_strings (x_basis st)) (old_data (x_data st) s) (comms s (b_strings (x_basis st))).

  Lemma cache_ok_empty Hs : cache_ok Hs cache_empty.
  Proof.
    split; [apply basis_ok_empty|]. split; [intros s []|]. split; [split; [apply basis_ok_empty | intros c []]|].
    intros s _. constructor.
  Qed.

  Lemma index_std b s i : basis_ok b -> std s -> (forall t, In t (b_strings b) -> std t) ->
    (basis_index b s = Ok i <-> nth_error (b_strings b) i = Some s).
  Proof.
    intros Hb Hs Hall. rewrite (basis_ok_index b s i Hb). split.
    - intros (t & Ht & K). rewrite Ht. f_equal. apply std_key; auto. apply Hall. eapply nth_error_In; eauto.
    - intros H. exists s. split; auto. apply same_key_refl.
  Qed.
  Lemma mem_std b s : basis_ok b -> std s -> (forall t, In t (b_strings b) -> std t) -> (basis_mem b s = true <-> In s (b_strings b)).
  Proof.
    intros Hb Hs Hall. rewrite (basis_ok_mem b s Hb). split.
    - intros (t & Ht & K). replace s with t; auto. apply std_key; auto.
    - intros H. exists s. split; auto. apply same_key_refl.
  Qed.
End SC.
