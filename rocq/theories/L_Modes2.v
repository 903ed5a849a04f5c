(** Proofs about normal modes: matrices and their eigenvectors. *)
From Coq Require Import List ZArith Bool Arith Lia Permutation Sorted Setoid Morphisms Reals QArith Qreals Qcanon Lra.
From Coquelicot Require Import Complex.
From Verif Require Import GC Exn S_Alg S_RScal S_CScal M_LinAlg M_Quad M_Core M_Modes S_LinAlg S_Core S_Greedy S_Sparsify S_Quad S_Modes
  L_Alg L_CScal L_LinAlg L_Inter L_Herm L_PartIso L_Dim L_Generate2 L_Fidelity L_Sparsify L_Quad L_Diagonalize L_Modes.
Import M_LinAlg ListNotations.
Local Open Scope nat_scope.

Lemma below_length m : length (below m) = m.
Proof. unfold below. rewrite map_length, seq_length. auto. Qed.
Lemma at_list m v : length v = m -> map (at_ v) (below m) = v.
Proof.
  intros <-. unfold below. rewrite map_map. rewrite <- (map_nth_seq v) at 2. apply map_ext. intros j. unfold at_. rewrite Nat2Z.id. auto.
Qed.
Lemma at_map m (f : Z -> C) j : In j (below m) -> at_ (map f (below m)) j = f j.
Proof.
  intros H. apply below_in in H. unfold at_, below. rewrite map_map. rewrite (nth_indep _ (RtoC 0) (f (Z.of_nat 0))) by (rewrite map_length, seq_length; lia).
  rewrite (map_nth (fun x => f (Z.of_nat x))), seq_nth by lia. f_equal. lia.
Qed.
Lemma at_ext m v w : length v = m -> length w = m -> (forall j, In j (below m) -> at_ v j = at_ w j) -> v = w.
Proof. intros Lv Lw H. rewrite <- (at_list m v Lv), <- (at_list m w Lw). apply map_ext_in. auto. Qed.
Lemma zip_map {T} (f : C -> C -> C) (a b : T -> C) l : zip_with f (map a l) (map b l) = map (fun t => f (a t) (b t)) l.
Proof. induction l as [|t l IH]; cbn; auto. rewrite IH. auto. Qed.
Lemma inner_at m v w : length v = m -> length w = m -> inner v w = csum (map (fun j => Cconj (at_ v j) * at_ w j)%C (below m)).
Proof.
  intros Lv Lw. rewrite <- (at_list m v Lv) at 1. rewrite <- (at_list m w Lw) at 1. generalize (below m) as l. induction l as [|j l IH]; auto.
  cbn [map]. unfold inner, csum in *. cbn [zip_with fold_right map]. rewrite IH. auto.
Qed.
Lemma rows_z_length m F : length (rows_z m F) = m.
Proof. unfold rows_z. rewrite map_length. apply below_length. Qed.
Lemma z_array_rows M : z_array M = rows_z (z_dim M) (zentry M).
Proof. unfold z_array, rows_z, below. rewrite map_map. apply map_ext. intros i. rewrite map_map. auto. Qed.
Lemma rows_z_vec m F v : length v = m -> rows_vec (rows_z m F) v = map (fun i => csum (map (fun j => to_C (F i j) * at_ v j)%C (below m))) (below m).
Proof.
  intros Lv. unfold rows_vec, rows_z. rewrite map_map. apply map_ext. intros i. f_equal. rewrite <- (at_list m v Lv) at 1. apply zip_map.
Qed.
Lemma rows_z_at m F v i : length v = m -> In i (below m) -> at_ (rows_vec (rows_z m F) v) i = csum (map (fun j => to_C (F i j) * at_ v j)%C (below m)).
Proof. intros Lv Hi. rewrite rows_z_vec by auto. apply (at_map m (fun i => csum (map (fun j => to_C (F i j) * at_ v j)%C (below m)))). auto. Qed.
Lemma at_scale c v j : at_ (map (Cmult c) v) j = (c * at_ v j)%C.
Proof. unfold at_. replace (RtoC 0) with (c * RtoC 0)%C at 1 by ring. apply map_nth. Qed.
Lemma eigen_at m F l v i : length v = m -> rows_vec (rows_z m F) v = map (Cmult (RtoC l)) v -> In i (below m) ->
  csum (map (fun j => to_C (F i j) * at_ v j)%C (below m)) = (RtoC l * at_ v i)%C.
Proof. intros Lv E Hi. rewrite <- rows_z_at by auto. unfold vec in *. rewrite E. apply at_scale. Qed.
Lemma at_eigen m F l v : length v = m -> (forall i, In i (below m) -> csum (map (fun j => to_C (F i j) * at_ v j)%C (below m)) = (RtoC l * at_ v i)%C) ->
  rows_vec (rows_z m F) v = map (Cmult (RtoC l)) v.
Proof.
  intros Lv E. apply (at_ext m); [rewrite rows_vec_length; apply rows_z_length | rewrite map_length; auto|]. intros j Hj. rewrite at_scale.
  transitivity (csum (map (fun k => to_C (F j k) * at_ v k)%C (below m))); [exact (rows_z_at m F v j Lv Hj) | apply E; auto].
Qed.
Lemma to_C_conj z : to_C (gconj z) = Cconj (to_C z).
Proof.
  unfold to_C, Cconj, gconj. destruct z as [a b]. cbn [re im fst snd]. f_equal. change (this (- b)%Qc) with (Qred (- this b)). rewrite (Qeq_eqR _ _ (Qred_correct _)). apply Q2R_opp.
Qed.
Lemma to_C_opp z : to_C (gopp z) = (- to_C z)%C.
Proof.
  unfold to_C, gopp. destruct z as [a b]. cbn [re im]. unfold Copp. cbn [fst snd].
  change (this (- b)%Qc) with (Qred (- this b)). change (this (- a)%Qc) with (Qred (- this a)). rewrite !(Qeq_eqR _ _ (Qred_correct _)), !Q2R_opp. auto.
Qed.
Lemma conj_csum {T} (f : T -> C) l : Cconj (csum (map f l)) = csum (map (fun t => Cconj (f t)) l).
Proof. induction l as [|t l IH]; [apply Cconj_R|]. cbn [map]. unfold csum in *. cbn [fold_right]. rewrite <- IH. apply C_ext; cbn; ring. Qed.
Lemma csum_swap {T U} (f : T -> U -> C) l m : csum (map (fun x => csum (map (f x) m)) l) = csum (map (fun y => csum (map (fun x => f x y) l)) m).
Proof.
  induction l as [|x l IH]; cbn [map].
  - change (RtoC 0 = csum (map (fun _ : U => RtoC 0) m)). induction m as [|y m IHm]; auto. cbn [map]. unfold csum in *. cbn [fold_right]. rewrite <- IHm. ring.
  - change (csum (csum (map (f x) m) :: map (fun x0 => csum (map (f x0) m)) l)) with (csum (map (f x) m) + csum (map (fun x0 => csum (map (f x0) m)) l))%C. rewrite IH, csum_add.
    apply csum_ext. intros y _. reflexivity.
Qed.
Lemma Cconj_mul a b : Cconj (a * b)%C = (Cconj a * Cconj b)%C.
Proof. apply C_ext; cbn; ring. Qed.
Lemma Cconj_conj a : Cconj (Cconj a) = a.
Proof. apply C_ext; cbn; ring. Qed.
Lemma rows_z_hermitian m F : S_Quad.hermitian F -> L_Herm.hermitian m (rows_z m F).
Proof.
  intros H. split; [apply rows_z_length|]. intros x y Lx Ly.
  assert (E1 : inner y (rows_vec (rows_z m F) x) = csum (map (fun i => csum (map (fun j => Cconj (at_ y i) * (to_C (F i j) * at_ x j))%C (below m))) (below m))).
  { rewrite (inner_at m) by (auto; rewrite rows_vec_length; apply rows_z_length). apply csum_ext. intros i Hi. rewrite rows_z_at by auto. apply csum_mul. }
  assert (E2 : inner (rows_vec (rows_z m F) y) x = csum (map (fun j => csum (map (fun i => Cconj (at_ y i) * (to_C (F i j) * at_ x j))%C (below m))) (below m))).
  { rewrite (inner_at m) by (auto; rewrite rows_vec_length; apply rows_z_length). apply csum_ext. intros j Hj. rewrite rows_z_at, conj_csum, Cmult_comm, csum_mul by auto.
    apply csum_ext. intros i _. rewrite Cconj_mul, (H i j), to_C_conj, Cconj_conj. ring. }
  rewrite E1, E2. apply csum_swap.
Qed.

(** The matrix is Σ_p e_p v_p v_p^*. *)
Definition unit_z (m : nat) (k : Z) : list C := map (fun j => if Z.eqb j k then RtoC 1 else RtoC 0) (below m).
Lemma csum_pick (f : Z -> C) k l : NoDup l -> In k l -> csum (map (fun j => f j * (if Z.eqb j k then RtoC 1 else RtoC 0))%C l) = f k.
Proof.
  induction l as [|a l IH]; intros ND Hk; [destruct Hk|]. inversion_clear ND as [|? ? Na ND']. cbn [map]. unfold csum in *. cbn [fold_right]. destruct Hk as [->|Hk].
  - rewrite Z.eqb_refl. assert (Z0 : fold_right Cplus (RtoC 0) (map (fun j => f j * (if Z.eqb j k then RtoC 1 else RtoC 0))%C l) = RtoC 0).
    { clear IH ND'. induction l as [|b l IHl]; auto. cbn [map fold_right]. rewrite IHl by (intros H; apply Na; right; auto). destruct (Z.eqb_spec b k) as [->|]; [destruct Na; left; auto | ring]. }
    rewrite Z0. ring.
  - rewrite IH by auto. destruct (Z.eqb_spec a k) as [->|]; [contradiction | ring].
Qed.
Lemma spectral m F ps : full_solution (rows_z m F) ps -> orthonormal (map snd ps) -> forall j k, In j (below m) -> In k (below m) ->
  to_C (F j k) = csum (map (fun p => RtoC (fst p) * (at_ (snd p) j * Cconj (at_ (snd p) k)))%C ps).
Proof.
  intros [He Hf] Ho j k Hj Hk. rewrite rows_z_length in Hf.
  assert (Lu : length (unit_z m k) = m) by (unfold unit_z; rewrite map_length; apply below_length).
  pose proof (full_vectors m _ ps (rows_z_length m F) He) as V.
  destruct (full_expand m _ ps (rows_z_length m F) He Hf _ Lu) as (x & Lx & E1 & E2).
  assert (Ex : x = map (fun p => Cconj (at_ (snd p) k)) ps).
  { refine (eq_trans (eq_sym (adj_isometry m (map snd ps) V Ho x _)) (eq_trans (f_equal (adj (map snd ps)) (eq_sym E1)) _)); [rewrite map_length; auto|]. unfold adj. rewrite map_map. apply map_ext_in. intros p Hp.
    rewrite (inner_at m) by (auto; apply V, in_map; auto). rewrite (csum_ext _ _ (fun a => Cconj (at_ (snd p) a) * (if Z.eqb a k then RtoC 1 else RtoC 0))%C).
    - apply csum_pick; auto. apply below_nodup.
    - intros a Ha. f_equal. apply (at_map m (fun j => if Z.eqb j k then RtoC 1 else RtoC 0)). auto. }
  transitivity (at_ (rows_vec (rows_z m F) (unit_z m k)) j).
  - rewrite rows_z_at by auto. rewrite (csum_ext _ _ (fun a => to_C (F j a) * (if Z.eqb a k then RtoC 1 else RtoC 0))%C); [symmetry; apply csum_pick; auto; apply below_nodup|].
    intros a Ha. f_equal. apply (at_map m (fun j => if Z.eqb j k then RtoC 1 else RtoC 0)). auto.
  - refine (eq_trans (f_equal (fun w => at_ w j) E2) _). unfold at_ at 1. rewrite mat_vec_nth by auto. rewrite map_map, Ex. clear. induction ps as [|p ps IH]; auto. cbn [map combine]. unfold csum in *. cbn [zip_with fold_right map fst snd].
    apply f_equal2; [unfold at_; exact (eq_trans (Cmult_assoc _ _ _) (eq_trans (f_equal (fun z => Cmult z _) (Cmult_comm _ _)) (eq_sym (Cmult_assoc _ _ _)))) | exact IH].
Qed.
(** m orthonormal vectors are a basis. *)
Lemma orthonormal_full m V : vectors m V -> orthonormal V -> length V = m -> forall w, length w = m -> span m V w.
Proof.
  intros HV Ho Lm w Lw. set (r := vsub w (mat_vec m V (adj V w))).
  assert (LM : length (mat_vec m V (adj V w)) = m) by (apply mat_vec_length; auto).
  assert (Lr : length r = m) by (apply vsub_length; auto).
  assert (Or : forall v, In v V -> inner r v = RtoC 0).
  { intros v Hv. apply In_nth_error in Hv. destruct Hv as (i & Hi).
    assert (E : adj V r = vzero (length V)).
    { unfold r. rewrite vsub_as_add. rewrite (adj_add m) by (auto; rewrite vscale_length; auto). rewrite adj_scale, adj_isometry by (auto; apply adj_length). rewrite <- vsub_as_add, vsub_self, adj_length. auto. }
    apply (f_equal (fun l => nth_error l i)) in E. unfold adj in E. rewrite nth_error_map, Hi in E. cbn in E. unfold vzero in E. rewrite nth_error_repeat in E by (apply nth_error_Some; congruence). injection E as E.
    rewrite inner_sym. destruct (inner v r) as [a b]. injection E as -> ->. apply C_ext; cbn; lra. }
  assert (Dec : r = vzero m \/ r <> vzero m) by (unfold vec in *; destruct (list_eq_dec Ceq_dec r (vzero m)); auto).
  destruct Dec as [E|N].
  - assert (Ew : w = mat_vec m V (adj V w)) by (apply vsub_zero; [congruence | rewrite Lw; exact E]). rewrite Ew. apply mat_vec_span; auto.
  - exfalso. assert (K : length (V ++ [r]) <= length (units m)).
    { apply (span_dimension m); [intros u Hu; apply in_app_or in Hu; destruct Hu as [Hu|[<-|[]]]; auto | apply units_vectors | |].
      - intros l1 v l2 E Hs. assert (L2 : l2 = [] \/ exists l3 y, l2 = l3 ++ [y]) by (destruct l2 as [|b l2]; [auto | right; destruct (@exists_last _ (b :: l2)) as (l3 & y & E3); [discriminate | exists l3, y; exact E3]]). destruct L2 as [->|(l3 & y & ->)].
        + apply app_inj_tail in E. destruct E as [-> <-]. apply N. rewrite <- Lr. apply sqsum_zero. apply RtoC_inj. rewrite <- inner_self. apply (span_orth m l1 r); auto.
        + change (l1 ++ v :: l3 ++ [y]) with (l1 ++ (v :: l3) ++ [y]) in E. rewrite app_assoc in E. apply app_inj_tail in E. destruct E as [E _]. apply (orthonormal_independent m V HV Ho l1 v l3 E Hs).
      - intros u Hu. assert (Lu : length u = m) by (apply in_app_or in Hu; destruct Hu as [Hu|[<-|[]]]; auto).
        rewrite <- (mat_vec_units m u) by auto. apply mat_vec_span, units_vectors. }
    rewrite app_length, units_length, Lm in K. cbn in K. lia.
Qed.
