(** Properties C28-C36, C38: helper functions of tools.py. *)
From Coq Require Import String Ascii List ZArith Bool Arith Lia Permutation Sorted QArith Qcanon.
From Verif Require Import GC Exn S_Alg S_Tools M_Tools L_Cliques L_PropTools L_SortTol.
Import ListNotations.
Local Open Scope nat_scope.
Local Open Scope list_scope.

(** C28: both methods return the ascending rearrangement and the inversion parity. *)
Theorem C28_sort_sign : forall v : list Z, exists w,
  sort_sign v = (w, inv_sign v) /\ sort_sign_merge v = Ok (w, inv_sign v) /\
  Permutation w v /\ StronglySorted Z.le w.
Proof. exact sort_sign_proof. Qed.
Print Assumptions C28_sort_sign.
(** C77: on any numbers, entries closer than [tol] are not exchanged; the result is the rearrangement by
    a permutation whose sign is returned, every step down is at most [tol], and it is ascending if
    no two different entries are within [tol]. *)
Theorem C77_tolerance : forall tol v, (0 <= tol)%Qc -> exists p, is_perm (length v) p /\
  let w := map (fun i => nth i v 0%Qc) p in
  sort_sign_q tol v = (w, inv_sign (map Z.of_nat p)) /\
  (forall i x y, nth_error w i = Some x -> nth_error w (S i) = Some y -> (x <= y + tol)%Qc) /\
  (forall a b i j, a < b -> nth_error p a = Some i -> nth_error p b = Some j -> j < i -> (nth i v 0 + tol < nth j v 0)%Qc) /\
  ((forall x y, In x v -> In y v -> (x <= y + tol -> x <= y)%Qc) -> StronglySorted Qcle w).
Proof. exact sort_tol_proof. Qed.
Print Assumptions C77_tolerance.
(** Otherwise the result need not be ascending: a descending chain of steps of [tol] is left as it
    is although its ends are further than [tol] apart. *)
Theorem C77_refuted : forall tol, (0 < tol)%Qc ->
  sort_sign_q tol [tol + tol; tol; 0]%Qc = ([tol + tol; tol; 0]%Qc, 1%Z) /\ (0 + tol < tol + tol)%Qc.
Proof. exact sort_tol_unsorted. Qed.
Print Assumptions C77_refuted.
Example C77_example :
  sort_sign_q (Q2Qc (1 # 100)) [1; Q2Qc (-3 # 10); Q2Qc (141 # 1)]%Qc = ([Q2Qc (-3 # 10); 1; Q2Qc (141 # 1)]%Qc, (-1)%Z).
Proof. vm_compute. reflexivity. Qed.
Example C28_example : sort_sign [3; 1; 3; 2]%Z = ([1; 2; 3; 3]%Z, (-1)%Z) /\ inv_sign [3; 1; 3; 2]%Z = (-1)%Z.
Proof. split; reflexivity. Qed.

(** C29: the sign computed from the cycles is the inversion parity and is multiplicative. *)
Theorem C29_sign : forall n p q, is_perm n p -> is_perm n q ->
  sign p = Ok (inv_sign (map Z.of_nat p)) /\
  sign p = Ok (snd (sort_sign (map Z.of_nat p))) /\
  exists c sp sq, compose_permutations p q = Ok c /\ sign p = Ok sp /\ sign q = Ok sq /\ sign c = Ok (sp * sq)%Z.
Proof. exact sign_proof. Qed.
Print Assumptions C29_sign.
Example C29_example : is_perm 4 [2; 0; 1; 3] /\ is_perm 4 [1; 0; 2; 3] /\
  sign [2; 0; 1; 3] = Ok 1%Z /\ sign [1; 0; 2; 3] = Ok (-1)%Z.
Proof.
  unfold is_perm. repeat split; simpl.
  - apply NoDup_Permutation; [repeat constructor; simpl; intuition lia | apply (seq_NoDup 4 0) | intros x; simpl; intuition lia].
  - apply perm_swap.
Qed.

(** C30: compare is a total order: by length, then lexicographic. *)
Theorem C30_compare : forall a b c : list Z,
  compare b a = (- compare a b)%Z /\
  (compare a b <= 0 -> compare b c <= 0 -> compare a c <= 0)%Z /\
  (compare a b = 0%Z <-> a = b) /\
  (compare a b = (-1)%Z <->
     length a < length b \/
     (length a = length b /\ exists p x y a' b', a = p ++ x :: a' /\ b = p ++ y :: b' /\ (x < y)%Z)) /\
  (compare a b = (-1)%Z \/ compare a b = 0%Z \/ compare a b = 1%Z).
Proof. exact compare_proof. Qed.
Print Assumptions C30_compare.
Example C30_example : compare [1; 2; 5]%Z [1; 3; 0]%Z = (-1)%Z /\ compare [9]%Z [1; 1]%Z = (-1)%Z.
Proof. split; reflexivity. Qed.

(** C31: every maximal clique exactly once, whatever the iteration order of Python's sets. *)
Theorem C31_maximal_cliques : forall (adj : list (list nat)) pick order ordering,
  let n := length adj in
  let E := fun u v => In v (nth u adj []) in
  graph n E -> adj <> [] ->
  (forall R P X, P ++ X <> [] -> In (pick R P X) (P ++ X)) ->
  (forall R P X, Permutation (order R P X) P) ->
  Permutation ordering (seq 0 n) ->
  exists cs, maximal_cliques adj pick order ordering = Ok cs /\
    (forall c, In c cs -> maximal_clique n E c) /\
    (forall K, maximal_clique n E K -> exists c, In c cs /\ same_set c K) /\
    all_differ cs.
Proof. exact maximal_cliques_proof. Qed.
Print Assumptions C31_maximal_cliques.
(** A triangle with a tail: two maximal cliques. *)
Definition ex_adj : list (list nat) := [[1; 2]; [0; 2]; [0; 1; 3]; [2]].
Example C31_example : graph 4 (fun u v => In v (nth u ex_adj [])) /\
  maximal_cliques ex_adj (fun _ P X => hd 0 (P ++ X)) (fun _ P _ => P) [3; 2; 1; 0] = Ok [[3; 2]; [2; 0; 1]].
Proof.
  split; [|reflexivity]. unfold graph, ex_adj. split; [|split].
  - intros u v. destruct u as [|[|[|[|[|u]]]]]; simpl; intuition lia.
  - intros u v. destruct u as [|[|[|[|[|u]]]]]; simpl; intros H; repeat destruct H as [<-|H]; simpl; auto; tauto.
  - intros v. destruct v as [|[|[|[|[|v]]]]]; simpl; intuition lia.
Qed.

(** C32: a partition into classes of reachability, for both search modes. *)
Theorem C32_connected_components : forall mode (adj : list (list nat)),
  (forall u v, In v (nth u adj []) -> u < length adj /\ v < length adj) ->
  (forall u v, In v (nth u adj []) -> In u (nth v adj [])) ->
  exists cs, connected_components mode adj = Ok cs /\
    Permutation (concat cs) (seq 0 (length adj)) /\ ~ In [] cs /\
    forall u v, u < length adj -> v < length adj ->
      ((exists c, In c cs /\ In u c /\ In v c) <-> connected (fun x y => In y (nth x adj [])) u v).
Proof. exact components_proof. Qed.
Print Assumptions C32_connected_components.
Example C32_example : connected_components DFS [[1]; [0]; []; [4]; [3; 4]] = Ok [[0; 1]; [2]; [3; 4]].
Proof. reflexivity. Qed.

(** C33: first representatives of the classes, in order. *)
Theorem C33_remove_duplicates : forall (T : Type) (equiv : T -> T -> bool),
  (forall x, equiv x x = true) -> (forall x y, equiv x y = equiv y x) ->
  (forall x y z, equiv x y = true -> equiv y z = true -> equiv x z = true) ->
  remove_duplicates equiv [] = [] /\
  (forall l x, remove_duplicates equiv (l ++ [x])
     = remove_duplicates equiv l ++ (if existsb (equiv x) l then [] else [x])) /\
  (forall l, (forall x, In x (remove_duplicates equiv l) -> In x l) /\
     (forall x, In x l -> exists y, In y (remove_duplicates equiv l) /\ equiv x y = true) /\
     ForallOrdPairs (fun x y => equiv x y = false) (remove_duplicates equiv l)).
Proof. exact remove_dup_proof. Qed.
Print Assumptions C33_remove_duplicates.
Example C33_example : remove_duplicates (fun a b => Nat.eqb (a mod 3) (b mod 3)) [4; 1; 2; 5; 3] = [4; 2; 3].
Proof. reflexivity. Qed.

(** C34: false in general: a parenthesised name is destroyed. *)
Theorem C34_swap_refuted :
  (exists s a b, swap (swap s a b) a b <> s) /\
  swap "(Dn)" "Up" "Dn" = "Dn"%string.
Proof. split; [|reflexivity]. exists "(Dn)"%string, "Up"%string, "Dn"%string. vm_compute. discriminate. Qed.
Print Assumptions C34_swap_refuted.
(** C34: names that cannot be confused with each other, the other text or parentheses are
    exchanged and a second swap restores the text. *)
Theorem C34_swap_partial : forall ha a hb b ts,
  ~ char_in ha a -> ~ char_in ha (String hb b) -> ~ char_in hb b -> ~ char_in hb (String ha a) ->
  (forall c, c = "("%char \/ c = ")"%char -> ~ char_in c (String ha a) /\ ~ char_in c (String hb b)) ->
  (forall c, In (TC c) ts -> c <> ha /\ c <> hb /\ c <> "("%char) ->
  let A := String ha a in let B := String hb b in
  swap (render A B ts) A B = render B A ts /\ swap (swap (render A B ts) A B) A B = render A B ts.
Proof. exact swap_proof. Qed.
Print Assumptions C34_swap_partial.
Example C34_example :
  render "Up" "Dn" [TC "s"; TC " "; TA; TC " "; TB; TA] = "s Up DnUp"%string /\
  swap "s Up DnUp" "Up" "Dn" = "s Dn UpDn"%string.
Proof. split; reflexivity. Qed.

(** C35: replace computes the simultaneous substitution, which is unique. *)
Theorem C35_replace : forall (d : list (string * string)) (s : string),
  d <> [] -> (forall k v, In (k, v) d -> k <> ""%string) -> NoDup (map fst d) ->
  exists r, replace s d = Ok r /\ forall r', substituted d s r' <-> r' = r.
Proof. exact replace_full. Qed.
Print Assumptions C35_replace.
Example C35_example :
  replace "ABCAA" [("A", "B"); ("AA", "x"); ("B", "A")]%string = Ok "BACx"%string.
Proof. reflexivity. Qed.

(** C36: composition of permutations. *)
Theorem C36_compose : forall n p q r, is_perm n p -> is_perm n q -> is_perm n r ->
  exists pq qr, compose_permutations p q = Ok pq /\ compose_permutations q r = Ok qr /\
    is_perm n pq /\ (forall i, i < n -> nth i pq 0 = nth (nth i q 0) p 0) /\
    compose_permutations pq r = compose_permutations p qr /\
    compose_permutations p (seq 0 n) = Ok p /\ compose_permutations (seq 0 n) p = Ok p.
Proof. exact compose_proof. Qed.
Print Assumptions C36_compose.
Example C36_example : compose_permutations [2; 0; 1] [1; 0; 2] = Ok [0; 2; 1].
Proof. reflexivity. Qed.

(** C38: argsort without comparison function: a stable sorting permutation. *)
Theorem C38_argsort_partial : forall (T : Type) (ltb : T -> T -> bool) (d : T) (l : list T),
  (forall x y, ltb x y = true -> ltb y x = false) ->
  (forall x y z, ltb y x = false -> ltb z y = false -> ltb z x = false) ->
  let p := argsort ltb d l in
  is_perm (length l) p /\
  StronglySorted (fun x y => ltb y x = false) (map (fun i => nth i l d) p) /\
  StronglySorted (fun i j => ltb (nth i l d) (nth j l d) = false -> i < j) p.
Proof. exact argsort_proof. Qed.
Print Assumptions C38_argsort_partial.
Example C38_example : argsort Z.ltb 0%Z [5; 2; 9; 2]%Z = [1; 3; 0; 2].
Proof. reflexivity. Qed.
(** C38: with a comparison function the comparison is applied to positions: the result never
    depends on the list's entries, so it does not sort. *)
Theorem C38_argsort_cmp_refuted :
  (forall (T : Type) (comp : Z -> Z -> Z) (l m : list T), length l = length m ->
     argsort_cmp comp l = argsort_cmp comp m) /\
  (exists (comp : Z -> Z -> Z) (l : list Z),
     (forall a b, comp a b = (a - b)%Z) /\
     ~ StronglySorted Z.le (map (fun i => nth i l 0%Z) (argsort_cmp comp l))).
Proof. exact argsort_cmp_proof. Qed.
Print Assumptions C38_argsort_cmp_refuted.
