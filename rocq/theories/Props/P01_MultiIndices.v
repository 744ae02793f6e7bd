(** Properties C01-C07: multi-index sets (tensap/tools/multi_indices.py).
    Each statement is closed by a lemma of Proofs/; the vocabulary is in Spec/MultiIndicesSpec.v. *)
From Coq Require Import List Arith ZArith Lia Bool Permutation Sorted.
From Verif.Base Require Import ListAux Index.
From Verif.Model Require Import Sorting MultiIndices.
From Verif.Spec Require Import MultiIndicesSpec.
From Verif.Proofs Require SortingP MultiIndicesP MIGrowP MIMoreP.
Import ListNotations.

(** ** C01 *)
(** bounded_by(m, m0) succeeds exactly when the box is nonempty in every direction; it then returns
    every multi-index of the box once, the row number k having j-th coordinate
    m0 + (k div (n_0...n_{j-1})) mod n_j : first coordinate fastest. *)
Theorem c01_bounded_by_exact : forall (m : list Z) (m0 : Z),
  Forall (fun x => (m0 <= x)%Z) m ->
  exists B, bounded_by m m0 = Some B /\ is_set B (length m) (in_box m0 m) /\
    length (mi_rows B) = prodn (map (fun x => Z.to_nat (x - m0 + 1)) m) /\
    forall k j, k < length (mi_rows B) -> j < length m ->
      nth j (nth k (mi_rows B) []) 0%Z =
      (m0 + Z.of_nat ((k / prodn (map (fun x => Z.to_nat (x - m0 + 1)) (firstn j m)))
                      mod Z.to_nat (nth j m 0 - m0 + 1)))%Z.
Proof. exact MIMoreP.bounded_by_full. Qed.
Print Assumptions c01_bounded_by_exact.
Example c01_ex : Forall (fun x => (1 <= x)%Z) [3; 2]%Z /\
  bounded_by [3; 2]%Z 1 = Some (MI 2 [[1;1];[2;1];[3;1];[1;2];[2;2];[3;2]]%Z).
Proof. split; [repeat constructor; lia|reflexivity]. Qed.

Theorem c01_bounded_by_error : forall (m : list Z) (m0 : Z),
  (exists B, bounded_by m m0 = Some B) <-> Forall (fun x => (m0 <= x)%Z) m.
Proof. exact MultiIndicesP.bounded_by_some. Qed.
Print Assumptions c01_bounded_by_error.
Example c01_error_ex : bounded_by [3; -1]%Z 0 = None. Proof. reflexivity. Qed.

(** product_set of any list of 1-D arrays / multi-index sets *)
Theorem c01_product_set_exact : forall L : list factor,
  (Forall (fun f => rows_of f <> []) L ->
   exists B, product_set L None = Some B /\ mi_dim B = sumn (map cols_of L) /\
    length (mi_rows B) = prodn (map (fun f => length (rows_of f)) L) /\
    (forall r, In r (mi_rows B) <-> exists rs, Forall2 (fun x f => In x (rows_of f)) rs L /\ r = concat rs) /\
    (Forall (fun f => NoDup (rows_of f) /\ Forall (fun r => length r = cols_of f) (rows_of f)) L -> NoDup (mi_rows B)) /\
    (forall k, k < length (mi_rows B) ->
       nth k (mi_rows B) [] =
       concat (map (fun j => nth ((k / prodn (map (fun f => length (rows_of f)) (firstn j L)))
                                  mod length (rows_of (nth j L (Vec [])))) (rows_of (nth j L (Vec []))) [])
                   (seq 0 (length L))))) /\
  ((exists f, In f L /\ rows_of f = []) -> product_set L None = None).
Proof. exact MIMoreP.s_product_set. Qed.
Print Assumptions c01_product_set_exact.
(** product_set([l], d) for d > 1 is the d-fold product of l *)
Theorem c01_product_set_power : forall l d, 1 < d -> product_set [l] (Some d) = product_set (repeat l d) None.
Proof. exact MIMoreP.s_product_set_power. Qed.
Print Assumptions c01_product_set_power.
Example c01_product_ex :
  product_set [Vec [5;7]%Z; Mat (MI 2 [[0;1];[2;2]]%Z)] None = Some (MI 3 [[5;0;1];[7;0;1];[5;2;2];[7;2;2]]%Z).
Proof. reflexivity. Qed.

(** ** C02 *)
Theorem c02_sub2ind_total_on_range : forall I shape,
  (exists l, sub2ind I shape = Some l) <-> Forall (in_shape shape) (mi_rows I).
Proof. exact MIMoreP.sub2ind_some. Qed.
Print Assumptions c02_sub2ind_total_on_range.

Theorem c02_ind2sub_total_on_range : forall shape l,
  (exists I, ind2sub shape l = Some I) <-> Forall (fun k => k < prodn shape) l.
Proof. exact MIMoreP.ind2sub_some. Qed.
Print Assumptions c02_ind2sub_total_on_range.

Theorem c02_ind2sub_inverts_sub2ind : forall I shape l,
  mi_dim I = length shape -> sub2ind I shape = Some l -> ind2sub shape l = Some I.
Proof. exact MIMoreP.ind2sub_sub2ind. Qed.
Print Assumptions c02_ind2sub_inverts_sub2ind.

Theorem c02_sub2ind_inverts_ind2sub : forall shape l I,
  ind2sub shape l = Some I -> mi_dim I = length shape /\ sub2ind I shape = Some l.
Proof. exact MIMoreP.sub2ind_ind2sub. Qed.
Print Assumptions c02_sub2ind_inverts_ind2sub.

Theorem c02_enumeration_is_bounded_by : forall shape, Forall (fun n => 0 < n) shape ->
  bounded_by (map (fun n => Z.of_nat n - 1)%Z shape) 0 = ind2sub shape (seq 0 (prodn shape)).
Proof. exact MIMoreP.bounded_by_is_ind2sub. Qed.
Print Assumptions c02_enumeration_is_bounded_by.

Example c02_ex : sub2ind (MI 2 [[1;2];[0;1]]%Z) [3;4] = Some [7;3] /\
                 ind2sub [3;4] [7;3] = Some (MI 2 [[1;2];[0;1]]%Z) /\
                 sub2ind (MI 2 [[3;0]]%Z) [3;4] = None.
Proof. repeat split. Qed.

(** ** C03 *)
(** with_bounded_norm(d, 1, m) *)
Theorem c03_bounded_norm_1_exact : forall argsort fuel d m, 0 < d ->
  exists J, with_bounded_norm argsort fuel d (PNat 1) m = Some J /\
  is_set J d (fun r => length r = d /\ nonneg r /\ (sum_entries r <= Z.of_nat m)%Z).
Proof. exact MIMoreP.s_wbn_1. Qed.
Print Assumptions c03_bounded_norm_1_exact.
Example c03_norm1_ex : with_bounded_norm argsort_stable 0 2 (PNat 1) 1 = Some (MI 2 [[0;0];[1;0];[0;1]]%Z).
Proof. reflexivity. Qed.

(** hyperbolic_cross_set(d, p), for every argsort meeting numpy's contract: the while loop terminates
    (p + 2 passes always suffice) and the set is exact *)
Theorem c03_hyperbolic_cross_exact : forall argsort fuel d p, argsort_ok argsort -> 0 < d -> p + 2 <= fuel ->
  exists J, hyperbolic_cross_set argsort fuel d p = Some J /\
  is_set J d (fun r => length r = d /\ nonneg r /\ (prod_succ r <= Z.of_nat p + 1)%Z).
Proof. exact MIMoreP.s_hyper. Qed.
Print Assumptions c03_hyperbolic_cross_exact.
Example c03_hyper_ex : argsort_ok argsort_stable /\
  hyperbolic_cross_set argsort_stable 5 2 3 = Some (MI 2 [[0;0];[1;0];[0;1];[2;0];[0;2];[1;1];[3;0];[0;3]]%Z).
Proof. split; [exact SortingP.argsort_stable_is_ok|reflexivity]. Qed.

(** with_bounded_weighted_norm(d, p, m, w), p = inf or p >= 1: exact, and sorted by norm *)
Theorem c03_weighted_norm_exact : forall argsort d p m w, argsort_ok argsort -> length w = d -> (0 <= m)%Z ->
  Forall (fun x => (0 < x)%Z) w -> match p with PNat O => False | _ => True end ->
  exists J, with_bounded_weighted_norm argsort d p m w = Some J /\
    is_set J d (fun r => length r = d /\ nonneg r /\ norm_le p (weigh w r) m) /\
    StronglySorted (fun r s => norm_ord p (weigh w r) (weigh w s)) (mi_rows J).
Proof. exact MIMoreP.s_wbwn. Qed.
Print Assumptions c03_weighted_norm_exact.
Example c03_weighted_ex :
  with_bounded_weighted_norm argsort_stable 2 (PNat 2) 2 [1;2]%Z = Some (MI 2 [[0;0];[1;0];[2;0];[0;1]]%Z).
Proof. reflexivity. Qed.

(** For p >= 2 the full claim (exactly {i : |i|_p <= m}) is FALSE of the code: the loop's stopping test
    [np.all(np.logical_not(k))] looks at positions and stops when the only admissible margin element
    is at position 0. *)
Theorem c03_bounded_norm_p_refuted :
  exists d m J, 0 < d /\ (forall fuel, 1 <= fuel -> with_bounded_norm argsort_stable fuel d (PNat 2) m = Some J) /\
    ~ is_set J d (fun r => length r = d /\ nonneg r /\ norm_le (PNat 2) r (Z.of_nat m)).
Proof. exact MIMoreP.s_wbn_p_refuted. Qed.
Print Assumptions c03_bounded_norm_p_refuted.

(** what does hold for p >= 2: nothing outside the bound is ever returned, no repetition, 0 is
    returned and the set is downward closed (missing: completeness) *)
Theorem c03_bounded_norm_p_partial : forall argsort fuel d p m J, argsort_ok argsort -> 0 < d -> 2 <= p ->
  with_bounded_norm argsort fuel d (PNat p) m = Some J ->
  mi_dim J = d /\ NoDup (mi_rows J) /\ In (repeat 0%Z d) (mi_rows J) /\ down_closed (mi_rows J) /\
  forall r, In r (mi_rows J) -> length r = d /\ nonneg r /\ norm_le (PNat p) r (Z.of_nat m).
Proof. exact MIMoreP.s_wbn_p_partial. Qed.
Print Assumptions c03_bounded_norm_p_partial.
Example c03_norm_p_ex : exists J, with_bounded_norm argsort_stable 10 2 (PNat 2) 2 = Some J /\ length (mi_rows J) = 6.
Proof. eexists; split; [vm_compute; reflexivity|reflexivity]. Qed.

(** p = inf always raises *)
Theorem c03_bounded_norm_inf_refuted : forall argsort fuel d m, with_bounded_norm argsort fuel d PInf m = None.
Proof. reflexivity. Qed.
Print Assumptions c03_bounded_norm_inf_refuted.

(** low_order_interactions and weighted_hyperbolic_cross_set share the stopping test *)
Theorem c03_low_order_refuted :
  exists J, (forall fuel, 1 <= fuel -> low_order_interactions argsort_stable fuel 2 [3; 0]%Z 1 = Some J) /\
    ~ is_set J 2 (fun r => length r = 2 /\ nonneg r /\ Forall2 Z.le r [3; 0]%Z /\ nb_nonzero r <= 1).
Proof. exact MIMoreP.s_low_refuted. Qed.
Print Assumptions c03_low_order_refuted.

Theorem c03_low_order_partial : forall argsort fuel d p m J, argsort_ok argsort -> 0 < d ->
  length p = d -> nonneg p -> low_order_interactions argsort fuel d p m = Some J ->
  mi_dim J = d /\ NoDup (mi_rows J) /\ In (repeat 0%Z d) (mi_rows J) /\ down_closed (mi_rows J) /\
  forall r, In r (mi_rows J) -> nonneg r /\ Forall2 Z.le r p /\ nb_nonzero r <= m.
Proof. exact MIMoreP.s_low_partial. Qed.
Print Assumptions c03_low_order_partial.
Example c03_low_order_ex :
  low_order_interactions argsort_stable 9 2 [2;2]%Z 1 = Some (MI 2 [[0;0];[1;0];[0;1];[2;0];[0;2]]%Z).
Proof. reflexivity. Qed.

Theorem c03_weighted_hyperbolic_refuted :
  exists J, (forall fuel, 1 <= fuel -> weighted_hyperbolic_cross_set argsort_stable fuel 2 2 [1; 5]%Z = Some J) /\
    ~ is_set J 2 (fun r => length r = 2 /\ nonneg r /\ (prod_succ_w [1; 5]%Z r <= 3)%Z).
Proof. exact MIMoreP.s_whyper_refuted. Qed.
Print Assumptions c03_weighted_hyperbolic_refuted.

Theorem c03_weighted_hyperbolic_partial : forall argsort fuel d p w J, argsort_ok argsort -> 0 < d ->
  Forall (fun x => (0 <= x)%Z) w -> weighted_hyperbolic_cross_set argsort fuel d p w = Some J ->
  mi_dim J = d /\ NoDup (mi_rows J) /\ In (repeat 0%Z d) (mi_rows J) /\ down_closed (mi_rows J) /\
  forall r, In r (mi_rows J) -> length r = d /\ nonneg r /\ (prod_succ_w w r <= Z.of_nat p + 1)%Z.
Proof. exact MIMoreP.s_whyper_partial. Qed.
Print Assumptions c03_weighted_hyperbolic_partial.
Example c03_whyper_ex :
  weighted_hyperbolic_cross_set argsort_stable 9 2 4 [1;1]%Z = Some (MI 2 [[0;0];[1;0];[0;1];[2;0];[0;2];[1;1];[3;0];[0;3];[4;0];[0;4]]%Z).
Proof. reflexivity. Qed.

(** ** C04 *)
Theorem c04_add_is_union : forall I J, mi_rows I <> [] ->
  is_set (add_indices I J) (mi_dim I) (fun r => In r (mi_rows I) \/ In r (mi_rows J)).
Proof. exact MIMoreP.add_set. Qed.
Print Assumptions c04_add_is_union.

Theorem c04_remove_is_difference : forall I J,
  mi_dim (remove_indices I J) = mi_dim I /\
  (NoDup (mi_rows I) -> NoDup (mi_rows (remove_indices I J))) /\
  forall r, In r (mi_rows (remove_indices I J)) <-> In r (mi_rows I) /\ ~ In r (mi_rows J).
Proof. exact MIMoreP.remove_set. Qed.
Print Assumptions c04_remove_is_difference.

(** removing row positions keeps the other rows, in order *)
Theorem c04_remove_positions : forall I ks,
  mi_rows (remove_positions I ks) =
  map snd (filter (fun p => negb (existsb (Nat.eqb (fst p)) ks)) (combine (seq 0 (length (mi_rows I))) (mi_rows I))).
Proof. exact MIMoreP.remove_positions_spec. Qed.
Print Assumptions c04_remove_positions.

(** the intersection; the returned positions locate the rows in both operands *)
Theorem c04_intersect_is_intersection : forall I J K kI kJ,
  intersect_indices I J = (K, kI, kJ) ->
  mi_dim K = mi_dim I /\
  (forall r, In r (mi_rows K) <-> In r (mi_rows I) /\ In r (mi_rows J)) /\
  (NoDup (mi_rows I) -> NoDup (mi_rows J) -> NoDup (mi_rows K)) /\
  length kI = length (mi_rows K) /\ length kJ = length (mi_rows K) /\
  forall n, n < length (mi_rows K) ->
    nth n kI 0 < length (mi_rows I) /\ nth n kJ 0 < length (mi_rows J) /\
    nth (nth n kI 0) (mi_rows I) [] = nth n (mi_rows K) [] /\ nth (nth n kJ 0) (mi_rows J) [] = nth n (mi_rows K) [].
Proof. exact MIMoreP.intersect_set. Qed.
Print Assumptions c04_intersect_is_intersection.
Example c04_ex :
  let A := MI 2 [[0;0];[1;2]]%Z in let B := MI 2 [[1;2];[3;3]]%Z in
  add_indices A B = MI 2 [[0;0];[1;2];[3;3]]%Z /\ remove_indices A B = MI 2 [[0;0]]%Z /\
  intersect_indices A B = (MI 2 [[1;2]]%Z, [1], [0]) /\ mi_rows A <> [] /\ NoDup (mi_rows A).
Proof. cbn. repeat split; try discriminate. repeat constructor; simpl; intuition discriminate. Qed.

(** ** C05 *)
Theorem c05_margin_exact : forall I, mi_wf I -> 0 < mi_dim I -> mi_rows I <> [] ->
  is_set (get_margin I) (mi_dim I)
    (fun r => ~ In r (mi_rows I) /\ exists k s, k < mi_dim I /\ In s (mi_rows I) /\ is_succ k s r).
Proof. exact MultiIndicesP.margin_set. Qed.
Print Assumptions c05_margin_exact.

Theorem c05_reduced_margin_exact : forall I, mi_wf I -> 0 < mi_dim I -> mi_rows I <> [] ->
  is_set (get_reduced_margin I) (mi_dim I)
    (fun r => ~ In r (mi_rows I) /\ (exists k s, k < mi_dim I /\ In s (mi_rows I) /\ is_succ k s r) /\
              forall k s, k < mi_dim I -> is_succ k s r -> nonneg s -> In s (mi_rows I)).
Proof. exact MultiIndicesP.reduced_margin_set. Qed.
Print Assumptions c05_reduced_margin_exact.

Theorem c05_maximal_exact : forall I, mi_wf I ->
  mi_dim (get_maximal_indices I) = mi_dim I /\
  forall r, In r (mi_rows (get_maximal_indices I)) <->
    In r (mi_rows I) /\ forall k s, k < mi_dim I -> is_succ k r s -> ~ In s (mi_rows I).
Proof. exact MultiIndicesP.maximal_set. Qed.
Print Assumptions c05_maximal_exact.

Theorem c05_downward_closed_decided : forall I, Forall nonneg (mi_rows I) ->
  exists b, is_downward_closed I 0 = Some b /\ (b = true <-> down_closed (mi_rows I)).
Proof. exact MultiIndicesP.is_downward_closed_spec. Qed.
Print Assumptions c05_downward_closed_decided.

(** every set obtained from {0} by repeatedly adding any part of the reduced margin is downward
    closed, and is_downward_closed says so *)
Theorem c05_adaptive_enrichment_stays_closed : forall d I, 0 < d -> adaptive d I ->
  mi_dim I = d /\ NoDup (mi_rows I) /\ down_closed (mi_rows I) /\ is_downward_closed I 0 = Some true.
Proof. exact MIMoreP.adaptive_closed. Qed.
Print Assumptions c05_adaptive_enrichment_stays_closed.
Example c05_ex :
  let A := MI 2 [[0;0];[1;0];[0;1]]%Z in
  mi_wf A /\ 0 < mi_dim A /\ Forall nonneg (mi_rows A) /\
  get_margin A = MI 2 [[2;0];[1;1];[0;2]]%Z /\ get_reduced_margin A = MI 2 [[2;0];[1;1];[0;2]]%Z /\
  get_reduced_margin (MI 2 [[0;0];[1;0]]%Z) = MI 2 [[2;0];[0;1]]%Z /\
  get_maximal_indices A = MI 2 [[1;0];[0;1]]%Z /\ is_downward_closed A 0 = Some true /\
  is_downward_closed (MI 2 [[0;0];[1;1]]%Z) 0 = Some false.
Proof. cbn. repeat split; try lia; repeat constructor; lia. Qed.
Example c05_adaptive_ex : adaptive 2 (MI 2 [[0;0];[1;0]]%Z).
Proof.
  change (MI 2 [[0;0];[1;0]]%Z) with (add_indices (zero_mi 2) (MI 2 [[1;0]]%Z)).
  constructor; [constructor|]. intros r [<-|[]]. left; reflexivity.
Qed.

(** the envelope of a sequence: the least decreasing sequence above |u| *)
Theorem c05_envelope : forall I u env, envelope I u = Some env ->
  length env = length u /\
  forall i, i < length u ->
    (exists j, j < length u /\ Forall2 Z.le (nth i (mi_rows I) []) (nth j (mi_rows I) []) /\ nth i env 0%Z = Z.abs (nth j u 0%Z)) /\
    (forall j, j < length u -> Forall2 Z.le (nth i (mi_rows I) []) (nth j (mi_rows I) []) -> (Z.abs (nth j u 0) <= nth i env 0)%Z).
Proof. exact MIMoreP.envelope_spec. Qed.
Print Assumptions c05_envelope.
Example c05_envelope_ex : envelope (MI 1 [[0];[1];[2]]%Z) [1;-3;2]%Z = Some [3;3;2]%Z.
Proof. reflexivity. Qed.

(** ** C06 *)
Theorem c06_sort_ascending : forall argsort I cols, argsort_ok argsort -> NoDup cols ->
  Permutation (mi_rows (mi_sort argsort I (Some cols) false)) (mi_rows I) /\
  StronglySorted (lex_le cols) (mi_rows (mi_sort argsort I (Some cols) false)).
Proof. exact MIMoreP.sort_asc. Qed.
Print Assumptions c06_sort_ascending.
Theorem c06_sort_ascending_default : forall argsort I, argsort_ok argsort ->
  Permutation (mi_rows (mi_sort argsort I None false)) (mi_rows I) /\
  StronglySorted (lex_le (rev (seq 0 (mi_dim I)))) (mi_rows (mi_sort argsort I None false)).
Proof. exact MIMoreP.sort_asc_default. Qed.
Print Assumptions c06_sort_ascending_default.
Theorem c06_sort_descending_is_permutation_partial : forall argsort I cols, argsort_ok argsort ->
  Permutation (mi_rows (mi_sort argsort I cols true)) (mi_rows I).
Proof. exact MIMoreP.sort_desc_perm. Qed.
Print Assumptions c06_sort_descending_is_permutation_partial.
(** mode="descend": flipping the result of a stable argsort reverses ties, so the result is in general
    NOT sorted in decreasing lexicographic order *)
Theorem c06_sort_descending_refuted :
  exists I, mi_wf I /\ ~ StronglySorted (fun r s => lex_le (rev (seq 0 (mi_dim I))) s r)
                         (mi_rows (mi_sort argsort_stable I None true)).
Proof. exact MIMoreP.sort_desc_refuted. Qed.
Print Assumptions c06_sort_descending_refuted.
Theorem c06_sort_by_norm : forall argsort I p, argsort_ok argsort ->
  (Permutation (mi_rows (sort_by_norm argsort I p false)) (mi_rows I) /\
   StronglySorted (norm_ord p) (mi_rows (sort_by_norm argsort I p false))) /\
  (Permutation (mi_rows (sort_by_norm argsort I p true)) (mi_rows I) /\
   StronglySorted (fun r s => norm_ord p s r) (mi_rows (sort_by_norm argsort I p true))).
Proof. exact MIMoreP.s_sort_by_norm. Qed.
Print Assumptions c06_sort_by_norm.
Theorem c06_sort_by_weighted_norm : forall argsort I p w, argsort_ok argsort ->
  (Permutation (mi_rows (sort_by_weighted_norm argsort I p w false)) (mi_rows I) /\
   StronglySorted (fun r s => norm_ord p (weigh w r) (weigh w s)) (mi_rows (sort_by_weighted_norm argsort I p w false))) /\
  (Permutation (mi_rows (sort_by_weighted_norm argsort I p w true)) (mi_rows I) /\
   StronglySorted (fun r s => norm_ord p (weigh w s) (weigh w r)) (mi_rows (sort_by_weighted_norm argsort I p w true))).
Proof. exact MIMoreP.s_sort_by_wnorm. Qed.
Print Assumptions c06_sort_by_weighted_norm.
Example c06_ex : argsort_ok argsort_stable /\ NoDup [1; 0] /\
  mi_sort argsort_stable (MI 2 [[1;0];[0;1];[1;1];[0;0]]%Z) (Some [0;1]) false = MI 2 [[0;0];[0;1];[1;0];[1;1]]%Z.
Proof. split; [exact SortingP.argsort_stable_is_ok|]. split; [repeat constructor; simpl; lia|reflexivity]. Qed.

(** ** C07 *)
Theorem c07_keep_dims_is_projection : forall I dims J, mi_rows I <> [] -> keep_dims I dims = Some J ->
  mi_dim J = length dims /\ NoDup (mi_rows J) /\
  forall r, In r (mi_rows J) <-> exists s, In s (mi_rows I) /\ r = map (fun k => nth k s 0%Z) dims.
Proof. exact MIMoreP.keep_dims_spec. Qed.
Print Assumptions c07_keep_dims_is_projection.
Theorem c07_remove_dims_is_projection : forall I dims, mi_rows I <> [] ->
  let keep := filter (fun k => negb (existsb (Nat.eqb k) dims)) (seq 0 (mi_dim I)) in
  mi_dim (remove_dims I dims) = length keep /\ NoDup (mi_rows (remove_dims I dims)) /\
  forall r, In r (mi_rows (remove_dims I dims)) <-> exists s, In s (mi_rows I) /\ r = map (fun k => nth k s 0%Z) keep.
Proof. exact MIMoreP.remove_dims_spec. Qed.
Print Assumptions c07_remove_dims_is_projection.
Example c07_ex : keep_dims (MI 2 [[0;0];[0;1];[1;1]]%Z) [1] = Some (MI 1 [[0];[1]]%Z) /\
                 remove_dims (MI 2 [[0;0];[0;1];[1;1]]%Z) [1] = MI 1 [[0];[1]]%Z.
Proof. split; reflexivity. Qed.
