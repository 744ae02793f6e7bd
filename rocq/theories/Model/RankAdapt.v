(** Model of the tree-based ranks: TreeBasedTensor.is_admissible_rank (tensap/tensor_algebra/tensors/tree_based_tensor.py:408-473) and the
    selection of ranks of TreeBasedTensorLearning (tensap/approximation/tensor_approximation/tensor_learning/
    tree_based_tensor_learning.py:525-590, 1286-1358). *)
From Coq Require Import List Arith Lia Bool Reals ZArith.
From Verif.Base Require Import ListAux CRing Index RealAux.
From Verif.Model Require Import Sorting Utils Numpy FullTensor DimensionTree TreeBased.
Import ListNotations.

(** numpy: v[idx] = vals, idx without duplicates.  None: ValueError (the broadcasting of one value is not modelled) *)
Definition np_put (v idx vals : list nat) : option (list nat) :=
  if length idx =? length vals then Some (fold_left (fun w p => upd (fst p) (snd p) w) (combine idx vals) v) else None.
(** itertools.combinations(l, k) *)
Fixpoint combs (l : list nat) (k : nat) : list (list nat) :=
  match k, l with
  | 0, _ => [[]]
  | S _, [] => []
  | S k', x :: l' => map (cons x) (combs l' k') ++ combs l' k
  end.
(** a loop that is left at the first element for which the test is True.  None: an exception in the test *)
Fixpoint ofind {A : Type} (f : A -> option bool) (l : list A) : option (option A) :=
  match l with
  | [] => Some None
  | x :: l => match f x with Some true => Some (Some x) | Some false => ofind f l | None => None end
  end.

Section RankAdapt.
  Context {R : Type} {CR : CRing R}.

  (** tree_based_tensor.py:172-184 non_active_nodes, 198-208 non_active_dims *)
  Definition non_active_nodes (X : tbt R) : list nat := filter (fun n => negb (active X n)) (nodes (ttree X)).
  Definition non_active_dims (X : tbt R) : list nat := filter (fun mu => negb (inb mu (active_dims X))) (seq 0 (tb_order X)).
  (** tree_based_tensor.py:408-473 is_admissible_rank(ranks) with nargout = 1.  443: the rank of the root is set to 1; 445-447: the
      inactive nodes; 450-452: the sizes of the inactive dimensions written at the inactive leaves; 453-464: the internal nodes;
      466-470: the leaves *)
  Definition tb_is_admissible (X : tbt R) (ranks : list nat) : option bool :=
    let t := ttree X in
    let v1 := upd (root t - 1) 1 ranks in
    if existsb (fun n => negb (nth (n - 1) v1 0 =? 0)) (non_active_nodes X) then Some false
    else
      let* v2 := np_put v1 (map (fun n => n - 1) (fast_intersect (d2i t) (non_active_nodes X))) (sel 0 (tb_shape X) (non_active_dims X)) in
      let rk n := nth (n - 1) v2 0 in
      let ok n := let ch := children t n in
                  (rk n <=? prodn (map rk ch)) &&
                  forallb (fun c => rk c <=? rk n * prodn (map rk (filter (fun c' => negb (c' =? c)) ch))) (fast_intersect ch (active_nodes X)) in
      Some (forallb ok (fast_intersect (internal_nodes t) (active_nodes X)) &&
            forallb (fun n => rk n <=? nth 0 (shape (core X n)) 0) (fast_intersect (filter (is_leaf t) (nodes t)) (active_nodes X))).

  (** tree_based_tensor_learning.py:1310-1313: the proposed rank, written in place, limited at the leaves and set to zero at the inactive nodes *)
  Definition mra_rank (X : tbt R) (rank : list nat) : list nat :=
    let t := ttree X in
    map (fun n => let k := nth (n - 1) rank 0 in let s := nth 0 (shape (core X n)) 0 in
                  if active X n then if is_leaf t n && (s <? k) then s else k else 0) (nodes t).
  (** f.ranks + delta *)
  Definition add_delta (ranks : list nat) (delta : list Z) : list nat := map (fun p => Z.to_nat (Z.of_nat (fst p) + snd p)) (combine ranks delta).
  (** np.nonzero(delta)[0] *)
  Definition nonzero_z (delta : list Z) : list nat := filter (fun k => negb (nth k delta 0 =? 0)%Z) (seq 0 (length delta)).
  (** tree_based_tensor_learning.py:1286-1332 make_ranks_admissible(f, rank).  [sh i l]: the list l shuffled (1324) at the i-th step *)
  Definition make_ranks (X : tbt R) (sh : nat -> list (list nat) -> list (list nat)) (rank : list nat) : option (list nat * list nat) :=
    let ranks := tb_ranks X in
    let rank1 := mra_rank X rank in
    let delta := map (fun p => Z.of_nat (fst p) - Z.of_nat (snd p))%Z (combine rank1 ranks) in
    let* b := tb_is_admissible X (add_delta ranks delta) in
    if (b : bool) then Some (add_delta ranks delta, map S (nonzero_z delta))
    else
      let ind := nonzero_z delta in
      let m := length ind in
      let loc pos := map (fun k => if inb k (sel 0 ind pos) then 0%Z else nth k delta 0%Z) (seq 0 (length delta)) in
      let cands := flat_map (fun i => sh i (combs (seq 0 m) i)) (seq 1 m) in
      let* res := ofind (fun pos => tb_is_admissible X (add_delta ranks (loc pos))) cands in
      match res with
      | Some pos => Some (add_delta ranks (loc pos), map S (nonzero_z (loc pos)))
      | None => Some (rank1, [])
      end.
End RankAdapt.

(** np.sort of real numbers *)
Fixpoint insert_r (x : R) (l : list R) : list R := match l with [] => [x] | y :: l' => if Rle_dec x y then x :: l else y :: insert_r x l' end.
Definition sort_r (l : list R) : list R := fold_right insert_r [] l.
(** tree_based_tensor_learning.py:1334-1358 unique_tol(inp, tol), after the sort and without the NaN: they are sorted last and fail the test 1356;
    if there is nothing else the result is [NaN], which the caller removes (575) *)
Fixpoint unique_from (tol last : R) (l : list R) : list R :=
  match l with
  | [] => [last]
  | x :: l => if Rlt_dec tol (Rabs (last - x) / last) then last :: unique_from tol x l else unique_from tol last l
  end.
Definition unique_tol (tol : R) (l : list R) : list R := match sort_r l with [] => [] | x :: l => unique_from tol x l end.
(** np.nanmax, for a nonempty list of the entries that are not NaN *)
Definition nanmax (l : list R) : R := fold_right Rmax (hd 0%R l) l.

Section NewRank.
  Context {K : Type} {CR : CRing K}.
  (** a list of values with NaN = None *)
  Definition sv_at (sv : list (option R)) (n : nat) : option R := nth (n - 1) sv None.
  Definition sv_vals (sv : list (option R)) : list R := flat_map (fun x => match x with Some y => [y] | None => [] end) sv.
  Definition sv_geb (x : option R) (y : R) : bool := match x with Some x => if Rle_dec y x then true else false | None => false end.
  Definition isnan (x : option R) : bool := match x with None => true | _ => false end.
  (** tree_based_tensor_learning.py:525-540: cannot_be_increased after the first loop (the two nested loops visit the internal nodes level by level,
      from the last level to the level 1) *)
  Definition nrs_mark (X : tbt K) (sv : list (option R)) : list bool :=
    let t := ttree X in
    let rank := tb_ranks X in
    fold_left (fun c n => if forallb (fun k => nth (k - 1) c false) (children t n) &&
                             (nth (n - 1) rank 0 =? prodn (map (fun k => nth (k - 1) rank 0) (children t n)))
                          then upd (n - 1) true c else c)
      (filter (fun n => negb (is_leaf t n)) (flat_map (nodes_with_level t) (rev (seq 1 (max_level t)))))
      (map (fun n => if is_leaf t n then isnan (sv_at sv n) else n =? root t) (nodes t)).
  (** tree_based_tensor_learning.py:541-553: the second loop *)
  Definition nrs_mark2 (X : tbt K) (mk : list bool) : list bool :=
    let t := ttree X in
    let rank := tb_ranks X in
    fold_left (fun c n => let ind := parent t n :: filter (fun k => negb (k =? n)) (children t (parent t n)) in
                          if forallb (fun k => nth (k - 1) c false) ind && (nth (n - 1) rank 0 =? prodn (map (fun k => nth (k - 1) rank 0) ind))
                          then upd (n - 1) true c else c)
      (filter (fun n => nth (n - 1) mk false) (flat_map (nodes_with_level t) (seq 1 (max_level t - 1)))) mk.
  (** ranks increased by one at the nodes of E *)
  Definition raise_at (rank : list nat) (E : list nat) : list nat :=
    map (fun k => if inb (S k) E then S (nth k rank 0) else nth k rank 0) (seq 0 (length rank)).
  (** tree_based_tensor_learning.py:525-590 new_rank_selection, from the smallest singular values on (None = NaN).  Returned: new_rank and enriched_nodes *)
  Definition new_rank_sel (X : tbt K) (theta : R) (sv : list (option R)) : option (list nat * list nat) :=
    let t := ttree X in
    let rank := tb_ranks X in
    let mk := nrs_mark2 X (nrs_mark X sv) in
    let sv1 := map (fun n => if nth (n - 1) mk false then None else sv_at sv n) (nodes t) in
    let E0 := match sv_vals sv1 with
              | [] => []
              | _ => filter (fun n => sv_geb (sv_at sv1 n) (theta * nanmax (sv_vals sv1))%R) (nodes t)
              end in
    let rank0 := raise_at rank E0 in
    let* b := tb_is_admissible X rank0 in
    if (b : bool) then Some (rank0, E0)
    else
      let sv2 := map (fun n => if inb n E0 then None else sv_at sv1 n) (nodes t) in
      let ind s := filter (fun n => sv_geb (sv_at sv2 n) s) (nodes t) in
      let* res := ofind (fun s => tb_is_admissible X (raise_at rank0 (ind s))) (rev (unique_tol (1 / 100) (sv_vals sv2))) in
      match res with
      | Some s => Some (raise_at rank0 (ind s), E0 ++ ind s)
      | None => Some (rank, [])
      end.
End NewRank.
