(** Model of tensap/tools/multi_indices.py (class MultiIndices).
    A MultiIndices object holds a 2-D integer array: here its number of columns [mi_dim] and the
    list of its rows.  Exceptions are [None].  Entries are unbounded integers (no int64 overflow). *)
From Coq Require Import List Arith ZArith Lia Bool.
From Verif.Base Require Import ListAux Index.
From Verif.Model Require Import Sorting.
Import ListNotations.

Notation row := (list Z).
Record mi := MI { mi_dim : nat; mi_rows : list row }.

Fixpoint row_eqb (a b : row) : bool :=
  match a, b with
  | [], [] => true
  | x :: a', y :: b' => Z.eqb x y && row_eqb a' b'
  | _, _ => false
  end.

(** componentwise comparison of two rows ([<=] in numpy, [np.all(..., axis=1)]) *)
Fixpoint row_leb (a b : row) : bool :=
  match a, b with
  | [], [] => true
  | x :: a', y :: b' => Z.leb x y && row_leb a' b'
  | _, _ => false
  end.

Definition rmem (r : row) (l : list row) : bool := memb row_eqb r l.

(** [np.array([array[index, :] for index in sorted(ind)])] then [MultiIndices(.)]
    (multi_indices.py:321-323, 364-366, 424-426, 553-556; constructor 39-56): when no row remains the
    list is empty, [np.array([])] has shape (0,) and [np.atleast_2d] makes it one row of 0 columns. *)
Definition mi_of_rows (d : nat) (rows : list row) : mi :=
  match rows with [] => MI 0 [[]] | _ => MI d rows end.

(** [np.arange(a, b)] *)
Definition arangeZ (a b : Z) : list Z :=
  map (fun k => (a + Z.of_nat k)%Z) (seq 0 (Z.to_nat (b - a))).

(** factors of a product: a 1-D array (becomes a column) or a 2-D array / MultiIndices
    (product_set, multi_indices.py:745-753) *)
Inductive factor := Vec (v : list Z) | Mat (X : mi).
Definition factor_rows (f : factor) : list row :=
  match f with Vec v => map (fun x => [x]) v | Mat X => mi_rows X end.
Definition factor_dim (f : factor) : nat := match f with Vec _ => 1 | Mat X => mi_dim X end.

(** multi_indices.py:707-765  product_set(L, d).  [np.unravel_index(range(np.prod(N)), N, order="F")]
    raises on an empty range, hence [None] when a factor is empty. *)
Definition product_set (L : list factor) (d : option nat) : option mi :=
  let d' := match d with Some d => d | None => length L end in
  let L' := match L with [l] => if 1 <? d' then repeat l d' else L | _ => L end in
  let N := map (fun f => length (factor_rows f)) L' in
  if Nat.eqb (prodn N) 0 then None
  else
    Some (MI (sumn (map factor_dim L'))
             (map (fun k => concat (map (fun p => nth (snd p) (factor_rows (fst p)) [])
                                        (combine L' (ind2subF N k))))
                  (seq 0 (prodn N)))).

(** multi_indices.py:685-705  bounded_by(m, m0) *)
Definition bounded_by (m : list Z) (m0 : Z) : option mi :=
  product_set (map (fun x => Vec (arangeZ m0 (x + 1))) m) None.

(** multi_indices.py:115-127  product *)
Definition mi_product (I : mi) (J : option mi) : option mi :=
  match J with None => Some I | Some J => product_set [Mat I; Mat J] None end.

(** multi_indices.py:58-74  sub2ind(shape): [np.ravel_multi_index(order="F")] raises ValueError when
    an entry is out of range. *)
Definition row_in_shape (shape : list nat) (r : row) : bool :=
  (length r =? length shape) &&
  forallb (fun p => (0 <=? snd p)%Z && (snd p <? Z.of_nat (fst p))%Z) (combine shape r).
Definition sub2ind (I : mi) (shape : list nat) : option (list nat) :=
  if forallb (row_in_shape shape) (mi_rows I)
  then Some (map (fun r => sub2indF shape (map Z.to_nat r)) (mi_rows I)) else None.

(** multi_indices.py:767-789  ind2sub(shape, ind) (raises when a linear index is out of range) *)
Definition ind2sub (shape : list nat) (ind : list nat) : option mi :=
  if forallb (fun k => k <? prodn shape) ind
  then Some (MI (length shape) (map (fun k => map Z.of_nat (ind2subF shape k)) ind)) else None.

(** multi_indices.py:76-89 [__eq__], [__le__]: row-wise comparison; a one-row argument is broadcast
    (the code also overwrites [J.array] with the tiled array: second component of the result). *)
Definition mi_tile (I J : mi) : mi :=
  match mi_rows J with [r] => MI (mi_dim J) (repeat r (length (mi_rows I))) | _ => J end.
Definition mi_eq (I J : mi) : option (list bool) * mi :=
  let J' := mi_tile I J in
  (if length (mi_rows I) =? length (mi_rows J')
   then Some (map (fun p => row_eqb (fst p) (snd p)) (combine (mi_rows I) (mi_rows J'))) else None, J').
Definition mi_le (I J : mi) : option (list bool) * mi :=
  let J' := mi_tile I J in
  (if length (mi_rows I) =? length (mi_rows J')
   then Some (map (fun p => row_leb (fst p) (snd p)) (combine (mi_rows I) (mi_rows J'))) else None, J').

(** multi_indices.py:91-101 [__add__], [__sub__] with an integer *)
Definition mi_shift (I : mi) (m : Z) : mi := MI (mi_dim I) (map (map (fun x => (x + m)%Z)) (mi_rows I)).

(** multi_indices.py:153-178 norm(p): p = inf, or p a positive integer.  For p finite the code
    returns (sum i^p)^(1/p); the model keeps the p-th power (the map x -> x^(1/p) is increasing on
    nonnegative reals, so comparisons and sorting are the same; float rounding is not modelled). *)
Inductive pnorm := PInf | PNat (p : nat).
Definition zsum (l : list Z) : Z := fold_right Z.add 0%Z l.
Definition zmax (l : list Z) : Z := match l with [] => 0%Z | a :: l' => fold_left Z.max l' a end.
Definition row_norm_pow (p : pnorm) (r : row) : Z :=
  match p with
  | PInf => zmax r
  | PNat p => zsum (map (fun x => (x ^ Z.of_nat p)%Z) r)
  end.
(** the bound [norm <= m] in terms of the p-th power *)
Definition bound_pow (p : pnorm) (m : Z) : Z := match p with PInf => m | PNat p => (m ^ Z.of_nat p)%Z end.

(** multi_indices.py:180-214 weighted_norm(p, w) (integer weights) *)
Definition row_weight (w : list Z) (r : row) : row := map (fun q => (fst q * snd q)%Z) (combine r w).
Definition row_wnorm_pow (p : pnorm) (w : list Z) (r : row) : Z := row_norm_pow p (row_weight w r).

Section WithArgsort.
  (** the default [np.argsort] (any function meeting [argsort_ok]) *)
  Variable argsort : list Z -> list nat.

  (** multi_indices.py:216-239 sort_by_norm(p, mode) ([desc] = (mode == "descend")) *)
  Definition sort_by_norm (I : mi) (p : pnorm) (desc : bool) : mi :=
    let ind := argsort (map (row_norm_pow p) (mi_rows I)) in
    let ind := if desc then rev ind else ind in
    MI (mi_dim I) (sel [] (mi_rows I) ind).

  (** multi_indices.py:241-266 sort_by_weighted_norm *)
  Definition sort_by_weighted_norm (I : mi) (p : pnorm) (w : list Z) (desc : bool) : mi :=
    let ind := argsort (map (row_wnorm_pow p w) (mi_rows I)) in
    let ind := if desc then rev ind else ind in
    MI (mi_dim I) (sel [] (mi_rows I) ind).

  (** multi_indices.py:268-303 sort(columns, mode) *)
  Definition sort_pass (columns : list nat) (desc : bool) (rows : list row) (k : nat) : list row :=
    let key := map (fun r => nth k r 0%Z) rows in
    let ind := if k =? last columns 0 then argsort key else argsort_stable key in
    let ind := if desc then rev ind else ind in
    sel [] rows ind.
  Definition mi_sort (I : mi) (columns : option (list nat)) (desc : bool) : mi :=
    let columns := match columns with Some c => c | None => rev (seq 0 (mi_dim I)) end in
    MI (mi_dim I) (fold_left (sort_pass columns desc) (rev columns) (mi_rows I)).
End WithArgsort.

(** multi_indices.py:305-323 add_indices *)
Definition add_indices (I J : mi) : mi :=
  mi_of_rows (mi_dim I) (dedup row_eqb (mi_rows I ++ mi_rows J)).

(** multi_indices.py:325-346 remove_indices, J a MultiIndices *)
Definition remove_indices (I J : mi) : mi :=
  MI (mi_dim I) (filter (fun r => negb (rmem r (mi_rows J))) (mi_rows I)).

(** multi_indices.py:325-346 remove_indices, J an array of row positions *)
Definition nmem (k : nat) (l : list nat) : bool := existsb (Nat.eqb k) l.
Definition remove_positions (I : mi) (ks : list nat) : mi :=
  MI (mi_dim I) (sel [] (mi_rows I) (filter (fun k => negb (nmem k ks)) (seq 0 (length (mi_rows I))))).

(** multi_indices.py:348-366 remove_dims: kept columns are [np.setdiff1d(range(ndim), dims)] *)
Definition remove_dims (I : mi) (dims : list nat) : mi :=
  let keep := filter (fun k => negb (nmem k dims)) (seq 0 (mi_dim I)) in
  mi_of_rows (length keep) (dedup row_eqb (map (fun r => sel 0%Z r keep) (mi_rows I))).

(** multi_indices.py:408-426 keep_dims (IndexError when a column is out of range) *)
Definition keep_dims (I : mi) (dims : list nat) : option mi :=
  if forallb (fun k => k <? mi_dim I) dims
  then Some (mi_of_rows (length dims) (dedup row_eqb (map (fun r => sel 0%Z r dims) (mi_rows I))))
  else None.

(** multi_indices.py:368-389 intersect_indices: [np.nonzero] of the nJ x nI boolean array, in
    row-major order, gives pairs (ind_J, ind_I) *)
Definition eq_pairs (I J : mi) : list (nat * nat) :=
  concat (map (fun j =>
    map (fun i => (j, i))
        (filter (fun i => row_eqb (nth i (mi_rows I) []) (nth j (mi_rows J) [])) (seq 0 (length (mi_rows I)))))
    (seq 0 (length (mi_rows J)))).
Definition intersect_indices (I J : mi) : mi * list nat * list nat :=
  let prs := eq_pairs I J in
  (MI (mi_dim I) (sel [] (mi_rows I) (map snd prs)), map snd prs, map fst prs).

(** multi_indices.py:391-406 keep_indices (IndexError when out of range) *)
Definition keep_indices (I : mi) (k : list nat) : option mi :=
  if forallb (fun i => i <? length (mi_rows I)) k
  then Some (MI (mi_dim I) (sel [] (mi_rows I) k)) else None.

(** multi_indices.py:445-474 is_downward_closed(m): [test] is the array of row positions still to be
    tested; one iteration per element of [fuel].  [None]: exception (bounded_by on an empty range) or
    out of fuel. *)
Fixpoint dc_loop (fuel : nat) (I : mi) (m : Z) (test : list nat) : option bool :=
  match test with
  | [] => Some true
  | _ =>
    match fuel with
    | O => None
    | S fuel' =>
      let p := nth (last test 0) (mi_rows I) [] in
      match bounded_by p m with
      | None => None
      | Some Ip =>
        if forallb (fun q => rmem q (mi_rows I)) (mi_rows Ip)
        then dc_loop fuel' I m (filter (fun k => negb (rmem (nth k (mi_rows I) []) (mi_rows Ip))) test)
        else Some false
      end
    end
  end.
Definition is_downward_closed (I : mi) (m : Z) : option bool :=
  dc_loop (length (mi_rows I)) I m (seq 0 (length (mi_rows I))).

(** multi_indices.py:476-504 envelope(u) *)
Definition envelope (I : mi) (u : list Z) : option (list Z) :=
  if length u =? length (mi_rows I) then
    Some (map (fun i =>
      zmax (map (fun p => Z.abs (snd p))
                (filter (fun p => row_leb (nth i (mi_rows I) []) (fst p)) (combine (mi_rows I) u))))
      (seq 0 (length u)))
  else None.

(** row + e_k and row - e_k *)
Definition bump (k : nat) (c : Z) (r : row) : row := upd k (nth k r 0 + c)%Z r.

(** multi_indices.py:520-523, 543-546, 573-581: the (n*dim) x dim array of neighbours; after the
    Fortran-order reshape row number i + n*k is the neighbour of row i in direction k *)
Definition neighbours (I : mi) (c : Z) : list row :=
  concat (map (fun k => map (bump k c) (mi_rows I)) (seq 0 (mi_dim I))).

(** multi_indices.py:506-527 get_maximal_indices *)
Definition get_maximal_indices (I : mi) : mi :=
  MI (mi_dim I)
     (filter (fun r => negb (existsb (fun k => rmem (bump k 1 r) (mi_rows I)) (seq 0 (mi_dim I)))) (mi_rows I)).

(** multi_indices.py:529-556 get_margin *)
Definition get_margin (I : mi) : mi :=
  mi_of_rows (mi_dim I)
    (dedup row_eqb (filter (fun r => negb (rmem r (mi_rows I))) (neighbours I 1))).

(** multi_indices.py:558-590 get_reduced_margin *)
Definition get_reduced_margin (I : mi) : mi :=
  let M := get_margin I in
  MI (mi_dim M)
     (filter (fun r => forallb (fun k => rmem (bump k (-1) r) (mi_rows I)
                                         || existsb (fun x => (x <? 0)%Z) (bump k (-1) r))
                               (seq 0 (mi_dim I)))
             (mi_rows M)).

(** positions k with [nth k n <= b] : [np.nonzero(n <= b)[0]] *)
Definition nonzero_le (n : list Z) (b : Z) : list nat :=
  filter (fun k => (nth k n 0 <=? b)%Z) (seq 0 (length n)).

Definition zero_mi (d : nat) : mi := MI d [repeat 0%Z d].

Section Generators.
  Variable argsort : list Z -> list nat.

  (** one pass of the enrichment loops (multi_indices.py:641-649, 813-821, 886-894):
      margin, keep those with key <= bound, sorted by key, add.
      [stop] is the loop's test on the array [k] of positions. *)
  Definition grow_pass (key : row -> Z) (b : Z) (stop : list nat -> bool) (I : mi) : option (mi * bool) :=
    let M := get_margin I in
    let n := map key (mi_rows M) in
    let k := nonzero_le n b in
    if stop k then Some (I, false)
    else
      let j := argsort (map (fun i => nth i n 0%Z) k) in
      match keep_indices M (sel 0 k j) with
      | Some M' => Some (add_indices I M', true)
      | None => None
      end.

  Fixpoint grow_loop (fuel : nat) (key : row -> Z) (b : Z) (stop : list nat -> bool) (I : mi) : option mi :=
    match fuel with
    | O => None
    | S fuel' =>
      match grow_pass key b stop I with
      | None => None
      | Some (I', true) => grow_loop fuel' key b stop I'
      | Some (I', false) => Some I'
      end
    end.

  (** [np.all(np.logical_not(k))] on an array of POSITIONS: true when every position is 0
      (in particular when k = [0]); used at multi_indices.py:644, 854, 889 *)
  Definition stop_all_not (k : list nat) : bool := forallb (fun i => i =? 0) k.
  (** [len(k) == 0] (multi_indices.py:816) *)
  Definition stop_empty (k : list nat) : bool := length k =? 0.

  (** multi_indices.py:611-650 with_bounded_norm(d, p, m).  For p = inf the code calls
      [product_set(np.arange(m+1), d)]: the elements of the array are 0-d, [x.shape[0]] raises
      IndexError (for m+1 = 1 and d > 1 the list is repeated and raises too). *)
  Fixpoint margin_iter (m : nat) (I : mi) : mi :=
    match m with O => I | S m' => let I' := add_indices I (get_margin I) in margin_iter m' I' end.
  Definition with_bounded_norm (fuel : nat) (d : nat) (p : pnorm) (m : nat) : option mi :=
    match p with
    | PInf => None
    | PNat 1 => Some (margin_iter m (zero_mi d))
    | PNat _ => grow_loop fuel (row_norm_pow p) (bound_pow p (Z.of_nat m)) stop_all_not (zero_mi d)
    end.

  (** multi_indices.py:652-683 with_bounded_weighted_norm(d, p, m, w) (positive integer weights;
      the code's assertion is [d == len(w)]) *)
  Definition with_bounded_weighted_norm (d : nat) (p : pnorm) (m : Z) (w : list Z) : option mi :=
    if negb (d =? length w) then None
    else
      match product_set (map (fun x => Vec (arangeZ 0 (m / x + 1))) w) None with
      | None => None
      | Some B =>
        let n := map (row_wnorm_pow p w) (mi_rows B) in
        let k := nonzero_le n (bound_pow p m) in
        let j := argsort (map (fun i => nth i n 0%Z) k) in
        keep_indices B (sel 0 k j)
      end.

  (** multi_indices.py:791-822 hyperbolic_cross_set(d, p) *)
  Definition row_prod1 (r : row) : Z := fold_right Z.mul 1%Z (map (fun x => (x + 1)%Z) r).
  Definition hyperbolic_cross_set (fuel : nat) (d : nat) (p : nat) : option mi :=
    grow_loop fuel row_prod1 (Z.of_nat p + 1) stop_empty (zero_mi d).

  (** multi_indices.py:862-895 weighted_hyperbolic_cross_set(d, p, w_k) (integer weights) *)
  Definition row_prod1_w (w : list Z) (r : row) : Z :=
    fold_right Z.mul 1%Z (map (fun q => ((fst q + 1) ^ snd q)%Z) (combine r w)).
  Definition weighted_hyperbolic_cross_set (fuel : nat) (d : nat) (p : nat) (w : list Z) : option mi :=
    grow_loop fuel (row_prod1_w w) (Z.of_nat p + 1) stop_all_not (zero_mi d).

  (** multi_indices.py:824-860 low_order_interactions(d, p, m): margin, remove rows not <= p,
      keep those with at most m nonzero entries *)
  Definition row_order (r : row) : Z := Z.of_nat (length (filter (fun x => negb (x =? 0)%Z) r)).
  Definition low_order_pass (p : row) (m : nat) (I : mi) : option (mi * bool) :=
    let M := get_margin I in
    let rem := filter (fun k => negb (row_leb (nth k (mi_rows M) []) p)) (seq 0 (length (mi_rows M))) in
    let M1 := remove_positions M rem in
    let n := map row_order (mi_rows M1) in
    let k := nonzero_le n (Z.of_nat m) in
    if stop_all_not k then Some (I, false)
    else
      let j := argsort (map (fun i => nth i n 0%Z) k) in
      match keep_indices M1 (sel 0 k j) with
      | Some M' => Some (add_indices I M', true)
      | None => None
      end.
  Fixpoint low_order_loop (fuel : nat) (p : row) (m : nat) (I : mi) : option mi :=
    match fuel with
    | O => None
    | S fuel' =>
      match low_order_pass p m I with
      | None => None
      | Some (I', true) => low_order_loop fuel' p m I'
      | Some (I', false) => Some I'
      end
    end.
  Definition low_order_interactions (fuel : nat) (d : nat) (p : row) (m : nat) : option mi :=
    low_order_loop fuel p m (zero_mi d).
End Generators.
