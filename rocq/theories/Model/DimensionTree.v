(** Model of tensap/tensor_algebra/tensors/dimension_tree.py (class DimensionTree).
    A tree is the number of its nodes, the list [d2i] (attribute dim2ind) and its adjacency matrix.
    Nodes are numbered from 1, as in the code.  The entries of the adjacency matrix are 0/1; they are
    modelled as booleans, and [adj] is only consulted at node numbers 1..nbn.
    The attributes that the constructor precomputes are functions of these three. *)
From Coq Require Import List Arith Lia Bool.
From Verif.Base Require Import ListAux CRing Index.
From Verif.Model Require Import Sorting Numpy.
Import ListNotations.

(** dimension_tree.py:70-96 [__init__] *)
Record dtree := DT { nbn : nat; d2i : list nat; adj : nat -> nat -> bool }.

(** dimension_tree.py:660 nodes_indices *)
Definition nodes (t : dtree) : list nat := seq 1 (nbn t).
(** dimension_tree.py:662 [_parent = np.matmul(range(1, nb_nodes + 1), adjacency_matrix)], 208-223 parent *)
Definition parent (t : dtree) (n : nat) : nat :=
  sumn (map (fun i => if adj t i n then i else 0) (nodes t)).
(** dimension_tree.py:663 root: the first node with [_parent == 0] (IndexError when there is none) *)
Definition root_opt (t : dtree) : option nat := hd_error (filter (fun n => parent t n =? 0) (nodes t)).
Definition root (t : dtree) : nat := match root_opt t with Some r => r | None => 0 end.
(** dimension_tree.py:664-665 is_leaf *)
Definition is_leaf (t : dtree) (n : nat) : bool := inb n (d2i t).
(** dimension_tree.py:667-671 [_children] (column n without its padding zeros), 173-189 children *)
Definition children (t : dtree) (n : nat) : list nat := filter (adj t n) (nodes t).
(** dimension_tree.py:661 arity *)
Definition arity (t : dtree) : nat := list_max (map (fun i => length (children t i)) (nodes t)).
(** dimension_tree.py:673-680 [_child_number] (1-based, 0 for the root), 191-206 *)
Definition child_number (t : dtree) (n : nat) : nat :=
  let p := parent t n in
  if p =? 0 then 0
  else if inb n (children t p) then index_of n (children t p) + 1 else 0.
(** dimension_tree.py:682-686 sibling (column n without its padding zeros) *)
Definition sibling (t : dtree) (n : nat) : list nat :=
  let p := parent t n in if p =? 0 then [] else children t p.
(** dimension_tree.py:688-697 level: breadth first search.  The loop runs while the list of nodes is
    not empty; [fuel] = nb_nodes passes are enough on trees (proved).  Simplification: the list of the
    children of a list of nodes is taken node by node (the code's order is another permutation). *)
Fixpoint bfs (t : dtree) (fuel : nat) (ind : list nat) (lev : nat) (lv : list nat) : list nat :=
  match fuel with
  | 0 => lv
  | S f =>
    match ind with
    | [] => lv
    | _ => bfs t f (flat_map (children t) ind) (S lev) (fold_left (fun lv i => upd (i - 1) lev lv) ind lv)
    end
  end.
Definition levels (t : dtree) : list nat := bfs t (nbn t) (children t (root t)) 1 (repeat 0 (nbn t)).
Definition level (t : dtree) (n : nat) : nat := nth (n - 1) (levels t) 0.
Definition max_level (t : dtree) : nat := list_max (levels t).
(** dimension_tree.py:699 internal_nodes *)
Definition internal_nodes (t : dtree) : list nat := filter (fun n => negb (is_leaf t n)) (nodes t).
(** dimension_tree.py:437-454 nodes_with_level *)
Definition nodes_with_level (t : dtree) (l : nat) : list nat := filter (fun n => level t n =? l) (nodes t).
(** [for level in np.arange(np.max(tree.level), -1, -1): for nod in tree.nodes_with_level(level)]:
    the order in which such a double loop visits the nodes *)
Definition bottom_up (t : dtree) : list nat :=
  flat_map (nodes_with_level t) (rev (seq 0 (S (max_level t)))).
(** dimension_tree.py:410-435 update_dims_from_leaves (the entries of dim2ind are distinct) *)
Definition dims_init (t : dtree) : list (list nat) :=
  map (fun i => if inb i (d2i t) then [index_of i (d2i t)] else [0]) (nodes t).
Definition dims_step (t : dtree) (D : list (list nat)) (n : nat) : list (list nat) :=
  if is_leaf t n then D else upd (n - 1) (flat_map (fun c => nth (c - 1) D []) (children t n)) D.
Definition dims_all (t : dtree) : list (list nat) := fold_left (dims_step t) (bottom_up t) (dims_init t).
Definition dims (t : dtree) (n : nat) : list nat := nth (n - 1) (dims_all t) [].

(** dimension_tree.py:225-245 ascendants (the loop follows the parents up to the root; [nbn] steps are enough) *)
Fixpoint asc_loop (t : dtree) (fuel p : nat) : list nat :=
  match fuel with 0 => [] | S f => if p =? 0 then [] else p :: asc_loop t f (parent t p) end.
Definition ascendants (t : dtree) (n : nat) : list nat := asc_loop t (nbn t) (parent t n).
(** dimension_tree.py:247-268 descendants (recursion; depth at most nbn) *)
Fixpoint desc_loop (t : dtree) (fuel n : nat) : list nat :=
  match fuel with 0 => [] | S f => flat_map (fun c => c :: desc_loop t f c) (children t n) end.
Definition descendants (t : dtree) (n : nat) : list nat := desc_loop t (nbn t) n.

(** dimension_tree.py:107-143 permute, ipermute.  [l[sigma] = l.flatten()] and [l[sigma]] *)
Definition scatter (sigma l : list nat) : list nat :=
  fold_left (fun a p => upd (fst p) (snd p) a) (combine sigma l) l.
Definition dt_permute (t : dtree) (sigma : list nat) : dtree := DT (nbn t) (scatter sigma (d2i t)) (adj t).
Definition dt_ipermute (t : dtree) (sigma : list nat) : dtree := DT (nbn t) (sel 0 (d2i t) sigma) (adj t).

(** sorted copy of a list of natural numbers ([np.sort]) *)
Definition np_sort (l : list nat) : list nat := sel 0 l (np_argsort l).
(** dimension_tree.py:145-168 [__eq__].  Inside a level: [nodes1[i] = 0] when some node of the other
    tree has the same sorted dims; False as soon as one stays nonzero.  A level with different numbers
    of nodes returns the current value of is_equal, i.e. True. *)
Fixpoint dt_eq_levels (a b : dtree) (ls : list nat) : bool :=
  match ls with
  | [] => true
  | l :: ls' =>
    let n1 := nodes_with_level a l in
    let n2 := nodes_with_level b l in
    if negb (length n1 =? length n2) then true
    else if forallb (fun i => existsb (fun j => list_eqb (np_sort (dims a i)) (np_sort (dims b j))) n2) n1
         then dt_eq_levels a b ls' else false
  end.
Definition dt_eqb (a b : dtree) : bool :=
  if (length (d2i a) =? length (d2i b)) && (nbn a =? nbn b) && (max_level a =? max_level b)
  then dt_eq_levels a b (seq 1 (max_level a)) else false.

(** dimension_tree.py:388-408 node_with_dims *)
Definition node_with_dims (t : dtree) (ds : list nat) : list nat :=
  filter (fun n => list_eqb (np_sort ds) (np_sort (dims t n))) (nodes t).

(** dimension_tree.py:324-360 add_child *)
Definition dt_add_child (t : dtree) (nod : nat) : dtree :=
  let n := nbn t in
  DT (n + 1)
     (if is_leaf t nod then map (fun x => if x =? nod then n + 1 else x) (d2i t) else d2i t ++ [n + 1])
     (fun i j => if (i <=? n) && (j <=? n) then adj t i j else (i =? nod) && (j =? n + 1)).

(** dimension_tree.py:270-322 change_root (first component; the second one, the list of the modified
    nodes, is [dt_modified]).  The loop reverses the edges of the path from [nod] to the root. *)
Definition reverse_edges (a : list nat) (A : nat -> nat -> bool) : nat -> nat -> bool :=
  fold_left (fun A p => fun i j => if (i =? snd p) && (j =? fst p) then false
                                   else if (i =? fst p) && (j =? snd p) then true else A i j)
            (combine a (tl a)) A.
Definition dt_change_root (t : dtree) (nod : nat) : dtree :=
  if nod =? root t then t
  else
    let A := reverse_edges (nod :: ascendants t nod) (adj t) in
    if is_leaf t nod then
      let n := nbn t in
      DT (n + 1) (fold_left (fun l d => upd d (n + 1) l) (dims t nod) (d2i t))
         (fun i j => if (i <=? n) && (j <=? n) then A i j else (i =? nod) && (j =? n + 1))
    else DT (nbn t) (d2i t) A.
Definition dt_modified (t : dtree) (nod : nat) : list nat :=
  if nod =? root t then []
  else filter (fun n => inb n (nod :: children t nod ++ flat_map (fun a => a :: children t a) (ascendants t nod))) (nodes t).

(** dimension_tree.py:362-386 sub_dimension_tree: the tree and the list of the nodes of [t] it keeps *)
Definition dt_sub (t : dtree) (r : nat) : dtree * list nat :=
  let nod := r :: descendants t r in
  let leaves := sel 0 (d2i t) (dims t r) in
  (DT (length nod)
      (map S (filter (fun k => inb (nth k nod 0) leaves) (seq 0 (length nod))))
      (fun i j => adj t (nth (i - 1) nod 0) (nth (j - 1) nod 0)), nod).

(** dimension_tree.py:703-722 trivial *)
Definition dt_trivial (order : nat) : dtree :=
  DT (order + 1) (seq 2 order) (fun i j => (i =? 1) && (2 <=? j)).

(** dimension_tree.py:724-755 linear.  [order]: an integer d (then the permutation is 0..d-1) or a
    permutation of 1..d ([order -= 1]); [d2i[order] = d2i.flatten()].
    The loop sets adj[2l+1, 2l+3] and adj[2l+1, 2l+4] (0-based) for l < d - 2. *)
Definition dt_linear (d : nat) (order : list nat) : dtree :=
  DT (2 * d - 1)
     (scatter order ((2 * d - 2) :: map (fun k => 2 * k + 1) (rev (seq 1 (d - 1)))))
     (fun i j => ((i =? 1) && ((j =? 2) || (j =? 3)))
                 || existsb (fun l => (i =? 2 * l + 2) && ((j =? 2 * l + 4) || (j =? 2 * l + 5))) (seq 0 (d - 2))).

(** dimension_tree.py:757-787 balanced.  adj[0, 1:3] = 1; adj[i, 2i+1:2i+3] = 1 for 1 <= i < d - 1 (0-based) *)
Definition dt_balanced (d : nat) (order : list nat) : dtree :=
  DT (2 * d - 1)
     (scatter order (seq d d))
     (fun i j => ((i =? 1) && ((j =? 2) || (j =? 3)))
                 || existsb (fun k => (i =? k + 1) && ((j =? 2 * k + 2) || (j =? 2 * k + 3))) (seq 1 (d - 2))).
