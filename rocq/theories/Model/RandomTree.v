(** Model of tensap/tensor_algebra/tensors/dimension_tree.py:790-849, DimensionTree.random.
    The pseudo-random draws are arguments: [ri p k lo hi] stands for np.random.randint(lo, hi) and [rp p k n] for
    np.random.permutation(n), drawn while the node [p] is split (each pair (p, k) is drawn at most once, so that the draws
    are independent of each other in the model too).  Exceptions (ValueError of randint on an empty interval, IndexError
    of adj_mat) are [None]. *)
From Coq Require Import List Arith Lia Bool.
From Verif.Base Require Import ListAux CRing Index.
From Verif.Model Require Import Sorting Numpy FullTensor DimensionTree.
Import ListNotations.

(** the local variables nb_nodes, new_nodes, adj_mat, dims_nodes, dim2ind (815-819) *)
Record rst := RT { r_nb : nat; r_new : list nat; r_adj : nat -> nat -> bool; r_dims : list (list nat); r_d2i : list nat }.

Section Random.
  Variable ri : nat -> nat -> nat -> nat -> nat.
  Variable rp : nat -> nat -> nat -> list nat.
  Variable order lo hi : nat.

  (** dimension_tree.py:831-833, 835/844: a new child of [p] with dimensions [ds] (IndexError beyond 2 * order nodes) *)
  Definition rt_child (p : nat) (ds : list nat) (st : rst) : option rst :=
    let nb := r_nb st + 1 in
    if nb <=? 2 * order
    then Some (RT nb (r_new st ++ [nb]) (fun i j => if (i =? p) && (j =? nb) then true else r_adj st i j) (r_dims st ++ [ds]) (r_d2i st))
    else None.
  (** dimension_tree.py:830-847: the loop on k; [a] is pnod_arity *)
  Fixpoint rt_children (p a : nat) (ks : list nat) (ds : list nat) (st : rst) : option rst :=
    match ks with
    | [] => Some st
    | k :: ks' =>
      if k =? a - 1 then rt_child p ds st (* then dims = [] and the loop is left *)
      else
        let b := length ds + k + 2 - a in
        if b =? 0 then None
        else
          let nc := Nat.max (ri p (k + 1) 0 b) 1 in
          let perm := firstn nc (rp p k (length ds)) in
          let rest := sel 0 ds (compl (length ds) perm) in
          let* st' := rt_child p (sel 0 ds perm) st in
          if length rest =? 0 then Some st' else rt_children p a ks' rest st'
    end.
  (** dimension_tree.py:824-847: the body of the loop on parent_nodes.  [dim2ind[dims - 1] = pnod] with 0-based
      dimensions: the index -1 is the last one *)
  Definition rt_node (st : rst) (p : nat) : option rst :=
    let ds := nth (p - 1) (r_dims st) [] in
    if length ds =? 1
    then Some (RT (r_nb st) (r_new st) (r_adj st) (r_dims st) (upd ((nth 0 ds 0 + (order - 1)) mod order) p (r_d2i st)))
    else if lo <? hi + 1
         then let a := Nat.min (ri p 0 lo (hi + 1)) (length ds) in rt_children p a (seq 0 a) ds st
         else None.
  (** dimension_tree.py:821-847: the while loop; every pass creates a node or is the last one, so that 2 * order + 1
      passes are enough (proved for arities >= 2; otherwise adj_mat overflows first) *)
  Fixpoint rt_loop (fuel : nat) (st : rst) : option rst :=
    match r_new st with
    | [] => Some st
    | _ =>
      match fuel with
      | 0 => None
      | S f => let* st' := ofold rt_node (r_new st) (RT (r_nb st) [] (r_adj st) (r_dims st) (r_d2i st)) in rt_loop f st'
      end
    end.
  (** dimension_tree.py:790-849 random; arity = [lo, hi] (an integer a is [a, a]) *)
  Definition dt_random : option dtree :=
    let* st := rt_loop (2 * order + 1) (RT 1 [1] (fun _ _ => false) [seq 0 order] (repeat 0 order)) in
    Some (DT (r_nb st) (r_d2i st) (r_adj st)).
End Random.
