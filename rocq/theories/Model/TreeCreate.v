(** Model of the constructors of tree-based tensors, tensap/tensor_algebra/tensors/tree_based_tensor.py:2466-2732, and of cat, reduce_sum and the
    division by a scalar (355-359, 380-406, 1290-1309). *)
From Coq Require Import List Arith Lia Bool Reals.
From Verif.Base Require Import ListAux CRing Index RealAux.
From Verif.Model Require Import Sorting Numpy FullTensor DimensionTree TreeBased TreeReduce.
Import ListNotations.

Section TreeCreate.
  Context {R : Type} {CR : CRing R}.
  Local Open Scope cr_scope.

  (** tree_based_tensor.py:1290-1309 cat *)
  Definition tb_cat (X Y : tbt R) : option (tbt R) :=
    let* l := omap (fun n => if active X n then ft_cat (core X n) (core Y n) None else Some (core X n)) (nodes (ttree X)) in
    tb_make l (ttree X).

  (** tree_based_tensor.py:380-406 reduce_sum *)
  Definition tb_reduce_sum (X : tbt R) (dims : option (list nat)) : option (nd R + tbt R) :=
    let dims := match dims with None => seq 0 (tb_order X) | Some d => d end in
    if forallb (fun d => (d <? tb_order X)%nat) dims then
      tb_tensor_vector_product X (map (fun d => ND [nth d (tb_shape X) 0%nat] (fun _ => r1)) dims) (Some dims)
    else None.

  (** tree_based_tensor.py:2518-2523 and 2705-2732: [act] with None for the string "random", drawn as follows: [choice] in 0..2, [perm] a permutation
      of the dimensions, [k] smaller than the number of dimensions *)
  Definition random_active (t : dtree) (choice : nat) (perm : list nat) (k : nat) : list bool :=
    match choice with
    | 0%nat => map (fun _ => true) (nodes t)
    | 1%nat => map (fun n => negb (is_leaf t n)) (nodes t)
    | _ => fold_left (fun l mu => upd (nth mu (d2i t) 0 - 1)%nat false l) (firstn (k + 1) perm) (map (fun _ => true) (nodes t))
    end.
  (** tree_based_tensor.py:2498-2507: the ranks.  None: default or "random" (then [draw] are the nbn integers drawn between 1 and 5) *)
  Definition create_ranks (t : dtree) (draw : list nat) (ranks : option (list nat)) : list nat :=
    match ranks with
    | None => let l := upd (root t - 1) 1%nat draw in match l with [k] => repeat k (nbn t) | _ => l end
    | Some [k] => repeat k (nbn t)
    | Some l => l
    end.
  (** tree_based_tensor.py:2509-2516: the shape.  None: default *)
  Definition create_sizes (t : dtree) (ranks : list nat) (sizes : option (list nat)) : list nat :=
    match sizes with None => map (fun n => nth (n - 1) ranks 0%nat) (d2i t) | Some l => l end.
  (** tree_based_tensor.py:2526-2550: the shape of the core of a node; Some None: no core.  [shape[tree.dim2ind == nod]] is a list of one integer *)
  Definition create_shape (t : dtree) (ranks sizes : list nat) (act : list bool) (n : nat) : option (option (list nat)) :=
    let rk n := nth (n - 1) ranks 0%nat in
    let ac n := nth (n - 1) act false in
    let sz n := map snd (filter (fun p => (fst p =? n)%nat) (combine (d2i t) sizes)) in
    if ac n && negb (is_leaf t n) then
      let* l := omap (fun c => if ac c then Some [rk c] else if is_leaf t c then Some (sz c) else None) (children t n) in
      Some (Some (concat l ++ (if negb (n =? root t)%nat || (1 <? rk n)%nat then [rk n] else [])))
    else if ac n then Some (Some (sz n ++ [rk n]))
    else if negb (is_leaf t n) then None
    else Some None.
  (** tree_based_tensor.py:2466-2552 create(generator, tree, ranks, shape, is_active_node).  Simplification: lists ranks, shape, is_active_node of the
      wrong length are errors.  [gen s]: the array returned by the generator for the shape s *)
  Definition tb_create (gen : list nat -> nd R) (t : dtree) (ranks sizes : list nat) (act : list bool) : option (tbt R) :=
    if (length ranks =? nbn t)%nat && (length sizes =? length (d2i t))%nat && (length act =? nbn t)%nat then
      let* l := omap (fun n => let* s := create_shape t ranks sizes act n in
                               Some (match s with Some s => gen s | None => no_core end)) (nodes t) in
      tb_make l t
    else None.
  (** the arguments as the caller gives them *)
  Definition tb_create_args (gen : list nat -> nd R) (t : dtree) (draw : list nat) (ranks sizes : option (list nat)) (act : option (list bool)) : option (tbt R) :=
    let rk := create_ranks t draw ranks in
    tb_create gen t rk (create_sizes t rk sizes) (match act with None => map (fun _ => true) (nodes t) | Some l => l end).
  (** tree_based_tensor.py:2614-2640 ones, 2642-2668 zeros *)
  Definition np_ones (s : list nat) : nd R := ND s (fun _ => r1).
  Definition tb_ones (t : dtree) (draw : list nat) (ranks sizes : option (list nat)) (act : option (list bool)) : option (tbt R) :=
    tb_create_args np_ones t draw ranks sizes act.
  Definition tb_zeros (t : dtree) (draw : list nat) (ranks sizes : option (list nat)) (act : option (list bool)) : option (tbt R) :=
    tb_create_args (fun s => ND s (fun _ => r0)) t draw ranks sizes act.

  (** tree_based_tensor.py:2690-2703 tensor_train(cores, dims); 2693-2694: [cores[np.argsort(dims)]], cores being an array of tensors (TypeError for a
      list, not modelled).  The loop 2697-2700 goes up from the leaf of the first dimension *)
  Fixpoint tt_fill (t : dtree) (nod : nat) (cs l : list (nd R)) : list (nd R) :=
    match cs with [] => l | A :: cs => tt_fill t (parent t nod) cs (setc nod A l) end.
  Definition tb_tensor_train (cs : list (nd R)) (dims : option (list nat)) : option (tbt R) :=
    let d := length cs in
    let t := dt_linear d (seq 0 d) in
    let cs := match dims with None => cs | Some ds => map (fun k => nth k cs no_core) (np_argsort ds) end in
    let l := tt_fill t (nth 0 (d2i t) 0%nat) cs (repeat no_core (nbn t)) in
    tb_make (fold_left (fun l n => setc n no_core l) (tl (d2i t)) l) t.
End TreeCreate.

(** tree_based_tensor.py:355-359 [__truediv__] *)
Definition tb_truediv (X : tbt R) (c : R) : tbt R :=
  let r := root (ttree X) in
  TB (ttree X) (setc r (ND (shape (core X r)) (fun is => (get (core X r) is / c)%R)) (cores X)).
