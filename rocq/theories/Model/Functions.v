(** Model of tensap/functions/function.py, compositional_model_function.py, user_defined_function.py,
    tools/grids.py and the tensor-product rules of approximation/integration/integration_rules.py.
    Arrays of points are lists of rows.  An exception is [None]. *)
From Coq Require Import List Arith Bool ZArith Lia.
From Verif.Base Require Import ListAux CRing Index.
From Verif.Model Require Import Sorting MultiIndices Numpy FullTensor Diagonal Canonical Sparse DimensionTree.
Import ListNotations.

(** ** CompositionalModelFunction *)
Section Compositional.
  Context {V : Type}.
  (** compositional_model_function.py:92-96: the columns of x (one value of type V per dimension; in the
      code a column is the array of the values at all the samples) are put at the leaves *)
  Definition cm_init (t : dtree) (x : list V) : option (list (option V)) :=
    ofold (fun z nu => match nth_error x nu with
                       | Some v => Some (upd (nth nu (d2i t) 0 - 1) (Some v) z)
                       | None => None end)
          (seq 0 (length (d2i t))) (repeat None (nbn t)).
  (** compositional_model_function.py:98-102, one node; [f n] is self.fun[n - 1] ([None]: not callable) *)
  Definition cm_step (t : dtree) (f : nat -> option (list V -> V)) (z : list (option V)) (n : nat) : option (list (option V)) :=
    match f n, omap (fun c => nth (c - 1) z None) (children t n) with
    | Some g, Some args => Some (upd (n - 1) (Some (g args)) z)
    | _, _ => None end.
  (** compositional_model_function.py:77-104 eval *)
  Definition cm_eval (t : dtree) (f : nat -> option (list V -> V)) (x : list V) : option V :=
    match cm_init t x with
    | Some z0 =>
        match ofold (cm_step t f) (filter (fun n => negb (is_leaf t n)) (bottom_up t)) z0 with
        | Some z => nth (root t - 1) z None
        | None => None end
    | None => None end.
  (** compositional_model_function.py:64-75: a single function is used at every internal node *)
  Definition cm_single (t : dtree) (g : list V -> V) (n : nat) : option (list V -> V) :=
    if inb n (internal_nodes t) then Some g else None.
End Compositional.

(** ** the evaluation cache of Function *)
Section Cache.
  Context {A B : Type} (eqA : forall a b : A, {a = b} + {a <> b}) (b0 : B).
  (** function.py:56-62: the attributes store, _x_stored, _y_stored; a row of _y_stored is kept flattened in
      Fortran order, as in function.py:108-111, 131-138 where it is reshaped back and forth *)
  Record cache := Cache { c_store : bool; c_x : list (list A); c_y : list (list B) }.
  (** the value of the function at a point is an array of shape [os], given flattened in C order *)
  Definition toF (os : list nat) (v : list B) : list B :=
    map (fun k => nth (sub2indC os (ind2subF os k)) v b0) (seq 0 (prodn os)).
  Definition ofF (os : list nat) (v : list B) : list B :=
    map (fun k => nth (sub2indF os (ind2subC os k)) v b0) (seq 0 (prodn os)).
  Definition peq (p q : list A) : bool := if list_eq_dec eqA p q then true else false.
  (** function.py:104-106, 113-114: y[ind_1, :] = y_stored[ind_2, :]; if several stored points match, the last
      assignment wins; [None]: no stored point matches *)
  Definition lookup (xs : list (list A)) (ys : list (list B)) (p : list A) : option (list B) :=
    fold_left (fun acc q => if peq p (fst q) then Some (snd q) else acc) (combine xs ys) None.
  (** function.py:82-148 store_eval; [eval] is self.eval on an array of points.  Returns the values (C order),
      the new attributes and the array of points passed to eval.  The final squeeze, which only drops axes of
      length one, is not modelled, and neither is [__call__], which calls np.ndim on the pair returned here. *)
  Definition store_eval (os : list nat) (eval : list (list A) -> list (list B)) (st : cache) (x : list (list A))
    : list (list B) * cache * list (list A) :=
    if c_store st && negb (length (concat (c_y st)) =? 0) then
      let look := map (lookup (c_x st) (c_y st)) x in
      let new := filter (fun i => match nth i look None with None => true | Some _ => false end) (seq 0 (length x)) in
      let x_new := map (fun i => nth i x []) new in
      if (length (concat x_new) =? 0)
      then (map (fun i => ofF os (match nth i look None with Some v => v | None => repeat b0 (prodn os) end)) (seq 0 (length x)), st, [])
      else
        let y_new := eval x_new in
        let y := map (fun i => match nth i look None with Some v => v | None => nth (index_of i new) y_new [] end) (seq 0 (length x)) in
        (map (ofF os) y, Cache true (c_x st ++ x_new) (c_y st ++ y_new), x_new)
    else
      let y := eval x in (y, Cache true x (map (toF os) y), x).
  (** function.py:64-80, 71-94 of user_defined_function.py: eval applies the function to each row *)
  Definition row_eval (f : list A -> list B) (x : list (list A)) : list (list B) := map f x.
  (** a sequence of calls to store_eval on the same object: values returned and points evaluated by each call *)
  Fixpoint run_calls (os : list nat) (eval : list (list A) -> list (list B)) (st : cache) (calls : list (list (list A)))
    : list (list (list B) * list (list A)) :=
    match calls with
    | [] => []
    | x :: calls' => let r := store_eval os eval st x in (fst (fst r), snd r) :: run_calls os eval (snd (fst r)) calls'
    end.
End Cache.

(** ** grids *)
Section Grids.
  Context {A : Type}.
  (** numpy indexing of an axis of length n by an integer (negative indices count from the end) *)
  Definition py_index (n : nat) (z : Z) : option nat :=
    if (0 <=? z)%Z && (z <? Z.of_nat n)%Z then Some (Z.to_nat z)
    else if (- Z.of_nat n <=? z)%Z && (z <? 0)%Z then Some (Z.to_nat (z + Z.of_nat n)) else None.
  (** grids.py:190 shape of a FullTensorGrid (grids: one array of points per group of variables) *)
  Definition g_shape (G : list (list (list A))) : list nat := map (@length _) G.
  (** grids.py:196-199: the row of the array for the multi-index r *)
  Definition g_row (G : list (list (list A))) (r : row) : option (list A) :=
    option_map (@concat A)
      (omap (fun k => match nth_error r k, nth_error G k with
                      | Some z, Some g => match py_index (length g) z with Some i => nth_error g i | None => None end
                      | _, _ => None end) (seq 0 (length G))).
  (** grids.py:193-202 array(ind), eval_at_indices(ind); np.column_stack of an empty list raises *)
  Definition g_array_at (G : list (list (list A))) (ind : mi) : option (list (list A)) :=
    match G with [] => None | _ => omap (g_row G) (mi_rows ind) end.
  (** grids.py:208-218 multi_indices *)
  Definition g_multi_indices (G : list (list (list A))) : option mi := bounded_by (map (fun n => Z.of_nat n - 1)%Z (g_shape G)) 0.
  (** grids.py:193-199 array() *)
  Definition g_array (G : list (list (list A))) : option (list (list A)) :=
    match g_multi_indices G with Some ind => g_array_at G ind | None => None end.
  (** grids.py:204-206 size *)
  Definition g_size (G : list (list (list A))) : nat := prodn (g_shape G).
  (** grids.py:321-327 SparseTensorGrid.array: the columns indices.to_list() index the grids *)
  Definition sg_array (G : list (list (list A))) (ind : mi) : option (list (list A)) :=
    match G with [] => None | _ => if (length G <=? mi_dim ind) then omap (g_row G) (mi_rows ind) else None end.

  (** function.py:262-270 partial_evaluation: the function of x_alpha *)
  Definition pe_fun {B} (dim : nat) (not_alpha : list nat) (f : list A -> B) (x_not_alpha x_alpha : list (list A)) : option (list B) :=
    let alpha := compl dim not_alpha in
    let ind := map (fun x => index_of x (alpha ++ not_alpha)) (seq 0 dim) in
    match g_array [x_alpha; x_not_alpha] with
    | Some g => match omap (fun p => omap (nth_error p) ind) g with Some ps => Some (map f ps) | None => None end
    | None => None end.
End Grids.

Section Eval.
  Context {R : Type} {CR : CRing R} {A : Type}.
  Local Open Scope cr_scope.
  (** the array returned by eval on the rows xs: [f p] is the value at p, of shape os, flattened in C order *)
  Definition eval_array (os : list nat) (f : list A -> list R) (xs : list (list A)) : nd R :=
    ND (length xs :: os) (fun is => nth (sub2indC os (tl is)) (f (nth (hd 0%nat is) xs [])) r0).
  (** function.py:338-360 eval_on_tensor_grid, FullTensorGrid; [os] is np.atleast_1d(output_shape) *)
  Definition eval_on_full_grid (os : list nat) (f : list A -> list R) (dim : nat) (G : list (list (list A))) : option (nd R) :=
    let* xs := g_array G in
    let fx := eval_array os f xs in
    if forallb (fun n => n =? 1)%nat os then
      let* fx := (if (1 <? dim)%nat then np_reshapeF fx (g_shape G) else Some fx) in
      np_reshapeF fx (g_shape G)
    else
      let* fx := np_reshapeF fx (g_shape G ++ os) in np_reshapeF fx (g_shape G ++ os).
  (** function.py:341-345: SparseTensorGrid, scalar functions *)
  Definition eval_on_sparse_grid (f : list A -> R) (G : list (list (list A))) (ind : mi) : option (sp R) :=
    let* xs := sg_array G ind in sp_make (map f xs) ind (g_shape G).

  (** integration_rules.py:202-215 weights_on_grid *)
  Definition col_of (w : list R) : nd R := ND [length w; 1%nat] (fun is => nth (nth 0 is 0%nat) w r0).
  Definition ravelF (T : nd R) : list R := map (fun k => get T (ind2subF (shape T) k)) (seq 0 (np_size T)).
  Definition weights_on_grid (W : list (list R)) : option (list R) :=
    option_map ravelF (cp_full (CP [r1] (map col_of W))).
  (** integration_rules.py:70-86 IntegrationRule.integrate *)
  Definition ir_integrate (points : list (list A)) (weights : list R) (f : list A -> R) : option R :=
    if (length points =? length weights)%nat
    then Some (rsum (length points) (fun k => f (nth k points []) * nth k weights r0)) else None.
  (** integration_rules.py:175-200 FullTensorProductIntegrationRule.integrate *)
  Definition tp_integrate (G : list (list (list A))) (W : list (list R)) (f : list A -> R) : option R :=
    if (length W =? length G)%nat then
      let* pts := g_array G in let* w := weights_on_grid W in ir_integrate pts w f
    else None.
End Eval.
