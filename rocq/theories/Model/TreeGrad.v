(** Model of tensap/tensor_algebra/tensors/tree_based_tensor.py:2048-2312: eval_diag_below, eval_diag_above,
    parameter_gradient_eval_diag.  The arrays of FullTensor or None are lists of options; an exception is None. *)
From Coq Require Import List Arith Lia Bool.
From Verif.Base Require Import ListAux CRing Index.
From Verif.Model Require Import Sorting Utils Numpy FullTensor DimensionTree TreeBased TreeEval HsvdTree.
Import ListNotations.

Section TreeGrad.
  Context {R : Type} {CR : CRing R}.
  Local Open Scope cr_scope.

  (** tree.child_number(c) - 1 *)
  Definition chpos (t : dtree) (c : nat) : nat := (child_number t c - 1)%nat.
  (** children[is_active_node[children - 1]] and fast_setdiff(children, active_ch); the children of a node are increasing *)
  Definition act_of (X : tbt R) (ch : list nat) : list nat := filter (active X) ch.
  Definition inact_of (X : tbt R) (ch : list nat) : list nat := filter (fun c => negb (active X c)) ch.
  (** the outer products of the entries of [s] for the nodes [L] (2097-2101, 2182-2186, 2281-2285) *)
  Definition diag_acc (s : list (option (nd R))) (L : list nat) : option (nd R) :=
    let* Ts := omap (fun c => nth (c - 1) s None) L in ed_acc Ts.
  (** [diag.transpose(concatenate(([d], setdiff(arange(order), d))))] after eval_diag along the axes [ds] if there are several
      (2116-2128, 2201-2219) *)
  Definition diag_front (C : nd R) (ds : list nat) : option (nd R) :=
    match ds with
    | [] => None
    | d :: _ => let* D := if (1 <? length ds)%nat then ft_eval_diag C (Some ds) else Some C in
                ft_transpose D (d :: compl (ndim D) [d])
    end.

  (** tree_based_tensor.py:2092-2128 body of the loop of eval_diag_below; [s] is diag_below.  The loop runs over the active
      internal nodes outside exclude_list; the entries of the other nodes are left unchanged. *)
  Definition diag_below_node (X : tbt R) (excl : list nat) (s : list (option (nd R))) (n : nat) : option (option (nd R)) :=
    let t := ttree X in
    if is_leaf t n || negb (active X n) || inb n excl then Some (nth (n - 1) s None) else
    let ch := filter (fun c => negb (inb c excl)) (children t n) in
    let act := act_of X ch in
    let inact := inact_of X ch in
    let* C := nth (n - 1) s None in
    let* T := match act with
              | _ :: _ =>
                let* tmp := diag_acc s act in
                match inact with
                | _ :: _ => if (n =? root t)%nat then ft_tensordot tmp C (seq 1 (ndim tmp - 1)) (map (chpos t) act)
                            else ft_tensordot_eval_diag C tmp (map (chpos t) act) (seq 1 (ndim tmp - 1)) (map (chpos t) inact) [0%nat] false
                | [] => ft_tensordot tmp C (seq 1 (ndim tmp - 1)) (map (chpos t) act)
                end
              | [] => diag_front C (map (chpos t) inact)
              end in
    Some (Some T).
  (** tree_based_tensor.py:2075-2083 exclude_list; np.union1d returns the sorted union (the nodes are 1 .. nb_nodes) *)
  Definition below_excl (X : tbt R) (alpha : option nat) (except : list nat) : list nat :=
    let t := ttree X in
    match alpha with
    | Some a => if (a =? root t)%nat then except else filter (fun n => inb n (a :: ascendants t a ++ except)) (nodes t)
    | None => except
    end.
  (** tree_based_tensor.py:2048-2130 eval_diag_below(alpha, except_nodes); line 2084 does not reset the first excluded node *)
  Definition tb_diag_below (X : tbt R) (alpha : option nat) (except : list nat) : option (list (option (nd R))) :=
    let excl := below_excl X alpha except in
    let s0 := fold_left (fun s n => upd (n - 1) None s) (tl excl) (map Some (cores X)) in
    ofold (fun s n => match diag_below_node X excl s n with Some a => Some (upd (n - 1) a s) | None => None end) (bottom_up (ttree X)) s0.

  (** tree_based_tensor.py:2176-2225 body of the loop of eval_diag_above; [db] is diag_below, [da] diag_above *)
  Definition diag_above_node (X : tbt R) (db da : list (option (nd R))) (n : nat) : option (nd R) :=
    let t := ttree X in
    let p := parent t n in
    let ch := filter (fun c => negb (c =? n)%nat) (children t p) in
    let act := act_of X ch in
    let inact := inact_of X ch in
    let C := core X p in
    let* T := match act with
              | _ :: _ =>
                let* tmp := diag_acc db act in
                match inact with
                | _ :: _ => ft_tensordot_eval_diag tmp C (seq 1 (ndim tmp - 1)) (map (chpos t) act) [0%nat] (map (chpos t) inact) false
                | [] => ft_tensordot tmp C (seq 1 (ndim tmp - 1)) (map (chpos t) act)
                end
              | [] => diag_front C (map (chpos t) inact)
              end in
    if (p =? root t)%nat then Some T else
    let* P := nth (p - 1) da None in
    let* U := ft_tensordot_eval_diag P T [1%nat] [2%nat] [0%nat] [0%nat] false in
    if (ndim U =? 3)%nat then ft_transpose U [0%nat; 2%nat; 1%nat] else Some U.
  (** tree_based_tensor.py:2132-2228 eval_diag_above(diag_below, alpha), the array before line 2226; the levels are 1 .. max *)
  Definition tb_diag_above (X : tbt R) (db : list (option (nd R))) (alpha : option nat) : option (list (option (nd R))) :=
    let t := ttree X in
    let incl := match alpha with None => nodes t | Some a => a :: ascendants t a end in
    let* da0 := match alpha with
                | Some a => if (a =? root t)%nat
                            then let* B := nth (a - 1) db None in Some (upd (a - 1) (Some (ND (shape B) (fun _ => r1))) (repeat None (nbn t)))
                            else Some (repeat None (nbn t))
                | None => Some (repeat None (nbn t))
                end in
    ofold (fun da n => if active X n && inb n incl
                       then match diag_above_node X db da n with Some a => Some (upd (n - 1) (Some a) da) | None => None end
                       else Some da)
          (flat_map (nodes_with_level t) (seq 1 (max_level t))) da0.

  (** tree_based_tensor.py:2230-2312 parameter_gradient_eval_diag(alpha, matrices) *)
  Definition ones1 (n : nat) : nd R := ND [n] (fun _ => r1).
  Definition tb_param_grad (X : tbt R) (alpha : nat) (Ms : option (list (nd R))) : option (nd R) :=
    let t := ttree X in
    let* db := tb_diag_below X (Some alpha) [] in
    let* da := tb_diag_above X db (Some alpha) in
    let* above := nth (alpha - 1) da None in
    let q := nth 0 (shape above) 0%nat in
    let act := act_of X (children t alpha) in
    let inact := inact_of X (children t alpha) in
    let mat := fun c Ms => nth (index_of c (d2i t)) Ms (scalar r0) in
    let* out :=
      if is_leaf t alpha then
        match Ms with
        | Some Ms => ft_outer_eval_diag (ones1 q) (mat alpha Ms) [0%nat] [0%nat] false
        | None => let* B := nth (alpha - 1) db None in
                  ft_outer_eval_diag (ones1 q) (np_eye (nth 0 (shape B) 0%nat)) [] [] true
        end
      else
        let* tmp := ofold (fun tmp c => match Ms with
                                        | Some Ms => ft_outer_eval_diag tmp (mat c Ms) [0%nat] [0%nat] false
                                        | None => ft_outer_eval_diag tmp (np_eye (nth (chpos t c) (shape (core X alpha)) 0%nat)) [] [] true
                                        end) inact (ones1 q) in
        match act, inact with
        | _ :: _, [] => diag_acc db act
        | _ :: _, _ :: _ => let* out := diag_acc db act in ft_outer_eval_diag out tmp [0%nat] [0%nat] false
        | [], _ :: _ => Some tmp
        | [], [] => None
        end in
    if (alpha =? root t)%nat then Some out else ft_outer_eval_diag out above [0%nat] [0%nat] false.
End TreeGrad.
