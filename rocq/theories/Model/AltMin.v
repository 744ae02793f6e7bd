(** Model of the alternating minimisation of TreeBasedTensorLearning with the square loss:
    tensap/approximation/tensor_approximation/tensor_learning/tensor_learning.py:372-540 (_solve_standard),
    tree_based_tensor_learning.py:165-175, 200-272, learning/linear_model_learning_square_loss.py:74-215 (solve, _solve_ols).
    Modelled: the square loss, no basis adaptation, no regularisation, no weights, no error estimation (which does not change the
    solution), not randomised.  Real arithmetic, so that np.isfinite holds.  The learning data are the values [y] and the evaluations
    [Bs] of the bases.  svd, qr, mrank, pinv, inv: np.linalg, as in Model/OrthNode.v; [L]: np.linalg in Model/Learning.v. *)
From Coq Require Import List Arith Lia Bool Reals.
From Verif.Base Require Import ListAux CRing Index RealAux LinAlg.
From Verif.Model Require Import Sorting Numpy FullTensor Diagonal Canonical DimensionTree TreeBased TreeEval Truncator HSVD HsvdTree OrthNode TreeGrad FuncGrad Learning.
Import ListNotations.
Local Open Scope R_scope.

Section AltMin.
  Variable svd : nd R -> nd R * list R * nd R.
  Variable qr : nd R -> nd R * nd R.
  Variable mrank : nd R -> nat.
  Variable pinv : nd R -> nd R.
  Variable inv : nd R -> option (nd R).
  Variable L : lapack.
  Variable s : solver.
  Variable Bs : list (nd R).
  Variable y : nd R.

  (** a two-dimensional array as a matrix of Model/Learning.v *)
  Definition to_mx (A : nd R) : mx := MX (nth 0 (shape A) 0%nat) (nth 1 (shape A) 0%nat) (fun i j => get A [i; j]).
  (** linear_model_learning_square_loss.py:163-191 _solve_ols with an array of values of order 1 or 2 (np.linalg.solve and lstsq treat the
      columns of the right-hand side one by one).  None when np.matmul raises (numbers of rows). *)
  Definition ols_nd (A v : nd R) : option (nd R) :=
    let N := nth 0 (shape A) 0%nat in let P := nth 1 (shape A) 0%nat in
    if (ndim A =? 2)%nat && (nth 0 (shape v) 0%nat =? N)%nat then
      match shape v with
      | [_] => Some (ND [P] (fun jc => ols L s (to_mx A) (fun i => get v [i]) (nth 0 jc 0%nat)))
      | [_; n] => Some (ND [P; n] (fun jc => ols L s (to_mx A) (fun i => get v [i; nth 1 jc 0%nat]) (nth 0 jc 0%nat)))
      | _ => None
      end
    else None.
  (** linear_model_learning_square_loss.py:92-117; the -1 of np.reshape is the remaining size.  AssertionError: None *)
  Definition ls_solve (shared : bool) (A v : nd R) : option (nd R) :=
    if shared && (ndim A =? 3)%nat then
      let P := nth 1 (shape A) 0%nat in let d := nth 2 (shape A) 0%nat in
      if (ndim v =? 1)%nat && (d =? 1)%nat || (ndim v =? 2)%nat && (d =? nth 1 (shape v) 0)%nat then
        let* A1 := np_transpose A [0; 2; 1]%nat in
        let* A2 := np_reshapeF A1 [(prodn (shape A1) / nth 2 (shape A1) 0)%nat; nth 2 (shape A1) 0%nat] in
        let* v2 := np_reshapeF v [prodn (shape v); 1%nat] in
        ols_nd A2 v2
      else None
    else ols_nd A v.
  (** tree_based_tensor_learning.py:222-236: the matrix of the linear system (the initial guess is not used by the solver) *)
  Definition am_matrix (Z : tbt R) (mu : nat) (G : nd R) : option (nd R) :=
    let q := nth 0 (shape G) 0%nat in
    if (mu =? root (ttree Z))%nat then np_reshapeF G [q; (prodn (shape G) / q)%nat]
    else let d := tb_rank Z (root (ttree Z)) in np_reshapeF G [q; (prodn (shape G) / (q * d))%nat; d].
  (** whether is_orth is True with orth_node equal to the root after orth_at_node (tree_based_tensor.py:1787-1789, 1826-1828, 1844-1845) *)
  Definition orth_flag (is_orth : bool) (X : tbt R) (n : nat) : bool :=
    if (n =? root (ttree X))%nat then true
    else match tb_gramians qr is_orth X (Some [n]) with
         | Some (gr, _) => match nth 0 gr None with
                           | Some G => match orth_factors svd mrank pinv inv G with Some None => true | _ => false end
                           | None => false
                           end
         | None => false
         end.
  (** np.count_nonzero(coef) == 0 *)
  Definition all_zero (c : nd R) : bool := forallb (fun is => if Req_EM_T (get c is) 0 then true else false) (boxF (shape c)).
  (** the tensor with its flag (is_orth and orth_node == root) *)
  Definition amstate : Type := tbt R * bool.
  (** tree_based_tensor_learning.py:213-236, 261-272, tensor_learning.py:446-465: the update of the core of mu.  The Boolean says
      that the loop is left (zero solution, 452-463); the tensor is then the orthonormalised one.  None: an exception. *)
  Definition am_step (st : amstate) (mu : nat) : option (bool * amstate) :=
    let (X, fl) := st in
    let* Z := orth_at_node svd qr mrank pinv inv fl X mu in
    let fl' := orth_flag fl X mu in
    let* G := ften_param_grad Z Bs mu in
    let* A := am_matrix Z mu G in
    let* c := ls_solve (negb (mu =? root (ttree Z))%nat) A y in
    if all_zero c then Some (true, (Z, fl'))
    else let* C := np_reshapeF c (shape (core Z mu)) in
         Some (false, (TB (ttree Z) (setc mu C (cores Z)), fl')).
  (** tensor_learning.py:445-465: the loop over the parameters *)
  Fixpoint am_sweep (st : amstate) (l : list nat) : option amstate :=
    match l with
    | [] => Some st
    | mu :: l => let* p := am_step st mu in if (fst p : bool) then Some (snd p) else am_sweep (snd p) l
    end.
  (** tree_based_tensor_learning.py:167-175: the order in which the nodes are visited *)
  Definition am_strategy (X : tbt R) : list nat :=
    flat_map (fun l => filter (fun n => inb n (active_nodes X)) (nodes_with_level (ttree X) l)) (seq 0 (S (max_level (ttree X)))).
  (** tensor_learning.py:433-524: at most k more iterations, the current one being [it].  [stop it f f0] says whether the loop is
      left after iteration it (515-524: stagnation, computed from f and f0, or test error, computed from f).  Result: the iterates. *)
  Fixpoint am_iterates (stop : nat -> tbt R -> tbt R -> bool) (l : list nat) (k it : nat) (st : amstate) : option (list amstate) :=
    match k with
    | 0 => Some []
    | S k => let* st' := am_sweep st l in
             if stop it (fst st') (fst st) then Some [st']
             else let* r := am_iterates stop l k (S it) st' in Some (st' :: r)
    end%nat.
  (** tensor_learning.py:391-540 from the tensor returned by initialize: the last tensor and the list of the iterates *)
  Definition am_solve (stop : nat -> tbt R -> tbt R -> bool) (max_iterations : nat) (st : amstate) : option (tbt R * list (tbt R)) :=
    let* its := am_iterates stop (am_strategy (fst st)) max_iterations 0 st in
    Some (fst (last its st), map fst its).
End AltMin.
