(** Model of tensap/tensor_algebra/tensors/canonical_tensor.py (class CanonicalTensor). *)
From Coq Require Import List Arith Lia Bool ZArith.
From Verif.Base Require Import ListAux CRing Index.
From Verif.Model Require Import Sorting Numpy FullTensor Diagonal.
Import ListNotations.

Section Canonical.
  Context {R : Type} {CR : CRing R}.
  Local Open Scope cr_scope.

  (** core weights (the data of the DiagonalTensor core, whose order is the number of factors), and
      the factor matrices, one per dimension *)
  Record cp := CP { cp_core : list R; cp_space : list (nd R) }.
  Definition cp_order (x : cp) : nat := length (cp_space x).
  Definition cp_shape (x : cp) : list nat := map (fun M : nd R => nth 0 (shape M) 0%nat) (cp_space x).
  Definition cp_diag (x : cp) : dt R := dt_make (cp_core x) (cp_order x).

  (** canonical_tensor.py:80-95 __add__ (zip stops at the shorter list), __neg__, __sub__, __rsub__ *)
  Definition cp_add (x y : cp) : option cp :=
    let* sp := omap (fun p => np_concatenate (fst p) (snd p) 1) (combine (cp_space x) (cp_space y)) in
    Some (CP (cp_core x ++ cp_core y) sp).
  Definition cp_neg (x : cp) : cp := CP (map ropp (cp_core x)) (cp_space x).
  Definition cp_sub (x y : cp) : option cp := cp_add x (cp_neg y).
  Definition cp_rsub (x y : cp) : option cp := cp_add (cp_neg x) y.

  (** canonical_tensor.py:145-155 full *)
  Definition cp_full (x : cp) : option (nd R) := ft_tensor_matrix_product (dt_full (cp_diag x)) (cp_space x) None.

  (** canonical_tensor.py:246-284 tensor_matrix_product *)
  Definition cp_tensor_matrix_product (x : cp) (Ms : list (nd R)) (dims : option (list nat)) : option cp :=
    let dims := match dims with None => seq 0 (cp_order x) | Some d => d end in
    if negb (length Ms =? length dims) then None else
    let* sp := ofold (fun sp p =>
                        match nth_error sp (fst p) with
                        | None => None
                        | Some Sd => let* N := np_matmul (snd p) Sd in Some (upd (fst p) N sp)
                        end) (combine dims Ms) (cp_space x) in
    Some (CP (cp_core x) sp).

  (** canonical_tensor.py:204-244 squeeze: a number ([inl]) when no dimension remains *)
  Definition cp_squeeze (x : cp) (dims : option (list nat)) : option (nd R + cp) :=
    let dims := match dims with
                | None => filter (fun k => nth k (cp_shape x) 0%nat =? 1) (seq 0 (cp_order x))
                | Some d => d end in
    if negb (forallb (fun k => (k <? cp_order x) && (nth k (cp_shape x) 0%nat =? 1)) dims) then None else
    let dims := sel 0%nat dims (np_argsort dims) in
    let remaining := compl (cp_order x) dims in
    match remaining with
    | [] => let* F := cp_full x in let* G := ft_squeeze F None in Some (inl G)
    | _ =>
      Some (inr (CP (fold_left (fun core d => map (fun k => nth k core r0 * get (nth d (cp_space x) (scalar r0)) [0%nat; k])
                                                  (seq 0 (length core))) dims (cp_core x))
                    (map (fun k => nth k (cp_space x) (scalar r0)) remaining)))
    end.
  (** canonical_tensor.py:169-202 tensor_vector_product *)
  Definition cp_tensor_vector_product (x : cp) (vs : list (nd R)) (dims : option (list nat)) : option (nd R + cp) :=
    let dims := match dims with None => seq 0 (cp_order x) | Some d => d end in
    if negb (length vs =? length dims) then None else
    let* y := cp_tensor_matrix_product x (map row_of_vector vs) (Some dims) in
    cp_squeeze y (Some dims).
  (** canonical_tensor.py:488-513 reduce_sum *)
  Definition cp_reduce_sum (x : cp) (dims : option (list nat)) : option (nd R + cp) :=
    let dims := match dims with None => seq 0 (cp_order x) | Some d => d end in
    cp_tensor_vector_product x (map (fun d => np_ones [nth d (cp_shape x) 0%nat]) dims) (Some dims).

  (** canonical_tensor.py:311-361 eval_diag() over all dimensions.  [out *= self.space[k]] is done in
      place on self.space[0]: the second component is self after the call.  (Equal shapes; numpy's
      broadcasting of size 1 is not modelled.)  For a strict subset of the dimensions the code
      indexes a list by an array: TypeError. *)
  Definition cp_eval_diag (x : cp) : option (nd R * cp) :=
    match cp_space x with
    | [] => None
    | S0 :: rest =>
      let* out := ofold (fun out Sd => if list_eqb (shape out) (shape Sd)
                                      then Some (ND (shape out) (fun is => get out is * get Sd is)) else None) rest S0 in
      match shape out with
      | [n; r] =>
        if r =? length (cp_core x)
        then Some (ND [n] (fun is => rsum r (fun k => get out [nth 0 is 0%nat; k] * nth k (cp_core x) r0)),
                   CP (cp_core x) (out :: rest))
        else None
      | _ => None
      end
    end.
  (** canonical_tensor.py:286-309 tensor_matrix_product_eval_diag, all dimensions (the in-place
      product acts on the fresh matrices of the product) *)
  Definition cp_tensor_matrix_product_eval_diag (x : cp) (Ms : list (nd R)) : option (nd R) :=
    let* y := cp_tensor_matrix_product x Ms None in
    let* r := cp_eval_diag y in Some (fst r).

  (** canonical_tensor.py:363-384 dot: Gram matrices of the factors (zip), then the core *)
  Definition np_T (M : nd R) : nd R := ND (rev (shape M)) (fun is => get M (rev is)).
  Definition cp_dot (x y : cp) : option R :=
    let* ms := omap (fun p => np_matmul (np_T (fst p)) (snd p)) (combine (cp_space x) (cp_space y)) in
    dt_dot_with_rank_one_metric (cp_diag x) (cp_diag y) ms.

  (** canonical_tensor.py:405-441 storage, representation_rank *)
  Definition cp_storage (x : cp) : nat := length (cp_core x) + sumn (map (fun M : nd R => np_size M) (cp_space x)).
  Definition cp_rank (x : cp) : nat := length (cp_core x).

  (** canonical_tensor.py:443-486 parameter_gradient_eval_diag(mu, matrices); mu = 1..order is a
      factor, mu = order + 1 the core *)
  Definition cp_prod_factors (n r : nat) (Ss : list (nd R)) : option (nd R) :=
    ofold (fun out Sd => if list_eqb (shape out) (shape Sd)
                        then Some (ND (shape out) (fun is => get out is * get Sd is)) else None) Ss (np_ones [n; r]).
  Definition cp_parameter_gradient_eval_diag (x : cp) (mu : nat) (matrices : option (list (nd R))) : option (nd R) :=
    let r := length (cp_core x) in
    if mu =? cp_order x + 1 then
      cp_prod_factors (nth 0 (cp_shape x) 0%nat) r (cp_space x)
    else
      let no_mu := filter (fun k => negb (k =? mu)) (seq 1 (cp_order x)) in
      match no_mu with
      | [] => None
      | m0 :: _ =>
        let* f_mu := cp_prod_factors (nth (m0 - 1) (cp_shape x) 0%nat) r
                       (map (fun k => nth (k - 1) (cp_space x) (scalar r0)) no_mu) in
        match matrices with
        | Some ms => ft_outer_eval_diag f_mu (nth (mu - 1) ms (scalar r0)) [0%nat] [0%nat] false
        | None => ft_outer_eval_diag f_mu (np_eye (nth (mu - 1) (cp_shape x) 0%nat)) [] [] true
        end
      end.
End Canonical.
Arguments cp R : clear implicits.
