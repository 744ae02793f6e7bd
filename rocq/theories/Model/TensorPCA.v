(** Model of tensap/approximation/tensor_approximation/principal_component_analysis/tensor_principal_component_analysis.py (class
    TensorPrincipalComponentAnalysis) and of FullTensor.principal_components (full_tensor.py:1143-1209), over the reals.
    svd is np.linalg.svd (contract: Spec/TruncatorSpec.v), L: np.linalg.solve (contract: Spec/LearningSpec.v).  The function [f] is
    applied to each row of an array of multi-indices.  Numbers that may be np.inf are [option R], None being np.inf.
    pca_sampling_factor is a natural number.  Not modelled: the display. *)
From Coq Require Import List Arith Lia Bool Reals.
From Verif.Base Require Import ListAux CRing Index RealAux LinAlg.
From Verif.Model Require Import Sorting Numpy FullTensor Diagonal Canonical DimensionTree TreeBased Truncator HSVD Functions Measures Learning DensityL2 MagicIndices AltMin.
Import ListNotations.
Local Open Scope R_scope.

(** a matrix as a two-dimensional array; np.eye(n) *)
Definition nd_of (M : mx) : nd R := ND [mrows M; mcols M] (fun is => ment M (nth 0 is 0%nat) (nth 1 is 0%nat)).
Definition eye_mx (n : nat) : mx := MX n n (fun i j => if (i =? j)%nat then 1 else 0).
(** np.min((a, b)) *)
Definition omin (a b : option R) : option R :=
  match a, b with Some x, Some y => Some (Rmin x y) | Some x, None => Some x | None, b => b end.
(** p < 1 *)
Definition lt1 (p : option R) : bool := match p with Some x => if Rlt_dec x 1 then true else false | None => false end.
(** int(x) and int(np.ceil(x)) for x >= 0 *)
Definition floor_nat (x : R) : nat := Z.to_nat (Int_part x).
Definition ceil_nat (x : R) : nat := Z.to_nat (- Int_part (- x)).
(** random_multi_indices.py: X_not_alpha.random(N), N draws of the multi-indices of the dimensions not_alpha *)
Definition sampler := list nat -> nat -> list (list nat).
Inductive subsampling := EIM | Random.

Section PCA.
  Variable svd : nd R -> nd R * list R * nd R.
  Variable L : lapack.

  (** full_tensor.py:1168-1179 principal_components (the diagonal matrix of the singular values is given by its diagonal).
      The default of the parameter is the number of rows, which is also what np.inf gives. *)
  Definition principal_components (A : nd R) (p : option R) : option (mx * list R) :=
    if negb (ndim A =? 2)%nat then None else
    let m := nth 0 (shape A) 0%nat in
    let p := match p with Some x => if Rlt_dec (INR m) x then INR m else x | None => INR m end in
    let t := if Rlt_dec p 1 then Trunc p [None] Hard None else Trunc 0 [Some (floor_nat p)] Hard None in
    let* c := trunc_svd svd t A None (Pw 2) in
    Some (to_mx (nth 0 (cp_space c) (scalar 0)), cp_core c).
  (** full_tensor.py:1206-1209 alpha_principal_components *)
  Definition ft_alpha_pc (A : nd R) (alpha : list nat) (p : option R) : option (mx * list R) :=
    let* M := ft_matricize A alpha None in principal_components M p.

  (** the attributes of the object *)
  Variable factor : nat.                                   (* pca_sampling_factor *)
  Variable adaptive : bool.                                (* pca_adaptive_sampling *)
  Variable f : list nat -> R.
  Variable shp : list nat.

  (** array[:, ind] *)
  Definition columns (ind : list nat) (g : list (list nat)) : option (list (list nat)) := omap (fun p => omap (nth_error p) ind) g.
  (** what alpha_principal_components returns; pca_pts: all the points at which f has been evaluated *)
  Record pca_out := PO { po_pc : mx; po_sv : list R; po_n : nat; po_samples : list (list nat); po_pts : list (list nat) }.

  (** tensor_principal_component_analysis.py:150-161: the loop over k; [todo]: the rows I_not_alpha[k:], A: the columns found so far,
      last: what the last iteration has computed.  1e-15 *)
  Definition tiny : R := / 10 ^ 15.
  Fixpoint adapt_loop (ind : list nat) (p : option R) (B : mx) (I : list (list nat)) (todo : list (list nat)) (k : nat) (A : mx)
    (pts : list (list nat)) (last_res : option (mx * list R * list (list nat))) : option pca_out :=
    match todo with
    | [] => match last_res with None => None (* pc is not defined *)
                              | Some (pc, sv, g) => Some (PO pc sv (length I * k) g pts) end
    | z :: todo =>
      let* g := g_array [I; [z]] in
      let* q := columns ind g in
      if negb (length q =? mrows B)%nat then None else
      let* x := l_solve L B (fun i => f (nth i q [])) in
      let A := MX (mrows A) (S (mcols A)) (fun i j => if (j <? mcols A)%nat then ment A i j else x i) in
      let* r := principal_components (nd_of A) p in
      match snd r with
      | [] => None                                        (* sin_val[-1, -1] *)
      | s0 :: s =>
        if (if Rlt_dec (last (snd r) 0) tiny then true else false) || (mcols (fst r) <? (S k + factor - 1) / factor)%nat
        then Some (PO (fst r) (snd r) (length I * S k) g (pts ++ q))
        else adapt_loop ind p B I todo (S k) A (pts ++ q) (Some (fst r, snd r, g))
      end
    end.
  (** tensor_principal_component_analysis.py:133-137 N (None: N is infinite) *)
  Definition pca_samples (p : option R) (B : mx) : option nat :=
    if lt1 p then Some (factor * mcols B)%nat
    else match p with Some x => Some (ceil_nat (INR factor * x)) | None => None end.
  (** tensor_principal_component_analysis.py:125-174 alpha_principal_components; [rnd] is X_not_alpha.random *)
  Definition alpha_pc (alpha : list nat) (p : option R) (B : mx) (I : list (list nat)) (rnd : sampler) : option pca_out :=
    let d := length shp in
    let not_alpha := compl d alpha in
    let* N := pca_samples p B in
    let I_not := rnd not_alpha N in
    let ind := map (fun x => index_of x (alpha ++ not_alpha)) (seq 0 d) in
    if lt1 p && adaptive then adapt_loop ind p B I I_not 0 (MX (length I) 0 (fun _ _ => 0)) [] None
    else
      let* g := g_array [I; I_not] in
      let* q := columns ind g in
      let* A := np_reshapeF (ND [length q] (fun is => f (nth (nth 0 is 0%nat) q []))) [mrows B; N] in
      let* A := solve_mat L B (to_mx A) in
      let* r := principal_components (nd_of A) p in
      Some (PO (fst r) (snd r) (length I * N) g q).

  (** tensor_principal_component_analysis.py:547-569 _tensor_product_b_alpha *)
  Definition tensor_product_bases (Bs : list mx) : option mx :=
    match map nd_of Bs with
    | [] => None
    | B0 :: Bs =>
      let* B := ofold (fun B C => ft_tensordot B C [] []) Bs B0 in
      let* M := ft_matricize B (filter Nat.even (seq 0 (ndim B))) None in
      Some (to_mx M)
    end.
  (** tensor_principal_component_analysis.py:407-419, 215-225: one value, or one for each node *)
  Definition expand_param (n : nat) (l : list (option R)) : option (list (option R)) :=
    match l with [x] => Some (repeat x n) | _ => if (length l =? n)%nat then Some l else None end.
  (** tensor_principal_component_analysis.py:176-238 hopca; [rnd alpha] gives the draws *)
  Definition hopca (tol mr : list (option R)) (rnd : nat -> sampler) : option (list pca_out) :=
    let d := length shp in
    let* tol := expand_param d tol in
    let* mr := expand_param d mr in
    omap (fun a => alpha_pc [a] (omin (nth a tol None) (nth a mr None)) (eye_mx (nth a shp 0%nat)) (map (fun i => [i]) (seq 0 (nth a shp 0%nat))) (rnd a)) (seq 0 d).

  (** the variables of tree_based_approximation *)
  Record pca_state := PS { ps_cores : list (nd R); ps_basis : list mx; ps_grid : list (list (list nat)); ps_n : nat; ps_pts : list (list nat) }.
  Definition nthb (st : pca_state) (n : nat) : mx := nth (n - 1) (ps_basis st) (MX 0 0 (fun _ _ => 0)).
  Definition nthg (st : pca_state) (n : nat) : list (list nat) := nth (n - 1) (ps_grid st) [].
  Definition put (n : nat) (C : nd R) (B : mx) (g : list (list nat)) (k : nat) (q : list (list nat)) (st : pca_state) : pca_state :=
    PS (setc n C (ps_cores st)) (ListAux.upd (n - 1)%nat B (ps_basis st)) (ListAux.upd (n - 1)%nat g (ps_grid st)) (ps_n st + k) (ps_pts st ++ q).

  (** lines 428-468: the body of the loop over the dimensions; choice: np.random.choice(range(m), size=r, replace=False) *)
  Definition leaf_step (t : dtree) (act : list bool) (tol mr : list (option R)) (sub : subsampling) (rnd : nat -> sampler)
    (choice : nat -> nat -> nat -> list nat) (st : pca_state) (nu : nat) : option pca_state :=
    let n := nth nu (d2i t) 0%nat in
    let m := nth nu shp 0%nat in
    let B := eye_mx m in
    let g := map (fun i => [i]) (seq 0 m) in
    if nth (n - 1) act false then
      let* r := alpha_pc [nu] (omin (nth (n - 1) tol None) (nth (n - 1) mr None)) B g (rnd n) in
      let* C := np_reshapeF (nd_of (po_pc r)) [m; mcols (po_pc r)] in
      let B := matmul B (po_pc r) in
      let* Is := match sub with
                 | EIM => let* IJ := magic_indices L B None LeftRight in Some (fst IJ)
                 | Random => if (mcols B <=? mrows B)%nat then Some (choice n (mrows B) (mcols B)) else None
                 end in
      Some (put n C (take_rows B Is) (map (fun i => nth i g []) Is) (po_n r) (po_pts r) st)
    else Some (PS (ps_cores st) (ListAux.upd (n - 1)%nat B (ps_basis st)) (ListAux.upd (n - 1)%nat g (ps_grid st)) (ps_n st) (ps_pts st)).
  (** lines 474-515: the body of the loop over the internal nodes *)
  Definition inner_step (t : dtree) (tol mr : list (option R)) (rnd : nat -> sampler) (st : pca_state) (n : nat) : option pca_state :=
    let ch := children t n in
    let* B := tensor_product_bases (map (nthb st) ch) in
    let* g := g_array (map (nthg st) ch) in
    let* r := alpha_pc (dims t n) (omin (nth (n - 1) tol None) (nth (n - 1) mr None)) B g (rnd n) in
    let* C := np_reshapeF (nd_of (po_pc r)) (map (fun c => mcols (nthb st c)) ch ++ [mcols (po_pc r)]) in
    let B := matmul B (po_pc r) in
    let* IJ := magic_indices L B None LeftRight in
    Some (put n C (take_rows B (fst IJ)) (map (fun i => nth i g []) (fst IJ)) (po_n r) (po_pts r) st).
  (** lines 470-473: the order of the loop *)
  Definition inner_nodes (t : dtree) : list nat :=
    flat_map (fun l => filter (fun n => negb (is_leaf t n)) (nodes_with_level t l)) (rev (seq 1 (max_level t))).
  (** lines 517-534: the root *)
  Definition root_step (t : dtree) (st : pca_state) : option pca_state :=
    let r := root t in
    let ch := children t r in
    let* B := tensor_product_bases (map (nthb st) ch) in
    let* g := g_array (map (nthg st) ch) in
    let* q := columns (map (fun x => index_of x (dims t r)) (seq 0 (length shp))) g in
    if negb (length q =? mrows B)%nat then None else
    let* x := l_solve L B (fun i => f (nth i q [])) in
    let* C := np_reshapeF (ND [mcols B] (fun is => x (nth 0 is 0%nat))) (map (fun c => mcols (nthb st c)) ch) in
    Some (PS (setc r C (ps_cores st)) (ps_basis st) (ListAux.upd (r - 1)%nat g (ps_grid st)) (ps_n st + length g) (ps_pts st ++ q)).
  (** lines 404-405: tol /= np.sqrt(np.count_nonzero(is_active_node) - 1), for a scalar tolerance < 1 *)
  Definition local_tol (act : list bool) (tol : list (option R)) : list (option R) :=
    match tol with
    | [Some x] => if Rlt_dec x 1 then [Some (x / sqrt (INR (count_occ bool_dec act true - 1)))] else tol
    | _ => tol
    end.
  (** tensor_principal_component_analysis.py:398-544 tree_based_approximation.  The result: the tensor and the final values of the
      variables (number_of_evaluations, alpha_basis, alpha_grids) *)
  Definition tree_based_approximation (tol mr : list (option R)) (sub : subsampling) (rnd : nat -> sampler) (choice : nat -> nat -> nat -> list nat)
    (t : dtree) (act : option (list bool)) : option (tbt R * pca_state) :=
    let act := match act with None => repeat true (nbn t) | Some a => a end in
    let* tol := expand_param (nbn t) (local_tol act tol) in
    let* mr := expand_param (nbn t) mr in
    let st := PS (repeat no_core (nbn t)) (repeat (MX 0 0 (fun _ _ => 0)) (nbn t)) (repeat [] (nbn t)) 0 [] in
    let* st := ofold (leaf_step t act tol mr sub rnd choice) (seq 0 (length shp)) st in
    let* st := ofold (inner_step t tol mr rnd) (inner_nodes t) st in
    let* st := root_step t st in
    let* X := tb_make (ps_cores st) t in
    Some (X, st).
  (** lines 279-293, 340-354: an array with one value per node of [ns] is spread over all the nodes; one value is kept *)
  Definition spread_param (n : nat) (ns : list nat) (l : list (option R)) : option (list (option R)) :=
    match l with
    | [x] => Some l
    | _ => if (length l =? length ns)%nat then Some (fold_left (fun a p => ListAux.upd (fst p - 1)%nat (snd p) a) (combine ns l) (repeat (Some 0) n)) else None
    end.
  (** tensor_principal_component_analysis.py:275-295 tucker_approximation.  (order >= 2: a list with one element is a scalar) *)
  Definition tucker_approximation (tol mr : list (option R)) (sub : subsampling) (rnd : nat -> sampler) (choice : nat -> nat -> nat -> list nat) : option (tbt R * pca_state) :=
    let d := length shp in
    let t := dt_trivial d in
    let* tol := spread_param (d + 1) (d2i t) tol in
    let* mr := spread_param (d + 1) (d2i t) mr in
    tree_based_approximation tol mr sub rnd choice t None.
  (** tensor_principal_component_analysis.py:332-356 tt_approximation *)
  Definition tt_approximation (tol mr : list (option R)) (sub : subsampling) (rnd : nat -> sampler) (choice : nat -> nat -> nat -> list nat) : option (tbt R * pca_state) :=
    let d := length shp in
    let t := dt_linear d (seq 0 d) in
    let act := fold_left (fun a n => ListAux.upd (n - 1)%nat false a) (tl (d2i t)) (repeat true (nbn t)) in
    let rep := rev (tl (filter (fun n => nth (n - 1) act false) (nodes t))) in
    let* tol := spread_param (nbn t) rep tol in
    let* mr := spread_param (nbn t) rep mr in
    tree_based_approximation tol mr sub rnd choice t (Some act).
End PCA.
