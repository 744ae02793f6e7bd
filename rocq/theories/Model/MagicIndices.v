(** Model of tensap/linear_algebra/magic_indices.py and of the interpolation methods of
    tensap/approximation/bases/functional_basis.py.  Real arithmetic; numpy.linalg.solve is the field [l_solve] of [lapack]
    (None when it raises LinAlgError, the matrix being singular). *)
From Coq Require Import List Arith Lia Reals Bool.
From Verif.Base Require Import ListAux CRing Index RealAux LinAlg.
From Verif.Model Require Import Measures Learning DensityL2.
Import ListNotations.
Local Open Scope R_scope.

(** np.argmax (first position) and np.max of a non-empty one-dimensional array *)
Definition rargmax (l : list R) : nat := rargmin (map Ropp l).
Definition rmax_list (l : list R) : R := nth (rargmax l) l 0.

(** F[:, J], F[I, :], F[np.ix_(I, J)], F[:, :k] *)
Definition take_cols (F : mx) (J : list nat) : mx := MX (mrows F) (length J) (fun a l => ment F a (nth l J 0%nat)).
Definition take_rows (F : mx) (Is : list nat) : mx := MX (length Is) (mcols F) (fun k b => ment F (nth k Is 0%nat) b).
Definition submatrix (F : mx) (Is J : list nat) : mx := MX (length Is) (length J) (fun k l => ment F (nth k Is 0%nat) (nth l J 0%nat)).
Definition first_cols (F : mx) (k : nat) : mx := MX (mrows F) (Nat.min k (mcols F)) (ment F).

Section Magic.
Variable L : lapack.
(** np.linalg.solve with a matrix as right-hand side: column by column *)
Definition solve_mat (M B : mx) : option mx :=
  match l_solve L M (fun r => ment B r 0%nat) with
  | None => None
  | Some _ => Some (MX (mcols M) (mcols B) (fun i j => match l_solve L M (fun r => ment B r j) with Some x => x i | None => 0 end))
  end.
(** magic_indices.py:82, 91 *)
Definition cross_matrix (F : mx) (Is J : list nat) : option mx :=
  match solve_mat (submatrix F Is J) (take_rows F Is) with Some X => Some (matmul (take_cols F J) X) | None => None end.
(** magic_indices.py:78, 88: np.argmax(np.max(np.abs(F - G), 1), 0); raises on an empty array *)
Definition worst_row (F G : mx) : option nat :=
  if (mrows F =? 0)%nat || (mcols F =? 0)%nat then None
  else Some (rargmax (map (fun a => rmax_list (map (fun b => Rabs (ment F a b - ment G a b)) (seq 0 (mcols F)))) (seq 0 (mrows F)))).
(** magic_indices.py:79 *)
Definition worst_col (F G : mx) (i : nat) : nat := rargmax (map (fun b => Rabs (ment F i b - ment G i b)) (seq 0 (mcols F))).
(** magic_indices.py:77-82; [n] iterations remain *)
Fixpoint loop_left_right (F : mx) (n : nat) (G : mx) (Is J : list nat) : option (list nat * list nat) :=
  match n with
  | 0%nat => Some (Is, J)
  | S n => match worst_row F G with
           | None => None
           | Some i => let j := worst_col F G i in
                       match cross_matrix F (Is ++ [i]) (J ++ [j]) with None => None | Some G' => loop_left_right F n G' (Is ++ [i]) (J ++ [j]) end
           end
  end.
(** magic_indices.py:87-91; [k] is the loop index, F[:, J] raises for k >= F.shape[1] *)
Fixpoint loop_left (F : mx) (n k : nat) (G : mx) (Is J : list nat) : option (list nat * list nat) :=
  match n with
  | 0%nat => Some (Is, J)
  | S n => match worst_row (first_cols F (S k)) G with
           | None => None
           | Some i => if (mcols F <=? k)%nat then None else
                       match cross_matrix F (Is ++ [i]) (J ++ [k]) with None => None | Some G' => loop_left F n (S k) G' (Is ++ [i]) (J ++ [k]) end
           end
  end.
Inductive magic_option := LeftRight | Left | Right.
Definition zero_mx (F : mx) : mx := MX (mrows F) (mcols F) (fun _ _ => 0).
(** magic_indices.py:27-96 for a two-dimensional array F *)
Definition magic_indices (F : mx) (n : option nat) (o : magic_option) : option (list nat * list nat) :=
  let n := match n with Some n => n | None => Nat.min (mrows F) (mcols F) end in
  match o with
  | LeftRight => loop_left_right F n (zero_mx F) [] []
  | Left => loop_left F n 0 (zero_mx F) [] []
  | Right => match loop_left (mtr F) n 0 (zero_mx (mtr F)) [] [] with Some (J, Is) => Some (Is, J) | None => None end
  end.

(** ** functional_basis.py.  A basis of [card] functions of one argument is given by its evaluations phi : R -> nat -> R;
    eval(x) is the matrix phi(x_i, j).  A set of points is a list. *)
Variables (card : nat) (phi : R -> nat -> R).
Definition fb_eval (x : list R) : mx := MX (length x) card (fun i j => phi (nth i x 0) j).
(** functional_basis.py:359-417 with x given (without the Lebesgue constant of the dictionary [output]) *)
Definition magic_points (x : list R) (J : option (list nat)) : option (list R * list nat) :=
  if (length x <? card)%nat then None                                                    (* assertion 397-400 *)
  else match (match J with Some J => magic_indices (take_cols (fb_eval x) J) (Some card) Left | None => magic_indices (fb_eval x) None LeftRight end) with
       | Some (ind, _) => Some (map (fun i => nth i x 0) ind, ind)
       | None => None
       end.
(** functional_basis.py:118-150: the coefficients of the interpolation of the values y *)
Definition interpolate (x : list R) (y : vec) : option vec := l_solve L (fb_eval x) y.
End Magic.
