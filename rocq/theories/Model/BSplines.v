(** Model of tensap/approximation/bases/BSplines_functional_basis.py over the reals (floating point
    idealised), at one point x: the arrays with one row per point are processed row by row.  The knots are a
    list t.  A layer [Bx[., :, j]] is a list of t.size - 1 entries. *)
From Coq Require Import List Arith Lia Reals Bool ZArith.
From Verif.Base Require Import ListAux CRing RealAux.
Import ListNotations.
Local Open Scope R_scope.

Definition kn (t : list R) (i : nat) : R := nth i t 0.

(** BSplines_functional_basis.py:98-100: layer 0 *)
Definition bs_layer0 (t : list R) (x : R) : list R :=
  map (fun i => if Rlt_dec (kn t i) x then if Rle_dec x (kn t (S i)) then 1 else 0 else 0) (seq 0 (length t - 1)).
(** 103-106: layer j from layer j - 1 (the entries i >= t.size - 1 - j stay 0) *)
Definition bs_layer (t : list R) (x : R) (prev : list R) (j : nat) : list R :=
  map (fun i => if (i <? length t - 1 - j)%nat then
                  (x - kn t i) / (kn t (i + j) - kn t i) * nth i prev 0
                  + (kn t (i + j + 1) - x) / (kn t (i + j + 1) - kn t (i + 1)) * nth (i + 1) prev 0
                else 0) (seq 0 (length t - 1)).
(** 79-108 eval_sequence: the layers 0..degree *)
Definition eval_sequence (t : list R) (degree : nat) (x : R) : list (list R) :=
  fold_left (fun Bx j => Bx ++ [bs_layer t x (nth (j - 1) Bx []) j]) (seq 1 degree) [bs_layer0 t x].
(** 57-66 cardinal; 110-129 eval *)
Definition bs_cardinal (t : list R) (degree : nat) : nat := (length t - 1 - degree)%nat.
Definition bs_eval (t : list R) (degree : nat) (x : R) : list R :=
  firstn (length t - 1 - degree) (last (eval_sequence t degree x) []).

(** 156-165: layer j of the k-th derivative, from the layers of the (k-1)-th derivative and layer j - 1 *)
Definition dbs_layer (t : list R) (x : R) (k : nat) (old : list (list R)) (prev : list R) (j : nat) : list R :=
  map (fun i => if (i <? length t - 1 - j)%nat then
                  INR k / (kn t (i + j) - kn t i) * nth i (nth (j - 1) old []) 0
                  - INR k / (kn t (i + j + 1) - kn t (i + 1)) * nth (i + 1) (nth (j - 1) old []) 0
                  + (x - kn t i) / (kn t (i + j) - kn t i) * nth i prev 0
                  + (kn t (i + j + 1) - x) / (kn t (i + j + 1) - kn t (i + 1)) * nth (i + 1) prev 0
                else 0) (seq 0 (length t - 1)).
(** 152-165, one pass of the loop over k (layer 0 is zero) *)
Definition dbs_step (t : list R) (degree : nat) (x : R) (old : list (list R)) (k : nat) : list (list R) :=
  fold_left (fun d j => d ++ [dbs_layer t x k old (nth (j - 1) d []) j]) (seq 1 degree) [repeat 0 (length t - 1)].
(** 131-168 eval_derivative(n, x) *)
Definition bs_eval_derivative (t : list R) (degree n : nat) (x : R) : list R :=
  firstn (length t - 1 - degree) (last (fold_left (dbs_step t degree x) (seq 1 n) (eval_sequence t degree x)) []).

(** 170-185 cardinal_bspline(m): the knots np.arange(m + 2) *)
Definition cardinal_knots (m : nat) : list R := map INR (seq 0 (m + 2)).
(** 187-211 with_extra_knots(t, m); [np.arange(-m, 0)], [np.arange(1, m + 1)]; raises for fewer than 2 knots *)
Definition extra_knots (t : list R) (m : nat) : option (list R) :=
  if (length t <? 2)%nat then None else
  let tl := map (fun i => kn t 0 + (INR i - INR m) * (kn t 1 - kn t 0)) (seq 0 m) in
  let n := length t in
  let tr := map (fun i => kn t (n - 1) + INR i * (kn t (n - 1) - kn t (n - 2))) (seq 1 m) in
  Some (tl ++ t ++ tr).

(** 219-251 DilatedBSplines.eval: one entry, for the level l and the local index j (b ** level of integers;
    b ** (level / 2) is a real power of a positive base) *)
Definition dil_eval (m b l : nat) (j : Z) (x : R) : R :=
  nth 0 (bs_eval (cardinal_knots m) m (x * INR (b ^ l) - IZR j)) 0 * Rpower (INR b) (INR l / 2).
(** 253-285 DilatedBSplines.eval_derivative *)
Definition dil_eval_derivative (m b k l : nat) (j : Z) (x : R) : R :=
  nth 0 (bs_eval_derivative (cardinal_knots m) m k (x * INR (b ^ l) - IZR j)) 0 * Rpower (INR b) (INR l * (INR k + 1 / 2)).
(** 313-334 indices_with_level; 287-311 indices_with_level_bounded_by *)
Definition dil_indices (m b l : nat) : list (nat * Z) :=
  map (fun i => (l, (Z.of_nat i - Z.of_nat m)%Z)) (seq 0 (m + b ^ l)).
Definition dil_indices_bounded (m b L : nat) : list (nat * Z) := flat_map (dil_indices m b) (seq 0 (L + 1)).
(** 373-398 DilatedBSplinesFunctionalBasis *)
Definition dilb_eval (m b : nat) (ind : list (nat * Z)) (x : R) : list R := map (fun p => dil_eval m b (fst p) (snd p) x) ind.
Definition dilb_eval_derivative (m b k : nat) (ind : list (nat * Z)) (x : R) : list R :=
  map (fun p => dil_eval_derivative m b k (fst p) (snd p) x) ind.
