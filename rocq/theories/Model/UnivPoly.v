(** Model of tensap/functions/polynomials/polynomials.py (UnivariatePolynomials, CanonicalPolynomials) over the
    reals, at one point x.  [pc ind] is the method poly_coeff of the family: one row of monomial coefficients
    (constant first) per index. *)
From Coq Require Import List Arith Reals Bool.
From Verif.Base Require Import ListAux CRing RealAux.
From Verif.Model Require Import Polynomials.
Import ListNotations.
Local Open Scope R_scope.

(** numpy.polyval: Horner, highest coefficient first *)
Definition np_polyval (c : list R) (x : R) : R := fold_left (fun acc a => acc * x + a) c 0.

(** polynomials.py:50-56 UnivariatePolynomials.polyval *)
Definition u_polyval (pc : list nat -> list (list R)) (ind : list nat) (x : R) : list R :=
  let out := map (fun row => np_polyval (rev row) x) (pc (seq 0 (maxl ind + 1))) in
  map (fun i => nth i out 0) ind.

(** polynomials.py:75-77 d_poly_coef *)
Definition d_poly_coef (pc : list nat -> list (list R)) (ind : list nat) : list (list R) :=
  map (fun row => map (fun p => fst p * INR (snd p)) (combine (tl row) (seq 1 (maxl ind)))) (pc ind).

(** polynomials.py:98-108 dn_poly_coeff for n <= max(ind) *)
Definition dn_factor (n j : nat) : R := INR (fold_right Nat.mul 1%nat (map (fun r => (j + r)%nat) (seq 1 n))).
Definition dn_poly_coeff (pc : list nat -> list (list R)) (n : nat) (ind : list nat) : list (list R) :=
  map (fun row => map (fun p => fst p * dn_factor n (snd p)) (combine (skipn n row) (seq 0 (maxl ind - n + 1)))) (pc ind).
(** polynomials.py:152-158 dn_polyval: for n > max(ind) the coefficient array is a vector (or numpy.tile gets a
    negative count) and numpy.fliplr raises *)
Definition u_dn_polyval (pc : list nat -> list (list R)) (n : nat) (ind : list nat) (x : R) : option (list R) :=
  if (n <=? maxl ind)%nat then
    let out := map (fun row => np_polyval (rev row) x) (dn_poly_coeff pc n (seq 0 (maxl ind + 1))) in
    Some (map (fun i => nth i out 0) ind)
  else None.

(** polynomials.py:220-236 moment(ind, measure): [p d x] is polyval(d, x), [G n] the n-point Gauss rule *)
Definition u_moment (p : nat -> R -> R) (G : nat -> list R * list R) (ind : list (list nat)) : list R :=
  let max_deg := maxl (map (fun r => fold_right Nat.add 0%nat r) ind) in
  let g := G ((max_deg + 2) / 2)%nat in
  map (fun r => integrate (fst g) (snd g) (fun x => fold_left (fun acc d => acc * p d x) (tl r) (p (hd 0%nat r) x))) ind.
(** polynomials.py:180-185 mean *)
Definition u_mean (p : nat -> R -> R) (G : nat -> list R * list R) (mass : R) (ind : list nat) : list R :=
  map (fun v => v / mass) (u_moment p G (map (fun i => [i]) ind)).

(** orthonormal_polynomials.py:104-114 OrthonormalPolynomials.moment for the measure of the polynomials *)
Definition o_moment (ind : list (list nat)) : option (list R) :=
  if forallb (fun r => (length r =? 1)%nat) ind then
    Some (map (fun r => if (nth 0 r 0 =? 0)%nat then 1 else 0) ind)
  else if forallb (fun r => (length r =? 2)%nat) ind then
    Some (map (fun r => if (nth 0 r 0 =? nth 1 r 0)%nat then 1 else 0) ind)
  else None.

(** polynomials.py:327-336 CanonicalPolynomials.poly_coeff, d_polyval *)
Definition canon_pc (ind : list nat) : list (list R) :=
  map (fun i => map (fun j => if (j =? i)%nat then 1 else 0) (seq 0 (maxl ind + 1))) ind.
Definition canon_d_polyval (ind : list nat) (x : R) : list R :=
  map (fun i => if (i =? 0)%nat then 0 else x ^ (i - 1) * INR i) ind.
