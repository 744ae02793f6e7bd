(** Model of tensap/functions/polynomials/orthonormal_polynomials.py and polynomials.py over the reals
    (floating point idealised).  The code is vectorised over the points x; the model evaluates at one x, which
    gives the list of the columns.  Recurrence coefficients are functions nat -> R (row 0 and row 1 of
    [recurrence_monic]). *)
From Coq Require Import List Arith Reals Bool Factorial.
From Verif.Base Require Import ListAux CRing RealAux.
Import ListNotations.
Local Open Scope R_scope.

Definition maxl (l : list nat) : nat := fold_right Nat.max 0%nat l.

(** orthonormal_polynomials.py:151-159, the array [out] before normalisation, for one x: columns 0..m *)
Definition pv_step (a b : nat -> R) (x : R) (out : list R) (deg : nat) : list R :=
  out ++ [((x - a (deg - 1)%nat) * nth (deg - 1) out 0 - sqrt (b (deg - 1)%nat) * nth (deg - 2) out 0) / sqrt (b deg)].
Definition pv (a b : nat -> R) (m : nat) (x : R) : list R :=
  if (m =? 0)%nat then [1]
  else fold_left (pv_step a b x) (seq 2 (m - 1)) [1; (x - a 0%nat) / sqrt (b 1%nat)].

(** orthonormal_polynomials.py:143-161 OrthonormalPolynomials.polyval(ind, x) for one x *)
Definition polyval (a b : nat -> R) (mass : R) (ind : list nat) (x : R) : list R :=
  let out := map (fun v => v / sqrt mass) (pv a b (maxl ind) x) in
  map (fun i => nth i out 0) ind.

(** orthonormal_polynomials.py:119-141 OrthonormalPolynomials.poly_coeff(ind): rows of coefficients, constant
    coefficient first; [coef[k+1, 1:] = coef[k, :-1]] *)
Definition shift_row (row : list R) : list R := 0 :: removelast row.
Definition pc_row1 (a b : nat -> R) (row0 : list R) : list R :=
  map (fun p => (fst p - a 0%nat * snd p) / sqrt (b 1%nat)) (combine (shift_row row0) row0).
Definition pc_step (a b : nat -> R) (coef : list (list R)) (deg : nat) : list (list R) :=
  let r1 := nth deg coef [] in let r0 := nth (deg - 1) coef [] in
  coef ++ [map (fun p => (fst p - a deg * fst (snd p) - sqrt (b deg) * snd (snd p)) / sqrt (b (S deg)))
             (combine (shift_row r1) (combine r1 r0))].
Definition poly_coeff (a b : nat -> R) (ind : list nat) : list (list R) :=
  let m := maxl ind in
  let row0 := 1 :: repeat 0 m in
  let coef := if (m =? 0)%nat then [row0] else [row0; pc_row1 a b row0] in
  let coef := fold_left (pc_step a b) (seq 1 (m - 1)) coef in
  map (fun i => nth i coef []) ind.

(** orthonormal_polynomials.py:166-191 OrthonormalPolynomials.dn_polyval(n, ind, x) for one x *)
Definition dn_inner (a b : nat -> R) (x : R) (k : nat) (out0 out : list R) (deg : nat) : list R :=
  out ++ [(INR k * nth (deg - 1) out0 0 + (x - a (deg - 1)%nat) * nth (deg - 1) out 0
           - sqrt (b (deg - 1)%nat) * nth (deg - 2) out 0) / sqrt (b deg)].
Definition dn_step (a b : nat -> R) (m : nat) (x : R) (out0 : list R) (k : nat) : list R :=
  let out := if (m =? 0)%nat then [0] else [0; if (k =? 1)%nat then 1 / sqrt (b 1%nat) else 0] in
  fold_left (dn_inner a b x k out0) (seq 2 (m - 1)) out.
Definition dn_polyval (a b : nat -> R) (mass : R) (n : nat) (ind : list nat) (x : R) : list R :=
  let m := maxl ind in
  let out := fold_left (dn_step a b m x) (seq 1 n) (polyval a b mass (seq 0 (m + 1)) x) in
  map (fun i => nth i out 0) ind.

(** orthonormal_polynomials.py:364-374 ShiftedOrthonormalPolynomials.polyval / dn_polyval *)
Definition shifted_polyval (a b : nat -> R) (mass shift scaling : R) (ind : list nat) (x : R) : list R :=
  polyval a b mass ind ((x - shift) / scaling).
Definition shifted_dn_polyval (a b : nat -> R) (mass shift scaling : R) (n : nat) (ind : list nat) (x : R) : list R :=
  map (fun v => v / scaling ^ n) (dn_polyval a b mass n ind ((x - shift) / scaling)).

(** orthonormal_polynomials.py:458-480 HermitePolynomials.recurrence_monic: coefficients and norms *)
Definition hermite_a (_ : nat) : R := 0.
Definition hermite_b (n : nat) : R := INR n.
Definition hermite_norm (n : nat) : R := sqrt (INR (fact n)).

(** orthonormal_polynomials.py:509-539 LegendrePolynomials.recurrence_monic; 568-600 is the same for
    LegendrePolynomialsLebesgue with norms multiplied by sqrt 2 *)
Definition legendre_a (_ : nat) : R := 0.
Definition legendre_b (n : nat) : R := INR n ^ 2 / (4 * INR n ^ 2 - 1).
Definition legendre_norm (n : nat) : R :=
  sqrt (1 / (2 * INR n + 1)) * 2 ^ n * INR (fact n) ^ 2 / INR (fact (2 * n)).
Definition legendre_lebesgue_norm (n : nat) : R := legendre_norm n * sqrt 2.

(** integration_rules.py IntegrationRule.integrate of a scalar function *)
Definition integrate (points weights : list R) (f : R -> R) : R :=
  lsum (combine points weights) (fun p => snd p * f (fst p)).

(** orthonormal_polynomials.py:833-942 DiscretePolynomials._precompute_recurrence_monic(measure, n): the while
    loop.  When a squared norm is exactly zero the code sets a[i] = nan, so that the orthogonality test is False
    and the loop stops: that is the first branch (the nan entry is never returned, a[:i] excludes it). *)
Definition dp_tol : R := / 100000.
Fixpoint dp_loop (fuel i n : nat) (dot : (R -> R) -> (R -> R) -> R) (cond : bool) (pn pnp1 : R -> R)
    (a b norms : list R) : list R * list R * list R :=
  match fuel with
  | O => (firstn i a, firstn i b, map sqrt (firstn i norms))
  | S fuel' =>
    if cond && (i <=? n)%nat then
      let i' := S i in
      let pnm1 := pn in
      let pn' := pnp1 in
      let ni := dot pn' pn' in
      let bi := ni / nth i norms 0 in
      if Req_EM_T ni 0 then
        dp_loop fuel' i' n dot false pn' pnp1 (a ++ [0]) (b ++ [bi]) (norms ++ [ni])
      else
        let ai := dot pn' (fun x => x * pn' x) / ni in
        let pnp1' := fun x => (x - ai) * pn' x - bi * pnm1 x in
        let d1 := Rabs (dot pnp1' pn') in
        let d2 := Rabs (dot pnp1' pnm1) in
        let cond' := if Rlt_dec d1 dp_tol then if Rlt_dec d2 dp_tol then true else false else false in
        dp_loop fuel' i' n dot cond' pn' pnp1' (a ++ [ai]) (b ++ [bi]) (norms ++ [ni])
    else (firstn i a, firstn i b, map sqrt (firstn i norms))
  end.
Definition discrete_recurrence (points weights : list R) (n : nat) : list R * list R * list R :=
  let dot := fun f g => integrate points weights (fun x => f x * g x) in
  let n0 := dot (fun x => x ^ 0) (fun x => x ^ 0) in
  let a0 := dot (fun x => x ^ 0) (fun x => x) / n0 in
  dp_loop (S (S n)) 0 n dot true (fun _ => 1) (fun x => (x - a0) * 1) [a0] [0] [n0].

(** orthonormal_polynomials.py:254-261 and random_variable.py:269-276: the Jacobi matrix, entry (i, j), with
    [recurr = recurrence_monic(deg - 1)] *)
Definition jacobi (a b : nat -> R) (i j : nat) : R :=
  if (i =? j)%nat then a i else if (S i =? j)%nat then sqrt (b j) else if (i =? S j)%nat then sqrt (b i) else 0.

(** random_variable.py:280-289: points and weights of the Gauss rule from the eigenvalues [lam k] and the
    eigenvectors [V i k] (column k) already sorted; [weights = V[0,:]**2 / sqrt(sum(V**2, 0))]; shift/scaling
    of the points as in l. 287-288 *)
Definition gauss_weight (n : nat) (V : nat -> nat -> R) (k : nat) : R :=
  (V 0%nat k) ^ 2 / sqrt (rsum n (fun i => (V i k) ^ 2)).
Definition gauss_point (shift scaling : R) (lam : nat -> R) (k : nat) : R := shift + scaling * lam k.
