(** Model of tensap/functions/measures (discrete_random_variable.py, discrete_measure.py, random_variable.py,
    random_vector.py, copulas.py) over the reals (floating point idealised).  Values are one-dimensional: the
    arrays of shape (N, 1) are lists.  Errors are [None]. *)
From Coq Require Import List Arith Reals Bool.
From Verif.Base Require Import ListAux CRing RealAux.
From Verif.Model Require Import Truncator Polynomials.
Import ListNotations.
Local Open Scope R_scope.

(** extended reals, [np.inf] *)
Inductive ext := MInf | Fin (x : R) | PInf.

Record DRV := { dvals : list R; dprobs : list R }.
Definition feps : R := / 4503599627370496.   (* np.finfo(float).eps *)
Definition total (l : list R) : R := lsum l (fun x => x).

(** discrete_random_variable.py:66-83 DiscreteRandomVariable.__init__; [1/N] with N = 0 raises *)
Definition drv_make (values : list R) (probabilities : option (list R)) : option DRV :=
  let N := length values in
  match (match probabilities with
         | None => if (N =? 0)%nat then None else Some (repeat (1 / INR N) N)
         | Some p => if negb (length p =? N)%nat then None
                     else if forallb (fun x => if Rle_dec 0 x then true else false) p then Some p else None
         end) with
  | None => None
  | Some p => Some {| dvals := values;
                      dprobs := if Rlt_dec feps (Rabs (total p - 1)) then map (fun x => x / total p) p else p |}
  end.

(** discrete_random_variable.py:199-207 cdf at one x: [w[v > x] = 0] then the sum *)
Definition drv_cdf (X : DRV) (x : R) : R :=
  lsum (combine (dvals X) (dprobs X)) (fun p => if Rlt_dec x (fst p) then 0 else snd p).

(** discrete_random_variable.py:226-236 icdf of a vector p: all the column indices where the running number of
    [F >= p] is one, in row-major order; the reshape fails unless there are as many as entries of p *)
Definition first_ge (F : list R) (p : R) : list nat :=
  let b := map (fun f => if Rle_dec p f then 1%nat else 0%nat) F in
  filter (fun k => (fold_right Nat.add 0 (firstn (S k) b) =? 1)%nat) (seq 0 (length F)).
Definition drv_icdf (X : DRV) (ps : list R) : option (list ext) :=
  let v := MInf :: map Fin (dvals X) in
  let F := np_cumsum (0 :: dprobs X) in
  let idx := concat (map (first_ge F) ps) in
  if (length idx =? length ps)%nat then Some (map (fun k => nth k v MInf) idx) else None.

(** discrete_random_variable.py:238-254 mean, var; random_variable.py:424 std *)
Definition drv_mean (X : DRV) : R := lsum (combine (dvals X) (dprobs X)) (fun p => snd p * fst p).
Definition drv_var (X : DRV) : R := lsum (combine (dvals X) (dprobs X)) (fun p => snd p * fst p ^ 2) - drv_mean X ^ 2.
Definition drv_std (X : DRV) : R := sqrt (drv_var X).
(** discrete_random_variable.py:95-99 get_standard_random_variable *)
Definition drv_standard (X : DRV) : option DRV :=
  drv_make (map (fun v => (v - drv_mean X) / drv_std X) (dvals X)) (Some (dprobs X)).

(** discrete_measure.py:164-169 DiscreteMeasure.random(n) for the uniform draws us; -inf is converted to an
    invalid index, which raises *)
Definition dm_random (values weights : list R) (us : list R) : option (list R) :=
  match drv_make (map INR (seq 0 (length weights))) (Some (map (fun w => w / total weights) weights)) with
  | None => None
  | Some Y => match drv_icdf Y us with
    | None => None
    | Some l => fold_right (fun e acc => match e, acc with
         | Fin i, Some t => match nth_error values (Z.to_nat (Int_part i)) with Some v => Some (v :: t) | None => None end
         | _, _ => None end) (Some []) l
    end
  end.

(** random_variable.py:166-176 iso_probabilistic_grid(n) for an integer n >= 1; [np.linspace(a, b, m)] *)
Definition linspace (a b : R) (m : nat) : list R :=
  if (m =? 1)%nat then [a] else map (fun i => a + INR i * ((b - a) / INR (m - 1))) (seq 0 m).
Definition iso_grid (icdf : R -> R) (xmin xmax : R) (n : nat) : list R :=
  let g := if (n =? 1)%nat then [] else if (n =? 2)%nat then [icdf (1 / 2)]
           else map icdf (linspace (1 / INR n) (1 - 1 / INR n) (n - 1)) in
  [xmin] ++ g ++ [xmax].

(** random_variable.py:213-216 discretize_support with the points x given *)
Definition midpoints (x : list R) : list R := map (fun p => (fst p + snd p) / 2) (combine (tl x) (removelast x)).
Definition discretize_support (cdf : ext -> R) (x : list R) : option DRV :=
  let v := [MInf] ++ map Fin (midpoints x) ++ [PInf] in
  drv_make x (Some (map (fun p => cdf (fst p) - cdf (snd p)) (combine (tl v) (removelast v)))).
(** random_variable.py:209-210 discretize_support(n, s): the points *)
Definition discretize_points (n : nat) (s0 s1 : R) : list R :=
  map (fun u => s0 + u * (s1 - s0)) (linspace (1 / (2 * INR n)) (1 - 1 / (2 * INR n)) n).
(** random_variable.py:237-239 discretize *)
Definition discretize (icdf : R -> R) (n : nat) : option DRV :=
  drv_make (map icdf (linspace (1 / (2 * INR n)) (1 - 1 / (2 * INR n)) n)) None.

(** random_variable.py:386-400 moment(ind, nargout = 2): the values and the stored moments of the returned copy;
    [stored] is self.moments, [G n] is the n-point Gauss rule (points, weights) *)
Definition rv_moment (G : nat -> list R * list R) (stored : list R) (ind : list nat) : list R * list R :=
  let out := if (maxl ind + 1 <=? length stored)%nat then map (fun i => nth i stored 0) ind
             else let g := G ((maxl ind + 2) / 2)%nat in map (fun i => integrate (fst g) (snd g) (fun x => x ^ i)) ind in
  (out, out).

(** random_vector.py:253-261 cdf with the independent copula (copulas.py:34-35), at one point *)
Fixpoint rprod (l : list R) : R := match l with [] => 1 | x :: l' => x * rprod l' end.
Definition rvec_cdf (cdfs : list (R -> R)) (x : list R) : R := rprod (map (fun p => fst p (snd p)) (combine cdfs x)).
(** random_vector.py:219-235 pdf with the independent copula, at one point *)
Definition rvec_pdf (pdfs : list (R -> R)) (x : list R) : R := rprod (map (fun p => fst p (snd p)) (combine pdfs x)).
(** random_variable.py:459 and random_vector.py:348-363 transfer, at one point *)
Definition rv_transfer (cdfX icdfY : R -> R) (x : R) : R := icdfY (cdfX x).
Definition rvec_transfer (cdfX icdfY : list (R -> R)) (x : list R) : option (list R) :=
  if (length cdfX =? length icdfY)%nat
  then Some (map (fun p => rv_transfer (fst (fst p)) (snd (fst p)) (snd p)) (combine (combine cdfX icdfY) x)) else None.

(** integration_rules.py:151-166 IntegrationRule.gauss_legendre_composite on the sorted knots; [LG a b n] is the
    rule of LebesgueMeasure(a, b).gauss_integration_rule(n) *)
Definition gauss_composite (LG : R -> R -> nat -> list R * list R) (knots : list R) (n : list nat) : list R * list R :=
  fold_left (fun acc k => let g := LG (nth k knots 0) (nth (S k) knots 0) (nth k n 0%nat) in
                          (fst acc ++ fst g, snd acc ++ snd g)) (seq 0 (length knots - 1)) ([], []).
