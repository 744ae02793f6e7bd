(** Model of tensap/functions/tensorizer.py and tensorized_function.py over the reals (floating point is
    idealised as exact real arithmetic).  Arrays of points are processed row by row, as the vectorised code
    does; an error is [None]. *)
From Coq Require Import List Arith ZArith Reals Bool.
From Verif.Base Require Import ListAux Index.
From Verif.Model Require Import Utils.
Import ListNotations.
Local Open Scope R_scope.

(** [np.floor] *)
Definition rfloor (x : R) : Z := Int_part x.
(** [ndarray.astype(int)]: truncation towards zero *)
Definition rtrunc (x : R) : Z := if Rle_dec 0 x then Int_part x else (- Int_part (- x))%Z.
(** a Python int used as a natural number: raises when negative
    ([np.unravel_index] and [np.ravel_multi_index] reject negative entries) *)
Definition as_nat (z : Z) : option nat := if (z <? 0)%Z then None else Some (Z.to_nat z).
(** [np.arange(start, stop, step)] of naturals, step > 0 *)
Definition arange (start stop step : nat) : list nat :=
  map (fun j => start + j * step)%nat (seq 0 ((stop - start + (step - 1)) / step)).

(** tensorizer.py:264-298 Tensorizer.u2z(u, b, d) for one u: digits followed by the remainder *)
Definition u2z (u : R) (b d : nat) : option (list R) :=
  let su := u * INR (b ^ d) in
  let i := Z.min (rfloor su) (Z.of_nat (b ^ d) - 1) in
  let y := su - IZR i in
  match as_nat i with
  | None => None
  | Some n => match integer2baseb n b d with
              | None => None
              | Some l => Some (map INR l ++ [y])
              end
  end.

(** tensorizer.py:300-322 Tensorizer.z2u(z, b) for one row z *)
Definition z2u (z : list R) (b : nat) : option R :=
  match rev z with
  | [] => None
  | y :: rdigits =>
    let d := length rdigits in
    match omap (fun x => as_nat (rtrunc x)) (rev rdigits) with
    | None => None
    | Some l => match baseb2integer l b with
                | None => None
                | Some i => Some ((y + INR i) * / INR (b ^ d))
                end
    end
  end.

(** a[:, idx] for one row: IndexError when out of range *)
Definition take_cols (l : list R) (idx : list nat) : option (list R) := omap (nth_error l) idx.

(** tensorizer.py:104-149 Tensorizer.map(x) for one point x (a row with [dim] columns); [Xcdf k], [Yicdf k] are
    the cdf of the k-th component of X and the inverse cdf of the k-th component of Y *)
Definition tz_map (ordering b d dim : nat) (Xcdf Yicdf : nat -> R -> R) (x : list R) : option (list R) :=
  match omap (fun k => match nth_error x k with
                       | None => None
                       | Some xk => u2z (Xcdf k xk) b d
                       end) (seq 0 dim) with
  | None => None
  | Some zs =>
    let y := map (fun k => Yicdf k (last (nth k zs []) 0)) (seq 0 dim) in
    let i := concat (map (fun z => removelast z) zs) in
    let i' := if (ordering =? 2)%nat
              then option_map (@concat R) (omap (fun k => take_cols i (arange k (length i) d)) (seq 0 d))
              else if (ordering =? 1)%nat then Some i else None in
    match i' with None => None | Some i => Some (i ++ y) end
  end.

(** tensorizer.py:151-181 Tensorizer.inverse_map(z) for one row z *)
Definition tz_inverse_map (ordering b d dim : nat) (Ycdf Xicdf : nat -> R -> R) (z : list R) : option (list R) :=
  omap (fun k =>
    let idx := if (ordering =? 1)%nat then Some (map (fun j => j + k * d)%nat (seq 0 d))
               else if (ordering =? 2)%nat then Some (arange k (dim * d) dim) else None in
    match idx with
    | None => None
    | Some idx =>
      match take_cols z idx with
      | None => None
      | Some ik =>
        if (dim <=? length z)%nat then
          match nth_error z (length z - dim + k) with
          | None => None
          | Some zk => match z2u (ik ++ [Ycdf k zk]) b with
                       | None => None
                       | Some u => Some (Xicdf k u)
                       end
          end
        else None
      end
    end) (seq 0 dim).

(** tensorizer.py:183-215 Tensorizer.tensorize(fun) composed with tensorized_function.py:75-81
    TensorizedFunction.eval: a row with [dim] columns is first mapped; [f] is the user's function, which
    receives the rows of inverse_map(z).  One row; the vectorised function applies [f] to every row. *)
Definition tensorized_eval {V} (ordering b d dim : nat) (Xcdf Xicdf Ycdf Yicdf : nat -> R -> R)
    (f : list R -> V) (z : list R) : option V :=
  let z' := if (length z =? dim)%nat then tz_map ordering b d dim Xcdf Yicdf z else Some z in
  match z' with
  | None => None
  | Some z' => option_map f (tz_inverse_map ordering b d dim Ycdf Xicdf z')
  end.
