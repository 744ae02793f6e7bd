(** Model of functions/measures/uniform_random_variable.py: a uniform random variable is given by its attributes inf and sup.
    Floating point is idealised: real numbers; nan is [None].  random_variable.py:438-459 transfer. *)
From Coq Require Import Reals.
Local Open Scope R_scope.

Record urv := URV { u_inf : R; u_sup : R }.
(** documented values of scipy.stats.uniform.cdf(x, loc, scale), ppf(q, loc, scale) and pdf(x, loc, scale): the uniform
    law on [loc, loc + scale]; nan when scale <= 0 and, for ppf, when q is not in [0, 1] *)
Definition sp_cdf (x loc scale : R) : option R :=
  if Rlt_dec 0 scale then Some (if Rle_dec x loc then 0 else if Rle_dec (loc + scale) x then 1 else (x - loc) / scale) else None.
Definition sp_ppf (q loc scale : R) : option R :=
  if Rlt_dec 0 scale then if Rle_dec 0 q then if Rle_dec q 1 then Some (loc + q * scale) else None else None else None.
Definition sp_pdf (x loc scale : R) : option R :=
  if Rlt_dec 0 scale then Some (if Rle_dec loc x then if Rle_dec x (loc + scale) then 1 / scale else 0 else 0) else None.
(** uniform_random_variable.py:71-87 cdf, 89-105 icdf, 107-123 pdf *)
Definition u_cdf (X : urv) (x : R) : option R := sp_cdf x (u_inf X) (u_sup X - u_inf X).
Definition u_icdf (X : urv) (q : R) : option R := sp_ppf q (u_inf X) (u_sup X - u_inf X).
Definition u_pdf (X : urv) (x : R) : option R := sp_pdf x (u_inf X) (u_sup X - u_inf X).
(** uniform_random_variable.py:125-149 shift(bias, scaling) *)
Definition u_shift (X : urv) (bias scaling : R) : urv := URV (scaling * u_inf X + bias) (scaling * u_sup X + bias).
(** uniform_random_variable.py:152-162 get_standard_random_variable; __init__ defaults (line 45) *)
Definition u_standard : urv := URV (-1) 1.
(** uniform_random_variable.py:204-205 random_variable_statistics; random_variable.py:402-436 mean, std, variance *)
Definition u_mean (X : urv) : R := (u_inf X + u_sup X) / 2.
Definition u_variance (X : urv) : R := (u_sup X - u_inf X) ^ 2 / 12.
Definition u_std (X : urv) : R := sqrt (u_variance X).
(** uniform_random_variable.py:207-208 random(n) for one number [r] drawn by numpy.random.rand *)
Definition u_random (X : urv) (r : R) : R := r * (u_sup X - u_inf X) + u_inf X.
(** uniform_random_variable.py:184-187 the shift and the scaling of the ShiftedOrthonormalPolynomials *)
Definition u_poly_shift (X : urv) : R * R := ((u_inf X + u_sup X) / 2, (u_sup X - u_inf X) / 2).
(** random_variable.py:438-459 X.transfer(Y, x) at one x *)
Definition u_transfer (X Y : urv) (x : R) : option R := match u_cdf X x with Some q => u_icdf Y q | None => None end.
