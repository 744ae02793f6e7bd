(** Model of tensap/approximation/tools/model_selection.py: ModelSelection.  The data are the lists [risk] (empirical_risk),
    [comp] (complexity) and [pen], the list pen_shape(complexity).  Real arithmetic. *)
From Coq Require Import List Arith Lia Reals Bool.
From Verif.Base Require Import ListAux CRing Index RealAux.
From Verif.Model Require Import DensityL2.
Import ListNotations.
Local Open Scope R_scope.

(** model_selection.py:56-77: np.argmin(risk + l0 * pen_shape(comp)) *)
Definition m_lambda (risk pen : list R) (l0 : R) : nat := rargmin (map (fun rp => fst rp + l0 * snd rp) (combine risk pen)).

(** 105-110: the j-th entry of lambda_current; None for nan.  Division by zero gives inf, -inf or nan, all replaced by nan. *)
Definition lambda_entry (risk pen : list R) (ind : nat) (lambda_0 : R) (j : nat) : option R :=
  let d := nth ind pen 0 - nth j pen 0 in
  if Req_EM_T d 0 then None else
  let l := (nth j risk 0 - nth ind risk 0) / d in if Rle_dec l lambda_0 then None else Some l.
(** np.nanmin and np.nanargmin (first position); None when all entries are nan *)
Fixpoint nanmin_from (best : option (R * nat)) (k : nat) (l : list (option R)) : option (R * nat) :=
  match l with
  | [] => best
  | None :: l => nanmin_from best (S k) l
  | Some x :: l => nanmin_from (match best with Some (b, _) => if Rlt_dec x b then Some (x, k) else best | None => Some (x, k) end) (S k) l
  end.
Definition lambda_step (risk pen : list R) (ind : nat) (lambda_0 : R) : option (R * nat) :=
  nanmin_from None 0 (map (lambda_entry risk pen ind lambda_0) (seq 0 (length risk))).
(** 104-118: the while loop; None when the fuel runs out *)
Fixpoint lambda_loop (fuel : nat) (risk pen : list R) (ind : nat) (lambda_0 : R) (path : list R) (m_path : list nat) : option (list R * list nat) :=
  match fuel with
  | 0%nat => None
  | S fuel => match lambda_step risk pen ind lambda_0 with
              | None => Some (path, m_path)
              | Some (l, j) => lambda_loop fuel risk pen j l (path ++ [l]) (m_path ++ [j])
              end
  end.
(** 79-129: the scalars 0, 0 are returned when there is no breakpoint *)
Inductive lpath := LScalar | LPath (path : list R) (m_path : list nat).
Definition lambda_path (risk pen : list R) : option lpath :=
  let ind := rargmin risk in
  match lambda_loop (S (length risk * length risk)) risk pen ind 0 [] [] with
  | None => None
  | Some ([], _) => Some LScalar
  | Some (path, m_path) => Some (LPath ([hd 0 path / 2] ++ path ++ [last path 0 * 2]) ([ind] ++ m_path ++ [last m_path 0%nat]))
  end.
(** 131-178 with lambda_path=None, m_path=None; [gap] is gap_factor; None when indexing the 0-dimensional path raises *)
Definition slope_heuristic (gap : R) (risk comp pen : list R) : option (R * nat) :=
  if forallb (fun i => if Req_EM_T (nth (S i) comp 0 - nth i comp 0) 0 then true else false) (seq 0 (length comp - 1)) then Some (0, 0%nat)
  else match lambda_path risk pen with
       | Some (LPath path m_path) =>
           let l_mid := map (fun i => (nth i path 0 + nth (S i) path 0) / 2) (seq 0 (length path - 1)) in
           let gaps := map (fun i => nth (m_lambda risk pen (nth i l_mid 0)) comp 0 - nth (m_lambda risk pen (nth (S i) l_mid 0)) comp 0) (seq 0 (length l_mid - 1)) in
           let ind := rargmin (map (fun g => - g) gaps) in                                     (* np.argmax(gaps) *)
           let lambda_hat := gap * nth (S ind) path 0 in
           Some (lambda_hat, m_lambda risk pen lambda_hat)
       | _ => None
       end.
