(** Vocabulary for penalised model selection. *)
From Coq Require Import List Arith Lia Reals Bool.
From Verif.Base Require Import ListAux.
Import ListNotations.
Local Open Scope R_scope.

(** penalised risk of model i *)
Definition prisk (risk pen : list R) (lam : R) (i : nat) : R := nth i risk 0 + lam * nth i pen 0.
Definition optimal (risk pen : list R) (lam : R) (i : nat) : Prop :=
  (i < length risk)%nat /\ forall j, (j < length risk)%nat -> prisk risk pen lam i <= prisk risk pen lam j.
(** no two models have the same risk, no three models have the same penalised risk for some lambda > 0 *)
Definition generic (risk pen : list R) : Prop :=
  (forall i j, (i < length risk)%nat -> (j < length risk)%nat -> i <> j -> nth i risk 0 <> nth j risk 0) /\
  (forall lam i j k, 0 < lam -> (i < length risk)%nat -> (j < length risk)%nat -> (k < length risk)%nat ->
     prisk risk pen lam i = prisk risk pen lam j -> prisk risk pen lam j = prisk risk pen lam k -> i = j \/ j = k \/ i = k).
(** (path, m) describes the selected model as a function of lambda: m_0 up to path_1, m_i between path_i and path_{i+1}, the last one afterwards *)
Definition describes (risk pen : list R) (path : list R) (m : list nat) : Prop :=
  (3 <= length path)%nat /\ length m = length path /\ 0 < hd 0 path /\
  (forall i, (S i < length path)%nat -> nth i path 0 < nth (S i) path 0) /\
  (forall lam, 0 <= lam -> lam <= nth 1 path 0 -> optimal risk pen lam (nth 0 m 0%nat)) /\
  (forall i lam, (1 <= i)%nat -> (S i < length path)%nat -> nth i path 0 <= lam -> lam <= nth (S i) path 0 -> optimal risk pen lam (nth i m 0%nat)) /\
  (forall lam, nth (length path - 2) path 0 <= lam -> optimal risk pen lam (nth (length path - 1) m 0%nat)).
