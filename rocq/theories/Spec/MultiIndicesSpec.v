(** Vocabulary for the properties of multi-index sets (no code is modelled here). *)
From Coq Require Import List Arith ZArith Bool.
From Verif.Base Require Import ListAux Index.
From Verif.Model Require Import MultiIndices.
Import ListNotations.

(** all entries are >= 0 *)
Definition nonneg (r : row) : Prop := Forall (fun x => (0 <= x)%Z) r.

(** m0 <= r_k <= m_k for every k, and as many entries in r as in m *)
Definition in_box (m0 : Z) (m r : list Z) : Prop := Forall2 (fun x b => (m0 <= x <= b)%Z) r m.

(** 0 <= r_k < shape_k for every k *)
Definition in_shape (shape : list nat) (r : row) : Prop :=
  Forall2 (fun x n => (0 <= x < Z.of_nat n)%Z) r shape.

(** every row has [mi_dim] entries *)
Definition mi_wf (I : mi) : Prop := Forall (fun r => length r = mi_dim I) (mi_rows I).

(** [I] has dimension [d] and its rows are, without repetition, exactly the rows satisfying [P] *)
Definition is_set (I : mi) (d : nat) (P : row -> Prop) : Prop :=
  mi_dim I = d /\ NoDup (mi_rows I) /\ forall r, In r (mi_rows I) <-> P r.

(** [r] is the forward neighbour of [s] in direction [k]: r = s + e_k *)
Definition is_succ (k : nat) (s r : row) : Prop :=
  length r = length s /\ nth k r 0%Z = (nth k s 0 + 1)%Z /\
  forall n, n <> k -> nth n r 0%Z = nth n s 0%Z.

(** closed under decreasing coordinates (within N^d) *)
Definition down_closed (l : list row) : Prop :=
  forall r s, In r l -> nonneg s -> Forall2 Z.le s r -> In s l.

(** lexicographic order on the listed columns, the first one being the most significant *)
Fixpoint lex_le (cols : list nat) (r s : row) : Prop :=
  match cols with
  | [] => True
  | c :: cols' => (nth c r 0 < nth c s 0)%Z \/ (nth c r 0%Z = nth c s 0%Z /\ lex_le cols' r s)
  end.

(** all the sets that can be built from {0} by adding, any number of times, any part of the
    reduced margin *)
Inductive adaptive (d : nat) : mi -> Prop :=
| adaptive_start : adaptive d (MI d [repeat 0%Z d])
| adaptive_step I S : adaptive d I -> incl (mi_rows S) (mi_rows (get_reduced_margin I)) ->
                      adaptive d (add_indices I S).

(** positional value of a digit list, most significant digit first *)
Definition digits_value (b : nat) (l : list nat) : nat := fold_left (fun acc x => acc * b + x) l 0.

(** i_1 + ... + i_d *)
Fixpoint sum_entries (r : row) : Z := match r with [] => 0 | x :: r' => x + sum_entries r' end%Z.
(** (i_1 + 1) ... (i_d + 1) *)
Fixpoint prod_succ (r : row) : Z := match r with [] => 1 | x :: r' => (x + 1) * prod_succ r' end%Z.
(** (i_1 + 1)^w_1 ... (i_d + 1)^w_d *)
Fixpoint prod_succ_w (w : list Z) (r : row) : Z :=
  match r, w with x :: r', y :: w' => ((x + 1) ^ y * prod_succ_w w' r')%Z | _, _ => 1%Z end.
(** i_1^p + ... + i_d^p *)
Fixpoint sum_pow (p : nat) (r : row) : Z :=
  match r with [] => 0 | x :: r' => x ^ Z.of_nat p + sum_pow p r' end%Z.
(** (i_1 w_1, ..., i_d w_d) *)
Fixpoint weigh (w : list Z) (r : row) : row :=
  match r, w with x :: r', y :: w' => (x * y)%Z :: weigh w' r' | _, _ => [] end.
(** number of nonzero entries *)
Fixpoint nb_nonzero (r : row) : nat :=
  match r with [] => 0 | x :: r' => (if Z.eqb x 0 then 0 else 1) + nb_nonzero r' end.
(** |r|_p <= m (r and m nonnegative): all entries <= m for p = inf, sum of p-th powers <= m^p otherwise *)
Definition norm_le (p : pnorm) (r : row) (m : Z) : Prop :=
  match p with PInf => Forall (fun x => (x <= m)%Z) r | PNat p => (sum_pow p r <= m ^ Z.of_nat p)%Z end.
(** |r|_p = v^(1/p) for p finite; v is the largest entry for p = inf *)
Definition is_norm_pow (p : pnorm) (r : row) (v : Z) : Prop :=
  match p with PInf => In v r /\ Forall (fun x => (x <= v)%Z) r | PNat p => v = sum_pow p r end.
(** |r|_p <= |s|_p *)
Definition norm_ord (p : pnorm) (r s : row) : Prop :=
  forall v w, is_norm_pow p r v -> is_norm_pow p s w -> (v <= w)%Z.

(** the rows and the number of columns contributed by a factor of a product *)
Definition rows_of (f : factor) : list row := match f with Vec v => map (fun x => [x]) v | Mat X => mi_rows X end.
Definition cols_of (f : factor) : nat := match f with Vec _ => 1 | Mat X => mi_dim X end.
