(** Vocabulary for the properties of tensors (no code is modelled here). *)
From Coq Require Import List Arith Bool ZArith.
From Verif.Base Require Import ListAux CRing Index.
From Verif.Model Require Import Numpy FullTensor.
Import ListNotations.

(** same shape and same entry at every valid multi-index *)
Definition teq {R} (A B : nd R) : Prop :=
  shape A = shape B /\ forall is, valid (shape A) is -> get A is = get B is.
(** [A] has shape [s] and its entry at every valid multi-index is given by [f] *)
Definition tensor_is {R} (A : nd R) (s : list nat) (f : list nat -> R) : Prop :=
  shape A = s /\ forall is, valid s is -> get A is = f is.
(** a computation that returns (does not raise) a tensor of shape [s] with entries [f] *)
Definition returns {R} (o : option (nd R)) (s : list nat) (f : list nat -> R) : Prop :=
  exists A, o = Some A /\ tensor_is A s f.

(** the multi-index [is] in which the entries at the positions [d] are replaced by [js] *)
Fixpoint put (d js is : list nat) : list nat :=
  match d, js with k :: d', j :: js' => upd k j (put d' js' is) | _, _ => is end.

(** M_1[i_1, j_1] * ... * M_n[i_n, j_n] *)
Fixpoint factors {R} {CR : CRing R} (Ms : list (nd R)) (is js : list nat) : R :=
  match Ms, is, js with
  | M :: Ms', i :: is', j :: js' => rmul (get M [i; j]) (factors Ms' is' js')
  | _, _, _ => r1
  end.
(** v_1[j_1] * ... * v_n[j_n] *)
Fixpoint vfactors {R} {CR : CRing R} (vs : list (nd R)) (js : list nat) : R :=
  match vs, js with
  | v :: vs', j :: js' => rmul (get v [j]) (vfactors vs' js')
  | _, _ => r1
  end.

(** positions where the axes are concatenated: first block / second block *)
Definition cat_shape (dims sA sB : list nat) : list nat :=
  map (fun k => if inb k dims then nth k sA 0 + nth k sB 0 else nth k sA 0) (seq 0 (length sA)).
(** the entry at [is] of the block tensor with blocks A and B along the axes [dims] (A and B are
    added along the other axes: when [dims] is empty this is A + B) *)
Definition cat_entry {R} {CR : CRing R} (dims : list nat) (A B : nd R) (is : list nat) : R :=
  radd (if forallb (fun k => nth k is 0 <? nth k (shape A) 0) dims then get A is else r0)
       (if forallb (fun k => nth k (shape A) 0 <=? nth k is 0) dims
        then get B (map (fun k => if inb k dims then nth k is 0 - nth k (shape A) 0 else nth k is 0) (seq 0 (length (shape A))))
        else r0).

(** arguments of sub_tensor: a slice is ":" or a list of positions *)
Definition slice_len (n : nat) (s : slice) : nat := match s with All => n | Pick ks => length ks end.
Definition slice_idx (s : slice) (i : nat) : nat := match s with All => i | Pick ks => nth i ks 0 end.
Definition slice_ok (n : nat) (s : slice) : Prop := match s with All => True | Pick ks => Forall (fun k => k < n) ks end.

(** the list [l] with [x] inserted at position [k] *)
Definition ins (k x : nat) (l : list nat) : list nat := firstn k l ++ x :: skipn k l.
(** v_1[i_{d_1}] * ... * v_n[i_{d_n}] *)
Definition vfactors_at {R} {CR : CRing R} (vs : list (nd R)) (dims is : list nat) : R := vfactors vs (sel 0 is dims).
(** what a (reduced) QR routine guarantees on the m x n matrix M: M = Q R with k = min(m, n) orthonormal
    columns of Q *)
Definition qr_contract {R} {CR : CRing R} (qr : nd R -> nd R * nd R) : Prop :=
  forall M m n, shape M = [m; n] ->
    exists k, k = Nat.min m n /\ shape (fst (qr M)) = [m; k] /\ shape (snd (qr M)) = [k; n] /\
      (forall i j, i < m -> j < n -> get M [i; j] = rsum k (fun c => rmul (get (fst (qr M)) [i; c]) (get (snd (qr M)) [c; j]))) /\
      (forall a b, a < k -> b < k ->
         rsum m (fun i => rmul (get (fst (qr M)) [i; a]) (get (fst (qr M)) [i; b])) = if a =? b then r1 else r0).

(** concrete arrays (for the examples): entries listed in column-major order *)
Definition of_list {R} (d : R) (s : list nat) (l : list R) : nd R := ND s (fun is => nth (sub2indF s is) l d).
Definition to_list {R} (A : nd R) : list nat * list R := (shape A, map (get A) (boxF (shape A))).

(** diagonal tensor with diagonal v: v[i] at (i, ..., i), 0 elsewhere *)
Definition diag_val {R} {CR : CRing R} (v : list R) (is : list nat) : R :=
  if forallb (fun j => j =? nth 0 is 0) is then nth (nth 0 is 0) v r0 else r0.
(** w_1[i_1] * ... * w_n[i_n] for lists *)
Definition lfactors {R} {CR : CRing R} (ws : list (list R)) (is : list nat) : R :=
  lprod (combine ws is) (fun p => nth (snd p) (fst p) r0).
(** sum of rank-one tensors: sum_k c_k S_1[i_1,k] ... S_d[i_d,k] *)
Definition cp_val {R} {CR : CRing R} (core : list R) (space : list (nd R)) (is : list nat) : R :=
  rsum (length core) (fun k => rmul (nth k core r0) (lprod (combine space is) (fun p => get (fst p) [snd p; k]))).
(** canonical format: weights c_1..c_r, d >= 1 factor matrices, each with r columns *)
Definition cp_ok {R} (core : list R) (space : list (nd R)) : Prop :=
  space <> [] /\ Forall (fun M => exists n, shape M = [n; length core]) space.
(** the sizes of the dimensions of a tensor in canonical format *)
Definition cp_dims {R} (space : list (nd R)) : list nat := map (fun M : nd R => nth 0 (shape M) 0) space.
(** sparse format: the list of the stored multi-indices and the list of the stored values; the tensor is
    sum_j data[j] e_{rows[j]} *)
Definition sp_val {R} {CR : CRing R} (rows : list (list Z)) (data : list R) (is : list nat) : R :=
  rsum (length rows) (fun j => if list_eq_dec Z.eq_dec (nth j rows []) (map Z.of_nat is) then nth j data r0 else r0).
(** as many values as multi-indices; distinct multi-indices, in the range given by the shape *)
Definition sp_ok {R} (rows : list (list Z)) (data : list R) (s : list nat) : Prop :=
  length data = length rows /\ NoDup rows /\ Forall (fun r => exists is, valid s is /\ r = map Z.of_nat is) rows.
