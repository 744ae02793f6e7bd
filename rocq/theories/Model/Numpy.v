(** Model of the numpy primitives used by tensap's tensor classes.
    An ndarray is its shape and the function giving the entry at a multi-index (only the values at
    valid multi-indices mean anything; two arrays are compared with [teq]).  Entries live in an
    arbitrary commutative ring (ideal arithmetic, no rounding, no overflow).  An exception is [None].
    Indices are nonnegative (numpy's negative indices are not modelled).
    These definitions are the documented contracts of numpy; they are part of the trusted base. *)
From Coq Require Import List Arith Lia Bool ZArith.
From Verif.Base Require Import ListAux CRing Index.
From Verif.Model Require Import Sorting.
Import ListNotations.

Record nd (R : Type) := ND { shape : list nat; get : list nat -> R }.
Arguments ND {R} shape get.
Arguments shape {R} _.
Arguments get {R} _ _.

Definition inb (k : nat) (l : list nat) : bool := existsb (Nat.eqb k) l.
Fixpoint nodupb (l : list nat) : bool :=
  match l with [] => true | a :: l' => negb (inb a l') && nodupb l' end.
Fixpoint list_eqb (a b : list nat) : bool :=
  match a, b with [], [] => true | x :: a', y :: b' => (x =? y) && list_eqb a' b' | _, _ => false end.
(** [tensap.fast_setdiff(np.arange(n), d)]: the positions below n that are not in d, increasing *)
Definition compl (n : nat) (d : list nat) : list nat := filter (fun k => negb (inb k d)) (seq 0 n).
(** is [p] a permutation of 0..n-1 *)
Definition permb (n : nat) (p : list nat) : bool :=
  (length p =? n) && forallb (fun k => k <? n) p && nodupb p.
(** the multi-index of length [n] whose entries at the positions [d] are [js] and whose other
    entries are, in order, [is] *)
Definition asm (n : nat) (d js is : list nat) : list nat :=
  map (fun k => if inb k d then nth (index_of k d) js 0 else nth (index_of k (compl n d)) is 0) (seq 0 n).
(** [np.argsort] on distinct nonnegative integers (any sorting algorithm gives the same answer) *)
Definition np_argsort (l : list nat) : list nat := argsort_stable (map Z.of_nat l).

Section Numpy.
  Context {R : Type} {CR : CRing R}.
  Local Open Scope cr_scope.

  Definition ndim (A : nd R) : nat := length (shape A).
  Definition np_size (A : nd R) : nat := prodn (shape A).
  (** 0-d array *)
  Definition scalar (c : R) : nd R := ND [] (fun _ => c).

  (** [np.transpose(A, p)] *)
  Definition np_transpose (A : nd R) (p : list nat) : option (nd R) :=
    if permb (ndim A) p
    then Some (ND (sel 0 (shape A) p) (fun is => get A (sel 0 is (inv_perm p)))) else None.

  (** [np.reshape(A, s, order="F")], [np.reshape(A, s)] (C order) *)
  Definition np_reshapeF (A : nd R) (s : list nat) : option (nd R) :=
    if prodn s =? prodn (shape A)
    then Some (ND s (fun is => get A (ind2subF (shape A) (sub2indF s is)))) else None.
  Definition np_reshapeC (A : nd R) (s : list nat) : option (nd R) :=
    if prodn s =? prodn (shape A)
    then Some (ND s (fun is => get A (ind2subC (shape A) (sub2indC s is)))) else None.

  (** broadcasting (trailing dimensions are aligned; a size 1 is stretched) *)
  Fixpoint bshape_rev (a b : list nat) : option (list nat) :=
    match a, b with
    | [], _ => Some b
    | _, [] => Some a
    | x :: a', y :: b' =>
      match bshape_rev a' b' with
      | None => None
      | Some c => if x =? y then Some (x :: c) else if x =? 1 then Some (y :: c)
                  else if y =? 1 then Some (x :: c) else None
      end
    end.
  Definition bshape (a b : list nat) : option (list nat) :=
    match bshape_rev (rev a) (rev b) with Some c => Some (rev c) | None => None end.
  Definition bindex (s is : list nat) : list nat :=
    rev (map (fun p => if fst p =? 1 then 0%nat else snd p) (combine (rev s) (rev is))).
  Definition np_binop (f : R -> R -> R) (A B : nd R) : option (nd R) :=
    match bshape (shape A) (shape B) with
    | None => None
    | Some s => Some (ND s (fun is => f (get A (bindex (shape A) is)) (get B (bindex (shape B) is))))
    end.
  Definition np_map (f : R -> R) (A : nd R) : nd R := ND (shape A) (fun is => f (get A is)).

  (** [np.sum(A)] *)
  Definition np_sum (A : nd R) : R := bsum (shape A) (get A).
  (** [np.sum(A, dims, keepdims=True)] *)
  Definition np_sum_keep (A : nd R) (d : list nat) : option (nd R) :=
    if forallb (fun k => k <? ndim A) d && nodupb d
    then Some (ND (map (fun k => if inb k d then 1%nat else nth k (shape A) 0%nat) (seq 0 (ndim A)))
                  (fun is => bsum (sel 0 (shape A) d)
                                  (fun js => get A (asm (ndim A) d js (sel 0 is (compl (ndim A) d))))))
    else None.

  (** [np.take(A, ind, axis=dim)] for a 1-D array of indices *)
  Definition np_take (A : nd R) (ind : list nat) (dim : nat) : option (nd R) :=
    if (dim <? ndim A) && forallb (fun k => k <? nth dim (shape A) 0%nat) ind
    then Some (ND (upd dim (length ind) (shape A))
                  (fun is => get A (upd dim (nth (nth dim is 0%nat) ind 0%nat) is))) else None.

  (** [np.concatenate([A, B], dim)] *)
  Definition np_concatenate (A B : nd R) (dim : nat) : option (nd R) :=
    if (dim <? ndim A) && list_eqb (upd dim 0%nat (shape A)) (upd dim 0%nat (shape B))
    then Some (ND (upd dim (nth dim (shape A) 0%nat + nth dim (shape B) 0%nat)%nat (shape A))
                  (fun is => let i := nth dim is 0%nat in
                             if i <? nth dim (shape A) 0%nat then get A is
                             else get B (upd dim (i - nth dim (shape A) 0%nat)%nat is)))
    else None.

  (** [np.pad(A, [(b_k, a_k)])] with zeros: b_k zeros before and a_k after along axis k *)
  Definition np_pad (A : nd R) (before after : list nat) : nd R :=
    ND (map (fun p => (fst (fst p) + snd (fst p) + snd p)%nat) (combine (combine before (shape A)) after))
       (fun is =>
          if forallb (fun p => (fst (fst p) <=? snd p) && (snd p <? (fst (fst p) + snd (fst p))%nat))
                     (combine (combine before (shape A)) is)
          then get A (map (fun p => (snd p - fst p)%nat) (combine before is)) else r0).

  (** [np.tensordot(A, B, [d1, d2])]: contraction of the axes d1 of A with the axes d2 of B; the
      remaining axes of A, in order, come first, then those of B *)
  Definition np_tensordot (A B : nd R) (d1 d2 : list nat) : option (nd R) :=
    let f1 := compl (ndim A) d1 in
    let f2 := compl (ndim B) d2 in
    if (length d1 =? length d2) && forallb (fun k => k <? ndim A) d1 && forallb (fun k => k <? ndim B) d2
       && nodupb d1 && nodupb d2 && list_eqb (sel 0%nat (shape A) d1) (sel 0%nat (shape B) d2)
    then Some (ND (sel 0%nat (shape A) f1 ++ sel 0%nat (shape B) f2)
                  (fun is => bsum (sel 0%nat (shape A) d1)
                     (fun js => get A (asm (ndim A) d1 js (firstn (length f1) is))
                                * get B (asm (ndim B) d2 js (skipn (length f1) is)))))
    else None.

  (** [np.matmul] / [np.dot] of two 2-D arrays *)
  Definition np_matmul (A B : nd R) : option (nd R) :=
    match shape A, shape B with
    | [m; p], [p'; n] =>
      if p =? p' then
        Some (ND [m; n] (fun is => rsum p (fun k => get A [nth 0 is 0%nat; k] * get B [k; nth 1 is 0%nat])))
      else None
    | _, _ => None
    end.

  (** [np.einsum(A, l1, B, l2, lo)]: lists of integer labels; the labels absent from [lo] are summed.
      (numpy also accepts a label bearing sizes 1 and n, by broadcasting: not modelled, [None].) *)
  Definition lab_size (A B : nd R) (l1 l2 : list nat) (x : nat) : nat :=
    if inb x l1 then nth (index_of x l1) (shape A) 0%nat else nth (index_of x l2) (shape B) 0%nat.
  Fixpoint nubn (l : list nat) : list nat :=
    match l with [] => [] | a :: l' => a :: filter (fun b => negb (b =? a)) (nubn l') end.
  Definition np_einsum (A : nd R) (l1 : list nat) (B : nd R) (l2 lo : list nat) : option (nd R) :=
    let sz := lab_size A B l1 l2 in
    let ls := filter (fun x => negb (inb x lo)) (nubn (l1 ++ l2)) in
    if (length l1 =? ndim A) && (length l2 =? ndim B) && nodupb lo
       && forallb (fun x => inb x (l1 ++ l2)) lo
       && list_eqb (map sz l1) (shape A) && list_eqb (map sz l2) (shape B)
    then Some (ND (map sz lo)
                  (fun is => bsum (map sz ls)
                     (fun js => let v := fun x => if inb x lo then nth (index_of x lo) is 0%nat
                                                  else nth (index_of x ls) js 0%nat in
                                get A (map v l1) * get B (map v l2))))
    else None.

  (** [np.squeeze(A, dims)] *)
  Definition np_squeeze (A : nd R) (d : list nat) : option (nd R) :=
    if forallb (fun k => (k <? ndim A) && (nth k (shape A) 0%nat =? 1)) d && nodupb d
    then Some (ND (sel 0%nat (shape A) (compl (ndim A) d))
                  (fun is => get A (asm (ndim A) d (repeat 0%nat (length d)) is))) else None.

  (** [np.squeeze(A)]: all the axes of size 1 *)
  Definition np_squeeze_all (A : nd R) : option (nd R) :=
    np_squeeze A (filter (fun k => nth k (shape A) 0%nat =? 1) (seq 0 (ndim A))).

  (** [np.expand_dims(A, k)] *)
  Definition np_expand_dims (A : nd R) (k : nat) : nd R :=
    ND (firstn k (shape A) ++ 1%nat :: skipn k (shape A))
       (fun is => get A (firstn k is ++ skipn (S k) is)).

  (** [np.eye(n)] *)
  Definition np_eye (n : nat) : nd R :=
    ND [n; n] (fun is => if nth 0 is 0%nat =? nth 1 is 0%nat then r1 else r0).

  Definition np_zeros (s : list nat) : nd R := ND s (fun _ => r0).
  Definition np_ones (s : list nat) : nd R := ND s (fun _ => r1).
  (** [np.diag(v)] of a 1-D array *)
  Definition np_diag (v : nd R) : nd R :=
    let n := nth 0 (shape v) 0%nat in
    ND [n; n] (fun is => if nth 0 is 0%nat =? nth 1 is 0%nat then get v [nth 0 is 0%nat] else r0).
End Numpy.
