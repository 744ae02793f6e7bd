(** Model of tensap/tools/utils.py *)
From Coq Require Import List Arith Lia Bool.
From Verif.Base Require Import ListAux Index.
Import ListNotations.

(** utils.py:36-61 integer2baseb(i, b, d) for one integer, d given: F-order digits flipped
    (most significant first); [np.unravel_index] raises when i >= b^d. *)
Definition integer2baseb (i b d : nat) : option (list nat) :=
  if i <? b ^ d then Some (rev (ind2subF (repeat b d) i)) else None.

(** utils.py:57-58: default number of digits [ceil(log(max(i)+1)/log(b))]; exact arithmetic: the least d
    with b^d >= max(i)+1 (searched upwards with fuel; simplification: float logarithms not modelled) *)
Fixpoint digits_needed (fuel d b n : nat) : nat :=
  match fuel with O => d | S f => if n <? b ^ d then d else digits_needed f (S d) b n end.
Definition integer2baseb_default (is : list nat) (b : nat) : option (list (list nat)) :=
  let m := fold_right Nat.max 0 is in
  let d := digits_needed (S m) 0 b m in
  omap (fun i => integer2baseb i b d) is.

(** utils.py:64-86 baseb2integer(I0, b) for one row; raises when a digit is not in 0..b-1 *)
Definition baseb2integer (I0 : list nat) (b : nat) : option nat :=
  if forallb (fun x => x <? b) I0
  then Some (sub2indF (repeat b (length I0)) (rev I0)) else None.

(** utils.py:32-33 fast_setdiff(a, b): elements of a not in b, order of a kept *)
Definition fast_setdiff (a b : list nat) : list nat :=
  filter (fun x => negb (existsb (Nat.eqb x) b)) a.

(** utils.py:25-29 fast_intersect(a, b): concatenate, sort, keep the entries equal to their successor *)
Fixpoint insert_nat (x : nat) (l : list nat) : list nat :=
  match l with [] => [x] | y :: l' => if x <=? y then x :: l else y :: insert_nat x l' end.
Definition sort_nat (l : list nat) : list nat := fold_right insert_nat [] l.
Fixpoint adj_dups (l : list nat) : list nat :=
  match l with
  | x :: ((y :: _) as l') => if x =? y then x :: adj_dups l' else adj_dups l'
  | _ => []
  end.
Definition fast_intersect (a b : list nat) : list nat := adj_dups (sort_nat (a ++ b)).
