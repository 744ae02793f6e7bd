(** numpy sorting and uniqueness primitives used by tensap (documented numpy semantics).
    - [np.argsort(a, kind="mergesort")] is stable: [argsort_stable] (insertion sort on positions).
    - [np.argsort(a)] (default introsort) guarantees only that the result is a permutation of
      0..n-1 along which the keys are non-decreasing: [argsort_ok].  Functions of tensap that use
      it are parameterised by any function meeting this contract.
    - [np.unique(a, axis=0, return_index=True)[1]] followed by [sorted]: positions of the first
      occurrences, in the original order: [dedup]. *)
From Coq Require Import List Arith ZArith Lia Bool Permutation.
From Verif.Base Require Import ListAux Index.
Import ListNotations.

(** insert position [k] in an already sorted list of positions, before strictly larger keys;
    positions are inserted from the last to the first, hence ties keep the original order *)
Fixpoint insert_pos (key : nat -> Z) (k : nat) (l : list nat) : list nat :=
  match l with
  | [] => [k]
  | j :: l' => if Z.leb (key k) (key j) then k :: l else j :: insert_pos key k l'
  end.

Definition argsort_stable (a : list Z) : list nat :=
  fold_right (insert_pos (fun i => nth i a 0%Z)) [] (seq 0 (length a)).

(** contract of [np.argsort] *)
Definition argsort_ok (argsort : list Z -> list nat) : Prop :=
  forall a, is_perm (length a) (argsort a) /\
            forall i j, i < j -> j < length a ->
              (nth (nth i (argsort a) 0%nat) a 0 <= nth (nth j (argsort a) 0%nat) a 0)%Z.

(** contract of a stable argsort *)
Definition argsort_stable_ok (argsort : list Z -> list nat) : Prop :=
  argsort_ok argsort /\
  forall a i j, i < j -> j < length a ->
     nth (nth i (argsort a) 0%nat) a 0%Z = nth (nth j (argsort a) 0%nat) a 0%Z ->
     nth i (argsort a) 0%nat < nth j (argsort a) 0%nat.

Section Dedup.
  Context {A : Type} (eqb : A -> A -> bool).
  Definition memb (a : A) (l : list A) : bool := existsb (eqb a) l.
  (** first occurrences, in the original order ([seen] = rows already output) *)
  Fixpoint dedup_aux (seen l : list A) : list A :=
    match l with
    | [] => []
    | a :: l' => if memb a seen then dedup_aux seen l' else a :: dedup_aux (a :: seen) l'
    end.
  Definition dedup (l : list A) : list A := dedup_aux [] l.
  (** the positions kept by [dedup] *)
  Fixpoint dedup_pos_aux (k : nat) (seen l : list A) : list nat :=
    match l with
    | [] => []
    | a :: l' => if memb a seen then dedup_pos_aux (S k) seen l' else k :: dedup_pos_aux (S k) (a :: seen) l'
    end.
End Dedup.
