(** Vocabulary for the properties of functions and grids (no code is modelled here). *)
From Coq Require Import List Arith Sorted.
From Verif.Base Require Import ListAux CRing Index.
From Verif.Model Require Import DimensionTree.
From Verif.Spec Require Import TreeSpec.
Import ListNotations.

(** the value at a node of the composition, along the tree t, of the functions f: the leaf of dimension mu has
    the value x mu, another node n the value f n (v_1, ..., v_k) where v_1, ..., v_k are the values of its
    children, in increasing order of their numbers *)
Inductive composition {V} (t : dtree) (f : nat -> list V -> V) (x : nat -> V) : nat -> V -> Prop :=
| comp_leaf mu : mu < length (d2i t) -> composition t f x (nth mu (d2i t) 0) (x mu)
| comp_node n cs vs : node t n -> cs <> [] -> StronglySorted lt cs -> (forall c, In c cs <-> edge t n c) ->
    Forall2 (composition t f x) cs vs -> composition t f x n (f n vs).

(** the point of the grid with multi-index is: the concatenation of the is_k-th points of the grids *)
Fixpoint grid_point {A} (G : list (list (list A))) (is : list nat) : list A :=
  match G, is with g :: G', i :: is' => nth i g [] ++ grid_point G' is' | _, _ => [] end.
