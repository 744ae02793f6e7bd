(** Vocabulary for the properties of dimension trees (no code is modelled here). *)
From Coq Require Import List Arith.
From Verif.Model Require Import DimensionTree.
Import ListNotations.

(** nodes are numbered 1..n; there is an edge from p (parent) to c (child) *)
Definition node (t : dtree) (n : nat) : Prop := 1 <= n <= nbn t.
Definition edge (t : dtree) (p c : nat) : Prop := node t p /\ node t c /\ adj t p c = true.
(** [depth t r n k]: node n is reached from r by a path of k edges *)
Inductive depth (t : dtree) (r : nat) : nat -> nat -> Prop :=
| depth_root : depth t r r 0
| depth_child p c k : depth t r p k -> edge t p c -> depth t r c (S k).
(** [below t r n]: n is r or a descendant of r *)
Definition below (t : dtree) (r n : nat) : Prop := exists k, depth t r n k.

(** a rooted tree with root r: no edge enters r, exactly one enters any other node, every node is
    reached from r *)
Definition rooted_tree (t : dtree) (r : nat) : Prop :=
  node t r /\ (forall p, ~ edge t p r) /\
  (forall c, node t c -> c <> r -> exists p, edge t p c /\ forall q, edge t q c -> q = p) /\
  (forall c, node t c -> below t r c).
(** a dimension tree: the dimensions 0..d-1 are mapped, one to one, to the leaves *)
Definition dim_tree (t : dtree) (r : nat) : Prop :=
  rooted_tree t r /\ NoDup (d2i t) /\
  (forall n, In n (d2i t) <-> node t n /\ forall c, ~ edge t n c).

(** same tree up to the numbering of the nodes: a one-to-one correspondence between the nodes that
    preserves the edges in both directions and sends the leaf of each dimension to its leaf *)
Definition same_tree (a b : dtree) : Prop :=
  nbn a = nbn b /\ length (d2i a) = length (d2i b) /\
  exists phi, (forall n, node a n -> node b (phi n)) /\
    (forall n m, node a n -> node a m -> phi n = phi m -> n = m) /\
    (forall p c, node a p -> node a c -> (edge a p c <-> edge b (phi p) (phi c))) /\
    (forall mu, mu < length (d2i a) -> phi (nth mu (d2i a) 0) = nth mu (d2i b) 0).
