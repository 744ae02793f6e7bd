(** Vocabulary for the properties of functional bases and functional tensors (no code is modelled here). *)
From Coq Require Import List Arith.
From Verif.Base Require Import ListAux CRing Index.
From Verif.Model Require Import Numpy FunctionalBases.
From Verif.Spec Require Import TensorSpec FunctionSpec.
Import ListNotations.

Section S.
  Context {R : Type} {CR : CRing R} {A V : Type}.
  Local Open Scope cr_scope.
  (** the product function phi_{1,i_1}(p_1) ... phi_{d,i_d}(p_d): the point p is the concatenation of p_1, ..., p_d,
      where p_k has as many coordinates as the basis k has variables *)
  Fixpoint prod_fun (bs : list (fbasis R A V)) (is : list nat) (p : list A) : R :=
    match bs, is with
    | b :: bs', i :: is' => fb_at b (firstn (fb_ndim b) p) i * prod_fun bs' is' (skipn (fb_ndim b) p)
    | _, _ => r1
    end.
  (** the point p has the right number of coordinates *)
  Definition point_ok (bs : list (fbasis R A V)) (p : list A) : Prop := length p = sumn (map fb_ndim bs).
  (** numbers of functions of the bases *)
  Definition cards (bs : list (fbasis R A V)) : list nat := map fb_card bs.
  (** sum over js of T[js] phi_js(p) *)
  Definition expansion (bs : list (fbasis R A V)) (T : list nat -> R) (p : list A) : R :=
    bsum (cards bs) (fun js => T js * prod_fun bs js p).
  (** discrete expectation of f: sum_k w_k f(x_k) *)
  Definition dmean (pts : list (list A)) (w : list R) (f : list A -> R) : R := rsum (length pts) (fun k => nth k w r0 * f (nth k pts [])).
End S.

Section S2.
  Context {R : Type} {CR : CRing R} {A V : Type}.
  Local Open Scope cr_scope.
  (** expectation of f for the product of the discrete measures with points G_1, ..., G_d and weights W_1, ..., W_d *)
  Definition tmean (G : list (list (list A))) (W : list (list R)) (f : list A -> R) : R :=
    bsum (map (@length _) G) (fun is => lfactors W is * f (grid_point G is)).
  (** mean() returns the expectations of the functions of the basis b for the discrete measure (pts, w) *)
  Definition mean_ok (b : fbasis R A V) (pts : list (list A)) (w : list R) : Prop :=
    length w = length pts /\ Forall (fun p => length p = fb_ndim b) pts /\ length (fb_mean b None) = fb_card b /\
    forall k, (k < fb_card b)%nat -> nth k (fb_mean b None) r0 = dmean pts w (fun p => fb_at b p k).
  (** gram_matrix() returns the expectations of the products of the functions of the basis b for the discrete measure
      (pts, w); the attribute is_orthonormal is true only if the basis is orthonormal *)
  Definition gram_ok (b : fbasis R A V) (pts : list (list A)) (w : list R) : Prop :=
    length w = length pts /\ Forall (fun p => length p = fb_ndim b) pts /\ shape (fb_gram b) = [fb_card b; fb_card b] /\
    (forall k l, (k < fb_card b)%nat -> (l < fb_card b)%nat -> get (fb_gram b) [k; l] = dmean pts w (fun p => fb_at b p k * fb_at b p l)) /\
    (fb_orth b = true -> forall k l, (k < fb_card b)%nat -> (l < fb_card b)%nat -> dmean pts w (fun p => fb_at b p k * fb_at b p l) = if (k =? l)%nat then r1 else r0).
  (** P holds for the k-th elements of the three lists (of the same length), for every k *)
  Fixpoint each3 {X Y Z} (P : X -> Y -> Z -> Prop) (a : list X) (b : list Y) (c : list Z) : Prop :=
    match a, b, c with
    | [], [], [] => True
    | x :: a', y :: b', z :: c' => P x y z /\ each3 P a' b' c'
    | _, _, _ => False
    end.
  (** the variables (groups of coordinates) of the list dims have the fixed values P_k, the others the product measure
      with points G_k and weights W_k: points and weights of this product measure *)
  Definition fix_points (dims : list nat) (P : list (list A)) (G : list (list (list A))) : list (list (list A)) :=
    map (fun k => if existsb (Nat.eqb k) dims then [nth k P []] else nth k G []) (seq 0 (length G)).
  Definition fix_weights (dims : list nat) (W : list (list R)) : list (list R) :=
    map (fun k => if existsb (Nat.eqb k) dims then [r1] else nth k W []) (seq 0 (length W)).
  (** documented behaviour of numpy.linalg: solve(M, Y) returns X with M X = Y or raises if M is singular, inv(M)
      returns the inverse, cholesky(M) a factor L with L L^T = M *)
  Definition identity (n : nat) (f : nat -> nat -> R) : Prop := forall i j, (i < n)%nat -> (j < n)%nat -> f i j = if (i =? j)%nat then r1 else r0.
  Definition inv_contract (inv : nd R -> option (nd R)) : Prop := forall M N, inv M = Some N -> exists n, shape M = [n; n] /\ shape N = [n; n] /\
    identity n (fun i j => rsum n (fun k => get M [i; k] * get N [k; j])) /\ identity n (fun i j => rsum n (fun k => get N [i; k] * get M [k; j])).
  Definition solve_contract (solve : nd R -> nd R -> option (nd R)) : Prop := forall M Y X, solve M Y = Some X -> exists n m, shape M = [n; n] /\ shape Y = [n; m] /\ shape X = [n; m] /\
    (exists N, identity n (fun i j => rsum n (fun k => N i k * get M [k; j]))) /\
    forall i j, (i < n)%nat -> (j < m)%nat -> rsum n (fun k => get M [i; k] * get X [k; j]) = get Y [i; j].
  Definition chol_contract (chol : nd R -> option (nd R)) : Prop := forall M L, chol M = Some L -> exists n, shape M = [n; n] /\ shape L = [n; n] /\
    forall i j, (i < n)%nat -> (j < n)%nat -> rsum n (fun k => get L [i; k] * get L [j; k]) = get M [i; j].
End S2.
