(** C37: magic points and cross approximation (tensap.magic_indices, FunctionalBasis.magic_points, FunctionalBasis.interpolate). *)
From Coq Require Import List Arith Lia Reals Lra Bool.
From Verif.Base Require Import ListAux CRing Index RealAux LinAlg.
From Verif.Model Require Import Learning MagicIndices.
From Verif.Spec Require Import LearningSpec MagicSpec.
From Verif.Proofs Require Import MagicP LapackP.
Import ListNotations.
Local Open Scope R_scope.

(** the requested number of points *)
Definition requested (F : mx) (n : option nat) : nat := match n with Some n => n | None => Nat.min (mrows F) (mcols F) end.

(** C37: whatever the option, the returned indices are distinct, in range, in the requested number, and F[I, J] is nonsingular *)
Theorem c37_indices : forall L F n o Is J, lapack_ok L -> magic_indices L F n o = Some (Is, J) ->
  length Is = requested F n /\ length J = requested F n /\ distinct_below (mrows F) Is /\ distinct_below (mcols F) J /\ sub_nonsingular (ment F) Is J.
Proof.
  intros L F n o Is J HL H. destruct (magic_state L HL F n o Is J H) as (H1 & H2 & H3 & H4). split; [exact H1|]. split; [rewrite <- (proj1 H2); exact H1|]. auto.
Qed.
(** C37: the cross approximation F[:, J] F[I, J]^{-1} F[I, :] exists, is unique and reproduces the rows I and the columns J of F;
    it is equal to F if F has rank at most the number of points *)
Theorem c37_interpolation : forall L F n o Is J, lapack_ok L -> magic_indices L F n o = Some (Is, J) ->
  exists G, cross_approximation (mrows F) (mcols F) (ment F) Is J G /\
    (forall G', cross_approximation (mrows F) (mcols F) (ment F) Is J G' -> forall a b, (a < mrows F)%nat -> (b < mcols F)%nat -> G' a b = G a b) /\
    (forall a b, (a < mrows F)%nat -> (b < mcols F)%nat -> In a Is \/ In b J -> G a b = ment F a b) /\
    (rank_le (mrows F) (mcols F) (ment F) (requested F n) -> forall a b, (a < mrows F)%nat -> (b < mcols F)%nat -> G a b = ment F a b).
Proof.
  intros L F n o Is J HL H. destruct (magic_state L HL F n o Is J H) as (H1 & H2 & [_ H3] & [_ H4]). destruct (cross_exists (mrows F) (mcols F) (ment F) Is J H2) as [G HG].
  exists G. split; [auto|]. split; [|split].
  - intros G' HG' a b Ha Hb. eapply cross_unique; eauto.
  - intros a b Ha Hb [HI|HJ]; [eapply cross_rows; eauto|eapply cross_cols; eauto].
  - intros HR. eapply cross_exact; eauto. rewrite <- (proj1 H2), H1. exact HR.
Qed.
(** C37: the default algorithm raises exactly for the matrices of rank smaller than the number of points *)
Theorem c37_success : forall L F n, lapack_ok L ->
  ((exists r, magic_indices L F n LeftRight = Some r) <-> forall r, (r < requested F n)%nat -> ~ rank_le (mrows F) (mcols F) (ment F) r).
Proof. intros L F n HL. exact (magic_lr_success L HL F n). Qed.
Print Assumptions c37_success.
(** C37: "left" ("right") selects the first columns (rows) and raises unless they are linearly independent *)
Theorem c37_left : forall L F n, lapack_ok L ->
  ((exists r, magic_indices L F n Left = Some r) <-> ((requested F n <= mcols F)%nat /\ inj (mrows F) (requested F n) (ment F))) /\
  (forall Is J, magic_indices L F n Left = Some (Is, J) -> J = seq 0 (requested F n)).
Proof. intros L F n HL. split; [exact (magic_left_success L HL F n)|]. intros Is J H. apply (magic_left_greedy L HL F n Is J H). Qed.
Print Assumptions c37_left.
Theorem c37_right : forall L F n, lapack_ok L ->
  ((exists r, magic_indices L F n Right = Some r) <-> ((requested F n <= mrows F)%nat /\ inj (mcols F) (requested F n) (fun i j => ment F j i))) /\
  (forall Is J, magic_indices L F n Right = Some (Is, J) -> Is = seq 0 (requested F n)).
Proof.
  intros L F n HL. rewrite !magic_right. assert (HS := magic_left_success L HL (mtr F) (Some (n_of F n))). assert (HG := magic_left_greedy L HL (mtr F) (Some (n_of F n))).
  cbn [n_of] in *. split.
  - split.
    + intros [r Hr]. apply HS. destruct (magic_indices L (mtr F) _ Left) as [r'|]; [eauto|discriminate].
    + intros H. destruct (proj2 HS H) as [[J Is] E]. rewrite E. eauto.
  - intros Is J H. destruct (magic_indices L (mtr F) _ Left) as [[J' I']|] eqn:E; [|discriminate]. injection H as <- <-. apply (HG _ _ eq_refl).
Qed.
Print Assumptions c37_right.
(** C37: each new pivot is an entry where the error of the previous cross approximation is largest (and not zero) *)
Theorem c37_greedy : forall L F n Is J k G, lapack_ok L -> magic_indices L F n LeftRight = Some (Is, J) -> (k < requested F n)%nat ->
  cross_approximation (mrows F) (mcols F) (ment F) (firstn k Is) (firstn k J) G ->
  let e := Rabs (ment F (nth k Is 0%nat) (nth k J 0%nat) - G (nth k Is 0%nat) (nth k J 0%nat)) in
  0 < e /\ forall a b, (a < mrows F)%nat -> (b < mcols F)%nat -> Rabs (ment F a b - G a b) <= e.
Proof.
  intros L F n Is J k G HL H Hk HG e. destruct (magic_state L HL F n _ Is J H) as (H1 & H2 & [_ H3] & [_ H4]).
  destruct (magic_lr_greedy L HL F n Is J H k Hk) as (G' & C1 & C2 & C3 & C4). cbv zeta in *. assert (E := cross_unique _ _ _ _ _ _ _ C2 HG C1).
  assert (Hi : (nth k Is 0 < mrows F)%nat) by (apply H3, nth_In; rewrite H1; exact Hk). assert (Hj : (nth k J 0 < mcols F)%nat) by (apply H4, nth_In; rewrite <- (proj1 H2), H1; exact Hk).
  unfold e. rewrite (E _ _ Hi Hj). split; auto. intros a b Ha Hb. rewrite (E a b Ha Hb). auto.
Qed.
Print Assumptions c37_greedy.
(** C37: the point sets are nested: asking for fewer points gives the first ones *)
Theorem c37_nested : forall L F n k Is J, (k <= n)%nat -> magic_indices L F (Some n) LeftRight = Some (Is, J) ->
  magic_indices L F (Some k) LeftRight = Some (firstn k Is, firstn k J).
Proof. exact magic_nested. Qed.
Print Assumptions c37_nested.
(** C37: magic_points succeeds iff the functions are linearly independent on the candidate points *)
Theorem c37_points_success : forall L card phi x, lapack_ok L ->
  ((exists r, magic_points L card phi x None = Some r) <-> ((card <= length x)%nat /\ inj (length x) card (fun i j => phi (nth i x 0) j))).
Proof. intros. apply points_success; auto. Qed.
Print Assumptions c37_points_success.
(** C37: it then returns distinct points among the candidates, and interpolate at these points matches all prescribed values,
    with unique coefficients (so that functions of the span are reproduced) *)
Theorem c37_points : forall L card phi x J pts ind, lapack_ok L -> (forall J', J = Some J' -> forall j, In j J' -> (j < card)%nat) ->
  magic_points L card phi x J = Some (pts, ind) ->
  length ind = card /\ distinct_below (length x) ind /\ pts = map (fun i => nth i x 0) ind /\
  forall y, exists c, interpolate L card phi pts y = Some c /\
    (forall k, (k < card)%nat -> rsum card (fun j => phi (nth k pts 0) j * c j) = y k) /\
    (forall c', (forall k, (k < card)%nat -> rsum card (fun j => phi (nth k pts 0) j * c' j) = y k) -> forall j, (j < card)%nat -> c j = c' j).
Proof.
  intros L card phi x J pts ind HL HJ H. assert (HJ' : forall j, In j (match J with Some J => J | None => [] end) -> (j < card)%nat) by (destruct J as [J|]; [exact (HJ J eq_refl)|intros j []]).
  destruct (points_nonsingular L HL card phi x J pts ind HJ' H) as (H1 & H2 & H3 & H4). split; [auto|]. split; [auto|]. split; [auto|]. intros y.
  destruct (interpolate_spec L HL card phi pts y H4) as (c & C1 & C2 & C3). assert (LP : length pts = card) by (rewrite H3, map_length; auto). rewrite LP in *. exists c. auto.
Qed.
Print Assumptions c37_indices.
Print Assumptions c37_interpolation.
Print Assumptions c37_points.

(** ** Examples *)
(** a 3 x 2 matrix of rank 2: two points are found *)
Definition exF : mx := MX 3 2 (fun a b => match a, b with 0%nat, 0%nat => 1 | 1%nat, 1%nat => 3 | 2%nat, _ => 1 | _, _ => 0 end).
Example c37_ex : forall L, lapack_ok L -> exists Is J, magic_indices L exF None LeftRight = Some (Is, J) /\ length Is = 2%nat.
Proof.
  intros L HL. destruct (proj2 (c37_success L exF None HL)) as [[Is J] E].
  - cbn. intros r Hr (A & B & HAB). assert (HI : ~ inj 3 2 (ment exF)) by (apply (rank_inj 3 2 (ment exF) r); [exists A, B; auto|lia]). apply HI. intros x Hx j Hj.
    assert (X0 := Hx 0%nat ltac:(lia)). assert (X1 := Hx 1%nat ltac:(lia)). unfold mv in X0, X1. rewrite !rsum_S_R in X0, X1. cbn in X0, X1. destruct j as [|[|j]]; [lra|lra|lia].
  - exists Is, J. split; auto. exact (proj1 (c37_indices L exF None _ Is J HL E)).
Qed.
(** the zero matrix of size 1: LinAlgError *)
Example c37_zero : forall L, lapack_ok L -> magic_indices L (MX 1 1 (fun _ _ => 0)) None LeftRight = None.
Proof.
  intros L HL. destruct (magic_indices L (MX 1 1 (fun _ _ => 0)) None LeftRight) as [r|] eqn:E; auto. exfalso.
  apply (proj1 (c37_success L (MX 1 1 (fun _ _ => 0)) None HL) (ex_intro _ r E) 0%nat ltac:(cbn; lia)). exists (fun _ _ => 0), (fun _ _ => 0). reflexivity.
Qed.
(** polynomials of degree at most 1 and three candidate points *)
Example c37_points_ex : forall L, lapack_ok L -> exists r, magic_points L 2 (fun x j => x ^ j) [0; 1; 2] None = Some r.
Proof.
  intros L HL. apply (proj2 (c37_points_success L 2 _ [0; 1; 2] HL)). split; [cbn; lia|]. intros c Hc j Hj.
  assert (X0 := Hc 0%nat ltac:(cbn; lia)). assert (X1 := Hc 1%nat ltac:(cbn; lia)). unfold mv in X0, X1. rewrite !rsum_S_R in X0, X1. cbn in X0, X1. destruct j as [|[|j]]; [lra|lra|lia].
Qed.
Example c37_lapack : exists L, lapack_ok L.
Proof. exact lapack_exists. Qed.
