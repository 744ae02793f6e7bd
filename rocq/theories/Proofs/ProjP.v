(** Orthogonal projections in the space of the real tensors of a given shape. *)
From Coq Require Import List Arith Lia Bool Reals Lra.
From Verif.Base Require Import ListAux CRing Index RealAux.
Import ListNotations.
Local Open Scope R_scope.

Definition ip (s : list nat) (f g : list nat -> R) : R := bsum s (fun is => f is * g is).
Definition n2 (s : list nat) (f : list nat -> R) : R := ip s f f.
Definition fsub (f g : list nat -> R) : list nat -> R := fun is => f is - g is.
Lemma ip_ext s f g f' g' : (forall is, valid s is -> f is = f' is) -> (forall is, valid s is -> g is = g' is) -> ip s f g = ip s f' g'.
Proof. intros H1 H2. apply bsum_ext. intros is Hi. rewrite H1, H2 by auto. auto. Qed.
Lemma n2_ext s f f' : (forall is, valid s is -> f is = f' is) -> n2 s f = n2 s f'.
Proof. intros H. apply ip_ext; auto. Qed.
Lemma n2_nonneg s f : 0 <= n2 s f.
Proof. apply bsum_nonneg. intros. apply Rle_0_sqr. Qed.
Lemma ip_sym s f g : ip s f g = ip s g f.
Proof. apply bsum_ext. intros. ring. Qed.
Lemma ip_sub_l s f g h : ip s (fsub f g) h = ip s f h - ip s g h.
Proof. unfold ip, fsub. rewrite <- bsum_minus_R. apply bsum_ext. intros. ring. Qed.
Lemma ip_sub_r s f g h : ip s h (fsub f g) = ip s h f - ip s h g.
Proof. rewrite ip_sym, ip_sub_l, !(ip_sym s _ h). auto. Qed.

Lemma n2_add s a h : n2 s (fsub a (fun is => - h is)) = n2 s a + 2 * ip s a h + n2 s h.
Proof.
  unfold n2, ip, fsub. change (2 * bsum s (fun is => a is * h is)) with (rmul 2 (bsum s (fun is => a is * h is))). rewrite <- bsum_scal_l.
  set (x := bsum s (fun is => a is * a is)). set (y := bsum s _) at 2. set (z := bsum s (fun is => h is * h is)).
  change (x + y + z) with (radd (radd x y) z). unfold x, y, z. rewrite <- !bsum_plus. apply bsum_ext. intros. rcbn. ring.
Qed.
(** orthogonal projector *)
Definition is_proj (s : list nat) (P : (list nat -> R) -> list nat -> R) : Prop :=
  (forall f g, (forall is, valid s is -> f is = g is) -> forall is, valid s is -> P f is = P g is) /\
  (forall f g is, valid s is -> P (fsub f g) is = P f is - P g is) /\
  (forall f g, ip s f (P g) = ip s (P f) g) /\
  (forall f is, valid s is -> P (P f) is = P f is).
Section Proj.
  Variables (s : list nat) (P : (list nat -> R) -> list nat -> R).
  Hypothesis HP : is_proj s P.
  Lemma proj_orth f h : ip s (fsub f (P f)) (P h) = 0.
  Proof.
    destruct HP as (H1 & H2 & H3 & H4). rewrite ip_sub_l. rewrite <- (H3 f (P h)).
    rewrite (ip_ext s f (P (P h)) f (P h)) by auto. ring.
  Qed.
  Lemma proj_pyth f : n2 s f = n2 s (P f) + n2 s (fsub f (P f)).
  Proof.
    pose proof (proj_orth f f) as H. unfold n2. rewrite (ip_sub_r s f (P f) (fsub f (P f))), H. rewrite ip_sub_l in H. rewrite ip_sub_l. rewrite (ip_sym s (P f) f). lra.
  Qed.
  Lemma proj_contr f : n2 s (P f) <= n2 s f.
  Proof. rewrite (proj_pyth f). pose proof (n2_nonneg s (fsub f (P f))). lra. Qed.
  Lemma proj_sum f g : n2 s (fsub f (P g)) = n2 s (fsub f (P f)) + n2 s (P (fsub f g)).
  Proof.
    destruct HP as (H1 & H2 & H3 & H4).
    rewrite (n2_ext s (fsub f (P g)) (fsub (fsub f (P f)) (fun is => - P (fsub f g) is))).
    2:{ intros is Hi. unfold fsub at 1 2 3. rewrite H2 by auto. ring. }
    rewrite n2_add, proj_orth. ring.
  Qed.
End Proj.
(** composition of projectors *)
Lemma proj_list_err s Ps f : Forall (is_proj s) Ps ->
  n2 s (fsub f (fold_right (fun P g => P g) f Ps)) <= lsum Ps (fun P => n2 s (fsub f (P f))).
Proof.
  induction Ps as [|P Ps IH]; intros HF; simpl; rcbn.
  - rewrite (n2_ext s _ (fun _ => 0)) by (intros; unfold fsub; ring). unfold n2, ip. rewrite bsum_zero; [rcbn; lra|]. intros. rcbn. ring.
  - inversion HF as [|? ? HP HF']; subst. rewrite (proj_sum s P HP). pose proof (proj_contr s P HP (fsub f (fold_right (fun P g => P g) f Ps))). specialize (IH HF'). lra.
Qed.

(** * a matrix acting along one axis *)
Definition ax (d n : nat) (Q : nat -> nat -> R) (f : list nat -> R) : list nat -> R :=
  fun is => rsum n (fun j => Q (nth d is 0%nat) j * f (upd d j is)).
Lemma bsum_axis_swap s : forall d (G : list nat -> list nat -> R), (d < length s)%nat ->
  bsum s (fun is => rsum (nth d s 0%nat) (fun j => G is (upd d j is))) = bsum s (fun is => rsum (nth d s 0%nat) (fun j => G (upd d j is) is)).
Proof.
  induction s as [|n s IH]; intros d G Hd; [simpl in Hd; lia|]. destruct d as [|d]; cbn [bsum nth upd].
  - transitivity (rsum n (fun i => rsum n (fun j => bsum s (fun ks => G (i :: ks) (j :: ks))))).
    { apply rsum_ext. intros i _. apply bsum_rsum_exchange. }
    rewrite rsum_exchange. apply rsum_ext. intros i _. symmetry. apply bsum_rsum_exchange.
  - apply rsum_ext. intros i _. apply (IH d (fun a b => G (i :: a) (i :: b))). simpl in Hd. lia.
Qed.
Lemma upd_valid s is d j : valid s is -> (j < nth d s 0)%nat -> valid s (upd d j is).
Proof.
  intros H. revert d j. induction H as [|a b l l' H1 H2 IH]; intros d j Hj; [destruct d; simpl in Hj; lia|].
  destruct d; simpl in *; constructor; auto. apply IH. auto.
Qed.
Lemma ax_proj s d Q : (d < length s)%nat -> let n := nth d s 0%nat in
  (forall i j, (i < n)%nat -> (j < n)%nat -> Q i j = Q j i) ->
  (forall i j, (i < n)%nat -> (j < n)%nat -> rsum n (fun k => Q i k * Q k j) = Q i j) -> is_proj s (ax d n Q).
Proof.
  intros Hd n HS HI. unfold is_proj, ax.
  assert (HN : forall is, valid s is -> (nth d is 0 < n)%nat) by (intros; apply valid_nth; auto).
  assert (HU : forall is j, valid s is -> nth d (upd d j is) 0%nat = j) by (intros is j Hv; apply nth_upd_eq; rewrite (valid_length _ _ Hv); auto).
  split; [|split; [|split]].
  - intros f g H is Hi. apply rsum_ext. intros j Hj. rewrite H; auto. apply upd_valid; auto.
  - intros f g is Hi. change (rsum n (fun j => Q (nth d is 0%nat) j * f (upd d j is)) - rsum n (fun j => Q (nth d is 0%nat) j * g (upd d j is)))
      with (rsub (rsum n (fun j => Q (nth d is 0%nat) j * f (upd d j is))) (rsum n (fun j => Q (nth d is 0%nat) j * g (upd d j is)))).
    rewrite <- rsum_minus. apply rsum_ext. intros j Hj. unfold fsub. rcbn. ring.
  - intros f g. unfold ip.
    transitivity (bsum s (fun is => rsum n (fun j => (fun a b => f a * Q (nth d a 0%nat) (nth d b 0%nat) * g b) is (upd d j is)))).
    { apply bsum_ext. intros is Hi. change (f is * rsum n (fun j => Q (nth d is 0%nat) j * g (upd d j is))) with (rmul (f is) (rsum n (fun j => Q (nth d is 0%nat) j * g (upd d j is)))).
      rewrite <- rsum_scal_l. apply rsum_ext. intros j Hj. rcbn. rewrite HU by auto. ring. }
    unfold n. rewrite (bsum_axis_swap s d (fun a b => f a * Q (nth d a 0%nat) (nth d b 0%nat) * g b)) by auto. fold n. apply bsum_ext. intros is Hi.
    change (rsum n (fun j => Q (nth d is 0%nat) j * f (upd d j is)) * g is) with (rmul (rsum n (fun j => Q (nth d is 0%nat) j * f (upd d j is))) (g is)).
    rewrite <- rsum_scal_r. apply rsum_ext. intros j Hj. rcbn. rewrite HU by auto. rewrite (HS j (nth d is 0%nat)) by auto. ring.
  - intros f is Hi.
    transitivity (rsum n (fun l => rsum n (fun j => Q (nth d is 0%nat) j * Q j l) * f (upd d l is))).
    + transitivity (rsum n (fun j => rsum n (fun l => Q (nth d is 0%nat) j * Q j l * f (upd d l is)))).
      * apply rsum_ext. intros j Hj. rewrite HU by auto.
        change (Q (nth d is 0%nat) j * rsum n (fun j0 => Q j j0 * f (upd d j0 (upd d j is)))) with (rmul (Q (nth d is 0%nat) j) (rsum n (fun j0 => Q j j0 * f (upd d j0 (upd d j is))))).
        rewrite <- rsum_scal_l. apply rsum_ext. intros l Hl. rewrite upd_upd. rcbn. ring.
      * rewrite rsum_exchange. apply rsum_ext. intros l Hl. change (fun i => Q (nth d is 0%nat) i * Q i l * f (upd d l is)) with (fun i => rmul (Q (nth d is 0%nat) i * Q i l) (f (upd d l is))).
        rewrite rsum_scal_r. auto.
    + apply rsum_ext. intros l Hl. rewrite HI by auto. auto.
Qed.
(** product of matrices along all the axes *)
Fixpoint qprod (Q : nat -> nat -> nat -> R) (d : nat) (is ls : list nat) : R :=
  match is, ls with i :: is', l :: ls' => Q d i l * qprod Q (S d) is' ls' | _, _ => 1 end.
Lemma ax_fold_cons (n : nat) (s : list nat) (Q : nat -> nat -> nat -> R) f : forall k b i ks,
  fold_right (fun d g => ax d (nth d (n :: s) 0%nat) (Q (b + d)%nat) g) f (seq (S k) (length s - k)) (i :: ks)
  = fold_right (fun d g => ax d (nth d s 0%nat) (Q (S b + d)%nat) g) (fun ks => f (i :: ks)) (seq k (length s - k)) ks.
Proof.
  intros k b. generalize (length s - k)%nat as m. intros m. revert k. induction m as [|m IH]; intros k i ks; cbn [seq fold_right]; auto.
  unfold ax at 1 3. cbn [nth upd]. apply rsum_ext. intros j Hj. rewrite IH. f_equal. f_equal. lia.
Qed.
Lemma ax_all s : forall b (Q : nat -> nat -> nat -> R) f is, length is = length s ->
  bsum s (fun ls => f ls * qprod Q b is ls) = fold_right (fun d g => ax d (nth d s 0%nat) (Q (b + d)%nat) g) f (seq 0 (length s)) is.
Proof.
  induction s as [|n s IH]; intros b Q f is Hl; destruct is as [|i is]; try discriminate; cbn [bsum length seq fold_right qprod].
  - ring.
  - unfold ax at 1. cbn [nth upd]. apply rsum_ext. intros j Hj. pose proof (ax_fold_cons n s Q f 0 b j is) as E. rewrite Nat.sub_0_r in E. cbn [nth] in E. rewrite E.
    rewrite <- IH by (simpl in Hl; lia). rewrite Nat.add_0_r.
    change (Q b i j * bsum s (fun ls => f (j :: ls) * qprod Q (S b) is ls)) with (rmul (Q b i j) (bsum s (fun ls => f (j :: ls) * qprod Q (S b) is ls))).
    rewrite <- bsum_scal_l. apply bsum_ext. intros. rcbn. ring.
Qed.
