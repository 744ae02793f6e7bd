(** Sums over some of the components of a multi-index; orthonormal families. *)
From Coq Require Import List Arith Lia Bool Reals Lra Permutation.
From Verif.Base Require Import ListAux CRing Index RealAux.
From Verif.Model Require Import Numpy.
From Verif.Spec Require Import TensorSpec.
From Verif.Proofs Require Import NumpyP TreeTensorP12 PolyP5 EinsumP HsvdP2.
Import ListNotations.
Local Open Scope R_scope.

Section Part.
  Variable s : nat -> nat.
  Fixpoint part (ds : list nat) (f : list nat -> R) (is : list nat) : R :=
    match ds with [] => f is | d :: ds' => rsum (s d) (fun i => part ds' f (upd d i is)) end.
  Definition loc (E : list nat) (f : list nat -> R) : Prop := forall is is', agree E is is' -> f is = f is'.
  Lemma part_app ds1 ds2 f : forall is, part (ds1 ++ ds2) f is = part ds1 (part ds2 f) is.
  Proof. induction ds1 as [|d ds IH]; intros is; cbn; auto. apply rsum_ext_R. intros. apply IH. Qed.
  Lemma part_ext ds N f g : (forall is, length is = N -> f is = g is) -> forall is, length is = N -> part ds f is = part ds g is.
  Proof. intros H. induction ds as [|d ds IH]; intros is Li; cbn; auto. apply rsum_ext_R. intros i _. apply IH. rewrite upd_length. auto. Qed.
  Lemma part_scal ds c f : forall is, part ds (fun a => c * f a) is = c * part ds f is.
  Proof. induction ds as [|d ds IH]; intros is; cbn; auto. rewrite <- rsum_scal_l_R. apply rsum_ext_R. intros i _. rewrite IH. auto. Qed.
  Lemma part_plus ds f g : forall is, part ds (fun a => f a + g a) is = part ds f is + part ds g is.
  Proof. induction ds as [|d ds IH]; intros is; cbn; auto. rewrite <- rsum_plus_R. apply rsum_ext_R. intros i _. rewrite IH. auto. Qed.
  Lemma part_bsum ds ns (F : list nat -> list nat -> R) : forall is, part ds (fun a => bsum ns (fun k => F k a)) is = bsum ns (fun k => part ds (F k) is).
  Proof.
    induction ds as [|d ds IH]; intros is; cbn; auto. rewrite bsum_rsum_exchange_R. apply rsum_ext_R. intros i _. apply IH.
  Qed.
  Lemma part_rsum ds n (F : nat -> list nat -> R) : forall is, part ds (fun a => rsum n (fun k => F k a)) is = rsum n (fun k => part ds (F k) is).
  Proof.
    induction ds as [|d ds IH]; intros is; cbn; auto. rewrite LinAlg.rsum_swap_R. apply rsum_ext_R. intros i _. apply IH.
  Qed.
  Lemma part_le ds N f g : (forall is, length is = N -> f is <= g is) -> forall is, length is = N -> part ds f is <= part ds g is.
  Proof. intros H. induction ds as [|d ds IH]; intros is Li; cbn; auto. apply rsum_le. intros i _. apply IH. rewrite upd_length. auto. Qed.
  Lemma part_nonneg ds f : (forall is, 0 <= f is) -> forall is, 0 <= part ds f is.
  Proof. intros H. induction ds as [|d ds IH]; intros is; cbn; auto. apply rsum_nonneg. intros. apply IH. Qed.
  Lemma part_const ds E f g : loc E f -> (forall d, In d ds -> ~ In d E) -> forall is, part ds (fun a => f a * g a) is = f is * part ds g is.
  Proof.
    intros Hf. induction ds as [|d ds IH]; intros Hd is; cbn; auto. rewrite <- rsum_scal_l_R. apply rsum_ext_R. intros i _.
    rewrite IH by (intros; apply Hd; simpl; auto). f_equal. apply Hf. apply upd_agree. apply Hd. simpl. auto.
  Qed.
  Lemma part_loc ds N f : Forall (fun d => (d < N)%nat) ds -> loc ds f -> forall is is', length is = N -> length is' = N -> part ds f is = part ds f is'.
  Proof.
    intros HF. assert (G : forall l E, incl l ds -> loc (l ++ E) f -> forall is is', length is = N -> length is' = N -> agree E is is' -> part l f is = part l f is').
    { induction l as [|d l IH]; intros E Hi Hf is is' L1 L2 HA; cbn; [apply Hf; auto|]. apply rsum_ext_R. intros i _. apply (IH (d :: E)); rewrite ?upd_length; auto.
      - intros x Hx. apply Hi. simpl. auto.
      - intros a a' H. apply Hf. intros x Hx. apply H. apply in_app_iff in Hx. apply in_app_iff. simpl in Hx |- *. tauto.
      - apply agree_upd; auto; [|lia]. rewrite L1. apply (proj1 (Forall_forall _ _) HF). apply Hi. simpl. auto. }
    intros Hf is is' L1 L2. apply (G ds []); auto; [apply incl_refl|rewrite app_nil_r; auto|]. intros x [].
  Qed.
  Lemma upd_comm (d d' i j : nat) : forall is : list nat, d <> d' -> upd d i (upd d' j is) = upd d' j (upd d i is).
  Proof.
    revert d'. induction d as [|d IH]; intros [|d'] [|x is] H; cbn; auto; try lia; try (f_equal; apply IH; lia).
  Qed.
  Lemma part_perm ds ds' : Permutation ds ds' -> NoDup ds -> forall f is, part ds f is = part ds' f is.
  Proof.
    induction 1 as [|x l l' HP IH|x y l|l1 l2 l3 H1 IH1 H2 IH2]; intros ND f is; cbn; auto.
    - inversion ND; subst. apply rsum_ext_R. intros i _. auto.
    - rewrite LinAlg.rsum_swap_R. apply rsum_ext_R. intros i _. apply rsum_ext_R. intros j _. rewrite upd_comm; auto. inversion ND as [|? ? Hn _]; subst. intros ->. apply Hn. simpl. auto.
    - rewrite IH1 by auto. apply IH2. eapply Permutation_NoDup; eauto.
  Qed.
  Lemma part_seq k : forall m f a ja, length a = m -> length ja = k -> part (seq m k) f (a ++ ja) = bsum (map s (seq m k)) (fun u => f (a ++ u)).
  Proof.
    induction k as [|k IH]; intros m f a ja L1 L2.
    - destruct ja; [|discriminate]. cbn. auto.
    - destruct ja as [|x ja]; [discriminate|]. cbn [seq part map bsum]. apply rsum_ext_R. intros i _.
      replace (upd m i (a ++ x :: ja)) with ((a ++ [i]) ++ ja).
      + rewrite (IH (S m)); [|rewrite app_length; simpl; lia|cbn in L2; lia]. apply bsum_ext_R. intros u _. rewrite <- app_assoc. auto.
      + rewrite <- app_assoc. cbn [app]. clear IH L2. subst m. induction a as [|y a IHa]; cbn; auto. f_equal. auto.
  Qed.
  (** the sum with the metric "identity" *)
  Lemma psum_delta ds (F : list nat -> list nat -> R) (M : nat -> nat -> nat -> R) : (forall d i j, In d ds -> (i < s d)%nat -> (j < s d)%nat -> M d i j = if (i =? j)%nat then 1 else 0) ->
    forall is, psum s s M ds F is is = part ds (fun a => F a a) is.
  Proof.
    intros HM. induction ds as [|d ds IH]; intros is; cbn; auto. apply rsum_ext_R. intros i Hi.
    rewrite (rsum_ext_R _ _ (fun j => if (j =? i)%nat then psum s s M ds F (upd d i is) (upd d j is) else 0)).
    - rewrite LinAlg.rsum_delta_R by auto. apply IH. intros. apply HM; simpl; auto.
    - intros j Hj. rewrite HM by (simpl; auto). rewrite Nat.eqb_sym. rcbn. destruct (j =? i)%nat; ring.
  Qed.

  Variables (N : nat) (E : list nat).
  Hypothesis NDE : NoDup E.
  Hypothesis HE : Forall (fun d => (d < N)%nat) E.
  Definition cpl : list nat := filter (fun d => negb (inb d E)) (seq 0 N).
  Lemma in_cpl d : In d cpl <-> (d < N)%nat /\ ~ In d E.
  Proof. unfold cpl. rewrite filter_In, in_seq, negb_true_iff, inb_false. intuition lia. Qed.
  Lemma cpl_perm : Permutation (seq 0 N) (cpl ++ E).
  Proof.
    apply NoDup_Permutation; [apply seq_NoDup| |].
    - apply NoDup_app; auto; [apply NoDup_filter, seq_NoDup|]. intros x Hx. apply in_cpl in Hx. tauto.
    - intros x. rewrite in_app_iff, in_cpl, in_seq. pose proof (proj1 (Forall_forall _ _) HE x) as Q. cbv beta in Q. destruct (in_dec Nat.eq_dec x E) as [H|H]; [specialize (Q H)|]; split; intros K; try tauto; try lia.
      all: destruct K as [K|K]; [lia|tauto].
  Qed.
  Let zz := repeat 0%nat N.
  (** the sum over all the indices, split *)
  Lemma full_split F : bsum (map s (seq 0 N)) F = part cpl (part E F) zz.
  Proof.
    rewrite <- part_app, <- (part_perm (seq 0 N)) by (apply cpl_perm || apply seq_NoDup). change zz with ([] ++ zz). rewrite part_seq; auto. apply repeat_length.
  Qed.
  Variable ns : list nat.
  Variable T : list nat -> list nat -> R.
  Hypothesis TL : forall k, loc E (T k).
  Hypothesis TO : forall k l, valid ns k -> valid ns l -> part E (fun is => T k is * T l is) zz = if list_eqb k l then 1 else 0.
  Lemma loc_mul D f g : loc D f -> loc D g -> loc D (fun is => f is * g is).
  Proof. intros Hf Hg is is' H. rewrite (Hf is is' H), (Hg is is' H). auto. Qed.
  Lemma iso (a b : list nat -> list nat -> R) : (forall k, loc cpl (a k)) -> (forall k, loc cpl (b k)) ->
    bsum (map s (seq 0 N)) (fun is => bsum ns (fun k => T k is * a k is) * bsum ns (fun l => T l is * b l is)) = part cpl (fun is => bsum ns (fun k => a k is * b k is)) zz.
  Proof.
    intros La Lb. rewrite full_split. apply (part_ext cpl N); [|apply repeat_length]. intros is Li.
    transitivity (part E (fun is => bsum ns (fun k => bsum ns (fun l => (a k is * b l is) * (T k is * T l is)))) is).
    { apply (part_ext E N); auto. intros is' _. rewrite <- bsum_scal_r_R. apply bsum_ext_R. intros k _. rewrite <- bsum_scal_l_R. apply bsum_ext_R. intros l _. ring. }
    rewrite part_bsum. apply bsum_ext_R. intros k Hk. rewrite part_bsum. rewrite (bsum_single ns k); auto.
    - rewrite (part_const E cpl (fun is => a k is * b k is)); [|apply loc_mul; auto|intros d Hd H; apply in_cpl in H; tauto].
      rewrite (part_loc E N (fun is => T k is * T k is)) with (is' := zz); auto; [|apply loc_mul; auto|apply repeat_length]. rewrite TO by auto. rewrite (proj2 (list_eqb_spec k k)) by auto. ring.
    - intros l Hl NE. rewrite (part_const E cpl (fun is => a k is * b l is)); [|apply loc_mul; auto|intros d Hd H; apply in_cpl in H; tauto].
      rewrite (part_loc E N (fun is => T k is * T l is)) with (is' := zz); auto; [|apply loc_mul; auto|apply repeat_length]. rewrite TO by auto. destruct (list_eqb k l) eqn:Q; [apply list_eqb_spec in Q; congruence|]. rcbn. ring.
  Qed.
End Part.
