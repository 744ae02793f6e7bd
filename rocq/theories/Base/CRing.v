(** Scalars: an arbitrary commutative ring (Leibniz equality), and finite sums over it.
    This stands for the ideal arithmetic of numpy float/int entries (no rounding). *)
From Coq Require Import List Arith Lia ZArith Ring Ring_theory Permutation.
From Verif.Base Require Import ListAux.
Import ListNotations.

Class CRing (R : Type) := {
  r0 : R; r1 : R;
  radd : R -> R -> R; rmul : R -> R -> R; rsub : R -> R -> R; ropp : R -> R;
  rth : ring_theory r0 r1 radd rmul rsub ropp eq }.

Declare Scope cr_scope.
Delimit Scope cr_scope with cr.
Infix "+" := radd : cr_scope.
Infix "*" := rmul : cr_scope.
Infix "-" := rsub : cr_scope.
Notation "- x" := (ropp x) : cr_scope.

#[global] Instance CRing_Z : CRing Z :=
  {| r0 := 0%Z; r1 := 1%Z; radd := Z.add; rmul := Z.mul; rsub := Z.sub; ropp := Z.opp; rth := Zth |}.

Section Sums.
  Context {R : Type} {CR : CRing R}.
  Add Ring Rr : rth.
  Local Open Scope cr_scope.

  (** sum of [f] over a list *)
  Fixpoint lsum {A} (l : list A) (f : A -> R) : R :=
    match l with [] => r0 | a :: l' => f a + lsum l' f end.

  (** sum of [f i] for [i < n] *)
  Fixpoint rsum (n : nat) (f : nat -> R) : R :=
    match n with O => r0 | S n' => rsum n' f + f n' end.

  (** product of a list *)
  Fixpoint lprod {A} (l : list A) (f : A -> R) : R :=
    match l with [] => r1 | a :: l' => f a * lprod l' f end.

  Lemma lsum_ext {A} (l : list A) f g : (forall a, In a l -> f a = g a) -> lsum l f = lsum l g.
  Proof. induction l as [|a l IH]; simpl; intros H; auto. rewrite H, IH; auto. Qed.

  Lemma lprod_ext {A} (l : list A) f g : (forall a, In a l -> f a = g a) -> lprod l f = lprod l g.
  Proof. induction l as [|a l IH]; simpl; intros H; auto. rewrite H, IH; auto. Qed.

  Lemma rsum_ext n f g : (forall i, (i < n)%nat -> f i = g i) -> rsum n f = rsum n g.
  Proof. induction n as [|n IH]; simpl; intros H; auto. rewrite H, IH; auto. Qed.

  Lemma lsum_app {A} (l1 l2 : list A) f : lsum (l1 ++ l2) f = lsum l1 f + lsum l2 f.
  Proof. induction l1 as [|a l1 IH]; simpl; [ring|]. rewrite IH; ring. Qed.

  Lemma lprod_app {A} (l1 l2 : list A) f : lprod (l1 ++ l2) f = lprod l1 f * lprod l2 f.
  Proof. induction l1 as [|a l1 IH]; simpl; [ring|]. rewrite IH; ring. Qed.

  Lemma lsum_seq n f : lsum (seq 0 n) f = rsum n f.
  Proof.
    induction n as [|n IH]; auto. rewrite seq_S_snoc, lsum_app, IH. simpl. ring.
  Qed.

  Lemma lsum_map {A B} (h : A -> B) l f : lsum (map h l) f = lsum l (fun a => f (h a)).
  Proof. induction l as [|a l IH]; simpl; auto. rewrite IH; auto. Qed.

  Lemma lprod_map {A B} (h : A -> B) l f : lprod (map h l) f = lprod l (fun a => f (h a)).
  Proof. induction l as [|a l IH]; simpl; auto. rewrite IH; auto. Qed.

  Lemma lsum_zero {A} (l : list A) f : (forall a, In a l -> f a = r0) -> lsum l f = r0.
  Proof. induction l as [|a l IH]; simpl; intros H; auto. rewrite H, IH; auto. ring. Qed.

  Lemma rsum_zero n f : (forall i, (i < n)%nat -> f i = r0) -> rsum n f = r0.
  Proof. induction n as [|n IH]; simpl; intros H; auto. rewrite H, IH; auto. ring. Qed.

  Lemma lsum_plus {A} (l : list A) f g : lsum l (fun a => f a + g a) = lsum l f + lsum l g.
  Proof. induction l as [|a l IH]; simpl; [ring|]. rewrite IH; ring. Qed.

  Lemma rsum_plus n f g : rsum n (fun a => f a + g a) = rsum n f + rsum n g.
  Proof. induction n as [|a IH]; simpl; [ring|]. rewrite IH; ring. Qed.

  Lemma lsum_opp {A} (l : list A) f : lsum l (fun a => - f a) = - lsum l f.
  Proof. induction l as [|a l IH]; simpl; [ring|]. rewrite IH; ring. Qed.

  Lemma lsum_minus {A} (l : list A) f g : lsum l (fun a => f a - g a) = lsum l f - lsum l g.
  Proof. induction l as [|a l IH]; simpl; [ring|]. rewrite IH; ring. Qed.

  Lemma lsum_scal_l {A} (l : list A) c f : lsum l (fun a => c * f a) = c * lsum l f.
  Proof. induction l as [|a l IH]; simpl; [ring|]. rewrite IH; ring. Qed.

  Lemma lsum_scal_r {A} (l : list A) c f : lsum l (fun a => f a * c) = lsum l f * c.
  Proof. induction l as [|a l IH]; simpl; [ring|]. rewrite IH; ring. Qed.

  Lemma rsum_opp n f : rsum n (fun a => - f a) = - rsum n f.
  Proof. rewrite <- !lsum_seq; apply lsum_opp. Qed.
  Lemma rsum_minus n f g : rsum n (fun a => f a - g a) = rsum n f - rsum n g.
  Proof. rewrite <- !lsum_seq; apply lsum_minus. Qed.
  Lemma rsum_scal_l n c f : rsum n (fun a => c * f a) = c * rsum n f.
  Proof. rewrite <- !lsum_seq; apply lsum_scal_l. Qed.
  Lemma rsum_scal_r n c f : rsum n (fun a => f a * c) = rsum n f * c.
  Proof. rewrite <- !lsum_seq; apply lsum_scal_r. Qed.

  Lemma lsum_exchange {A B} (l : list A) (m : list B) f :
    lsum l (fun a => lsum m (fun b => f a b)) = lsum m (fun b => lsum l (fun a => f a b)).
  Proof.
    induction l as [|a l IH]; simpl.
    - symmetry; apply lsum_zero; auto.
    - rewrite IH, <- lsum_plus. reflexivity.
  Qed.

  Lemma rsum_exchange n m f :
    rsum n (fun a => rsum m (fun b => f a b)) = rsum m (fun b => rsum n (fun a => f a b)).
  Proof.
    rewrite <- !lsum_seq.
    rewrite (lsum_ext _ _ (fun a => lsum (seq 0 m) (fun b => f a b))) by (intros; symmetry; apply lsum_seq).
    rewrite lsum_exchange. apply lsum_ext; intros; apply lsum_seq.
  Qed.

  Lemma lsum_rsum_exchange {A} (l : list A) m f :
    lsum l (fun a => rsum m (fun b => f a b)) = rsum m (fun b => lsum l (fun a => f a b)).
  Proof.
    rewrite <- lsum_seq.
    rewrite (lsum_ext _ _ (fun a => lsum (seq 0 m) (fun b => f a b))) by (intros; symmetry; apply lsum_seq).
    apply lsum_exchange.
  Qed.

  Lemma rsum_add n m f : rsum (n + m) f = rsum n f + rsum m (fun i => f (n + i)%nat).
  Proof.
    induction m as [|m IH]; simpl.
    - rewrite Nat.add_0_r; ring.
    - rewrite Nat.add_succ_r; simpl. rewrite IH; ring.
  Qed.

  Lemma rsum_S_l n f : rsum (S n) f = f 0%nat + rsum n (fun i => f (S i)).
  Proof. change (S n) with (1 + n)%nat. rewrite rsum_add. simpl. ring. Qed.

  (** Σ_{k < n*m} f k = Σ_{j<m} Σ_{i<n} f (i + n*j) *)
  Lemma rsum_mul n m f :
    rsum (n * m) f = rsum m (fun j => rsum n (fun i => f (i + n * j)%nat)).
  Proof.
    induction m as [|m IH]; simpl.
    - rewrite Nat.mul_0_r; auto.
    - rewrite Nat.mul_succ_r, rsum_add, IH. f_equal.
      apply rsum_ext; intros; f_equal; lia.
  Qed.

  Lemma rsum_single n k f : (k < n)%nat -> (forall i, (i < n)%nat -> i <> k -> f i = r0) -> rsum n f = f k.
  Proof.
    induction n as [|n IH]; intros Hk H; [lia|]. simpl.
    destruct (Nat.eq_dec k n) as [->|Hn].
    - rewrite rsum_zero; [ring|]. intros; apply H; lia.
    - rewrite IH, (H n); try lia; [ring|]. intros; apply H; lia.
  Qed.

  Lemma rsum_delta n k f : (k < n)%nat -> rsum n (fun i => if Nat.eqb i k then f i else r0) = f k.
  Proof.
    intros H. rewrite rsum_single with (k := k); auto.
    - rewrite Nat.eqb_refl; auto.
    - intros i _ Hi. destruct (Nat.eqb_spec i k); auto; lia.
  Qed.

  Lemma rsum_delta_mul n k f : (k < n)%nat -> rsum n (fun i => (if Nat.eqb i k then r1 else r0) * f i) = f k.
  Proof.
    intros H. rewrite rsum_single with (k := k); auto.
    - rewrite Nat.eqb_refl; ring.
    - intros i _ Hi. destruct (Nat.eqb_spec i k); [lia|ring].
  Qed.

  Lemma lsum_single {A} (l : list A) a f :
    NoDup l -> In a l -> (forall b, In b l -> b <> a -> f b = r0) -> lsum l f = f a.
  Proof.
    induction l as [|x l IH]; intros Hn Hi H; [contradiction|]. simpl.
    inversion Hn as [|? ? Hx Hl]; subst.
    destruct Hi as [->|Hi].
    - rewrite lsum_zero; [ring|]. intros b Hb; apply H; simpl; auto. intros ->; auto.
    - rewrite IH; auto.
      + rewrite (H x); simpl; auto; [ring|]. intros ->; auto.
      + intros; apply H; simpl; auto.
  Qed.

  Lemma lsum_perm {A} (l1 l2 : list A) f : Permutation l1 l2 -> lsum l1 f = lsum l2 f.
  Proof. induction 1; simpl; try congruence; ring. Qed.

  Lemma lprod_perm {A} (l1 l2 : list A) f : Permutation l1 l2 -> lprod l1 f = lprod l2 f.
  Proof. induction 1; simpl; try congruence; ring. Qed.

  Lemma lsum_filter {A} (p : A -> bool) l f :
    lsum (filter p l) f = lsum l (fun a => if p a then f a else r0).
  Proof.
    induction l as [|a l IH]; simpl; auto. destruct (p a); simpl; rewrite IH; ring.
  Qed.

  Lemma lsum_concat {A B} (g : A -> list B) l f :
    lsum (concat (map g l)) f = lsum l (fun a => lsum (g a) f).
  Proof. induction l as [|a l IH]; simpl; auto. rewrite lsum_app, IH; auto. Qed.

  Lemma lprod_mul {A} (l : list A) f g : lprod l (fun a => f a * g a) = lprod l f * lprod l g.
  Proof. induction l as [|a l IH]; simpl; [ring|]. rewrite IH; ring. Qed.

  Lemma lprod_one {A} (l : list A) f : (forall a, In a l -> f a = r1) -> lprod l f = r1.
  Proof. induction l as [|a l IH]; simpl; intros H; auto. rewrite H, IH; auto. ring. Qed.

  Lemma lprod_zero {A} (l : list A) f a : In a l -> f a = r0 -> lprod l f = r0.
  Proof.
    induction l as [|b l IH]; simpl; intros Hi H; [contradiction|].
    destruct Hi as [->|Hi]; [rewrite H; ring|]. rewrite IH; auto; ring.
  Qed.

  (** sums over a box of multi-indices: Σ_{i_1<n_1} ... Σ_{i_d<n_d} f [i_1..i_d] *)
  Fixpoint bsum (ns : list nat) (f : list nat -> R) : R :=
    match ns with
    | [] => f []
    | n :: ns' => rsum n (fun i => bsum ns' (fun js => f (i :: js)))
    end.

  Lemma bsum_ext ns f g :
    (forall js, Forall2 lt js ns -> f js = g js) -> bsum ns f = bsum ns g.
  Proof.
    revert f g; induction ns as [|n ns IH]; simpl; intros f g H.
    - apply H; constructor.
    - apply rsum_ext; intros i Hi; apply IH; intros; apply H; constructor; auto.
  Qed.

  Lemma bsum_zero ns f : (forall js, Forall2 lt js ns -> f js = r0) -> bsum ns f = r0.
  Proof.
    revert f; induction ns as [|n ns IH]; simpl; intros f H.
    - apply H; constructor.
    - apply rsum_zero; intros i Hi; apply IH; intros; apply H; constructor; auto.
  Qed.

  Lemma bsum_plus ns f g : bsum ns (fun a => f a + g a) = bsum ns f + bsum ns g.
  Proof.
    revert f g; induction ns as [|n ns IH]; simpl; intros f g; auto.
    rewrite <- rsum_plus. apply rsum_ext; intros; apply IH.
  Qed.

  Lemma bsum_opp ns f : bsum ns (fun a => - f a) = - bsum ns f.
  Proof.
    revert f; induction ns as [|n ns IH]; simpl; intros f; auto.
    rewrite <- rsum_opp. apply rsum_ext; intros; apply IH.
  Qed.

  Lemma bsum_scal_l ns c f : bsum ns (fun a => c * f a) = c * bsum ns f.
  Proof.
    revert f; induction ns as [|n ns IH]; simpl; intros f; auto.
    rewrite <- rsum_scal_l. apply rsum_ext; intros; apply IH.
  Qed.

  Lemma bsum_scal_r ns c f : bsum ns (fun a => f a * c) = bsum ns f * c.
  Proof.
    revert f; induction ns as [|n ns IH]; simpl; intros f; auto.
    rewrite <- rsum_scal_r. apply rsum_ext; intros; apply IH.
  Qed.

  Lemma bsum_rsum_exchange ns m f :
    bsum ns (fun a => rsum m (fun b => f a b)) = rsum m (fun b => bsum ns (fun a => f a b)).
  Proof.
    revert f; induction ns as [|n ns IH]; simpl; intros f; auto.
    rewrite rsum_exchange. apply rsum_ext; intros. apply IH.
  Qed.

  Lemma bsum_exchange ns ms f :
    bsum ns (fun a => bsum ms (fun b => f a b)) = bsum ms (fun b => bsum ns (fun a => f a b)).
  Proof.
    revert f; induction ms as [|m ms IH]; simpl; intros f; auto.
    rewrite bsum_rsum_exchange. apply rsum_ext; intros. apply IH.
  Qed.

  Lemma lsum_bsum_exchange {A} (l : list A) ms f :
    lsum l (fun a => bsum ms (fun b => f a b)) = bsum ms (fun b => lsum l (fun a => f a b)).
  Proof.
    revert f; induction ms as [|m ms IH]; simpl; intros f; auto.
    rewrite lsum_rsum_exchange. apply rsum_ext; intros. apply IH.
  Qed.

  Lemma bsum_app ns ms f :
    bsum (ns ++ ms) f = bsum ns (fun a => bsum ms (fun b => f (a ++ b))).
  Proof.
    revert f; induction ns as [|n ns IH]; simpl; intros f; auto.
    apply rsum_ext; intros. apply IH.
  Qed.

  Lemma bsum_single ns ks f :
    Forall2 lt ks ns -> (forall js, Forall2 lt js ns -> js <> ks -> f js = r0) -> bsum ns f = f ks.
  Proof.
    intros H; revert f; induction H as [|k n ks ns Hk Hks IH]; intros f Hf; simpl; auto.
    rewrite rsum_single with (k := k); auto.
    - apply IH. intros js Hj Hne. apply Hf; [constructor; auto|congruence].
    - intros i Hi Hne. apply bsum_zero. intros js Hj. apply Hf; [constructor; auto|congruence].
  Qed.

  (** factorised summand *)
  Lemma bsum_prod ns (g : nat -> nat -> R) :
    bsum ns (fun js => lprod (combine (seq 0 (length ns)) js) (fun p => g (fst p) (snd p)))
    = lprod (combine (seq 0 (length ns)) ns) (fun p => rsum (snd p) (g (fst p))).
  Proof.
    assert (H : forall a, bsum ns (fun js => lprod (combine (seq a (length ns)) js) (fun p => g (fst p) (snd p)))
      = lprod (combine (seq a (length ns)) ns) (fun p => rsum (snd p) (g (fst p)))).
    { induction ns as [|n ns IH]; intros a; simpl; auto.
      rewrite <- rsum_scal_r. apply rsum_ext; intros i Hi.
      rewrite bsum_scal_l, IH. reflexivity. }
    apply H.
  Qed.

  Lemma rmul_rsum n m f g :
    rsum n f * rsum m g = rsum n (fun i => rsum m (fun j => f i * g j)).
  Proof.
    rewrite <- rsum_scal_r. apply rsum_ext; intros. rewrite rsum_scal_l; auto.
  Qed.
End Sums.

Arguments r0 {R _}. Arguments r1 {R _}.
