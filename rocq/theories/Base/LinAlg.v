(** Elementary linear algebra over R on functions [nat -> nat -> R] with explicit sizes:
    n+1 vectors of R^n are dependent, hence an injective square matrix is surjective. *)
From Coq Require Import List Arith Lia Reals Lra Bool.
From Verif.Base Require Import ListAux CRing Index RealAux.
Import ListNotations.
Local Open Scope R_scope.

Lemma rsum_ext_R' n (f g : nat -> R) : (forall i, (i < n)%nat -> f i = g i) -> rsum n f = rsum n g.
Proof. induction n as [|n IH]; intros H; [reflexivity|]. rewrite !rsum_S_R, IH, H by (intros; auto with arith; apply H; lia). reflexivity. Qed.
Lemma rsum_const0 n : rsum n (fun _ => 0) = 0.
Proof. apply rsum_zero_R. auto. Qed.
Lemma rsum_swap_R n m (f : nat -> nat -> R) : rsum n (fun i => rsum m (f i)) = rsum m (fun j => rsum n (fun i => f i j)).
Proof.
  induction n as [|n IH]; [cbn [rsum]; symmetry; apply rsum_zero_R; reflexivity|].
  rewrite rsum_S_R, IH, <- rsum_plus_R. apply rsum_ext_R'. intros. rewrite rsum_S_R. reflexivity.
Qed.
Lemma rsum_delta_R n k (f : nat -> R) : (k < n)%nat -> rsum n (fun i => if (i =? k)%nat then f i else 0) = f k.
Proof.
  induction n as [|n IH]; intros Hk; [lia|]. rewrite rsum_S_R. destruct (Nat.eq_dec k n) as [->|Hne].
  - rewrite Nat.eqb_refl, rsum_zero_R; [ring|]. intros i Hi. destruct (Nat.eqb_spec i n); [lia|auto].
  - rewrite IH by lia. destruct (Nat.eqb_spec n k); [lia|ring].
Qed.
Lemma rsum_remove_R n k (f : nat -> R) : (k < n)%nat -> rsum n f = f k + rsum n (fun i => if (i =? k)%nat then 0 else f i).
Proof.
  intros Hk. rewrite <- (rsum_delta_R n k f Hk) at 1. rewrite <- rsum_plus_R. apply rsum_ext_R'. intros i _. destruct (i =? k)%nat; ring.
Qed.

(** swapping position k with the last one *)
Definition swp (k n i : nat) : nat := if (i =? k)%nat then n else if (i =? n)%nat then k else i.
Lemma rsum_swp n k (f : nat -> R) : (k <= n)%nat -> rsum (S n) (fun i => f (swp k n i)) = rsum (S n) f.
Proof.
  intros Hk. rewrite (rsum_S_R n f), (rsum_S_R n (fun i => f (swp k n i))).
  destruct (Nat.eq_dec k n) as [->|Hne].
  - f_equal; [|unfold swp; rewrite Nat.eqb_refl; auto]. apply rsum_ext_R'. intros i Hi. unfold swp. destruct (Nat.eqb_spec i n); [lia|auto].
  - rewrite (rsum_remove_R n k (fun i => f (swp k n i))), (rsum_remove_R n k f) by lia.
    assert (E1 : swp k n k = n) by (unfold swp; rewrite Nat.eqb_refl; auto).
    assert (E2 : swp k n n = k) by (unfold swp; destruct (Nat.eqb_spec n k); [lia|]; rewrite Nat.eqb_refl; auto).
    rewrite E1, E2. rewrite (rsum_ext_R' n (fun i => if (i =? k)%nat then 0 else f (swp k n i)) (fun i => if (i =? k)%nat then 0 else f i)); [ring|].
    intros i Hi. unfold swp. destruct (Nat.eqb_spec i k); auto. destruct (Nat.eqb_spec i n); [lia|auto].
Qed.

(** n+1 vectors of R^n are linearly dependent *)
Lemma dependent n : forall v : nat -> nat -> R,
  exists c : nat -> R, (exists k, (k <= n)%nat /\ c k <> 0) /\ forall i, (i < n)%nat -> rsum (S n) (fun k => c k * v k i) = 0.
Proof.
  induction n as [|n IH]; intros v.
  - exists (fun _ => 1). split; [exists 0%nat; split; [lia|lra]|]. intros; lia.
  - assert (D : (exists k, (k <= S n)%nat /\ v k n <> 0) \/ forall k, (k <= S n)%nat -> v k n = 0).
    { clear IH. generalize (S n) as m. intros m. induction m as [|m [[k [Hk Hv]]|Hm]].
      - destruct (Req_dec (v 0%nat n) 0) as [E|E]; [right|left; exists 0%nat; auto]. intros k Hk. replace k with 0%nat by lia. auto.
      - left. exists k. split; auto; lia.
      - destruct (Req_dec (v (S m) n) 0) as [E|E]; [right|left; exists (S m); auto]. intros k Hk. destruct (Nat.eq_dec k (S m)) as [->|]; auto. apply Hm; lia. }
    destruct D as [[p [Hp Hpv]]|Z].
    + set (w := fun k i => v (swp p (S n) k) i - v (swp p (S n) k) n / v p n * v p i).
      destruct (IH w) as [c [[k [Hk Hc]] H]].
      set (t := - rsum (S n) (fun k => c k * (v (swp p (S n) k) n / v p n))).
      set (c' := fun k => if (k =? S n)%nat then t else c k).
      exists (fun k => c' (swp p (S n) k)). split.
      * exists (swp p (S n) k). split; [unfold swp; destruct (k =? p)%nat, (k =? S n)%nat; lia|].
        assert (E : swp p (S n) (swp p (S n) k) = k).
        { unfold swp. destruct (Nat.eqb_spec k p) as [->|N1]; [destruct (Nat.eqb_spec (S n) p); [auto|rewrite Nat.eqb_refl; auto]|].
          destruct (Nat.eqb_spec k (S n)); [lia|]. destruct (Nat.eqb_spec k p); [lia|]. destruct (Nat.eqb_spec k (S n)); [lia|auto]. }
        rewrite E. unfold c'. destruct (Nat.eqb_spec k (S n)); [lia|auto].
      * intros i Hi.
        rewrite <- (rsum_swp (S n) p (fun k => c' (swp p (S n) k) * v k i)) by auto.
        rewrite rsum_S_R.
        assert (E2 : forall j, (j <= S n)%nat -> swp p (S n) (swp p (S n) j) = j).
        { intros j Hj. unfold swp. destruct (Nat.eqb_spec j p) as [->|N1]; [destruct (Nat.eqb_spec (S n) p); [auto|rewrite Nat.eqb_refl; auto]|].
          destruct (Nat.eqb_spec j (S n)) as [->|N2]; [rewrite Nat.eqb_refl; auto|]. destruct (Nat.eqb_spec j p); [lia|]. destruct (Nat.eqb_spec j (S n)); [lia|auto]. }
        rewrite E2 by lia. unfold c' at 2. rewrite Nat.eqb_refl.
        rewrite (rsum_ext_R' (S n) _ (fun j => c j * v (swp p (S n) j) i)).
        2:{ intros j Hj. rewrite E2 by lia. unfold c'. destruct (Nat.eqb_spec j (S n)); [lia|auto]. }
        assert (E3 : swp p (S n) (S n) = p). { unfold swp. destruct (Nat.eqb_spec (S n) p); [lia|]. rewrite Nat.eqb_refl. auto. }
        rewrite E3. unfold t.
        destruct (Nat.eq_dec i n) as [->|Hin].
        -- rewrite (rsum_ext_R' (S n) (fun k => c k * (v (swp p (S n) k) n / v p n)) (fun k => (c k * v (swp p (S n) k) n) * / v p n)) by (intros; field; auto).
           rewrite rsum_scal_r_R. field. auto.
        -- assert (Hi' : (i < n)%nat) by lia. specialize (H i Hi'). unfold w in H.
           rewrite (rsum_ext_R' (S n) _ (fun k => c k * v (swp p (S n) k) i - c k * (v (swp p (S n) k) n / v p n) * v p i)) in H by (intros; ring).
           rewrite rsum_minus_R, rsum_scal_r_R in H. lra.
    + destruct (IH v) as [c [[k [Hk Hc]] H]].
      exists (fun k => if (k =? S n)%nat then 0 else c k). split.
      * exists k. split; [lia|]. destruct (Nat.eqb_spec k (S n)); [lia|auto].
      * intros i Hi. rewrite rsum_S_R, Nat.eqb_refl. rewrite (rsum_ext_R' (S n) _ (fun k => c k * v k i)).
        2:{ intros j Hj. destruct (Nat.eqb_spec j (S n)); [lia|auto]. }
        destruct (Nat.eq_dec i n) as [->|Hin].
        -- rewrite rsum_zero_R; [ring|]. intros j Hj. rewrite Z by lia. ring.
        -- rewrite H by lia. ring.
Qed.

(** [mv n M x i] is the i-th entry of the product of M (n columns) with x *)
Definition mv (n : nat) (M : nat -> nat -> R) (x : nat -> R) (i : nat) : R := rsum n (fun j => M i j * x j).
Definition inj (m n : nat) (M : nat -> nat -> R) : Prop := forall x, (forall i, (i < m)%nat -> mv n M x i = 0) -> forall j, (j < n)%nat -> x j = 0.

Lemma mv_ext n M M' x x' i : (forall j, (j < n)%nat -> M i j = M' i j /\ x j = x' j) -> mv n M x i = mv n M' x' i.
Proof. intros H. apply rsum_ext_R'. intros j Hj. destruct (H j Hj) as [-> ->]. auto. Qed.
Lemma mv_plus n M x y i : mv n M (fun j => x j + y j) i = mv n M x i + mv n M y i.
Proof. unfold mv. rewrite <- rsum_plus_R. apply rsum_ext_R'. intros; ring. Qed.
Lemma mv_minus n M x y i : mv n M (fun j => x j - y j) i = mv n M x i - mv n M y i.
Proof. unfold mv. rewrite <- rsum_minus_R. apply rsum_ext_R'. intros; ring. Qed.
Lemma mv_scal n M c x i : mv n M (fun j => c * x j) i = c * mv n M x i.
Proof. unfold mv. rewrite <- rsum_scal_l_R. apply rsum_ext_R'. intros; ring. Qed.
Lemma mv_mv n m M N x i : mv n M (fun j => mv m N x j) i = mv m (fun i k => rsum n (fun j => M i j * N j k)) x i.
Proof.
  unfold mv. rewrite (rsum_ext_R' n _ (fun j => rsum m (fun k => M i j * N j k * x k))) by (intros; rewrite <- rsum_scal_l_R; apply rsum_ext_R'; intros; ring).
  rewrite rsum_swap_R. apply rsum_ext_R'. intros k _. rewrite rsum_scal_r_R. auto.
Qed.

Lemma inj_surj n M : inj n n M -> forall b, exists x, forall i, (i < n)%nat -> mv n M x i = b i.
Proof.
  intros HI b.
  destruct (dependent n (fun k i => if (k =? n)%nat then b i else M i k)) as [c [[k [Hk Hc]] H]].
  assert (E : forall i, (i < n)%nat -> mv n M c i + c n * b i = 0).
  { intros i Hi. specialize (H i Hi). rewrite rsum_S_R, Nat.eqb_refl in H. unfold mv. rewrite <- H. f_equal. apply rsum_ext_R'.
    intros j Hj. destruct (Nat.eqb_spec j n); [lia|ring]. }
  destruct (Req_dec (c n) 0) as [Z|Z].
  - exfalso. destruct (Nat.eq_dec k n) as [->|Hkn]; [auto|]. apply Hc. apply (HI c); [|lia].
    intros i Hi. specialize (E i Hi). rewrite Z in E. lra.
  - exists (fun j => (- / c n) * c j). intros i Hi. rewrite mv_scal. specialize (E i Hi).
    replace (mv n M c i) with (- c n * b i) by lra. field. auto.
Qed.

(** transpose of an injective square matrix is injective *)
Lemma inj_tr n M : inj n n M -> inj n n (fun i j => M j i).
Proof.
  intros HI x H j Hj.
  destruct (inj_surj n M HI (fun i => if (i =? j)%nat then 1 else 0)) as [y Hy].
  assert (E : rsum n (fun i => x i * mv n M y i) = x j).
  { rewrite (rsum_ext_R' n _ (fun i => if (i =? j)%nat then x i else 0)); [apply rsum_delta_R; auto|]. intros i Hi. rewrite Hy by auto. destruct (i =? j)%nat; ring. }
  rewrite <- E. unfold mv. rewrite (rsum_ext_R' n _ (fun i => rsum n (fun k => y k * (M i k * x i)))) by (intros; rewrite <- rsum_scal_l_R; apply rsum_ext_R'; intros; ring).
  rewrite rsum_swap_R. apply rsum_zero_R. intros k Hk. rewrite rsum_scal_l_R. unfold mv in H. rewrite (H k Hk). ring.
Qed.
Lemma surj_inj n M : (forall b, exists x, forall i, (i < n)%nat -> mv n M x i = b i) -> inj n n M.
Proof.
  intros HS. assert (HT : inj n n (fun i j => M j i)).
  { intros x H j Hj. destruct (HS (fun i => if (i =? j)%nat then 1 else 0)) as [y Hy].
    assert (E : rsum n (fun i => x i * mv n M y i) = x j).
    { rewrite (rsum_ext_R' n _ (fun i => if (i =? j)%nat then x i else 0)); [apply rsum_delta_R; auto|]. intros i Hi. rewrite Hy by auto. destruct (i =? j)%nat; ring. }
    rewrite <- E. unfold mv. rewrite (rsum_ext_R' n _ (fun i => rsum n (fun k => y k * (M i k * x i)))) by (intros; rewrite <- rsum_scal_l_R; apply rsum_ext_R'; intros; ring).
    rewrite rsum_swap_R. apply rsum_zero_R. intros k Hk. rewrite rsum_scal_l_R. unfold mv in H. rewrite (H k Hk). ring. }
  exact (inj_tr n (fun i j => M j i) HT).
Qed.
