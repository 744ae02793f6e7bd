(** Least squares: normal equations, ordinary least squares, leave-one-out and k-fold shortcuts. *)
From Coq Require Import List Arith Lia Reals Lra Bool.
From Verif.Base Require Import ListAux CRing Index RealAux LinAlg.
From Verif.Model Require Import Measures Learning.
From Verif.Spec Require Import LearningSpec.
Import ListNotations.
Local Open Scope R_scope.

Lemma lsum_ext_in {A} (l : list A) (f g : A -> R) : (forall a, In a l -> f a = g a) -> lsum l f = lsum l g.
Proof. induction l as [|a l IH]; intros H; [reflexivity|]. rewrite !lsum_cons_R, H, IH; auto; [intros; apply H; right; auto|left; auto]. Qed.
Lemma lsum_seq_rsum n (f : nat -> R) : lsum (seq 0 n) f = rsum n f.
Proof. induction n as [|n IH]; [reflexivity|]. rewrite seq_S, lsum_app_R, IH, rsum_S_R. rewrite lsum_cons_R. cbn. ring. Qed.
Lemma lsum_filter_R {A} p (l : list A) (f : A -> R) : lsum (filter p l) f = lsum l (fun i => if p i then f i else 0).
Proof. induction l as [|a l IH]; [reflexivity|]. cbn [filter]. rewrite lsum_cons_R. destruct (p a); rewrite ?lsum_cons_R, IH; ring. Qed.
Lemma lsum_rsum_swap {A} (l : list A) n (f : A -> nat -> R) : lsum l (fun a => rsum n (f a)) = rsum n (fun j => lsum l (fun a => f a j)).
Proof. induction l as [|a l IH]; [symmetry; apply rsum_zero_R; reflexivity|]. rewrite lsum_cons_R, IH, <- rsum_plus_R. apply rsum_ext_R'. intros. rewrite lsum_cons_R. auto. Qed.

(** ** normal equations *)
Definition grad (A : mx) (y : vec) (rows : list nat) (x : vec) (j : nat) : R := lsum rows (fun i => ment A i j * (y i - prediction A x i)).
Lemma prediction_minus A x x' i : prediction A (fun j => x j - x' j) i = prediction A x i - prediction A x' i.
Proof. apply mv_minus. Qed.
Lemma prediction_plus A x x' i : prediction A (fun j => x j + x' j) i = prediction A x i + prediction A x' i.
Proof. apply mv_plus. Qed.
Lemma prediction_scal A c x i : prediction A (fun j => c * x j) i = c * prediction A x i.
Proof. apply mv_scal. Qed.
Lemma prediction_ext A x x' i : (forall j, (j < mcols A)%nat -> x j = x' j) -> prediction A x i = prediction A x' i.
Proof. intros H. apply rsum_ext_R'. intros j Hj. rewrite H by auto. auto. Qed.
Lemma prediction_unit A j i : (j < mcols A)%nat -> prediction A (fun k => if (k =? j)%nat then 1 else 0) i = ment A i j.
Proof.
  intros Hj. unfold prediction. rewrite (rsum_ext_R' _ _ (fun k => if (k =? j)%nat then ment A i k else 0)); [apply rsum_delta_R; auto|].
  intros k Hk. destruct (k =? j)%nat; ring.
Qed.
Lemma cross A y rows x d : lsum rows (fun i => prediction A d i * (y i - prediction A x i)) = rsum (mcols A) (fun j => d j * grad A y rows x j).
Proof.
  unfold grad. rewrite (rsum_ext_R' _ (fun j => d j * _) (fun j => lsum rows (fun i => ment A i j * d j * (y i - prediction A x i)))).
  2:{ intros j _. rewrite <- lsum_scal_l_R. apply lsum_ext_in. intros; ring. }
  rewrite <- (lsum_rsum_swap rows (mcols A) (fun i j => ment A i j * d j * (y i - prediction A x i))).
  apply lsum_ext_in. intros i _. unfold prediction at 1. rewrite rsum_scal_r_R. auto.
Qed.
Lemma rss_split A y rows x d : rss A y rows (fun j => x j + d j)
  = rss A y rows x - 2 * lsum rows (fun i => prediction A d i * (y i - prediction A x i)) + lsum rows (fun i => prediction A d i ^ 2).
Proof.
  unfold rss. rewrite <- lsum_scal_l_R, <- lsum_minus_R, <- lsum_plus_R. apply lsum_ext_in. intros i _. rewrite prediction_plus. ring.
Qed.
Lemma normal_least_squares A y rows x : (forall j, (j < mcols A)%nat -> grad A y rows x j = 0) -> least_squares A y rows x.
Proof.
  intros H x'. unfold least_squares.
  assert (E : rss A y rows x' = rss A y rows (fun j => x j + (x' j - x j))).
  { apply lsum_ext_in. intros i _. f_equal. f_equal. apply prediction_ext. intros; ring. }
  rewrite E, rss_split, cross, (rsum_zero_R (mcols A)); [|intros j Hj; rewrite H by auto; ring].
  assert (0 <= lsum rows (fun i => prediction A (fun j => x' j - x j) i ^ 2)) by (apply lsum_nonneg; intros; apply pow2_ge_0). lra.
Qed.
Lemma least_squares_normal A y rows x : least_squares A y rows x -> forall j, (j < mcols A)%nat -> grad A y rows x j = 0.
Proof.
  intros H j Hj.
  set (q := lsum rows (fun i => ment A i j ^ 2)).
  assert (Q0 : 0 <= q) by (apply lsum_nonneg; intros; apply pow2_ge_0).
  assert (K : forall t, 0 <= - 2 * t * grad A y rows x j + t ^ 2 * q).
  { intros t. specialize (H (fun k => x k + t * (if (k =? j)%nat then 1 else 0))). rewrite rss_split in H.
    rewrite (lsum_ext_in rows (fun i => prediction A _ i * _) (fun i => t * (ment A i j * (y i - prediction A x i)))) in H.
    2:{ intros i _. rewrite prediction_scal, prediction_unit by auto. ring. }
    rewrite (lsum_ext_in rows (fun i => prediction A _ i ^ 2) (fun i => t ^ 2 * (ment A i j ^ 2))) in H.
    2:{ intros i _. rewrite prediction_scal, prediction_unit by auto. ring. }
    rewrite !lsum_scal_l_R in H. fold q in H. unfold grad. lra. }
  set (g := grad A y rows x j) in *.
  destruct (Req_dec q 0) as [Z|Z].
  - assert (K1 := K g). rewrite Z in K1. assert (g * g <= 0) by lra. assert (0 <= g * g) by apply Rle_0_sqr. apply Rsqr_0_uniq. unfold Rsqr. lra.
  - assert (K1 := K (g / q)). replace (-2 * (g / q) * g + (g / q) ^ 2 * q) with (- (g * g / q)) in K1 by (field; auto).
    assert (0 < / q) by (apply Rinv_0_lt_compat; lra). assert (0 <= g * g) by apply Rle_0_sqr.
    assert (0 <= g * g / q) by (unfold Rdiv; apply Rmult_le_pos; lra).
    assert (E : g * g / q = 0) by lra. unfold Rdiv in E. apply Rmult_integral in E. destruct E as [E|E]; [|lra].
    apply Rsqr_0_uniq. auto.
Qed.
Lemma fits_agree A y rows x x' : determined A rows -> least_squares A y rows x -> least_squares A y rows x' -> forall j, (j < mcols A)%nat -> x j = x' j.
Proof.
  intros D H H' j Hj. assert (G := least_squares_normal _ _ _ _ H). assert (G' := least_squares_normal _ _ _ _ H').
  set (d := fun j => x j - x' j). enough (d j = 0) by (unfold d in *; lra). apply D; auto. intros i Hi.
  assert (Z : lsum rows (fun i => prediction A d i ^ 2) = 0).
  { transitivity (rsum (mcols A) (fun j => d j * (grad A y rows x' j - grad A y rows x j))).
    - rewrite (rsum_ext_R' _ _ (fun j => d j * grad A y rows x' j - d j * grad A y rows x j)) by (intros; ring).
      rewrite rsum_minus_R, <- !cross, <- lsum_minus_R. apply lsum_ext_in. intros k _. unfold d. rewrite !prediction_minus. ring.
    - apply rsum_zero_R. intros k Hk. rewrite G, G' by auto. ring. }
  assert (E := lsum_zero_iff rows _ (fun a _ => pow2_ge_0 (prediction A d a)) Z i Hi). cbn in E.
  apply Rsqr_0_uniq. unfold Rsqr. lra.
Qed.

(** ** ordinary least squares *)
Lemma rss_all A y x : rss A y (all_rows A) x = rsum (mrows A) (fun i => (y i - prediction A x i) ^ 2).
Proof. apply lsum_seq_rsum. Qed.
Lemma grad_all A y x j : grad A y (all_rows A) x j = rsum (mrows A) (fun i => ment A i j * (y i - prediction A x i)).
Proof. apply lsum_seq_rsum. Qed.

Section Ols.
Variables (L : lapack) (A : mx) (y : vec).
Hypothesis HL : lapack_ok L.
Let N := mrows A.
Let P := mcols A.

Lemma gram_entry i k : ment (matmul (mtr A) A) i k = rsum N (fun l => ment A l i * ment A l k).
Proof. reflexivity. Qed.
Lemma gram_mv x i : mv P (ment (matmul (mtr A) A)) x i = rsum N (fun l => ment A l i * prediction A x l).
Proof.
  unfold mv. cbn [ment matmul mtr mcols]. fold N.
  rewrite (rsum_ext_R' P _ (fun j => rsum N (fun l => ment A l i * (ment A l j * x j)))) by (intros; rewrite <- rsum_scal_r_R; apply rsum_ext_R'; intros; ring).
  rewrite rsum_swap_R. apply rsum_ext_R'. intros l _. unfold prediction. rewrite rsum_scal_l_R. auto.
Qed.
Lemma normal_of_gram x : (forall j, (j < P)%nat -> mv P (ment (matmul (mtr A) A)) x j = matvec (mtr A) y j) -> least_squares A y (all_rows A) x.
Proof.
  intros H. apply normal_least_squares. intros j Hj. rewrite grad_all. specialize (H j Hj). rewrite gram_mv in H. unfold matvec in H. cbn in H. fold N in H.
  rewrite (rsum_ext_R' _ _ (fun i => ment A i j * y i - ment A i j * prediction A x i)) by (intros; ring). rewrite rsum_minus_R. fold N. lra.
Qed.
Lemma gram_of_normal x : least_squares A y (all_rows A) x -> forall j, (j < P)%nat -> mv P (ment (matmul (mtr A) A)) x j = matvec (mtr A) y j.
Proof.
  intros H j Hj. assert (G := least_squares_normal _ _ _ _ H j Hj). rewrite grad_all in G. rewrite gram_mv. unfold matvec. cbn. fold N.
  rewrite (rsum_ext_R' _ _ (fun i => ment A i j * y i - ment A i j * prediction A x i)) in G by (intros; ring). rewrite rsum_minus_R in G. fold N in G. lra.
Qed.
Lemma some_fit : exists x, least_squares A y (all_rows A) x.
Proof.
  exists (l_lstsq L A y). destruct HL as (_ & _ & HS & _). specialize (HS A y). intros x'. rewrite !rss_all. specialize (HS x').
  rewrite (rsum_ext_R' (mrows A) (fun i => (y i - prediction A (l_lstsq L A y) i) ^ 2) (fun i => (mv (mcols A) (ment A) (l_lstsq L A y) i - y i) ^ 2)) by (intros; unfold prediction, mv; ring).
  rewrite (rsum_ext_R' (mrows A) (fun i => (y i - prediction A x' i) ^ 2) (fun i => (mv (mcols A) (ment A) x' i - y i) ^ 2)) by (intros; unfold prediction, mv; ring). auto.
Qed.
Lemma rsum_zero_sq n (f : nat -> R) : rsum n (fun i => f i ^ 2) <= 0 -> forall i, (i < n)%nat -> f i = 0.
Proof.
  intros H i Hi. assert (T := rsum_term_le n (fun i => f i ^ 2) i (fun k _ => pow2_ge_0 (f k)) Hi). cbn beta in T.
  assert (0 <= f i ^ 2) by apply pow2_ge_0. apply Rsqr_0_uniq. unfold Rsqr. cbn in *. lra.
Qed.
Lemma try_solve_gram : least_squares A y (all_rows A) (try_solve L (matmul (mtr A) A) (matvec (mtr A) y)).
Proof.
  destruct HL as (_ & HS & HT & _). unfold try_solve. specialize (HS (matmul (mtr A) A) (matvec (mtr A) y)).
  destruct (l_solve L _ _) as [x|].
  - destruct HS as [_ HS]. apply normal_of_gram. intros j Hj. apply HS. auto.
  - destruct some_fit as [x0 H0]. specialize (HT (matmul (mtr A) A) (matvec (mtr A) y) x0). cbn [mrows mcols matmul mtr] in HT. fold N P in HT.
    assert (E0 := gram_of_normal x0 H0).
    rewrite (rsum_zero_R P (fun i => (mv P _ x0 i - _) ^ 2)) in HT.
    2:{ intros i Hi. rewrite E0 by auto. ring. }
    apply normal_of_gram. intros j Hj. assert (Z := rsum_zero_sq P _ HT j Hj). cbn beta in Z. lra.
Qed.
Lemma qr_rss q r x : qr_ok A (q, r) ->
  rss A y (all_rows A) x = rsum N (fun i => y i ^ 2) - rsum (mcols q) (fun c => matvec (mtr q) y c ^ 2) + rsum (mcols q) (fun c => (mv P (ment r) x c - matvec (mtr q) y c) ^ 2).
Proof.
  intros (E1 & E2 & E3 & E4 & EO & EA). set (k := Nat.min (mrows A) (mcols A)) in *. rewrite E2.
  set (z := fun c => mv P (ment r) x c). set (u := matvec (mtr q) y).
  assert (EP : forall i, (i < N)%nat -> prediction A x i = rsum k (fun c => ment q i c * z c)).
  { intros i Hi. unfold prediction. fold P.
    rewrite (rsum_ext_R' P _ (fun j => rsum k (fun c => ment q i c * (ment r c j * x j)))).
    2:{ intros j Hj. rewrite EA by auto. rewrite <- rsum_scal_r_R. apply rsum_ext_R'. intros; ring. }
    rewrite rsum_swap_R. apply rsum_ext_R'. intros c _. rewrite rsum_scal_l_R. auto. }
  rewrite rss_all. fold N.
  rewrite (rsum_ext_R' N _ (fun i => y i ^ 2 - 2 * (rsum k (fun c => z c * (ment q i c * y i))) + rsum k (fun c => rsum k (fun d => z c * z d * (ment q i c * ment q i d))))).
  2:{ intros i Hi. rewrite EP by auto. set (w := rsum k (fun c => ment q i c * z c)).
      replace (rsum k (fun c => z c * (ment q i c * y i))) with (w * y i) by (unfold w; rewrite <- rsum_scal_r_R; apply rsum_ext_R'; intros; ring).
      replace (rsum k (fun c => rsum k (fun d => z c * z d * (ment q i c * ment q i d)))) with (w * w).
      2:{ unfold w. rewrite rmul_rsum_R. apply rsum_ext_R'. intros c _. apply rsum_ext_R'. intros; ring. }
      ring. }
  rewrite rsum_plus_R, rsum_minus_R, rsum_scal_l_R.
  rewrite (rsum_swap_R N k). rewrite (rsum_ext_R' k (fun j => rsum N (fun i => z j * (ment q i j * y i))) (fun c => z c * u c)).
  2:{ intros c _. rewrite rsum_scal_l_R. unfold u, matvec. cbn [mcols mtr ment]. rewrite E1. auto. }
  rewrite (rsum_swap_R N k). rewrite (rsum_ext_R' k (fun j => rsum N _) (fun c => z c ^ 2)).
  2:{ intros c Hc. rewrite rsum_swap_R. rewrite (rsum_ext_R' k _ (fun d => if (d =? c)%nat then z c * z d else 0)).
      - rewrite rsum_delta_R by auto. ring.
      - intros d Hd. rewrite rsum_scal_l_R. unfold N. rewrite EO by auto. unfold delta_ij. rewrite (Nat.eqb_sym c d). destruct (d =? c)%nat; ring. }
  fold u. rewrite (rsum_ext_R' k (fun c => (z c - u c) ^ 2) (fun c => z c ^ 2 - 2 * (z c * u c) + u c ^ 2)) by (intros; ring).
  rewrite rsum_plus_R, rsum_minus_R, rsum_scal_l_R. ring.
Qed.
Lemma try_solve_qr q r : qr_ok A (q, r) -> least_squares A y (all_rows A) (try_solve L r (matvec (mtr q) y)).
Proof.
  intros HQ x'. rewrite !(qr_rss q r) by auto. destruct HQ as (E1 & E2 & E3 & E4 & _).
  destruct HL as (_ & HS & HT & _). unfold try_solve. specialize (HS r (matvec (mtr q) y)). destruct (l_solve L r _) as [x|].
  - destruct HS as [_ HS]. rewrite (rsum_zero_R (mcols q) (fun c => (mv P (ment r) x c - _) ^ 2)).
    + assert (0 <= rsum (mcols q) (fun c => (mv P (ment r) x' c - matvec (mtr q) y c) ^ 2)) by (apply rsum_nonneg; intros; apply pow2_ge_0). lra.
    + intros c Hc. rewrite E4 in HS. fold P in HS. rewrite HS by lia. ring.
  - specialize (HT r (matvec (mtr q) y) x'). rewrite E3, E4, <- E2 in HT. fold P in HT. lra.
Qed.
Lemma ols_correct s : least_squares A y (all_rows A) (ols L s A y).
Proof.
  destruct s; cbn [ols]; [apply try_solve_gram|]. destruct HL as (HQ & _). specialize (HQ A). destruct (l_qr L A) as [q r]. apply try_solve_qr; auto.
Qed.

(** the inverse / pseudo-inverse of the Gram matrix *)
Lemma try_inv_gram : least_squares A y (all_rows A) (matvec (try_inv L (matmul (mtr A) A)) (matvec (mtr A) y)).
Proof.
  destruct HL as (_ & _ & _ & HI & HP). specialize (HI (matmul (mtr A) A)). specialize (HP (matmul (mtr A) A)).
  set (B := matmul (mtr A) A) in *. unfold try_inv. apply normal_of_gram. fold B. intros j Hj.
  destruct (l_inv L B) as [C|].
  - destruct HI as (_ & E1 & E2 & HI). cbn [B matmul mrows mcols mtr] in E1, E2, HI. fold N P in E1, E2, HI.
    transitivity (mv P (ment B) (fun k => mv P (ment C) (matvec (mtr A) y) k) j).
    { apply mv_ext. intros k _. split; auto. unfold matvec, mv. rewrite E2. auto. }
    rewrite mv_mv. unfold mv. rewrite (rsum_ext_R' P _ (fun k => if (k =? j)%nat then matvec (mtr A) y k else 0)); [apply rsum_delta_R; auto|].
    intros k Hk. rewrite HI by auto. unfold delta_ij. rewrite Nat.eqb_sym. destruct (k =? j)%nat; ring.
  - destruct HP as (E1 & E2 & HP). set (X := l_pinv L B) in *. cbn [B matmul mrows mcols mtr] in E1, E2, HP. fold N P in E1, E2, HP.
    assert (HP' : forall i j, (i < P)%nat -> (j < P)%nat -> rsum P (fun a => rsum P (fun b => ment B i a * ment X a b * ment B b j)) = ment B i j) by exact HP. clear HP.
    assert (BS : forall i j, ment B i j = ment B j i) by (intros; unfold B; rewrite !gram_entry; apply rsum_ext_R'; intros; ring).
    (* M = B X A^T - A^T vanishes *)
    set (BX := fun i b => rsum P (fun a => ment B i a * ment X a b)).
    assert (BXB : forall i j, (i < P)%nat -> (j < P)%nat -> rsum P (fun b => BX i b * ment B b j) = ment B i j).
    { intros i k Hi Hk. rewrite <- HP' by auto. unfold BX. rewrite (rsum_swap_R P P). apply rsum_ext_R'. intros b Hb. rewrite <- rsum_scal_r_R. apply rsum_ext_R'. intros; ring. }
    set (M := fun i l => rsum P (fun b => BX i b * ment A l b) - ment A l i).
    assert (MZ : forall l, (l < N)%nat -> M j l = 0).
    { apply rsum_zero_sq.
      rewrite (rsum_ext_R' N _ (fun l => rsum P (fun b => BX j b * (ment A l b * M j l)) - ment A l j * M j l)).
      2:{ intros l _. replace (M j l ^ 2) with (M j l * M j l) by ring. unfold M at 1. rewrite Rmult_minus_distr_r, <- rsum_scal_r_R. f_equal. apply rsum_ext_R'. intros; ring. }
      rewrite rsum_minus_R, (rsum_swap_R N P).
      assert (K : forall b, (b < P)%nat -> rsum N (fun l => ment A l b * M j l) = 0).
      { intros b Hb. unfold M. rewrite (rsum_ext_R' N _ (fun l => rsum P (fun c => BX j c * (ment A l c * ment A l b)) - ment A l b * ment A l j)).
        2:{ intros l _. rewrite Rmult_minus_distr_l, <- rsum_scal_l_R. f_equal. apply rsum_ext_R'. intros; ring. }
        rewrite rsum_minus_R, (rsum_swap_R N P). rewrite (rsum_ext_R' P _ (fun c => BX j c * ment B c b)).
        2:{ intros c _. rewrite rsum_scal_l_R. auto. }
        rewrite BXB by auto. rewrite (BS j b). unfold B. rewrite gram_entry. ring. }
      rewrite (rsum_zero_R P), (K j Hj); [lra|]. intros b Hb. rewrite rsum_scal_l_R, K by auto. ring. }
    transitivity (rsum P (fun b => BX j b * matvec (mtr A) y b)).
    { transitivity (mv P (ment B) (fun k => mv P (ment X) (matvec (mtr A) y) k) j).
      { apply mv_ext. intros k _. split; auto. unfold matvec, mv. rewrite E2. auto. }
      rewrite mv_mv. reflexivity. }
    unfold matvec. cbn [mcols mtr ment]. fold N.
    rewrite (rsum_ext_R' P _ (fun b => rsum N (fun l => BX j b * ment A l b * y l))) by (intros; rewrite <- rsum_scal_l_R; apply rsum_ext_R'; intros; ring).
    rewrite rsum_swap_R. apply rsum_ext_R'. intros l Hl. rewrite rsum_scal_r_R. specialize (MZ l Hl). unfold M in MZ. f_equal. lra.
Qed.
End Ols.

(** ** leaving out a test set *)
Definition hat_ok (A : mx) (H : nat -> nat -> R) : Prop :=
  forall v, exists e, (forall i, (i < mrows A)%nat -> prediction A e i = mv (mrows A) H v i) /\
                      (forall j, (j < mcols A)%nat -> rsum (mrows A) (fun i => ment A i j * prediction A e i) = rsum (mrows A) (fun i => ment A i j * v i)).
(** embed the values d on the test set F into a vector indexed by the samples *)
Definition embed (F : list nat) (d : vec) (i : nat) : R := rsum (length F) (fun a => if (nth a F 0 =? i)%nat then d a else 0).
Lemma embed_at F d a : NoDup F -> (a < length F)%nat -> embed F d (nth a F 0%nat) = d a.
Proof.
  intros ND Ha. unfold embed. rewrite (rsum_ext_R' _ _ (fun b => if (b =? a)%nat then d b else 0)); [apply rsum_delta_R; auto|].
  intros b Hb. destruct (Nat.eqb_spec b a) as [->|Hne]; [rewrite Nat.eqb_refl; auto|]. destruct (Nat.eqb_spec (nth b F 0%nat) (nth a F 0%nat)) as [E|]; auto.
  exfalso. apply Hne. eapply NoDup_nth; eauto.
Qed.
Lemma embed_out F d i : ~ In i F -> embed F d i = 0.
Proof. intros H. apply rsum_zero_R. intros a Ha. destruct (Nat.eqb_spec (nth a F 0%nat) i) as [E|]; auto. exfalso. apply H. rewrite <- E. apply nth_In; auto. Qed.
Lemma embed_sum F d n (f : nat -> R) : (forall i, In i F -> (i < n)%nat) -> rsum n (fun i => f i * embed F d i) = rsum (length F) (fun a => f (nth a F 0%nat) * d a).
Proof.
  intros HF. unfold embed. rewrite (rsum_ext_R' n _ (fun i => rsum (length F) (fun a => if (nth a F 0 =? i)%nat then f i * d a else 0))).
  2:{ intros i _. rewrite <- rsum_scal_l_R. apply rsum_ext_R'. intros a _. destruct (nth a F 0 =? i)%nat; ring. }
  rewrite rsum_swap_R. apply rsum_ext_R'. intros a Ha. rewrite (rsum_ext_R' n _ (fun i => if (i =? nth a F 0)%nat then f i * d a else 0)).
  - rewrite rsum_delta_R; auto. apply HF, nth_In; auto.
  - intros i _. rewrite Nat.eqb_sym. auto.
Qed.
Definition memb (F : list nat) (i : nat) : bool := existsb (Nat.eqb i) F.
Lemma memb_spec F i : memb F i = true <-> In i F.
Proof. unfold memb. rewrite existsb_exists. split; [intros [k [H E]]; apply Nat.eqb_eq in E; subst; auto|]. intros H. exists i. split; auto. apply Nat.eqb_refl. Qed.
Lemma lsum_without A F (f : nat -> R) : lsum (without A F) f = rsum (mrows A) f - rsum (mrows A) (fun i => if memb F i then f i else 0).
Proof.
  unfold without. rewrite lsum_filter_R, lsum_seq_rsum, <- rsum_minus_R. apply rsum_ext_R'. intros i _. fold (memb F i). destruct (memb F i); cbn; ring.
Qed.
Lemma in_without A F i : In i (without A F) <-> (i < mrows A)%nat /\ ~ In i F.
Proof. unfold without. rewrite filter_In, in_seq. fold (memb F i). rewrite <- memb_spec. destruct (memb F i); cbn; intuition; try lia; try discriminate; congruence. Qed.

Section LeaveOut.
Variables (A : mx) (y : vec) (H : nat -> nat -> R) (sol : vec) (F : list nat).
Hypothesis HH : hat_ok A H.
Hypothesis NDF : NoDup F.
Hypothesis HF : forall i, In i F -> (i < mrows A)%nat.
Let N := mrows A.
Let P := mcols A.
Let f := length F.
Definition small (H : nat -> nat -> R) (F : list nat) (a b : nat) : R := (if (a =? b)%nat then 1 else 0) - H (nth a F 0%nat) (nth b F 0%nat).
Lemma small_mv d a : (a < f)%nat -> mv f (small H F) d a = d a - rsum f (fun b => H (nth a F 0%nat) (nth b F 0%nat) * d b).
Proof.
  intros Ha. unfold mv, small. rewrite (rsum_ext_R' f _ (fun b => (if (b =? a)%nat then d b else 0) - H (nth a F 0%nat) (nth b F 0%nat) * d b)).
  - rewrite rsum_minus_R, rsum_delta_R; auto.
  - intros b _. rewrite Nat.eqb_sym. destruct (b =? a)%nat; ring.
Qed.
Lemma small_inj : determined A (without A F) -> inj f f (small H F).
Proof.
  intros D d Hd. destruct (HH (embed F d)) as [e [E1 E2]].
  assert (EF : forall a, (a < f)%nat -> prediction A e (nth a F 0%nat) = d a).
  { intros a Ha. rewrite E1 by (apply HF, nth_In; auto). unfold mv. rewrite embed_sum by auto. specialize (Hd a Ha). rewrite small_mv in Hd by auto. fold f. lra. }
  assert (Q : rsum N (fun i => prediction A e i * prediction A e i) = rsum N (fun i => prediction A e i * embed F d i)).
  { assert (K : forall v, rsum N (fun i => prediction A e i * v i) = rsum P (fun j => e j * rsum N (fun i => ment A i j * v i))).
    { intros v. rewrite (rsum_ext_R' P _ (fun j => rsum N (fun i => ment A i j * e j * v i))) by (intros; rewrite <- rsum_scal_l_R; apply rsum_ext_R'; intros; ring).
      rewrite rsum_swap_R. apply rsum_ext_R'. intros i _. unfold prediction. rewrite rsum_scal_r_R. auto. }
    rewrite !K. apply rsum_ext_R'. intros j Hj. f_equal. apply E2; auto. }
  assert (Z : lsum (without A F) (fun i => prediction A e i * prediction A e i) = 0).
  { rewrite lsum_without. fold N. rewrite Q, <- rsum_minus_R. apply rsum_zero_R. intros i Hi. destruct (memb F i) eqn:EM.
    - apply memb_spec in EM. apply (In_nth F i 0%nat) in EM as [a [Ha <-]]. rewrite embed_at, EF by auto. ring.
    - rewrite embed_out; [ring|]. rewrite <- memb_spec. congruence. }
  assert (EZ : forall j, (j < P)%nat -> e j = 0).
  { apply D. intros i Hi. apply Rsqr_0_uniq. exact (lsum_zero_iff _ _ (fun a _ => Rle_0_sqr (prediction A e a)) Z i Hi). }
  intros a Ha. rewrite <- EF by auto. apply rsum_zero_R. intros j Hj. rewrite EZ by auto. ring.
Qed.
Hypothesis HS : least_squares A y (all_rows A) sol.
Lemma leave_out_fit d : (forall a, (a < f)%nat -> mv f (small H F) d a = y (nth a F 0%nat) - prediction A sol (nth a F 0%nat)) ->
  exists s', least_squares A y (without A F) s' /\ forall a, (a < f)%nat -> d a = y (nth a F 0%nat) - prediction A s' (nth a F 0%nat).
Proof.
  intros Hd. destruct (HH (embed F d)) as [e [E1 E2]].
  assert (EF : forall a, (a < f)%nat -> d a = y (nth a F 0%nat) - prediction A (fun j => sol j - e j) (nth a F 0%nat)).
  { intros a Ha. rewrite prediction_minus, E1 by (apply HF, nth_In; auto). unfold mv. rewrite embed_sum by auto. specialize (Hd a Ha). rewrite small_mv in Hd by auto. fold f. lra. }
  exists (fun j => sol j - e j). split; auto. apply normal_least_squares. intros j Hj. unfold grad. rewrite lsum_without. fold N.
  assert (G := least_squares_normal _ _ _ _ HS j Hj). rewrite grad_all in G. fold N in G.
  rewrite (rsum_ext_R' N (fun i => ment A i j * (y i - prediction A (fun j0 => sol j0 - e j0) i)) (fun i => ment A i j * (y i - prediction A sol i) + ment A i j * prediction A e i)).
  2:{ intros i _. rewrite prediction_minus. ring. }
  rewrite rsum_plus_R, G. unfold N. rewrite E2 by auto. fold N. rewrite Rplus_0_l, <- rsum_minus_R. apply rsum_zero_R. intros i Hi.
  destruct (memb F i) eqn:EM.
  - apply memb_spec in EM. apply (In_nth F i 0%nat) in EM as [a [Ha <-]]. rewrite embed_at, <- EF by auto. ring.
  - rewrite embed_out; [ring|]. rewrite <- memb_spec. congruence.
Qed.
Lemma leave_out_unique d : determined A (without A F) ->
  (forall a, (a < f)%nat -> mv f (small H F) d a = y (nth a F 0%nat) - prediction A sol (nth a F 0%nat)) ->
  forall s', least_squares A y (without A F) s' -> forall a, (a < f)%nat -> d a = y (nth a F 0%nat) - prediction A s' (nth a F 0%nat).
Proof.
  intros D Hd s' Hs' a Ha. destruct (leave_out_fit d Hd) as [s2 [H2 E2]]. rewrite E2 by auto. f_equal.
  apply prediction_ext. intros j Hj. eapply fits_agree; eauto.
Qed.
End LeaveOut.
