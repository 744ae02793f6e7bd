(** FunctionalBasisArray, interpolation, quasi-projection, Gram matrices, sub-bases and orthonormalisation. *)
From Coq Require Import List Arith Bool ZArith Lia.
From Verif.Base Require Import ListAux CRing Index.
From Verif.Model Require Import Sorting MultiIndices Numpy FullTensor Diagonal Canonical Sparse DimensionTree Functions FunctionalBases.
From Verif.Spec Require Import MultiIndicesSpec TensorSpec FunctionSpec FunctionalSpec.
From Verif.Proofs Require Import NumpyP FullTensorP FullTensorP3 SparseP CanonicalP CanonicalP2 MIMoreP FunctionsP FunctionsP2 FunctionsP3 TensorizerP FunctionalP FunctionalP2 FunctionalP3.
Import ListNotations.

Section P.
  Context {R : Type} {CR : CRing R} {A V : Type}.
  Add Ring Rfb4 : rth.
  Local Open Scope cr_scope.
  Notation fb := (fbasis R A V).

  Lemma v2 n m i j : (i < n)%nat -> (j < m)%nat -> valid [n; m] [i; j].
  Proof. intros. constructor; [auto|constructor; [auto|constructor]]. Qed.
  (** FunctionalBasisArray(data, basis, q): the data kept by the object *)
  Lemma fba_init_val (card q : nat) (data : nd R) : shape data = [card; q] -> exists d, fba_init card [q] data = Some d /\ shape d = [card; q] /\
    forall k j, (k < card)%nat -> (j < q)%nat -> get d [k; j] = get data [((k * q + j) mod card)%nat; ((k * q + j) / card)%nat].
  Proof.
    intros HS. unfold fba_init, np_size. unfold np_reshapeF. rewrite HS. cbn [prodn]. rewrite !Nat.mul_1_r, Nat.eqb_refl.
    cbn [bind]. unfold np_reshapeC. cbn [shape prodn]. rewrite !Nat.mul_1_r, Nat.eqb_refl. eexists. split; [reflexivity|]. split; [reflexivity|].
    intros k j Hk Hj. cbn [get]. unfold sub2indC, ind2subC. cbn [rev app sub2indF ind2subF].
    assert (Hlt : (k * q + j < card * q)%nat) by nia.
    replace (j + q * (k + card * 0))%nat with (k * q + j)%nat by lia. rewrite (Nat.mod_small (k * q + j) (card * q)) by auto.
    rewrite Nat.mul_0_r, Nat.add_0_r. do 3 f_equal. apply Nat.mod_small. apply Nat.div_lt_upper_bound; lia.
  Qed.
  Lemma reshape_same (T : nd R) s : shape T = s -> exists T', np_reshapeF T s = Some T' /\ shape T' = s /\ forall is, valid s is -> get T' is = get T is.
  Proof. intros H. destruct (reshapeF_same T s H) as (T' & E & S1 & G1). eauto. Qed.
  Lemma matmul_ok (M N : nd R) m p n : shape M = [m; p] -> shape N = [p; n] ->
    exists C, np_matmul M N = Some C /\ shape C = [m; n] /\ forall i j, get C [i; j] = rsum p (fun k => get M [i; k] * get N [k; j]).
  Proof. intros H1 H2. unfold np_matmul. rewrite H1, H2, Nat.eqb_refl. eexists. split; [reflexivity|]. split; auto. Qed.
  Lemma fba_eval_val (b : fb) q d x : shape d = [fb_card b; q] ->
    returns (fba_eval b [q] d x) [length x; q] (fun ix => rsum (fb_card b) (fun k => fb_at b (nth (nth 0 ix 0%nat) x []) k * get d [k; nth 1 ix 0%nat])).
  Proof.
    intros HS. unfold fba_eval, fba_eval_with. cbn [prodn]. rewrite Nat.mul_1_r. destruct (reshape_same d _ HS) as (d' & E & S1 & G1). rewrite E. cbn [bind].
    destruct (matmul_ok (fb_eval b x) d' (length x) (fb_card b) q) as (C & EC & SC & GC); auto. rewrite EC. cbn [bind]. cbn [fb_eval shape nth].
    destruct (reshape_same C _ SC) as (C' & E' & S2 & G2). exists C'. split; auto. split; auto. intros ix Hix. rewrite G2 by auto.
    inversion Hix as [|p ? ix' ? Hp Hix2]; subst. inversion Hix2 as [|j ? ix'' ? Hj Hix3]; subst. inversion Hix3; subst. rewrite GC. cbn [nth]. apply rsum_ext. intros k Hk.
    rewrite G1 by (apply v2; auto). reflexivity.
  Qed.
  (** the function represented by FunctionalBasisArray(data, basis, q) *)
  Theorem fba_ok (b : fb) q data x : shape data = [fb_card b; q] -> exists d, fba_init (fb_card b) [q] data = Some d /\
    returns (fba_eval b [q] d x) [length x; q] (fun ix => rsum (fb_card b) (fun k => fb_at b (nth (nth 0 ix 0%nat) x []) k * get data [((k * q + nth 1 ix 0) mod (fb_card b))%nat; ((k * q + nth 1 ix 0) / fb_card b)%nat])).
  Proof.
    intros HS. destruct (fba_init_val (fb_card b) q data HS) as (d & E & S1 & G1). exists d. split; auto.
    destruct (fba_eval_val b q d x S1) as (C & EC & SC & GC). exists C. split; auto. split; auto. intros ix Hix. rewrite GC by auto.
    inversion Hix as [|p ? ix' ? Hp Hix2]; subst. inversion Hix2 as [|j ? ix'' ? Hj Hix3]; subst. cbn [nth]. apply rsum_ext. intros k Hk. rewrite G1 by auto. auto.
  Qed.
  Theorem fba_one (b : fb) data x : shape data = [fb_card b; 1%nat] -> exists d, fba_init (fb_card b) [1%nat] data = Some d /\
    returns (fba_eval b [1%nat] d x) [length x; 1%nat] (fun ix => rsum (fb_card b) (fun k => fb_at b (nth (nth 0 ix 0%nat) x []) k * get data [k; 0%nat])).
  Proof.
    intros HS. destruct (fba_ok b 1 data x HS) as (d & E & C & EC & SC & GC). exists d. split; auto. exists C. split; auto. split; auto. intros ix Hix. rewrite GC by auto.
    inversion Hix as [|p ? ix' ? Hp Hix2]; subst. inversion Hix2 as [|j ? ix'' ? Hj Hix3]; subst. cbn [nth]. apply rsum_ext. intros k Hk.
    replace (k * 1 + j)%nat with k by lia. rewrite Nat.mod_small, Nat.div_small by auto. auto.
  Qed.

  (** interpolation, one output *)
  Theorem interpolate_ok (solve : nd R -> nd R -> option (nd R)) (b : fb) y x d : solve_contract solve -> shape y = [length x; 1%nat] ->
    fb_interpolate solve b y x = Some d -> returns (fba_eval b [1%nat] d x) [length x; 1%nat] (get y).
  Proof.
    intros HC HY. unfold fb_interpolate. destruct (solve (fb_eval b x) y) as [u|] eqn:E; [|discriminate]. cbn [bind]. rewrite HY. cbn [nth].
    destruct (HC _ _ _ E) as (n & m & S1 & S2 & S3 & _ & Hs). cbn [fb_eval shape] in S1. injection S1 as S1 S1'. rewrite HY in S2. injection S2 as <- <-.
    intros Ed. assert (S3' : shape u = [fb_card b; 1%nat]) by congruence.
    destruct (fba_one b u x S3') as (d' & Ed' & C & EC & SC & GC). rewrite Ed in Ed'. injection Ed' as <-. exists C. split; auto. split; auto.
    intros ix Hix. rewrite GC by auto. inversion Hix as [|p ? ix' ? Hp Hix2]; subst. inversion Hix2 as [|j ? ix'' ? Hj Hix3]; subst. inversion Hix3; subst. cbn [nth].
    replace j with 0%nat by lia. rewrite <- Hs by lia. rewrite S1'. reflexivity.
  Qed.

  (** Gram matrix and quasi-projection with a quadrature rule *)
  Lemma np_T_shape (M : nd R) m n : shape M = [m; n] -> shape (np_T M) = [n; m] /\ forall i j, get (np_T M) [i; j] = get M [j; i].
  Proof. intros H. unfold np_T. cbn [shape get]. rewrite H. split; reflexivity. Qed.
  Theorem gram_matrix_ok (b : fb) pts w : length w = length pts ->
    returns (fb_gram_matrix b pts w) [fb_card b; fb_card b] (fun ix => dmean pts w (fun p => fb_at b p (nth 0 ix 0%nat) * fb_at b p (nth 1 ix 0%nat))).
  Proof.
    intros HL. unfold fb_gram_matrix. rewrite HL, Nat.eqb_refl. destruct (np_T_shape (fb_eval b pts) (length pts) (fb_card b) eq_refl) as [ST GT].
    destruct (matmul_ok (np_T (fb_eval b pts)) (row_scale w (fb_eval b pts)) (fb_card b) (length pts) (fb_card b)) as (C & EC & SC & GC); auto.
    exists C. split; auto. split; auto. intros ix Hix. inversion Hix as [|i ? ix' ? Hi Hix2]; subst. inversion Hix2 as [|j ? ix'' ? Hj Hix3]; subst. inversion Hix3; subst.
    rewrite GC. cbn [nth]. unfold dmean. apply rsum_ext. intros k Hk. rewrite GT. cbn [row_scale fb_eval get nth]. ring.
  Qed.
  Theorem quasi_projection_ok (b : fb) pts w y c : length w = length pts -> shape y = [length pts; 1%nat] ->
    identity (fb_card b) (fun i j => dmean pts w (fun p => fb_at b p i * fb_at b p j)) ->
    (forall k, (k < length pts)%nat -> get y [k; 0%nat] = rsum (fb_card b) (fun j => c j * fb_at b (nth k pts []) j)) ->
    exists d, fb_quasi_projection b pts w y = Some d /\ forall x,
      returns (fba_eval b [1%nat] d x) [length x; 1%nat] (fun ix => rsum (fb_card b) (fun j => c j * fb_at b (nth (nth 0 ix 0%nat) x []) j)).
  Proof.
    intros HL HY HI Hc. unfold fb_quasi_projection. rewrite HL, Nat.eqb_refl. destruct (np_T_shape (fb_eval b pts) (length pts) (fb_card b) eq_refl) as [ST GT].
    destruct (matmul_ok (np_T (fb_eval b pts)) (row_scale w y) (fb_card b) (length pts) 1) as (u & Eu & Su & Gu); auto. rewrite Eu. cbn [bind]. rewrite Su. cbn [nth].
    assert (Hu : forall i, (i < fb_card b)%nat -> get u [i; 0%nat] = c i).
    { intros i Hi. rewrite Gu. transitivity (rsum (fb_card b) (fun j => c j * dmean pts w (fun p => fb_at b p i * fb_at b p j))).
      - transitivity (rsum (length pts) (fun k => rsum (fb_card b) (fun j => c j * (nth k w r0 * (fb_at b (nth k pts []) i * fb_at b (nth k pts []) j))))).
        + apply rsum_ext. intros k Hk. rewrite GT. cbn [row_scale get nth fb_eval]. rewrite Hc by auto. rewrite <- !rsum_scal_l. apply rsum_ext. intros j Hj. ring.
        + rewrite rsum_exchange. apply rsum_ext. intros j Hj. unfold dmean. rewrite <- rsum_scal_l. apply rsum_ext. intros k Hk. auto.
      - rewrite (rsum_single _ i); auto.
        + rewrite HI by auto. rewrite Nat.eqb_refl. ring.
        + intros j Hj Hne. rewrite HI by auto. destruct (Nat.eqb_spec i j); [congruence|ring]. }
    destruct (fba_one b u [] Su) as (d & Ed & _). exists d. split; auto. intros x. destruct (fba_one b u x Su) as (d' & Ed' & C & EC & SC & GC). rewrite Ed in Ed'. injection Ed' as <-.
    exists C. split; auto. split; auto. intros ix Hix. rewrite GC by auto. apply rsum_ext. intros k Hk. rewrite Hu by auto. ring.
  Qed.

  (** ** sub-bases *)
  Theorem sub_eval_ok (b : fb) (B : nd R) m x : shape B = [fb_card b; m] ->
    returns (sub_eval b B x) [length x; m] (fun ix => rsum (fb_card b) (fun k => fb_at b (nth (nth 0 ix 0%nat) x []) k * get B [k; nth 1 ix 0%nat])).
  Proof.
    intros HS. unfold sub_eval. destruct (matmul_ok (fb_eval b x) B (length x) (fb_card b) m) as (C & EC & SC & GC); auto. exists C. split; auto. split; auto.
    intros ix Hix. inversion Hix as [|i ? ix' ? Hi Hix2]; subst. inversion Hix2 as [|j ? ix'' ? Hj Hix3]; subst. inversion Hix3; subst. rewrite GC. reflexivity.
  Qed.
  Theorem sub_mean_ok (b : fb) (B : nd R) m pts w : shape B = [fb_card b; m] -> mean_ok b pts w ->
    returns (sub_mean b B) [1%nat; m] (fun ix => dmean pts w (fun p => rsum (fb_card b) (fun k => fb_at b p k * get B [k; nth 1 ix 0%nat]))).
  Proof.
    intros HS (H1 & H2 & H3 & H4). unfold sub_mean. destruct (matmul_ok (row_mat (fb_mean b None)) B 1 (fb_card b) m) as (C & EC & SC & GC); auto; [cbn; rewrite H3; auto|].
    exists C. split; auto. split; auto. intros ix Hix. inversion Hix as [|i ? ix' ? Hi Hix2]; subst. inversion Hix2 as [|j ? ix'' ? Hj Hix3]; subst. inversion Hix3; subst. rewrite GC. cbn [row_mat get nth].
    transitivity (rsum (fb_card b) (fun k => rsum (length pts) (fun q => nth q w r0 * (fb_at b (nth q pts []) k * get B [k; j])))).
    - apply rsum_ext. intros k Hk. rewrite H4 by auto. unfold dmean. rewrite <- rsum_scal_r. apply rsum_ext. intros q Hq. ring.
    - rewrite rsum_exchange. unfold dmean. apply rsum_ext. intros q Hq. rewrite rsum_scal_l. auto.
  Qed.
  Definition subfun (b : fb) (B : nd R) (j : nat) (p : list A) : R := rsum (fb_card b) (fun k => fb_at b p k * get B [k; j]).
  Lemma rsum_mul n m (f g : nat -> R) : rsum n f * rsum m g = rsum n (fun i => rsum m (fun j => f i * g j)).
  Proof. rewrite <- rsum_scal_r. apply rsum_ext. intros i _. rewrite rsum_scal_l. auto. Qed.
  Lemma sub_dmean (b : fb) B pts w i j : gram_ok b pts w ->
    dmean pts w (fun p => subfun b B i p * subfun b B j p) = rsum (fb_card b) (fun k => rsum (fb_card b) (fun l => get B [k; i] * get (fb_gram b) [k; l] * get B [l; j])).
  Proof.
    intros (H1 & H2 & H3 & H4 & H5). unfold dmean, subfun.
    transitivity (rsum (length pts) (fun q => rsum (fb_card b) (fun k => rsum (fb_card b) (fun l => nth q w r0 * (fb_at b (nth q pts []) k * get B [k; i] * (fb_at b (nth q pts []) l * get B [l; j])))))).
    - apply rsum_ext. intros q Hq. rewrite rsum_mul. rewrite <- rsum_scal_l. apply rsum_ext. intros k Hk. rewrite <- rsum_scal_l. auto.
    - rewrite rsum_exchange. apply rsum_ext. intros k Hk. rewrite rsum_exchange. apply rsum_ext. intros l Hl. rewrite H4 by auto. unfold dmean.
      rewrite <- rsum_scal_l, <- rsum_scal_r. apply rsum_ext. intros q Hq. ring.
  Qed.
  Theorem sub_gram_ok (b : fb) (B : nd R) m pts w : shape B = [fb_card b; m] -> gram_ok b pts w ->
    returns (sub_gram b B) [m; m] (fun ix => dmean pts w (fun p => rsum (fb_card b) (fun k => fb_at b p k * get B [k; nth 0 ix 0%nat]) * rsum (fb_card b) (fun k => fb_at b p k * get B [k; nth 1 ix 0%nat]))).
  Proof.
    intros HS HG. pose proof HG as (_ & _ & H3 & _). unfold sub_gram. destruct (np_T_shape B _ _ HS) as [ST GT].
    destruct (matmul_ok (np_T B) (fb_gram b) m (fb_card b) (fb_card b)) as (T & ET & ST' & GT'); auto. rewrite ET. cbn [bind].
    destruct (matmul_ok T B m (fb_card b) m) as (C & EC & SC & GC); auto. exists C. split; auto. split; auto.
    intros ix Hix. inversion Hix as [|i ? ix' ? Hi Hix2]; subst. inversion Hix2 as [|j ? ix'' ? Hj Hix3]; subst. inversion Hix3; subst. rewrite GC. cbn [nth].
    etransitivity; [|symmetry; apply (sub_dmean b B pts w i j HG)]. rewrite rsum_exchange. apply rsum_ext. intros l Hl. rewrite GT'. rewrite <- rsum_scal_r. apply rsum_ext. intros k Hk. rewrite GT. auto.
  Qed.
  (** orthonormalize: an orthonormal basis with the same span *)
  Theorem orthonormalize_ok (chol inv : nd R -> option (nd R)) (b : fb) B pts w : chol_contract chol -> inv_contract inv -> gram_ok b pts w ->
    fb_orthonormalize chol inv b = Some B ->
    shape B = [fb_card b; fb_card b] /\
    identity (fb_card b) (fun i j => dmean pts w (fun p => subfun b B i p * subfun b B j p)) /\
    exists C : nat -> nat -> R, forall i p, (i < fb_card b)%nat -> fb_at b p i = rsum (fb_card b) (fun j => C i j * subfun b B j p).
  Proof.
    intros HC HI HG. pose proof HG as (_ & _ & H3 & _). unfold fb_orthonormalize. destruct (chol (fb_gram b)) as [L|] eqn:E1; [|discriminate]. cbn [bind].
    destruct (inv L) as [Ai|] eqn:E2; [|discriminate]. cbn [bind]. intros EB. injection EB as <-. destruct (HC _ _ E1) as (n & S1 & S2 & HL). rewrite H3 in S1. injection S1 as Sn. subst n.
    destruct (HI _ _ E2) as (n & S3 & S4 & I1 & I2). rewrite S2 in S3. injection S3 as Sn. subst n. destruct (np_T_shape Ai _ _ S4) as [ST GT]. split; auto. set (n := fb_card b) in *. split.
    - intros i j Hi Hj. rewrite (sub_dmean b _ pts w i j HG). fold n.
      transitivity (rsum n (fun q => rsum n (fun k => get Ai [i; k] * get L [k; q]) * rsum n (fun l => get Ai [j; l] * get L [l; q]))).
      + transitivity (rsum n (fun k => rsum n (fun l => rsum n (fun q => get Ai [i; k] * get L [k; q] * (get Ai [j; l] * get L [l; q]))))).
        * apply rsum_ext. intros k Hk. apply rsum_ext. intros l Hl. rewrite !GT. rewrite <- HL by auto. rewrite <- rsum_scal_l, <- rsum_scal_r. apply rsum_ext. intros q Hq. ring.
        * transitivity (rsum n (fun k => rsum n (fun q => rsum n (fun l => get Ai [i; k] * get L [k; q] * (get Ai [j; l] * get L [l; q]))))).
          { apply rsum_ext. intros k Hk. apply rsum_exchange. }
          rewrite rsum_exchange. apply rsum_ext. intros q Hq. rewrite rsum_mul. auto.
      + transitivity (rsum n (fun q => (if (i =? q)%nat then r1 else r0) * (if (j =? q)%nat then r1 else r0))).
        * apply rsum_ext. intros q Hq. rewrite I2, I2 by auto. auto.
        * rewrite (rsum_single _ i); auto.
          { rewrite Nat.eqb_refl. rewrite (Nat.eqb_sym j i). destruct (i =? j)%nat; ring. }
          { intros q Hq Hne. destruct (Nat.eqb_spec i q); [congruence|ring]. }
    - exists (fun i j => get L [i; j]). intros i p Hi. unfold subfun. fold n.
      transitivity (rsum n (fun k => fb_at b p k * rsum n (fun j => get L [i; j] * get Ai [j; k]))).
      + rewrite (rsum_single _ i); auto.
        * rewrite I1 by auto. rewrite Nat.eqb_refl. ring.
        * intros k Hk Hne. rewrite I1 by auto. destruct (Nat.eqb_spec i k); [congruence|ring].
      + transitivity (rsum n (fun k => rsum n (fun j => get L [i; j] * (fb_at b p k * get Ai [j; k])))).
        * apply rsum_ext. intros k Hk. rewrite <- rsum_scal_l. apply rsum_ext. intros j Hj. ring.
        * rewrite rsum_exchange. apply rsum_ext. intros j Hj. rewrite rsum_scal_l. reflexivity.
  Qed.
End P.
