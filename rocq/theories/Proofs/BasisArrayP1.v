(** FunctionalBasisArray: algebra and statistics. *)
From Coq Require Import List Arith Bool ZArith Lia.
From Verif.Base Require Import ListAux CRing Index.
From Verif.Model Require Import Sorting MultiIndices Numpy FullTensor FunctionalBases BasisArray.
From Verif.Spec Require Import TensorSpec FunctionSpec FunctionalSpec ArraySpec.
From Verif.Proofs Require Import NumpyP FullTensorP FullTensorP3 FunctionalP4.
Import ListNotations.

Section P.
  Context {R : Type} {CR : CRing R} {A V : Type}.
  Add Ring Rba1 : rth.
  Local Open Scope cr_scope.
  Notation fb := (fbasis R A V).

  Theorem eval_array (b : fb) q d : shape d = [fb_card b; q] -> evaluates b q d (array_fun b d).
  Proof. intros H x. exact (fba_eval_val b q d x H). Qed.
  (** the constructor on an array of one column *)
  Lemma init_one (b : fb) d : shape d = [fb_card b; 1%nat] -> exists h, fba_init (fb_card b) [1%nat] d = Some h /\ shape h = [fb_card b; 1%nat] /\
    forall p, array_fun b h 0 p = array_fun b d 0 p.
  Proof.
    intros H. destruct (fba_init_val (fb_card b) 1 d H) as (h & E & S1 & G1). exists h. split; auto. split; auto. intros p. unfold array_fun. apply rsum_ext. intros k Hk.
    rewrite G1 by lia. replace (k * 1 + 0)%nat with k by lia. rewrite Nat.mod_small, Nat.div_small by auto. auto.
  Qed.
  Lemma evaluates_ext (b : fb) d (f : list A -> R) : shape d = [fb_card b; 1%nat] -> (forall p, array_fun b d 0 p = f p) -> evaluates b 1 d (fun _ => f).
  Proof.
    intros H Hf x. destruct (eval_array b 1 d H x) as (C & E & S1 & G1). exists C. split; auto. split; auto. intros ix Hix. rewrite G1 by auto.
    inversion Hix as [|i ? ix' ? Hi Hix2]; subst. inversion Hix2 as [|j ? ix'' ? Hj Hix3]; subst. inversion Hix3; subst. cbn [nth].
    replace j with 0%nat by lia. apply Hf.
  Qed.
  Lemma init_eval (b : fb) d (f : list A -> R) : shape d = [fb_card b; 1%nat] -> (forall p, array_fun b d 0 p = f p) ->
    exists h, fba_init (fb_card b) [1%nat] d = Some h /\ shape h = [fb_card b; 1%nat] /\ evaluates b 1 h (fun _ => f).
  Proof. intros H Hf. destruct (init_one b d H) as (h & E & S1 & G1). exists h. split; auto. split; auto. apply evaluates_ext; auto. intros p. rewrite G1; auto. Qed.
  Lemma afun_map2 (b : fb) (u : R -> R -> R) f g d : (forall x a c, x * u a c = u (x * a) (x * c)) -> (forall n h k, rsum n (fun i => u (h i) (k i)) = u (rsum n h) (rsum n k)) ->
    (forall k, (k < fb_card b)%nat -> get d [k; 0%nat] = u (get f [k; 0%nat]) (get g [k; 0%nat])) -> forall p, array_fun b d 0 p = u (array_fun b f 0 p) (array_fun b g 0 p).
  Proof.
    intros H1 H2 Hd p. unfold array_fun. rewrite <- H2. apply rsum_ext. intros k Hk. rewrite Hd by auto. auto.
  Qed.
  Lemma rsum_plus n (h k : nat -> R) : rsum n (fun i => h i + k i) = rsum n h + rsum n k.
  Proof. induction n; cbn; [ring|]. rewrite IHn. ring. Qed.
  Lemma rsum_minus n (h k : nat -> R) : rsum n (fun i => h i - k i) = rsum n h - rsum n k.
  Proof. induction n; cbn; [ring|]. rewrite IHn. ring. Qed.
  Lemma v0 n k : (k < n)%nat -> valid [n; 1%nat] [k; 0%nat].
  Proof. intros. apply v2; lia. Qed.

  Theorem add_ok (b : fb) f g : shape f = [fb_card b; 1%nat] -> shape g = [fb_card b; 1%nat] ->
    exists h, fba_add b [1%nat] f g = Some h /\ shape h = [fb_card b; 1%nat] /\ evaluates b 1 h (fun _ p => array_fun b f 0 p + array_fun b g 0 p).
  Proof.
    intros Hf Hg. unfold fba_add. destruct (np_binop_same radd f g) as (d & E & S1 & G1); [congruence|]. rewrite E. cbn [bind]. rewrite Hf in S1, G1.
    apply init_eval; auto. apply (afun_map2 b radd f g d); [intros; ring|apply rsum_plus|]. intros k Hk. rewrite G1 by (apply v0; auto). auto.
  Qed.
  Theorem sub_ok (b : fb) f g : shape f = [fb_card b; 1%nat] -> shape g = [fb_card b; 1%nat] ->
    exists h, fba_sub b [1%nat] f g = Some h /\ shape h = [fb_card b; 1%nat] /\ evaluates b 1 h (fun _ p => array_fun b f 0 p - array_fun b g 0 p).
  Proof.
    intros Hf Hg. unfold fba_sub. destruct (np_binop_same (fun x y => x - y) f g) as (d & E & S1 & G1); [congruence|]. rewrite E. cbn [bind]. rewrite Hf in S1, G1.
    apply init_eval; auto. apply (afun_map2 b (fun x y => x - y) f g d); [intros; ring|apply rsum_minus|]. intros k Hk. rewrite G1 by (apply v0; auto). auto.
  Qed.
  Theorem neg_ok (b : fb) f : shape f = [fb_card b; 1%nat] ->
    exists h, fba_neg b [1%nat] f = Some h /\ shape h = [fb_card b; 1%nat] /\ evaluates b 1 h (fun _ p => - array_fun b f 0 p).
  Proof.
    intros Hf. unfold fba_neg. apply init_eval; auto. intros p. unfold array_fun. rewrite <- rsum_opp. apply rsum_ext. intros k Hk. cbn [np_map get]. ring.
  Qed.
  Theorem scale_ok (b : fb) f c : shape f = [fb_card b; 1%nat] ->
    exists h, fba_scale b [1%nat] f c = Some h /\ shape h = [fb_card b; 1%nat] /\ evaluates b 1 h (fun _ p => c * array_fun b f 0 p).
  Proof.
    intros Hf. unfold fba_scale, fba_mul. destruct (np_binop_scalar_r rmul f c) as (d & E & S1 & G1). rewrite E. cbn [bind]. rewrite Hf in S1, G1.
    apply init_eval; auto. intros p. unfold array_fun. rewrite <- rsum_scal_l. apply rsum_ext. intros k Hk. rewrite G1 by (apply v0; auto). ring.
  Qed.
  (** a linear combination of the components *)
  Theorem matmul_array (b : fb) q f v : shape f = [fb_card b; q] -> shape v = [q; 1%nat] ->
    exists h, fba_matmul b f v = Some ([1%nat], h) /\ shape h = [fb_card b; 1%nat] /\ evaluates b 1 h (fun _ p => rsum q (fun j => array_fun b f j p * get v [j; 0%nat])).
  Proof.
    intros Hf Hv. unfold fba_matmul. destruct (matmul_ok f v _ _ _ Hf Hv) as (d & E & S1 & G1). rewrite E. cbn [bind]. rewrite S1. cbn [tl].
    destruct (init_eval b d (fun p => rsum q (fun j => array_fun b f j p * get v [j; 0%nat])) S1) as (h & Eh & Sh & Vh).
    - intros p. unfold array_fun. transitivity (rsum (fb_card b) (fun k => rsum q (fun j => fb_at b p k * get f [k; j] * get v [j; 0%nat]))).
      + apply rsum_ext. intros k Hk. rewrite G1. rewrite <- rsum_scal_l. apply rsum_ext. intros j Hj. ring.
      + rewrite rsum_exchange. apply rsum_ext. intros j Hj. rewrite rsum_scal_r. auto.
    - rewrite Eh. cbn [bind]. eauto.
  Qed.

  (** ** statistics *)
  Lemma sum_keep0 (y : nd R) n q : shape y = [n; q] -> returns (np_sum_keep y [0%nat]) [1%nat; q] (fun ix => rsum n (fun k => get y [k; nth 1 ix 0%nat])).
  Proof.
    intros H. unfold np_sum_keep, ndim. rewrite H. cbn [length forallb Nat.ltb Nat.leb andb]. eexists. split; [reflexivity|]. split; [reflexivity|].
    intros ix Hix. inversion Hix as [|i ? ix' ? Hi Hix2]; subst. inversion Hix2 as [|j ? ix'' ? Hj Hix3]; subst. inversion Hix3; subst. cbn [get sel map bsum nth]. apply rsum_ext. intros k Hk. reflexivity.
  Qed.
  Theorem mean_array (b : fb) q d pts w : mean_ok b pts w -> shape d = [fb_card b; q] ->
    returns (fba_mean b [q] d None) [1%nat; q] (fun ix => dmean pts w (array_fun b d (nth 1 ix 0%nat))).
  Proof.
    intros (H1 & H2 & H3 & H4) Hd. unfold fba_mean. destruct (np_binop_same rmul d (fba_tile (fb_mean b None) [q])) as (y & E & S1 & G1).
    { rewrite Hd. cbn [fba_tile shape]. rewrite H3. auto. }
    rewrite E. cbn [bind]. rewrite Hd in S1, G1. destruct (sum_keep0 y _ _ S1) as (m & Em & Sm & Gm). exists m. split; auto. split; auto. intros ix Hix. rewrite Gm by auto.
    inversion Hix as [|i ? ix' ? Hi Hix2]; subst. inversion Hix2 as [|j ? ix'' ? Hj Hix3]; subst. inversion Hix3; subst. cbn [nth].
    transitivity (rsum (fb_card b) (fun k => rsum (length pts) (fun t => nth t w r0 * (fb_at b (nth t pts []) k * get d [k; j])))).
    - apply rsum_ext. intros k Hk. rewrite G1 by (apply v2; auto). cbn [fba_tile get hd]. rewrite H4 by auto. unfold dmean. rewrite <- rsum_scal_l. apply rsum_ext. intros t Ht. ring.
    - rewrite rsum_exchange. unfold dmean, array_fun. apply rsum_ext. intros t Ht. rewrite rsum_scal_l. auto.
  Qed.
  Lemma dmean_prod (b : fb) f g j pts w : gram_ok b pts w -> fb_orth b = true ->
    dmean pts w (fun p => array_fun b f j p * array_fun b g j p) = rsum (fb_card b) (fun k => get f [k; j] * get g [k; j]).
  Proof.
    intros (H1 & H2 & H3 & H4 & H5) HO. unfold dmean, array_fun.
    transitivity (rsum (length pts) (fun t => rsum (fb_card b) (fun k => rsum (fb_card b) (fun l => nth t w r0 * (fb_at b (nth t pts []) k * get f [k; j] * (fb_at b (nth t pts []) l * get g [l; j])))))).
    { apply rsum_ext. intros t Ht. rewrite rsum_mul. rewrite <- rsum_scal_l. apply rsum_ext. intros k Hk. rewrite <- rsum_scal_l. auto. }
    rewrite rsum_exchange. apply rsum_ext. intros k Hk. rewrite rsum_exchange.
    transitivity (rsum (fb_card b) (fun l => get f [k; j] * get g [l; j] * (if (k =? l)%nat then r1 else r0))).
    { apply rsum_ext. intros l Hl. rewrite <- (H5 HO k l Hk Hl). unfold dmean. rewrite <- rsum_scal_l. apply rsum_ext. intros t Ht. ring. }
    rewrite (rsum_single _ k); auto.
    - rewrite Nat.eqb_refl. ring.
    - intros l Hl Hne. destruct (Nat.eqb_spec k l); [congruence|ring].
  Qed.
  Theorem dot_expectation_ok (b : fb) q f g pts w : gram_ok b pts w -> fb_orth b = true -> shape f = [fb_card b; q] -> shape g = [fb_card b; q] ->
    returns (fba_dot_expectation true b f g) [1%nat; q] (fun ix => dmean pts w (fun p => array_fun b f (nth 1 ix 0%nat) p * array_fun b g (nth 1 ix 0%nat) p)).
  Proof.
    intros HG HO Hf Hg. unfold fba_dot_expectation. rewrite HO. cbn [andb]. unfold fba_dot. destruct (np_binop_same rmul f g) as (y & E & S1 & G1); [congruence|].
    rewrite E. cbn [bind]. rewrite Hf in S1, G1. destruct (sum_keep0 y _ _ S1) as (m & Em & Sm & Gm). exists m. split; auto. split; auto. intros ix Hix. rewrite Gm by auto.
    rewrite (dmean_prod b f g _ pts w HG HO). inversion Hix as [|i ? ix' ? Hi Hix2]; subst. inversion Hix2 as [|j ? ix'' ? Hj Hix3]; subst. cbn [nth]. apply rsum_ext. intros k Hk. apply G1. apply v2; auto.
  Qed.
  Theorem variance_ok (b : fb) q d pts w : mean_ok b pts w -> gram_ok b pts w -> fb_orth b = true -> rsum (length pts) (fun k => nth k w r0) = r1 -> shape d = [fb_card b; q] ->
    returns (fba_variance true b [q] d None) [1%nat; q] (fun ix => let f := array_fun b d (nth 1 ix 0%nat) in let m := dmean pts w f in dmean pts w (fun p => (f p - m) * (f p - m))).
  Proof.
    intros HM HG HO HW Hd. unfold fba_variance. destruct (mean_array b q d pts w HM Hd) as (e & Ee & Se & Ge). rewrite Ee. cbn [bind].
    destruct (dot_expectation_ok b q d d pts w HG HO Hd Hd) as (v & Ev & Sv & Gv). rewrite Ev. cbn [bind].
    destruct (np_binop_same (fun x y => x - y) v (np_map (fun x => x * x) e)) as (y & E & S1 & G1); [cbn [np_map shape]; congruence|]. rewrite Sv in S1, G1.
    exists y. split; auto. split; auto. intros ix Hix. rewrite G1 by auto. cbn [np_map get]. rewrite Gv, Ge by auto. cbv zeta. set (f := array_fun b d (nth 1 ix 0%nat)). set (m := dmean pts w f).
    symmetry. transitivity (dmean pts w (fun p => f p * f p) - (r1 + r1) * m * m + m * m * rsum (length pts) (fun k => nth k w r0)); [|rewrite HW; ring].
    assert (Hm : (r1 + r1) * m * m = rsum (length pts) (fun t => (r1 + r1) * m * (nth t w r0 * f (nth t pts [])))) by (rewrite rsum_scal_l; reflexivity).
    rewrite Hm. unfold dmean. rewrite <- rsum_scal_l. rewrite <- rsum_minus, <- rsum_plus. apply rsum_ext. intros k Hk. ring.
  Qed.
  (** the norm of the coefficients *)
  Theorem dot_all (b : fb) q f g : shape f = [fb_card b; q] -> shape g = [fb_card b; q] ->
    returns (fba_dot f g None) [1%nat; 1%nat] (fun _ => rsum (fb_card b) (fun k => rsum q (fun j => get f [k; j] * get g [k; j]))).
  Proof.
    intros Hf Hg. unfold fba_dot. destruct (np_binop_same rmul f g) as (y & E & S1 & G1); [congruence|]. rewrite E. cbn [bind]. rewrite Hf in S1, G1.
    unfold np_sum_keep, ndim. rewrite S1. cbn [length seq forallb Nat.ltb Nat.leb andb]. eexists. split; [reflexivity|]. split; [reflexivity|].
    intros ix Hix. cbn [get sel map bsum nth]. apply rsum_ext. intros k Hk. apply rsum_ext. intros j Hj. rewrite <- G1 by (apply v2; auto). reflexivity.
  Qed.
End P.
