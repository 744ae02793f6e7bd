(** Tree-based tensors: division by a scalar, default arguments of create. *)
From Coq Require Import List Arith Lia Bool ZArith Ring Permutation Reals.
From Verif.Base Require Import ListAux CRing Index RealAux.
From Verif.Model Require Import Sorting Numpy FullTensor DimensionTree TreeBased TreeReduce TreeCreate.
From Verif.Spec Require Import TensorSpec TreeSpec TreeTensorSpec.
From Verif.Proofs Require Import NumpyP DimTreeP TreeTensorP TreeTensorP3 TreeTensorP6 TreeCreateP3.
Import ListNotations.

Theorem truediv_full (X : tbt R) r c A : tb_ok X r -> (2 <= tb_order X)%nat -> tb_full X = Some A -> c <> 0%R ->
  tb_ok (tb_truediv X c) r /\ ttree (tb_truediv X c) = ttree X /\ returns (tb_full (tb_truediv X c)) (shape A) (fun is => get A is / c)%R.
Proof.
  intros O H2 HA Hc. destruct (root_node X r O) as [Er Hr]. unfold tb_truediv. rewrite Er.
  destruct (root_scaled_full X (TB (ttree X) (setc r (ND (shape (core X r)) (fun is => (get (core X r) is / c)%R)) (cores X))) r (/ c)%R A) as (OZ & B & HB & HsB & HgB); auto.
  - cbn [cores]. rewrite setc_length. apply (ok_cores_length X r O).
  - intros n Hn Hne. rewrite setc_core by (auto; apply Hn). destruct (Nat.eqb_spec n r); [contradiction|auto].
  - rewrite setc_core, Nat.eqb_refl by lia. auto.
  - intros is Hv. rewrite setc_core, Nat.eqb_refl by lia. cbn. unfold Rdiv. apply Rmult_comm.
  - split; auto. split; auto. exists B. split; auto. split; auto. intros is Hv. rewrite HgB by auto. cbn. unfold Rdiv. apply Rmult_comm.
Qed.

(** the active nodes drawn at random are as create requires *)
Lemma random_active_ok t r choice perm k : dim_tree t r -> Forall (fun mu => mu < length (d2i t)) perm ->
  length (random_active t choice perm k) = nbn t /\ forall n, node t n -> is_leaf t n = false -> nth (n - 1) (random_active t choice perm k) false = true.
Proof.
  intros V HF. assert (N : forall (f : nat -> bool) n, node t n -> nth (n - 1) (map f (nodes t)) false = f n).
  { intros f n Hn. unfold node in Hn. unfold nodes. rewrite map_nth_in with (da := 0) by (rewrite seq_length; lia). rewrite seq_nth by lia. f_equal. lia. }
  assert (L : forall f : nat -> bool, length (map f (nodes t)) = nbn t) by (intros f; unfold nodes; rewrite map_length, seq_length; auto).
  unfold random_active. destruct choice as [|[|c]].
  - split; [apply L|]. intros n Hn El. rewrite N; auto.
  - split; [apply L|]. intros n Hn El. rewrite N, El; auto.
  - assert (HF' : Forall (fun mu => mu < length (d2i t)) (firstn (k + 1) perm)).
    { apply Forall_forall. intros mu Hm. rewrite Forall_forall in HF. apply HF. rewrite <- (firstn_skipn (k + 1) perm). apply in_or_app. auto. }
    clear HF. revert HF'. generalize (firstn (k + 1) perm) as ps.
    assert (G : forall ps l, Forall (fun mu => mu < length (d2i t)) ps -> length l = nbn t -> (forall n, node t n -> is_leaf t n = false -> nth (n - 1) l false = true) ->
      length (fold_left (fun l mu => upd (nth mu (d2i t) 0 - 1) false l) ps l) = nbn t /\
      forall n, node t n -> is_leaf t n = false -> nth (n - 1) (fold_left (fun l mu => upd (nth mu (d2i t) 0 - 1) false l) ps l) false = true).
    { induction ps as [|mu ps IH]; intros l HF Hl Hn; cbn [fold_left]; auto. inversion HF as [|? ? Hm HF']. subst.
      apply IH; auto; [rewrite upd_length; auto|]. intros n Hnn El. rewrite nth_upd_neq; auto.
      assert (Hlf : is_leaf t (nth mu (d2i t) 0) = true) by (apply inb_spec, nth_In; auto).
      pose proof (leaf_node t r V _ Hlf) as H1. unfold node in *. intros E. assert (n = nth mu (d2i t) 0) by lia. congruence. }
    intros ps HF. apply G; auto. intros n Hn El. rewrite N; auto.
Qed.
(** an inactive internal node is refused *)
Lemma create_inactive {R : Type} {CR : CRing R} (gen : list nat -> nd R) t ranks sizes act n :
  node t n -> is_leaf t n = false -> nth (n - 1) act false = false -> tb_create gen t ranks sizes act = None.
Proof.
  intros Hn El Ha. unfold tb_create. destruct (_ && _); auto.
  set (f := fun n => let* s := create_shape t ranks sizes act n in Some match s with Some s => gen s | None => no_core end).
  assert (Hf : f n = None) by (unfold f, create_shape; rewrite Ha, El; auto).
  assert (G : forall l, In n l -> omap f l = None).
  { induction l as [|x l IH]; intros Hi; [destruct Hi|]. cbn [omap]. destruct Hi as [->|Hi]; [rewrite Hf; auto|]. rewrite (IH Hi). destruct (f x); auto. }
  rewrite (G (nodes t)); auto. apply in_nodes. auto.
Qed.
Lemma create_ranks_random t draw : length draw = nbn t -> Forall (fun k => 1 <= k) draw -> 2 <= nbn t -> node t (root t) ->
  length (create_ranks t draw None) = nbn t /\ Forall (fun k => 1 <= k) (create_ranks t draw None) /\ nth (root t - 1) (create_ranks t draw None) 0 = 1.
Proof.
  intros L HF H2 Hr. unfold create_ranks. unfold node in Hr.
  assert (L' : length (upd (root t - 1) 1 draw) = nbn t) by (rewrite upd_length; auto).
  assert (E : (match upd (root t - 1) 1 draw with [k] => repeat k (nbn t) | _ => upd (root t - 1) 1 draw end) = upd (root t - 1) 1 draw).
  { destruct (upd (root t - 1) 1 draw) as [|a [|b l]]; cbn in L'; auto; lia. }
  rewrite E. split; auto. split; [|apply nth_upd_eq; lia].
  apply (Forall_nth' _ _ 0). rewrite upd_length. intros k Hk. destruct (Nat.eq_dec k (root t - 1)) as [->|Hne]; [rewrite nth_upd_eq by auto; lia|].
  rewrite nth_upd_neq by auto. apply (proj1 (Forall_nth' _ _ 0) HF). auto.
Qed.

Lemma nbn_ge2 t r : dim_tree t r -> 2 <= length (d2i t) -> 2 <= nbn t.
Proof.
  intros V H2. pose proof (root_internal t r V H2) as Hl.
  assert (I : incl (d2i t) (nodes t)).
  { intros n Hn. apply in_nodes. apply (leaf_node t r V). apply inb_spec. auto. }
  pose proof (NoDup_incl_length (NoDup_d2i t r V) I) as H. unfold nodes in H. rewrite seq_length in H. lia.
Qed.
Lemma create_args_some {R : Type} {CR : CRing R} (gen : list nat -> nd R) t r draw ranks sizes act : dim_tree t r -> 2 <= length (d2i t) -> length ranks = nbn t ->
  tb_create_args gen t draw (Some ranks) (Some sizes) (Some act) = tb_create gen t ranks sizes act.
Proof.
  intros V H2 L. pose proof (nbn_ge2 t r V H2) as N. unfold tb_create_args, create_ranks, create_sizes. destruct ranks as [|a [|b l]]; auto; cbn in L; lia.
Qed.
Theorem create_default {R : Type} {CR : CRing R} (gen : list nat -> nd R) t r draw : (forall s, shape (gen s) = s) ->
  dim_tree t r -> 2 <= length (d2i t) -> length draw = nbn t -> Forall (fun k => 1 <= k) draw ->
  exists Z, tb_create_args gen t draw None None None = Some Z /\ tb_ok Z r /\ ttree Z = t /\ tb_shape Z = map (fun n => nth (n - 1) draw 0) (d2i t) /\
    exts Z r = [] /\ (forall n, node t n -> active Z n = true) /\ (forall n, node t n -> n <> r -> tb_rank Z n = nth (n - 1) draw 0) /\
    (forall n, node t n -> core Z n = gen (shape (core Z n))).
Proof.
  intros HG V H2 LD HD. pose proof (nbn_ge2 t r V H2) as N. pose proof (root_eq t r (proj1 V)) as Er.
  assert (Hr : node t r) by apply (proj1 V).
  destruct (create_ranks_random t draw LD HD N) as (L1 & F1 & R1); [rewrite Er; auto|].
  set (rk := create_ranks t draw None) in *. rewrite Er in R1.
  assert (NR : forall n, node t n -> n <> r -> nth (n - 1) rk 0 = nth (n - 1) draw 0).
  { intros n Hn Hne. unfold rk, create_ranks. rewrite Er. assert (L' : length (upd (r - 1) 1 draw) = nbn t) by (rewrite upd_length; auto).
    assert (E : (match upd (r - 1) 1 draw with [k] => repeat k (nbn t) | _ => upd (r - 1) 1 draw end) = upd (r - 1) 1 draw).
    { destruct (upd (r - 1) 1 draw) as [|a [|b l]]; cbn in L'; auto; lia. }
    rewrite E. apply nth_upd_neq. unfold node in *. lia. }
  set (act := map (fun _ : nat => true) (nodes t)).
  assert (LA : length act = nbn t) by (unfold act, nodes; rewrite map_length, seq_length; auto).
  assert (NA : forall n, node t n -> nth (n - 1) act false = true).
  { intros n Hn. unfold act. unfold node in Hn. rewrite map_nth_in with (da := 0); auto. unfold nodes. rewrite seq_length. lia. }
  destruct (create_ok gen t r rk (create_sizes t rk None) act HG V H2 L1) as (Z & E & O & T & S & X & A & Rk & C & _); auto.
  - unfold create_sizes. rewrite map_length. auto.
  - intros n Hn _. rewrite (Forall_nth' _ _ 0) in F1. apply F1. unfold node in Hn. lia.
  - unfold create_sizes. apply Forall_forall. intros s Hs. apply in_map_iff in Hs. destruct Hs as (n & <- & Hn).
    rewrite (Forall_nth' _ _ 0) in F1. apply F1. assert (H : node t n) by (apply (leaf_node t r V), inb_spec; auto). unfold node in H. lia.
  - exists Z. split; [exact E|]. split; auto. split; auto. split.
    + rewrite S. unfold create_sizes. apply map_ext_in. intros n Hn. apply NR; [apply (leaf_node t r V), inb_spec; auto|].
      intros ->. pose proof (root_internal t r V H2) as Hl. assert (is_leaf t r = true) by (apply inb_spec; auto). congruence.
    + split; [rewrite X; unfold cext; rewrite R1; auto|]. split; [intros n Hn; rewrite A, NA; auto|]. split; [|intros n Hn; apply C; auto].
      intros n Hn Hne. rewrite Rk, NA by auto. auto.
Qed.
