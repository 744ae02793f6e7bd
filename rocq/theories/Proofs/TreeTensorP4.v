(** Tree-based tensors: products with matrices along several dimensions, sub-tensors. *)
From Coq Require Import List Arith Lia Bool ZArith Ring Permutation.
From Verif.Base Require Import ListAux CRing Index.
From Verif.Model Require Import Sorting Numpy FullTensor DimensionTree TreeBased.
From Verif.Spec Require Import TensorSpec TreeSpec TreeTensorSpec.
From Verif.Proofs Require Import NumpyP FullTensorP FullTensorP2 FullTensorP3 FullTensorP4 DimTreeP DimTreeP2 TreeTensorP TreeTensorP2 TreeTensorP3.
Import ListNotations.

Section Chain.
  Context {R : Type} {CR : CRing R}.
  Add Ring Rrch : rth.
  Local Open Scope cr_scope.

  Definition mrows (M : nd R) : nat := nth 0 (shape M) 0%nat.
  Inductive chain : tbt R -> list nat -> list (nd R) -> tbt R -> Prop :=
  | chain_nil X : chain X [] [] X
  | chain_cons X X1 Z mu M mus Ms : axis_rel X X1 mu (mrows M) (fun i j => get M [i; j]) ->
      chain X1 mus Ms Z -> chain X (mu :: mus) (M :: Ms) Z.

  Lemma order_eq (X Z : tbt R) : ttree Z = ttree X -> tb_order Z = tb_order X.
  Proof. intros E. unfold tb_order. rewrite E. auto. Qed.

  Lemma root_not_leaf (X : tbt R) r : tb_ok X r -> (2 <= tb_order X)%nat -> is_leaf (ttree X) r = false.
  Proof.
    intros O H. destruct (is_leaf (ttree X) r) eqn:E; auto. exfalso. pose proof (proj1 O) as V. pose proof (proj1 V) as T.
    pose proof (NoDup_d2i _ r V) as ND. unfold tb_order in H.
    assert (G : forall m, In m (d2i (ttree X)) -> m = r).
    { intros m Hm. assert (Hl : is_leaf (ttree X) m = true) by (apply inb_spec; auto).
      pose proof (leaf_node _ r V m Hl) as Hn. destruct (Nat.eq_dec m r) as [|Hne]; auto. exfalso.
      apply (leaf_iff _ r V) in E. destruct E as [_ E].
      destruct (proj2 (proj2 (proj2 T)) m Hn) as [d Hd]. 
      assert (Hd' : forall k x, depth (ttree X) r x k -> k <> 0%nat -> False).
      { induction k as [|k IH]; intros x Hx Hk; [congruence|]. apply depth_invS in Hx. destruct Hx as (p & Hp & He).
        destruct k; [apply depth_inv0 in Hp; subst p; apply (E x); auto|]. apply (IH p); auto. }
      destruct d; [apply depth_inv0 in Hd; auto|]. apply (Hd' _ _ Hd); auto. }
    destruct (d2i (ttree X)) as [|a [|b l]]; simpl in H; try lia.
    inversion ND as [|? ? Hn _]. apply Hn. rewrite (G a), (G b) by (simpl; auto). simpl; auto.
  Qed.

  Lemma chain_tree X mus Ms Z : chain X mus Ms Z -> ttree Z = ttree X.
  Proof. induction 1 as [|X X1 Z mu M mus Ms H1 H2 IH]; auto. rewrite IH. apply H1. Qed.
  Lemma chain_ok X mus Ms Z r : chain X mus Ms Z -> tb_ok X r -> is_leaf (ttree X) r = false ->
    Forall (fun mu => (mu < tb_order X)%nat) mus -> NoDup mus ->
    tb_ok Z r /\ exts Z r = exts X r /\ tb_shape Z = put mus (map mrows Ms) (tb_shape X) /\
    (forall n, node (ttree X) n -> active Z n = active X n) /\
    forall is e, valid (tb_shape Z) is -> valid (exts X r) e ->
      tval Z r is e = bsum (sel 0%nat (tb_shape X) mus) (fun js => tval X r (put mus js is) e * factors Ms (sel 0%nat is mus) js).
  Proof.
    intros HC. induction HC as [X|X X1 Z mu M mus Ms H1 H2 IH]; intros O Hr HF ND.
    - split; auto. split; auto. split; auto. split; auto. intros is e _ _. cbn. ring.
    - inversion HF as [|? ? Hmu HF']; subst. inversion ND as [|? ? Hni ND']; subst.
      pose proof (proj1 H1) as Et.
      pose proof (ax_ok X X1 r mu _ _ O Hmu Hr H1) as O1.
      pose proof (ax_shape X X1 r mu _ _ O Hmu Hr H1) as S1.
      assert (Hroot : node (ttree X) r) by exact (proj1 (proj1 (proj1 O))).
      destruct IH as (OZ & EZ & SZ & AZ & VZ); auto.
      { rewrite Et; auto. }
      { eapply Forall_impl; [|apply HF']. intros a Ha. rewrite (order_eq X X1 Et). auto. }
      pose proof (ax_exts X X1 r mu _ _ O Hmu Hr H1 r Hroot) as E1.
      split; auto. split; [congruence|]. split.
      { rewrite SZ, S1. cbn [map put]. apply put_upd_comm. auto. }
      split.
      { intros n Hn. rewrite AZ by (rewrite Et; auto). apply (ax_active X X1 r mu _ _ O Hmu Hr H1); auto. }
      intros is e Hv He. rewrite VZ by (auto; rewrite E1; auto).
      assert (Hlm : length Ms = length mus) by (clear -H2; induction H2; simpl; auto).
      assert (Hlt : Forall (fun k => (k < length (tb_shape X1))%nat) mus).
      { eapply Forall_impl; [|apply HF']. intros a Ha. rewrite tb_shape_length, Et. auto. }
      assert (Esel : sel 0%nat (tb_shape X1) mus = sel 0%nat (tb_shape X) mus).
      { rewrite S1. unfold sel. apply map_ext_in. intros k Hk. apply nth_upd_neq. intros ->. auto. }
      rewrite Esel. cbn [sel map bsum]. fold (sel 0%nat (tb_shape X) mus).
      rewrite <- bsum_rsum_exchange. apply bsum_ext. intros js Hjs.
      assert (Hvp : valid (tb_shape X1) (put mus js is)).
      { apply valid_put with (ms := map mrows Ms); auto; [rewrite map_length; auto|rewrite <- SZ; auto|rewrite Esel; auto]. }
      rewrite (ax_tval_in X X1 r mu _ _ O Hmu Hr H1 r Hroot); auto.
      + rewrite put_nth_out by auto. rewrite <- rsum_scal_r.
        rewrite <- (tb_shape_leaf X (nth mu (d2i (ttree X)) 0%nat)) by (apply d2i_leaf; auto).
        rewrite index_of_NoDup by (auto; apply (NoDup_d2i _ r (proj1 O))).
        apply rsum_ext. intros j Hj. cbn [put factors sel map]. fold (sel 0%nat is mus). ring.
      + rewrite (dims_root (ttree X) r (proj1 O)). apply in_seq. unfold tb_order in Hmu. lia.
      + left. intros E. assert (HL : is_leaf (ttree X) (nth mu (d2i (ttree X)) 0%nat) = true) by (apply d2i_leaf; auto). congruence.
  Qed.

  (** the target of a dimension *)
  Lemma target_axis_split X r mu : tb_ok X r -> (2 <= tb_order X)%nat -> (mu < tb_order X)%nat ->
    exists s1 s2, length s1 = target_axis X mu /\ shape (core X (target X mu)) = s1 ++ nth mu (tb_shape X) 0%nat :: s2 /\
      (2 <= ndim (core X (target X mu)))%nat.
  Proof.
    intros O H2 Hmu. pose proof (root_not_leaf X r O H2) as Hr. pose proof (proj1 O) as V. pose proof (proj1 V) as T.
    set (l := nth mu (d2i (ttree X)) 0%nat).
    assert (Hl : is_leaf (ttree X) l = true) by (apply d2i_leaf; auto).
    assert (Hn : node (ttree X) l) by (apply (leaf_node _ r V); auto).
    assert (Hlr : l <> r) by congruence.
    pose proof (parent_is_edge (ttree X) r T l Hn Hlr) as He.
    assert (Es : nth mu (tb_shape X) 0%nat = tb_size X l).
    { rewrite <- (tb_shape_leaf X l Hl). unfold l. rewrite index_of_NoDup; auto. apply (NoDup_d2i _ r V). }
    assert (Hax : (target_axis X mu < ndim (core X (target X mu)))%nat /\ nth (target_axis X mu) (shape (core X (target X mu))) 0%nat = tb_size X l
                  /\ (2 <= ndim (core X (target X mu)))%nat).
    { unfold target, target_axis, tb_size. fold l. destruct (active X l) eqn:Ha.
      - pose proof (ok_arity X r O l Hn Ha) as HA. unfold arity_at in HA. rewrite Hl in HA.
        pose proof (ok_exts X r O l Hn Ha Hlr) as HE. unfold exts, arity_at in HE. rewrite Hl, skipn_length in HE.
        unfold ndim in *. repeat split; auto; lia.
      - set (p := parent (ttree X) l) in *. rewrite (child_index X r O p l He).
        assert (Hlp : is_leaf (ttree X) p = false).
        { destruct (is_leaf (ttree X) p) eqn:E; auto. apply (leaf_iff _ r V) in E. exfalso. apply (proj2 E l); auto. }
        assert (Hp : node (ttree X) p) by apply He.
        pose proof (ok_internal X r O p Hp Hlp) as Hap. pose proof (ok_arity X r O p Hp Hap) as HA. unfold arity_at in HA. rewrite Hlp in HA.
        assert (Hin : In l (children (ttree X) p)) by (apply in_children; auto).
        pose proof (proj1 (index_of_nth _ _ Hin)) as Hix. split; [lia|]. split; auto.
        destruct (Nat.eq_dec p r) as [Epr|Hpr].
        + (* the root has at least two children, or its only child is not a leaf *)
          destruct (children (ttree X) p) as [|a [|b q]] eqn:Ech; cbn [length] in *; try lia.
          destruct Hin as [->|[]]. exfalso. unfold tb_order in H2.
          assert (Hd : dims (ttree X) r = dims (ttree X) l).
          { rewrite (dims_internal (ttree X) r V r) by (auto; exact (proj1 (proj1 (proj1 O)))). rewrite <- Epr, Ech. cbn [flat_map]. apply app_nil_r. }
          pose proof (Permutation_length (dims_root _ r V)) as HP. rewrite Hd, (dims_leaf _ r V l Hl), seq_length in HP. simpl in HP. lia.
        + pose proof (ok_exts X r O p Hp Hap Hpr) as HE. unfold exts, arity_at in HE. rewrite Hlp, skipn_length in HE. unfold ndim.
          lia. }
    destruct Hax as (H3 & H4 & H5). rewrite Es, <- H4.
    exists (firstn (target_axis X mu) (shape (core X (target X mu)))), (skipn (S (target_axis X mu)) (shape (core X (target X mu)))).
    split; [rewrite firstn_length; unfold ndim in H3; lia|]. split; auto. apply list_split_nth. auto.
  Qed.

  (** [op A d] multiplies the axis d (of size m) of the array A by the matrix M *)
  Definition axis_op (op : nd R -> nat -> option (nd R)) (M : nd R) (m : nat) : Prop :=
    forall A s1 s2, shape A = s1 ++ m :: s2 -> (2 <= ndim A)%nat ->
      exists C, op A (length s1) = Some C /\ shape C = s1 ++ mrows M :: s2 /\
        forall a1 i a2, valid s1 a1 -> (i < mrows M)%nat -> valid s2 a2 ->
          get C (a1 ++ i :: a2) = rsum m (fun j => get M [i; j] * get A (a1 ++ j :: a2)).

  Lemma dim_step_axis X0 X r mu op M : tb_ok X r -> ttree X0 = ttree X -> (forall n, node (ttree X) n -> active X0 n = active X n) ->
    (2 <= tb_order X)%nat -> (mu < tb_order X)%nat -> (0 < mrows M)%nat -> axis_op op M (nth mu (tb_shape X) 0%nat) ->
    exists l, dim_step X0 op (cores X) mu = Some l /\ axis_rel X (TB (ttree X) l) mu (mrows M) (fun i j => get M [i; j]).
  Proof.
    intros O Et Ea H2 Hmu Hq Hop. destruct (target_axis_split X r mu O H2 Hmu) as (s1 & s2 & L1 & Hs & Hnd).
    destruct (Hop _ s1 s2 Hs Hnd) as (C & HC & HsC & HgC). rewrite L1 in HC.
    pose proof (proj1 O) as V. pose proof (proj1 V) as T. pose proof (root_not_leaf X r O H2) as Hr.
    assert (Hl : is_leaf (ttree X) (nth mu (d2i (ttree X)) 0%nat) = true) by (apply d2i_leaf; auto).
    pose proof (leaf_node _ r V _ Hl) as Hn.
    assert (Htg : node (ttree X) (target X mu)).
    { unfold target. destruct (active X _); auto. assert (Hlr : nth mu (d2i (ttree X)) 0%nat <> r) by congruence. apply (parent_is_edge (ttree X) r T _ Hn Hlr). }
    exists (setc (target X mu) C (cores X)). split.
    - unfold dim_step. rewrite Et. replace (tb_order X0) with (tb_order X) by (unfold tb_order; rewrite Et; auto).
      destruct (Nat.ltb_spec mu (tb_order X)); [|lia]. cbv zeta. rewrite Ea by auto.
      unfold target, target_axis in HC. unfold core in HC. unfold target. destruct (active X (nth mu (d2i (ttree X)) 0%nat)); rewrite HC; auto.
    - pose proof (ok_cores_length X r O) as LC. unfold node in *.
      assert (Hcore : forall n, (1 <= n)%nat -> core (TB (ttree X) (setc (target X mu) C (cores X))) n = if n =? target X mu then C else core X n).
      { intros n Hn1. unfold core. cbn [cores]. apply nthc_setc; auto. lia. }
      split; auto. split; [cbn [cores]; rewrite setc_length; auto|]. split; auto. split.
      + intros n Hn1 Hne. rewrite Hcore by apply Hn1. destruct (Nat.eqb_spec n (target X mu)); [contradiction|auto].
      + exists s1, (nth mu (tb_shape X) 0%nat), s2. rewrite Hcore, Nat.eqb_refl by lia. auto.
  Qed.
  Lemma dim_fold X0 r op mus : forall Ms X, tb_ok X r -> ttree X0 = ttree X -> (forall n, node (ttree X) n -> active X0 n = active X n) ->
    (2 <= tb_order X)%nat -> Forall (fun mu => (mu < tb_order X)%nat) mus -> NoDup mus -> length Ms = length mus ->
    (forall k, (k < length mus)%nat -> let M := nth k Ms (scalar r0) in let mu := nth k mus 0%nat in
        (0 < mrows M)%nat /\ axis_op (op mu) M (nth mu (tb_shape X) 0%nat)) ->
    exists l, ofold (fun l mu => dim_step X0 (op mu) l mu) mus (cores X) = Some l /\ chain X mus Ms (TB (ttree X) l).
  Proof.
    induction mus as [|mu mus IH]; intros [|M Ms] X O Et Ea H2 HF ND L Hop; simpl in L; try lia.
    - exists (cores X). split; auto. destruct X. constructor.
    - inversion HF as [|? ? Hmu HF']; subst. inversion ND as [|? ? Hni ND']; subst.
      destruct (Hop 0%nat) as [Hq Ho]; [simpl; lia|]. cbn [nth] in Hq, Ho.
      destruct (dim_step_axis X0 X r mu (op mu) M O Et Ea H2 Hmu Hq Ho) as (l & Hst & Hax).
      pose proof (root_not_leaf X r O H2) as Hr.
      set (X1 := TB (ttree X) l) in *.
      pose proof (ax_ok X X1 r mu _ _ O Hmu Hr Hax) as O1.
      pose proof (ax_shape X X1 r mu _ _ O Hmu Hr Hax) as S1.
      destruct (IH Ms X1) as (l' & Hf & Hc); auto.
      + intros n Hn. rewrite Ea by auto. symmetry. apply (ax_active X X1 r mu _ _ O Hmu Hr Hax); auto.
      + intros k Hk. cbv zeta. destruct (Hop (S k)) as [Hq' Ho']; [simpl; lia|]. cbn [nth] in Hq', Ho'. split; auto.
        rewrite S1, nth_upd_neq; auto. intros <-. apply Hni. apply nth_In. auto.
      + exists l'. split; [cbn [ofold]; rewrite Hst; exact Hf|]. econstructor; eauto.
  Qed.

  Lemma tb_make_some l t : (forall n, node t n -> is_leaf t n = false -> activec l n = true) -> tb_make l t = Some (TB t l).
  Proof.
    intros H. unfold tb_make. replace (forallb (activec l) (internal_nodes t)) with true; auto. symmetry. apply forallb_forall.
    intros n Hn. unfold internal_nodes in Hn. apply filter_In in Hn. destruct Hn as [Hn Hl]. apply negb_true_iff in Hl. apply H; auto.
    apply in_seq in Hn. unfold node. lia.
  Qed.
  Lemma tb_make_ok l t r : tb_ok (TB t l) r -> tb_make l t = Some (TB t l).
  Proof. intros O. apply tb_make_some. intros n Hn Hl. apply (ok_internal _ r O n Hn Hl). Qed.

  (** tensor_matrix_product along dims *)
  Lemma tb_tmp_chain X r Ms mus : tb_ok X r -> (2 <= tb_order X)%nat -> NoDup mus -> Forall (fun k => (k < tb_order X)%nat) mus ->
    length Ms = length mus ->
    (forall k, (k < length mus)%nat -> exists q, (0 < q)%nat /\ shape (nth k Ms (scalar r0)) = [q; nth (nth k mus 0%nat) (tb_shape X) 0%nat]) ->
    exists Z, tb_tmp X Ms (Some mus) = Some Z /\ chain X mus Ms Z.
  Proof.
    intros O H2 ND HF L HM. unfold tb_tmp. rewrite L, Nat.eqb_refl.
    destruct (dim_fold X r (fun mu A d => ft_tensor_matrix_product A [nth (index_of mu mus) Ms (scalar r0)] (Some [d])) mus Ms X)
      as (l & Hf & Hc); auto.
    - intros k Hk. cbv zeta. destruct (HM k Hk) as (q & Hq & Hs). unfold mrows. rewrite Hs. split; auto.
      intros A s1 s2 HA _. rewrite index_of_NoDup by auto.
      destruct (tmp_single A (nth k Ms (scalar r0)) s1 s2 _ q HA Hs) as (C & HC & HsC & HgC). exists C.
      unfold mrows. rewrite Hs. auto.
    - rewrite Hf. exists (TB (ttree X) l). split; auto.
      apply (tb_make_ok l (ttree X) r). destruct (chain_ok X mus Ms _ r Hc O) as (OZ & _); auto. apply (root_not_leaf X r); auto.
  Qed.

  (** what full() returns, for the tensor and for a chain of products *)
  Lemma full_inv X r A : tb_ok X r -> (2 <= tb_order X)%nat -> tb_full X = Some A ->
    shape A = tb_shape X ++ exts X r /\ forall is e, valid (tb_shape X) is -> valid (exts X r) e -> get A (is ++ e) = tval X r is e.
  Proof.
    intros O H2 HA. destruct (tb_full_ok X r O H2) as (B & HB & Hs & Hg). rewrite HB in HA. injection HA as ->.
    split; auto. intros is e Hi He. rewrite Hg by (apply valid_app; auto).
    assert (L : length is = tb_order X) by (rewrite (valid_length _ _ Hi), tb_shape_length; auto).
    rewrite <- L, firstn_app, firstn_all, skipn_app, skipn_all, Nat.sub_diag. cbn [firstn skipn app]. rewrite app_nil_r. auto.
  Qed.
  Lemma full_returns X r s f : tb_ok X r -> (2 <= tb_order X)%nat -> tb_shape X ++ exts X r = s ->
    (forall is e, valid (tb_shape X) is -> valid (exts X r) e -> tval X r is e = f (is ++ e)) -> returns (tb_full X) s f.
  Proof.
    intros O H2 Es Hf. destruct (tb_full_ok X r O H2) as (B & HB & Hs & Hg). exists B. split; auto. split; [congruence|].
    intros is Hv. rewrite <- Es in Hv. rewrite Hg by auto.
    apply valid_app_inv in Hv. destruct Hv as (a & b & -> & Ha & Hb).
    assert (L : length a = tb_order X) by (rewrite (valid_length _ _ Ha), tb_shape_length; auto).
    rewrite <- L, firstn_app, firstn_all, skipn_app, skipn_all, Nat.sub_diag. cbn [firstn skipn app]. rewrite app_nil_r. auto.
  Qed.
  Lemma put_app_l d js a b : Forall (fun k => (k < length a)%nat) d -> put d js (a ++ b) = put d js a ++ b.
  Proof.
    revert js. induction d as [|k d IH]; intros [|j js] HF; simpl; auto. inversion HF; subst. rewrite IH by auto. apply upd_app_l.
    rewrite put_length. auto.
  Qed.
  Lemma sel_app_l (a b : list nat) d : Forall (fun k => (k < length a)%nat) d -> sel 0%nat (a ++ b) d = sel 0%nat a d.
  Proof. intros HF. unfold sel. apply map_ext_in. intros k Hk. rewrite Forall_forall in HF. apply app_nth1. auto. Qed.

  Lemma chain_full X r mus Ms Z A : tb_ok X r -> (2 <= tb_order X)%nat -> NoDup mus -> Forall (fun k => (k < tb_order X)%nat) mus ->
    chain X mus Ms Z -> tb_full X = Some A ->
    tb_ok Z r /\ (2 <= tb_order Z)%nat /\
    returns (tb_full Z) (put mus (map mrows Ms) (shape A))
      (fun is => bsum (sel 0%nat (shape A) mus) (fun js => get A (put mus js is) * factors Ms (sel 0%nat is mus) js)).
  Proof.
    intros O H2 ND HF HC HA. pose proof (root_not_leaf X r O H2) as Hr.
    destruct (chain_ok X mus Ms Z r HC O Hr HF ND) as (OZ & EZ & SZ & AZ & VZ).
    assert (H2' : (2 <= tb_order Z)%nat) by (rewrite (order_eq X Z (chain_tree _ _ _ _ HC)); auto).
    split; auto. split; auto. destruct (full_inv X r A O H2 HA) as [HsA HgA].
    assert (HF' : Forall (fun k => (k < length (tb_shape X))%nat) mus) by (rewrite tb_shape_length; auto).
    assert (Lm : length Ms = length mus) by (clear -HC; induction HC; simpl; auto).
    apply (full_returns Z r); auto.
    - rewrite SZ, EZ, HsA, put_app_l by auto. auto.
    - rewrite EZ. intros is e Hi He. rewrite VZ by auto. rewrite HsA, sel_app_l by auto. apply bsum_ext. intros js Hjs.
      assert (Li : length is = length (tb_shape X)) by (rewrite (valid_length _ _ Hi), SZ, put_length; auto).
      assert (HFi : Forall (fun k => (k < length is)%nat) mus) by (rewrite Li; auto).
      rewrite put_app_l, sel_app_l by auto. rewrite HgA; auto.
      rewrite SZ in Hi. apply valid_put with (ms := map mrows Ms); auto. rewrite map_length; auto.
  Qed.
  Theorem tb_tmp_full X r Ms mus A : tb_ok X r -> (2 <= tb_order X)%nat -> tb_full X = Some A ->
    NoDup mus -> Forall (fun k => (k < tb_order X)%nat) mus -> length Ms = length mus ->
    (forall k, (k < length mus)%nat -> exists q, (0 < q)%nat /\ shape (nth k Ms (scalar r0)) = [q; nth (nth k mus 0%nat) (shape A) 0%nat]) ->
    exists Z, tb_tmp X Ms (Some mus) = Some Z /\ tb_ok Z r /\ ttree Z = ttree X /\
      returns (tb_full Z) (put mus (map (fun M => nth 0 (shape M) 0%nat) Ms) (shape A))
        (fun is => bsum (sel 0%nat (shape A) mus) (fun js => get A (put mus js is) * factors Ms (sel 0%nat is mus) js)).
  Proof.
    intros O H2 HA ND HF L HM. destruct (full_inv X r A O H2 HA) as [HsA HgA].
    destruct (tb_tmp_chain X r Ms mus O H2 ND HF L) as (Z & HZ & HC).
    - intros k Hk. destruct (HM k Hk) as (q & Hq & Hs). exists q. split; auto. rewrite Hs, HsA, app_nth1; auto.
      rewrite tb_shape_length. rewrite Forall_forall in HF. apply HF. apply nth_In; auto.
    - exists Z. split; auto. destruct (chain_full X r mus Ms Z A O H2 ND HF HC HA) as (OZ & _ & HR). split; auto. split; auto.
      apply (chain_tree _ _ _ _ HC).
  Qed.
End Chain.
