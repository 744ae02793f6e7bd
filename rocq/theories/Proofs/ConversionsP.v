(** Proofs about the conversions to the tree-based format. *)
From Coq Require Import List Arith Lia Bool Permutation.
From Verif.Base Require Import ListAux CRing Index.
From Verif.Model Require Import Sorting Numpy FullTensor Canonical DimensionTree TreeBased Conversions.
From Verif.Model Require Diagonal.
From Verif.Spec Require Import TensorSpec TreeSpec TreeTensorSpec.
From Verif.Proofs Require Import NumpyP FullTensorP DiagonalP CanonicalP DimTreeP DimTreeP2 TreeTensorP TreeTensorP2 TreeTensorP7 TreeTensorP16.
Import ListNotations.

Section Conv.
  Context {R : Type} {CR : CRing R}.
  Add Ring Rr_conv : rth.
  Local Open Scope cr_scope.

  Lemma lprod_flat_map {A B} (f : A -> list B) (l : list A) (g : B -> R) : lprod (flat_map f l) g = lprod l (fun a => lprod (f a) g).
  Proof. induction l as [|a l IH]; cbn [flat_map]; [reflexivity|]. rewrite lprod_app, IH. reflexivity. Qed.
  Lemma combine_repeat_map {A} (l : list A) (k : nat) : combine l (repeat k (length l)) = map (fun a => (a, k)) l.
  Proof. induction l; simpl; congruence. Qed.
  Lemma diag_snoc r ks k : (0 < length ks)%nat -> (k < r)%nat -> valid (repeat r (length ks)) ks ->
    diag_val (repeat r1 r) (ks ++ [k]) = diag_val (map (fun j => if j =? k then r1 else r0) (seq 0 r)) ks.
  Proof.
    intros Hl Hk Hv. destruct ks as [|j ks]; [simpl in Hl; lia|]. unfold diag_val. cbn [app nth].
    assert (Hj : (j < r)%nat). { inversion Hv; auto. }
    change (j :: ks ++ [k]) with ((j :: ks) ++ [k]). rewrite forallb_app. cbn [forallb]. rewrite andb_true_r.
    rewrite nth_repeat_in by auto. rewrite map_nth_in with (da := 0%nat) by (rewrite seq_length; auto). rewrite seq_nth by auto.
    cbn [Nat.add]. rewrite (Nat.eqb_sym k j). destruct (forallb _ ks); destruct (j =? j); destruct (j =? k); reflexivity.
  Qed.

  Lemma factors_eye : forall (l : list (nd R)) (is : list nat), length is = length l ->
    (forall d, (d < length l)%nat -> get (nth d l (scalar r0)) [nth d is 0%nat; nth d is 0%nat] = r1) -> factors l is is = r1.
  Proof.
    induction l as [|M l IH]; intros [|i is] HL H; try discriminate; cbn [factors]; auto.
    pose proof (H 0%nat ltac:(simpl; lia)) as H0. cbn [nth] in H0. rewrite H0. rewrite IH; [ring|simpl in HL; lia|].
    intros d Hd. apply (H (S d)). simpl. lia.
  Qed.
  Lemma factors_eye0 : forall (l : list (nd R)) (is js : list nat), length is = length l -> length js = length l ->
    (forall d, (d < length l)%nat -> nth d is 0%nat <> nth d js 0%nat -> get (nth d l (scalar r0)) [nth d is 0%nat; nth d js 0%nat] = r0) ->
    is <> js -> factors l is js = r0.
  Proof.
    induction l as [|M l IH]; intros [|i is] [|j js] HL HL2 H Hne; try discriminate; cbn [factors]; [congruence|].
    destruct (Nat.eq_dec i j) as [->|E].
    - rewrite (IH is js); [ring|simpl in HL; lia|simpl in HL2; lia| |congruence]. intros d Hd. apply (H (S d)). simpl. lia.
    - pose proof (H 0%nat ltac:(simpl; lia) E) as H0. cbn [nth] in H0. rewrite H0. ring.
  Qed.

  Section DiagTree.
    Variables (t : dtree) (r : nat) (v : list R) (l : list (nd R)).
    Let X := TB t l.
    Let rho := length v.
    Hypothesis V : dim_tree t r.
    Hypothesis Hord : (2 <= length (d2i t))%nat.
    Hypothesis Hrho : (0 < rho)%nat.
    Hypothesis HL : length l = nbn t.
    Hypothesis Hroot : nthc l r = ft_diag v (length (children t r)).
    Hypothesis Hint : forall n, node t n -> n <> r -> is_leaf t n = false -> nthc l n = ft_diag (repeat r1 rho) (length (children t n) + 1).
    Hypothesis Hleaf : forall n, is_leaf t n = true -> (exists s, shape (nthc l n) = [s; rho] /\ (0 < s)%nat) \/ nthc l n = no_core.

    Let T : rooted_tree t r := proj1 V.
    Lemma dg_root_int : is_leaf t r = false.
    Proof.
      destruct (is_leaf t r) eqn:E; auto. exfalso. pose proof (dims_root t r V) as HP. pose proof (dims_leaf t r V r E) as HD.
      rewrite HD in HP. apply Permutation_length in HP. rewrite seq_length in HP. simpl in HP. lia.
    Qed.
    Lemma dg_children n : node t n -> is_leaf t n = false -> (0 < length (children t n))%nat.
    Proof.
      intros Hn Hl. destruct (children t n) eqn:E; [|simpl; lia]. apply (leaf_children t r V n Hn) in E. congruence.
    Qed.
    Lemma dg_diag_active (w : list R) d n : (0 < length w)%nat -> (0 < d)%nat -> nthc l n = ft_diag w d -> activec l n = true.
    Proof.
      intros Hw Hd E. unfold activec. rewrite E. apply negb_true_iff, Nat.eqb_neq. unfold ft_storage, np_size.
      rewrite (proj1 (ft_diag_spec w d Hd)). assert (0 < prodn (repeat (length w) d))%nat; [|lia].
      apply prodn_pos. apply Forall_forall. intros x Hx. apply repeat_spec in Hx. subst; auto.
    Qed.
    Lemma dg_internal_active n : node t n -> is_leaf t n = false -> active X n = true.
    Proof.
      intros Hn Hl. unfold active. cbn [cores X]. pose proof (dg_children n Hn Hl) as Hc. destruct (Nat.eq_dec n r) as [->|Hne].
      - eapply dg_diag_active; [| |exact Hroot]; auto.
      - eapply dg_diag_active; [| |apply Hint; auto]; [rewrite repeat_length; auto|lia].
    Qed.
    Lemma dg_shape_root : shape (nthc l r) = repeat rho (length (children t r)).
    Proof. rewrite Hroot. apply ft_diag_spec, dg_children; [apply (rt_root t r T)|apply dg_root_int]. Qed.
    Lemma dg_shape_int n : node t n -> n <> r -> is_leaf t n = false -> shape (nthc l n) = repeat rho (length (children t n) + 1).
    Proof. intros Hn Hr Hl. rewrite Hint by auto. assert (H1 : (0 < length (children t n) + 1)%nat) by lia. rewrite (proj1 (ft_diag_spec (repeat r1 rho) _ H1)). rewrite repeat_length. reflexivity. Qed.
    Lemma dg_nth_shape n k : node t n -> is_leaf t n = false -> (k < length (children t n))%nat -> nth k (shape (nthc l n)) 0%nat = rho.
    Proof.
      intros Hn Hl Hk. destruct (Nat.eq_dec n r) as [->|Hne].
      - rewrite dg_shape_root. apply nth_repeat_in; auto.
      - rewrite dg_shape_int by auto. apply nth_repeat_in; lia.
    Qed.
    Lemma last_repeat {A} (a d : A) n : last (repeat a (n + 1)) d = a.
    Proof. rewrite Nat.add_comm. induction n; simpl; auto. Qed.
    Lemma dg_no_core_inactive n : nthc l n = no_core -> active X n = false.
    Proof. intros E. unfold active, activec. cbn [cores X]. rewrite E. reflexivity. Qed.
    Lemma dg_last n : node t n -> n <> r -> active X n = true -> last (shape (nthc l n)) 0%nat = rho.
    Proof.
      intros Hn Hr Ha. destruct (is_leaf t n) eqn:Hl.
      - destruct (Hleaf n Hl) as [(s & E & _)|E]; [rewrite E; reflexivity|]. rewrite (dg_no_core_inactive n E) in Ha. discriminate.
      - rewrite dg_shape_int by auto. apply last_repeat.
    Qed.
    Lemma dg_ok : tb_ok X r.
    Proof.
      split; [exact V|]. split; [exact HL|]. split; [apply dg_internal_active; [apply (rt_root t r T)|apply dg_root_int]|].
      intros n Hn. cbn [ttree X] in Hn |- *. split; [intros Hl; apply dg_internal_active; auto|]. split.
      - intros Ha. unfold exts, arity_at, core, ndim. cbn [ttree X cores]. destruct (is_leaf t n) eqn:Hl.
        + assert (n <> r) by (intros ->; rewrite dg_root_int in Hl; discriminate).
          destruct (Hleaf n Hl) as [(s & E & _)|E]; [|rewrite (dg_no_core_inactive n E) in Ha; discriminate].
          rewrite E. destruct (Nat.eqb_spec n r); [congruence|]. simpl. lia.
        + destruct (Nat.eqb_spec n r) as [->|Hne].
          * rewrite dg_shape_root. rewrite skipn_length, !repeat_length. lia.
          * rewrite dg_shape_int by auto. rewrite skipn_length, !repeat_length. lia.
      - intros c Hc Ha. pose proof Hc as (_ & Hcn & _). unfold core. cbn [cores X]. rewrite dg_last; auto.
        2:{ intros ->. apply (rt_no_edge t r T n Hc). }
        apply (in_children t n c Hn) in Hc. apply dg_nth_shape; auto.
        + destruct (is_leaf t n) eqn:Hl; auto. apply (leaf_children t r V n Hn) in Hl. rewrite Hl in Hc. destruct Hc.
        + apply index_of_nth; auto.
    Qed.
    Lemma dg_make : tb_make l t = Some X.
    Proof.
      unfold tb_make. rewrite (proj2 (forallb_forall _ _)); auto. intros n Hn. unfold internal_nodes in Hn. apply filter_In in Hn. destruct Hn as [Hi Hn].
      apply negb_true_iff in Hn. apply in_nodes in Hi. apply (dg_internal_active n Hi Hn).
    Qed.

    (** the matrix at the leaf of dimension mu *)
    Let leafv mu i k := if active X (nth mu (d2i t) 0%nat) then get (nthc l (nth mu (d2i t) 0%nat)) [i; k] else if k =? i then r1 else r0.
    Lemma dg_tval n : node t n -> n <> r -> forall is k, (k < rho)%nat ->
      tval X n is [k] = lprod (dims t n) (fun mu => leafv mu (nth mu is 0%nat) k).
    Proof.
      revert n. apply (tree_up_ind t r T (fun n => n <> r -> forall is k, (k < rho)%nat ->
        tval X n is [k] = lprod (dims t n) (fun mu => leafv mu (nth mu is 0%nat) k))).
      intros n Hn IH Hr is k Hk. destruct (is_leaf t n) eqn:Hl.
      - rewrite (dims_leaf t r V n Hl). cbn [lprod]. unfold leafv. destruct (leaf_index t n Hl) as [_ Hi]. rewrite Hi.
        destruct (active X n) eqn:Ha.
        + rewrite (tval_leaf X r V n is [k] Hl Ha). cbn [ttree X]. unfold core. cbn [cores X]. ring.
        + rewrite (tval_inactive X r V n is [k] Hl Ha). cbn [ttree X list_eqb]. rewrite andb_true_r. ring.
      - rewrite (tval_internal X r V n is [k] Hn Hl). cbn [ttree X]. unfold heads, arity_at, core. cbn [ttree X cores]. rewrite Hl, dg_shape_int by auto.
        pose proof (dg_children n Hn Hl) as Hc. set (m := length (children t n)) in *.
        replace (firstn m (repeat rho (m + 1))) with (repeat rho m) by (rewrite repeat_app, firstn_app, repeat_length, Nat.sub_diag, firstn_O, app_nil_r, firstn_all2; auto; rewrite repeat_length; auto).
        rewrite (bsum_ext _ _ (fun ks => diag_val (map (fun j => if j =? k then r1 else r0) (seq 0 rho)) ks *
           lprod (combine (children t n) ks) (fun p => tval X (fst p) is [snd p]))).
        2:{ intros ks Hks. f_equal. pose proof (valid_length _ _ Hks) as L. rewrite repeat_length in L. rewrite Hint by auto.
            rewrite (proj2 (ft_diag_spec (repeat r1 rho) (m + 1) ltac:(lia))).
            - apply diag_snoc; [lia|auto|rewrite L; auto].
            - rewrite repeat_length, repeat_app. apply valid_app; [exact Hks|]. repeat constructor; auto. }
        rewrite diag_bsum by auto. rewrite (rsum_single _ k); auto.
        + rewrite map_nth_in with (da := 0%nat) by (rewrite seq_length; auto). rewrite seq_nth by auto. cbn [Nat.add]. rewrite Nat.eqb_refl.
          unfold m. rewrite combine_repeat_map, lprod_map. cbn [fst snd]. rewrite (dims_internal t r V n Hn Hl), lprod_flat_map.
          rewrite (lprod_ext (children t n) _ (fun a => lprod (dims t a) (fun mu => leafv mu (nth mu is 0%nat) k))); [ring|].
          intros c Hci. apply (in_children t n c Hn) in Hci. apply IH; auto. intros ->. apply (rt_no_edge t r T n Hci).
        + intros j Hj Hne. rewrite map_nth_in with (da := 0%nat) by (rewrite seq_length; auto). rewrite seq_nth by auto. cbn [Nat.add].
          destruct (Nat.eqb_spec j k); [congruence|]. ring.
    Qed.
    Lemma dg_tval_root is : tval X r is [] = rsum rho (fun k => nth k v r0 * lprod (seq 0 (length (d2i t))) (fun mu => leafv mu (nth mu is 0%nat) k)).
    Proof.
      pose proof (rt_root t r T) as Hn. pose proof dg_root_int as Hl.
      rewrite (tval_internal X r V r is [] Hn Hl). cbn [ttree X]. unfold heads, arity_at, core. cbn [ttree X cores]. rewrite Hl, dg_shape_root.
      rewrite firstn_all2 by (rewrite repeat_length; auto).
      pose proof (dg_children r Hn Hl) as Hc.
      rewrite (bsum_ext _ _ (fun ks => diag_val v ks * lprod (combine (children t r) ks) (fun p => tval X (fst p) is [snd p]))).
      2:{ intros ks Hks. rewrite app_nil_r, Hroot. rewrite (proj2 (ft_diag_spec v _ Hc)); auto. }
      rewrite diag_bsum by auto. apply rsum_ext. intros k Hk. f_equal.
      rewrite combine_repeat_map, lprod_map. cbn [fst snd].
      rewrite <- (lprod_perm (dims t r) (seq 0 (length (d2i t)))).
      - rewrite (dims_internal t r V r Hn Hl), lprod_flat_map. apply lprod_ext. intros c Hci. apply (in_children t r c Hn) in Hci.
        apply dg_tval; auto; [apply Hci|]. intros ->. apply (rt_no_edge t r T r Hci).
      - exact (dims_root t r V).
    Qed.
    Lemma dg_exts : exts X r = [].
    Proof. unfold exts, arity_at, core. cbn [ttree X cores]. rewrite dg_root_int, dg_shape_root. apply skipn_all2. rewrite repeat_length; auto. Qed.
    Lemma dg_size mu : (mu < length (d2i t))%nat -> tb_size X (nth mu (d2i t) 0%nat) =
      if active X (nth mu (d2i t) 0%nat) then nth 0 (shape (nthc l (nth mu (d2i t) 0%nat))) 0%nat else rho.
    Proof.
      intros Hm. unfold tb_size. set (n := nth mu (d2i t) 0%nat). destruct (active X n); auto. cbn [ttree X].
      pose proof (d2i_leaf t mu Hm) as Hl. fold n in Hl. pose proof (leaf_node t r V n Hl) as Hn.
      assert (Hr : n <> r) by (intros E; rewrite E, dg_root_int in Hl; discriminate).
      pose proof (parent_is_edge t r T n Hn Hr) as He. pose proof (child_index X r dg_ok (parent t n) n He) as Hci. cbn [ttree X] in Hci. rewrite Hci. unfold core. cbn [cores X].
      pose proof He as (Hp & _). apply (in_children t _ n Hp) in He. apply dg_nth_shape; auto.
      - destruct (is_leaf t (parent t n)) eqn:E; auto. apply (leaf_children t r V _ Hp) in E. rewrite E in He. destruct He.
      - apply index_of_nth; auto.
    Qed.
    Lemma dg_full : returns (tb_full X) (map (fun n => if active X n then nth 0 (shape (nthc l n)) 0%nat else rho) (d2i t))
      (fun is => rsum rho (fun k => nth k v r0 * lprod (seq 0 (length (d2i t))) (fun mu => leafv mu (nth mu is 0%nat) k))).
    Proof.
      destruct (tb_full_ok X r dg_ok) as (A & HA & Hs & Hg); [exact Hord|]. exists A. split; auto.
      assert (ES : tb_shape X = map (fun n => if active X n then nth 0 (shape (nthc l n)) 0%nat else rho) (d2i t)).
      { unfold tb_shape. cbn [ttree X]. apply nth_ext' with (d := 0%nat); [rewrite !map_length; auto|]. rewrite map_length. intros mu Hm.
        rewrite !map_nth_in with (da := 0%nat) by auto. apply dg_size; auto. }
      rewrite dg_exts, app_nil_r, ES in Hs, Hg. split; auto. intros is Hv. rewrite Hg by auto.
      pose proof (valid_length _ _ Hv) as L. rewrite map_length in L. unfold tb_order. cbn [ttree X]. rewrite firstn_all2, skipn_all2 by lia. apply dg_tval_root.
    Qed.
  End DiagTree.

  (** FullTensor.tree_based_tensor *)
  Theorem ft_tbt_spec (A : nd R) : (1 <= ndim A)%nat -> Forall (fun n => (0 < n)%nat) (shape A) ->
    exists X, ft_tree_based_tensor A = Some X /\ ttree X = dt_trivial (ndim A) /\ returns (tb_full X) (shape A) (get A).
  Proof.
    intros H1 HP. unfold ft_tree_based_tensor. set (Us := map (fun d => np_eye (nth d (shape A) 0%nat)) (seq 0 (ndim A))).
    assert (LU : length Us = ndim A) by (unfold Us; rewrite map_length, seq_length; auto).
    assert (NU : forall d, (d < ndim A)%nat -> nth d Us (scalar r0) = np_eye (nth d (shape A) 0%nat)).
    { intros d Hd. unfold Us. rewrite map_nth_in with (da := 0%nat) by (rewrite seq_length; auto). rewrite seq_nth by auto. reflexivity. }
    assert (Hpos : forall d, (d < ndim A)%nat -> (0 < nth d (shape A) 0)%nat) by (intros d Hd; apply (proj1 (Forall_nth' _ _ 0%nat) HP); auto).
    destruct (Nat.eq_dec (ndim A) 1) as [E1|N1].
    - exists (TB (dt_trivial (ndim A)) (A :: Us)). split; [|split; [reflexivity|]].
      + rewrite E1. unfold tb_make. replace (forallb _ _) with true; auto. cbn. unfold activec. cbn [nthc nth Nat.sub]. symmetry. rewrite andb_true_r.
        apply negb_true_iff, Nat.eqb_neq. pose proof (prodn_pos _ HP). unfold nthc. cbn [nth Nat.sub]. unfold ft_storage, np_size. lia.
      + exists A. split; [|split; auto]. unfold tb_full, tb_order. cbn [ttree]. rewrite E1. cbn [d2i dt_trivial seq length Nat.eqb].
        rewrite (root_eq (dt_trivial 1) 1); [|apply dt_trivial_ok; lia]. unfold core, nthc. cbn [cores nth Nat.sub]. rewrite E1. reflexivity.
    - assert (H2 : (2 <= ndim A)%nat) by lia.
      assert (HU : forall d, (d < ndim A)%nat -> exists n, shape (nth d Us (scalar r0)) = [n; nth d (shape A) 0%nat] /\ (0 < n)%nat).
      { intros d Hd. exists (nth d (shape A) 0%nat). rewrite NU by auto. split; [reflexivity|]. apply Hpos; auto. }
      exists (TB (dt_trivial (ndim A)) (A :: Us)). split; [|split; [reflexivity|]].
      + apply triv_make; auto.
      + destruct (triv_full (ndim A) A Us H2 LU HU eq_refl HP) as (B & HB & Hs & Hg). exists B. split; auto.
        assert (ES : map (fun M : nd R => nth 0 (shape M) 0%nat) Us = shape A).
        { unfold Us. rewrite map_map. cbn. apply map_seq_nth. }
        rewrite ES in Hs, Hg. split; auto. intros is Hv. rewrite Hg by auto. rewrite (bsum_single _ is); auto.
        * replace (factors Us is is) with (r1 : R); [ring|]. pose proof (valid_length _ _ Hv) as Li. symmetry. apply factors_eye; [unfold ndim in LU; lia|].
          intros d Hd. rewrite NU by (unfold ndim in *; lia). cbn. rewrite Nat.eqb_refl. auto.
        * intros js Hj Hne. replace (factors Us is js) with (r0 : R); [ring|]. symmetry.
          unfold ndim in LU. apply factors_eye0; [pose proof (valid_length _ _ Hv); lia|pose proof (valid_length _ _ Hj); lia| |congruence].
          intros d Hd Hd2. rewrite NU by (unfold ndim in *; lia). cbn. destruct (Nat.eqb_spec (nth d is 0) (nth d js 0)); congruence.
  Qed.

  (** DiagonalTensor.tree_based_tensor *)
  Theorem dg_tbt_spec (data : list R) order t r act : dim_tree t r -> length (d2i t) = order -> (2 <= order)%nat -> (0 < length data)%nat ->
    (forall n, node t n -> is_leaf t n = false -> n <> r -> nth (n - 1) act false = true) ->
    exists X, dg_tree_based_tensor (Diagonal.dt_make data order) (Some t) (Some act) = Some X /\ ttree X = t /\ tb_ok X r /\
      (forall n, node t n -> (active X n = true <-> n = r \/ nth (n - 1) act false = true)) /\
      returns (tb_full X) (repeat (length data) order) (diag_val data).
  Proof.
    intros V HO H2 Hd Hact. pose proof (proj1 V) as T. unfold dg_tree_based_tensor. cbn [Diagonal.dt_data Diagonal.dt_make].
    set (g n := if parent t n =? 0 then ft_diag data (length (children t n))
      else if is_leaf t n && nth (n - 1) act false then np_eye (length data)
      else if nth (n - 1) act false then ft_diag (repeat r1 (length data)) (length (children t n) + 1) else no_core).
    assert (Hr : is_leaf t r = false).
    { destruct (is_leaf t r) eqn:E; auto. exfalso. pose proof (dims_root t r V) as HP. pose proof (dims_leaf t r V r E) as HD.
      rewrite HD in HP. apply Permutation_length in HP. rewrite seq_length in HP. simpl in HP. lia. }
    rewrite (omap_some _ g).
    2:{ intros n Hn. apply in_nodes in Hn. unfold dg_core, g. destruct (Nat.eqb_spec (parent t n) 0) as [E|E]; auto.
        assert (n <> r) by (intros ->; apply E, (parent_root t r T)).
        destruct (is_leaf t n) eqn:Hl; destruct (nth (n - 1) act false) eqn:Ha; auto. rewrite Hact in Ha; auto. discriminate. }
    set (l := map g (nodes t)).
    assert (HL : length l = nbn t) by (unfold l, nodes; rewrite map_length, seq_length; auto).
    assert (HN : forall n, node t n -> nthc l n = g n).
    { intros n Hn. unfold nthc, l, nodes. unfold node in Hn. rewrite map_nth_in with (da := 0%nat) by (rewrite seq_length; lia). rewrite seq_nth by lia. f_equal. lia. }
    assert (Hrn := rt_root t r T).
    assert (HP0 : forall n, node t n -> n <> r -> (parent t n =? 0) = false) by (intros n Hn Hne; apply Nat.eqb_neq; intros E; apply Hne, (parent_zero t r T n Hn), E).
    assert (A1 : nthc l r = ft_diag data (length (children t r))) by (rewrite HN by auto; unfold g; rewrite (parent_root t r T); reflexivity).
    assert (A2 : forall n, node t n -> n <> r -> is_leaf t n = false -> nthc l n = ft_diag (repeat r1 (length data)) (length (children t n) + 1)).
    { intros n Hn Hne Hl. rewrite HN by auto. unfold g. rewrite HP0, Hl, Hact by auto. reflexivity. }
    assert (A3 : forall n, is_leaf t n = true -> nthc l n = if nth (n - 1) act false then np_eye (length data) else no_core).
    { intros n Hl. rewrite HN by (apply (leaf_node t r V n Hl)). unfold g. rewrite HP0, Hl; [|apply (leaf_node t r V n Hl)|intros ->; congruence].
      cbn [andb]. destruct (nth (n - 1) act false); auto. }
    assert (A4 : forall n, is_leaf t n = true -> (exists s, shape (nthc l n) = [s; length data] /\ (0 < s)%nat) \/ nthc l n = no_core).
    { intros n Hl. rewrite A3 by auto. destruct (nth (n - 1) act false); [left|right; reflexivity]. exists (length data). split; auto. }
    assert (AL : forall n, is_leaf t n = true -> active (TB t l) n = nth (n - 1) act false).
    { intros n Hl. unfold active, activec. cbn [cores]. rewrite A3 by auto. destruct (nth (n - 1) act false); [|reflexivity].
      apply negb_true_iff, Nat.eqb_neq. unfold ft_storage, np_size. cbn. nia. }
    exists (TB t l). split; [apply (dg_make t r data l V); auto; lia|]. split; [reflexivity|].
    split; [apply (dg_ok t r data l V); auto; lia|]. split.
    - intros n Hn. destruct (is_leaf t n) eqn:Hl.
      + rewrite AL by auto. split; auto. intros [->|H]; auto. congruence.
      + rewrite (dg_internal_active t r data l V) by (auto; lia). split; auto. intros _. destruct (Nat.eq_dec n r); auto.
    - destruct (dg_full t r data l V ltac:(lia) Hd HL A1 A2 A4) as (A & HA & Hs & Hg). exists A. split; auto.
      assert (ES : map (fun n => if active (TB t l) n then nth 0 (shape (nthc l n)) 0%nat else length data) (d2i t) = repeat (length data) order).
      { rewrite <- HO. apply nth_ext' with (d := 0%nat); [rewrite map_length, repeat_length; auto|]. rewrite map_length. intros mu Hm.
        rewrite map_nth_in with (da := 0%nat) by auto. rewrite nth_repeat_in by auto. pose proof (d2i_leaf t mu Hm) as Hl. rewrite AL, A3 by auto.
        destruct (nth _ act false); auto. }
      rewrite ES in Hs, Hg. split; auto. intros is Hv. rewrite Hg by auto.
      pose proof (valid_length _ _ Hv) as Li. rewrite repeat_length in Li.
      rewrite (diag_val_sum data (length data) order) by (auto; lia). apply rsum_ext. intros k Hk.
      replace (lprod _ _) with (if list_eqb is (repeat k order) then (r1 : R) else r0); [destruct (list_eqb is _); ring|].
      rewrite (lprod_ext _ _ (fun mu => if nth mu is 0%nat =? k then r1 else r0)).
      2:{ intros mu Hm. apply in_seq in Hm. cbn [Nat.add] in Hm. pose proof (d2i_leaf t mu (proj2 Hm)) as Hl. rewrite AL, A3 by auto.
          destruct (nth _ act false); [cbn; auto|rewrite (Nat.eqb_sym k); auto]. }
      destruct (list_eqb is (repeat k order)) eqn:E.
      + apply list_eqb_spec in E. symmetry. apply lprod_one. intros mu Hm. apply in_seq in Hm. rewrite E, nth_repeat_in by lia. rewrite Nat.eqb_refl. auto.
      + destruct (forallb (fun mu => nth mu is 0%nat =? k) (seq 0 (length (d2i t)))) eqn:F.
        * exfalso. assert (list_eqb is (repeat k order) = true); [|congruence]. apply list_eqb_spec. rewrite forallb_forall in F.
          apply nth_ext' with (d := 0%nat); [rewrite repeat_length; auto|]. intros mu Hm. rewrite nth_repeat_in by lia.
          apply Nat.eqb_eq, F, in_seq. lia.
        * assert (exists mu, In mu (seq 0 (length (d2i t))) /\ nth mu is 0%nat <> k) as (mu & Hm & Hne).
          { apply not_true_iff_false in F. clear - F. induction (seq 0 (length (d2i t))) as [|m ms IH]; [exfalso; apply F; reflexivity|].
            cbn [forallb] in F. destruct (Nat.eqb_spec (nth m is 0%nat) k) as [E|E]; [|exists m; simpl; auto].
            destruct IH as (mu & H & Hn); auto. exists mu. simpl; auto. }
          symmetry. apply (lprod_zero _ _ mu); auto. destruct (Nat.eqb_spec (nth mu is 0%nat) k); congruence.
  Qed.
  Theorem dg_tbt_default (data : list R) order : (2 <= order)%nat -> (0 < length data)%nat ->
    exists X, dg_tree_based_tensor (Diagonal.dt_make data order) None None = Some X /\
      ttree X = dt_linear order (seq 0 order) /\
      (forall n, node (ttree X) n -> (active X n = true <-> is_leaf (ttree X) n = false)) /\
      returns (tb_full X) (repeat (length data) order) (diag_val data).
  Proof.
    intros H2 Hd. set (t := dt_linear order (seq 0 order)). assert (V : dim_tree t 1) by (apply dt_linear_ok; auto; apply Permutation_refl).
    assert (HO : length (d2i t) = order).
    { pose proof (scatter_perm (seq 0 order)) as HP. unfold t. cbn [d2i dt_linear].
      assert (L : length ((2 * order - 2) :: map (fun k => 2 * k + 1) (rev (seq 1 (order - 1))))%nat = order) by (simpl; rewrite map_length, rev_length, seq_length; lia).
      rewrite (Permutation_length (HP _ ltac:(rewrite L; apply Permutation_refl))). auto. }
    set (act := map (fun n => negb (is_leaf t n)) (nodes t)).
    assert (HA : forall n, node t n -> nth (n - 1) act false = negb (is_leaf t n)).
    { intros n Hn. unfold act, nodes, node in *. rewrite map_nth_in with (da := 0%nat) by (rewrite seq_length; lia). rewrite seq_nth by lia. do 2 f_equal. lia. }
    destruct (dg_tbt_spec data order t 1 act V HO H2 Hd) as (X & E & Et & Ok & Ha & Hf).
    - intros n Hn Hl _. rewrite HA, Hl; auto.
    - exists X. split; [exact E|]. split; auto. split; auto. rewrite Et. intros n Hn. rewrite Ha, HA by auto.
      destruct (Nat.eq_dec n 1) as [->|N1].
      + split; auto. intros _. destruct (is_leaf t 1) eqn:El; auto. exfalso. pose proof (dims_root t 1 V) as HP. pose proof (dims_leaf t 1 V 1 El) as HD.
        rewrite HD in HP. apply Permutation_length in HP. rewrite seq_length, HO in HP. cbn [length] in HP. lia.
      + rewrite negb_true_iff. split; [intros [?|?]; auto; congruence|auto].
  Qed.
  Theorem dg_tbt_raises (data : list R) order t r act n : dim_tree t r -> node t n -> n <> r -> is_leaf t n = false -> nth (n - 1) act false = false ->
    dg_tree_based_tensor (Diagonal.dt_make data order) (Some t) (Some act) = None.
  Proof.
    intros V Hn Hne Hl Ha. unfold dg_tree_based_tensor. cbn [Diagonal.dt_data Diagonal.dt_make].
    destruct (omap _ _) as [l|] eqn:E; auto. exfalso. apply omap_Forall2 in E.
    apply in_nodes in Hn. destruct (in_split _ _ Hn) as (l1 & l2 & Es). rewrite Es in E. apply Forall2_app_inv_l in E.
    destruct E as (m1 & m2 & _ & E & _). inversion E as [|? ? ? ? H]; subst. unfold dg_core in H. rewrite Hl, Ha in H. cbn [andb negb] in H.
    destruct (Nat.eqb_spec (parent t n) 0) as [E0|E0]; [|discriminate]. apply Hne, (parent_zero t r (proj1 V) n); auto. apply in_nodes; auto.
  Qed.

  (** CanonicalTensor.tree_based_tensor *)
  Lemma fold_setc (ks : list nat) : forall (cs l0 : list (nd R)), NoDup ks -> length cs = length ks -> (forall k, In k ks -> (1 <= k <= length l0)%nat) ->
    let l := fold_left (fun l p => setc (fst p) (snd p) l) (combine ks cs) l0 in
    length l = length l0 /\ (forall i, (i < length ks)%nat -> nthc l (nth i ks 0%nat) = nth i cs no_core) /\
    (forall n, (1 <= n)%nat -> ~ In n ks -> nthc l n = nthc l0 n).
  Proof.
    induction ks as [|k ks IH]; intros cs l0 HN HL HK; cbn zeta.
    - destruct cs; [|discriminate]. simpl. split; auto. split; auto. intros; lia.
    - destruct cs as [|c cs]; [discriminate|]. cbn [combine fold_left fst snd]. inversion HN as [|? ? Hni HN']; subst.
      assert (LS : length (setc k c l0) = length l0) by (unfold setc; apply upd_length).
      destruct (IH cs (setc k c l0) HN') as (I1 & I2 & I3); [simpl in HL; lia|rewrite LS; intros; apply HK; simpl; auto|].
      cbn zeta in I1, I2, I3. assert (Hk := HK k (or_introl eq_refl)).
      split; [lia|]. split.
      + intros [|i] Hi; cbn [nth].
        * rewrite I3 by (auto; lia). unfold nthc, setc. rewrite nth_upd_eq by lia. reflexivity.
        * apply I2. simpl in Hi. lia.
      + intros n Hn1 Hn. cbn [In] in Hn. rewrite I3 by tauto. unfold nthc, setc. rewrite nth_upd_neq; auto. lia.
  Qed.
  Theorem cp_tbt_spec (x : cp R) t r act : cp_ok (cp_core x) (cp_space x) -> dim_tree t r -> length (d2i t) = length (cp_space x) ->
    (2 <= length (d2i t))%nat -> (0 < length (cp_core x))%nat -> Forall (fun n => (0 < n)%nat) (cp_dims (cp_space x)) ->
    (forall a n, act = Some a -> node t n -> is_leaf t n = false -> nth (n - 1) a false = true) ->
    exists X, cp_tree_based_tensor x t act = Some X /\ ttree X = t /\ tb_ok X r /\
      (forall n, node t n -> (active X n = true <-> match act with None => True | Some a => nth (n - 1) a false = true end)) /\
      returns (tb_full X) (cp_dims (cp_space x)) (cp_val (cp_core x) (cp_space x)).
  Proof.
    intros [Hne HF] V HO H2 Hd HP Hact. pose proof (proj1 V) as T. unfold cp_tree_based_tensor. rewrite (proj2 (Nat.eqb_eq _ _) HO).
    set (core := cp_core x) in *. set (sp := cp_space x) in *.
    set (l0 := map (cp_core0 core t) (nodes t)).
    assert (L0 : length l0 = nbn t) by (unfold l0, nodes; rewrite map_length, seq_length; auto).
    assert (Hr : is_leaf t r = false).
    { destruct (is_leaf t r) eqn:E; auto. exfalso. pose proof (dims_root t r V) as HPm. pose proof (dims_leaf t r V r E) as HD.
      rewrite HD in HPm. apply Permutation_length in HPm. rewrite seq_length in HPm. simpl in HPm. lia. }
    assert (HN0 : forall n, node t n -> nthc l0 n = cp_core0 core t n).
    { intros n Hn. unfold nthc, l0, nodes. unfold node in Hn. rewrite map_nth_in with (da := 0%nat) by (rewrite seq_length; lia). rewrite seq_nth by lia. f_equal. lia. }
    destruct (fold_setc (d2i t) sp l0 (NoDup_d2i t r V)) as (F1 & F2 & F3); [lia| |].
    { intros k Hk. rewrite L0. apply (leaf_node t r V k). unfold is_leaf. apply inb_spec. auto. }
    cbn zeta in F1, F2, F3. set (l := fold_left _ _ l0) in *. clearbody l.
    assert (HLf : forall n, is_leaf t n = false -> ~ In n (d2i t)) by (intros n Hl Hi; unfold is_leaf in Hl; apply inb_spec in Hi; congruence).
    assert (Hrn := rt_root t r T).
    assert (A1 : nthc l r = ft_diag core (length (children t r))).
    { rewrite F3; [|unfold node in Hrn; lia|auto]. rewrite HN0 by auto. unfold cp_core0. rewrite (parent_root t r T). reflexivity. }
    assert (A2 : forall n, node t n -> n <> r -> is_leaf t n = false -> nthc l n = ft_diag (repeat r1 (length core)) (length (children t n) + 1)).
    { intros n Hn Hnr Hl. rewrite F3; [|unfold node in Hn; lia|auto]. rewrite HN0 by auto. unfold cp_core0.
      destruct (Nat.eqb_spec (parent t n) 0) as [E|E]; auto. exfalso. apply Hnr, (parent_zero t r T n Hn), E. }
    assert (A3 : forall mu, (mu < length (d2i t))%nat -> nthc l (nth mu (d2i t) 0%nat) = nth mu sp no_core) by (intros; apply F2; auto).
    assert (A3s : forall mu, (mu < length (d2i t))%nat -> shape (nth mu sp no_core) = [nth mu (cp_dims sp) 0%nat; length core] /\ (0 < nth mu (cp_dims sp) 0)%nat).
    { intros mu Hm. split.
      - destruct (proj1 (Forall_nth' _ _ no_core) HF mu) as (n & E); [lia|]. unfold cp_dims. rewrite map_nth_in with (da := no_core) by lia. rewrite E. reflexivity.
      - apply (proj1 (Forall_nth' _ _ 0%nat) HP). unfold cp_dims. rewrite map_length. lia. }
    assert (A4 : forall n, is_leaf t n = true -> (exists s, shape (nthc l n) = [s; length core] /\ (0 < s)%nat) \/ nthc l n = no_core).
    { intros n Hl. destruct (leaf_index t n Hl) as [Hi E]. left. exists (nth (index_of n (d2i t)) (cp_dims sp) 0%nat).
      rewrite <- E at 1. rewrite A3 by auto. apply A3s; auto. }
    assert (AL : forall n, is_leaf t n = true -> active (TB t l) n = true).
    { intros n Hl. destruct (leaf_index t n Hl) as [Hi E]. unfold active, activec. cbn [cores]. rewrite <- E, A3 by auto.
      destruct (A3s _ Hi) as [E2 Hp]. unfold ft_storage, np_size. rewrite E2. apply negb_true_iff, Nat.eqb_neq. simpl. nia. }
    assert (HLl : length l = nbn t) by lia.
    rewrite (dg_make t r core l V H2 Hd HLl A1 A2).
    pose proof (dg_ok t r core l V H2 Hd HLl A1 A2 A4) as Ok.
    assert (AA : forall n, node t n -> active (TB t l) n = true).
    { intros n Hn. destruct (is_leaf t n) eqn:Hl; auto. apply (dg_internal_active t r core l V H2 Hd HLl A1 A2); auto. }
    assert (Hf : returns (tb_full (TB t l)) (cp_dims sp) (cp_val core sp)).
    { destruct (dg_full t r core l V H2 Hd HLl A1 A2 A4) as (A & HA & Hs & Hg). exists A. split; auto.
      assert (ES : map (fun n => if active (TB t l) n then nth 0 (shape (nthc l n)) 0%nat else length core) (d2i t) = cp_dims sp).
      { apply nth_ext' with (d := 0%nat); [rewrite map_length; unfold cp_dims; rewrite map_length; auto|]. rewrite map_length. intros mu Hm.
        rewrite map_nth_in with (da := 0%nat) by auto. pose proof (d2i_leaf t mu Hm) as Hl. rewrite AL, A3 by auto. rewrite (proj1 (A3s mu Hm)). reflexivity. }
      rewrite ES in Hs, Hg. split; auto. intros is Hv. rewrite Hg by auto.
      pose proof (valid_length _ _ Hv) as Li. unfold cp_dims in Li. rewrite map_length in Li.
      rewrite cp_val_term by auto. apply rsum_ext. intros k Hk. f_equal. rewrite HO.
      apply lprod_ext. intros mu Hm. apply in_seq in Hm. rewrite <- HO in Hm. pose proof (d2i_leaf t mu (proj2 Hm)) as Hl. rewrite AL, A3 by (auto; lia).
      rewrite (nth_indep sp no_core (scalar r0)) by lia. reflexivity. }
    destruct act as [a|].
    - set (ns := map S (filter (fun i => negb (nth i a false)) (seq 0 (nbn t)))).
      assert (Hns : forall n, In n ns <-> node t n /\ nth (n - 1) a false = false).
      { intros n. unfold ns. rewrite in_map_iff. split.
        - intros (i & <- & Hi). apply filter_In in Hi. destruct Hi as [Hi Hf2]. apply in_seq in Hi. apply negb_true_iff in Hf2. unfold node.
          replace (S i - 1)%nat with i by lia. split; [lia|auto].
        - intros [Hn E]. unfold node in Hn. exists (n - 1)%nat. split; [lia|]. apply filter_In. rewrite in_seq, E. split; [lia|auto]. }
      assert (Hsub : forall n, In n ns -> In n (d2i t)).
      { intros n Hn. apply Hns in Hn as [Hn E]. destruct (is_leaf t n) eqn:Hl; [unfold is_leaf in Hl; apply inb_spec; auto|].
        rewrite (Hact a n) in E; auto. discriminate. }
      destruct (tb_inactivate_spec (TB t l) r ns Ok H2 Hsub) as (Z & HZ & SV & HAct). exists Z. split; [exact HZ|].
      pose proof SV as (OZ & TZ & _). split; [exact TZ|]. split; auto. split.
      + intros n Hn. rewrite HAct by auto. rewrite AA by auto. cbn [andb]. rewrite negb_true_iff, <- not_true_iff_false, inb_spec, Hns.
        split; [intros H; destruct (nth (n - 1) a false); auto; exfalso; apply H; auto|]. intros H [_ ?]. congruence.
      + destruct Hf as (A & HA & Hs & Hg). destruct (same_val_full (TB t l) Z r A Ok H2 HA SV) as (B & HB & HsB & HgB).
        exists B. split; auto. split; [congruence|]. intros is Hv. rewrite HgB by congruence. auto.
    - exists (TB t l). split; [reflexivity|]. split; [reflexivity|]. split; auto. split; auto. intros n Hn. split; auto.
  Qed.
End Conv.
