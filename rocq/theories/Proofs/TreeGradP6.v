(** eval_diag_above: the loop over the levels. *)
From Coq Require Import List Arith Lia Bool Sorted Ring Permutation.
From Verif.Base Require Import ListAux CRing Index.
From Verif.Model Require Import Utils Numpy FullTensor DimensionTree TreeBased TreeEval HsvdTree TreeGrad.
From Verif.Spec Require Import TensorSpec TreeSpec TreeTensorSpec.
From Verif.Proofs Require Import NumpyP FullTensorP FullTensorP3 FullTensorP4 FunctionsP DimTreeP TreeTensorP TreeTensorP2 TreeTensorP3 TreeTensorP7 EinsumP EinsumP2 TreeTensorP17 TreeTensorP18 TreeTensorP19 HsvdTreeP5 TreeGradP1 TreeGradP2 TreeGradP3 TreeGradP4 TreeGradP5.
Import ListNotations.

Lemma below_edge_below t p n m : edge t p n -> below t n m -> below t p m.
Proof. intros He Hb. apply (below_trans t p n m); auto. exists 1. econstructor; [apply depth_root|exact He]. Qed.

Section Step.
  Context {R : Type} {CR : CRing R}.
  Add Ring Rrtg8 : rth.
  Local Open Scope cr_scope.
  Variables (X : tbt R) (r q : nat).
  Hypothesis O : tb_ok X r.
  Hypothesis Hq : (0 < q)%nat.
  Local Notation t := (ttree X).
  Local Notation D := (tb_order X).

  Lemma kval_ext cs h h' (C : nd R) (u u' : nat -> nat -> R) e : (forall c, In c cs -> h c = h' c) -> (forall c y, In c cs -> u c y = u' c y) ->
    kval cs h C (fun c _ y => u c y) 0 e = kval cs h' C (fun c _ y => u' c y) 0 e.
  Proof.
    intros Hh Hu. unfold kval. rewrite (map_ext_in h h') by auto. apply bsum_ext. intros ms _. f_equal. apply lprod_ext. intros [c y] Hc. apply in_combine_l in Hc. cbn [fst snd]. auto.
  Qed.

  (** linearity of the parent's value in the value of the child *)
  Lemma ctx_lin Y p n is e : edge t p n -> same_off X r Y n ->
    tval Y p is e = rsum (csize X n) (fun x => tval Y n is [x] * kval (children t p) (csize X) (core X p) (fun c _ y => vset (dl x) (fun c y => tval X c is [y]) n c y) 0 e).
  Proof.
    intros He (OY & ET & HY). assert (Hl : is_leaf t p = false) by (apply (p_internal X r O p n He)).
    assert (HC : core Y p = core X p) by (apply HY; [apply He|apply (edge_not_below X r q O Hq p n He)]).
    assert (Hn : In n (children t p)) by (apply in_children; apply He).
    assert (Hcz : forall c, In c (children t p) -> csize Y c = csize X c).
    { intros c Hc. assert (E1 : edge t p c) by (apply (kids_edge X); auto; apply He). rewrite <- (csize_nth X r O p c E1). rewrite <- (csize_nth Y r OY p c); [|rewrite ET; auto]. rewrite ET, HC. auto. }
    rewrite (node_kval Y r OY p is e) by (rewrite ET; auto; apply He). rewrite ET, HC.
    rewrite (kval_lin (children t p) (csize Y) (core X p) (fun c y => tval Y c is [y]) n 0 e (NoDup_children t p) Hn). rewrite Hcz by auto. apply rsum_ext. intros x Hx. f_equal.
    apply (kval_ext (children t p) (csize Y) (csize X) (core X p) (vset (dl x) (fun c y => tval Y c is [y]) n) (vset (dl x) (fun c y => tval X c is [y]) n)); auto.
    intros c y Hc. unfold vset. destruct (Nat.eqb_spec c n) as [->|NE]; auto. assert (E1 : edge t p c) by (apply (kids_edge X); auto; apply He).
    apply (tval_same_below X Y r c (proj1 O) ET); [apply E1|]. intros m Hm Hb. apply HY; auto. intros K. apply NE. apply (siblings_disjoint t r (proj1 (proj1 O)) p c n m E1 He Hb K).
  Qed.

  Lemma same_off_up Y p n : edge t p n -> same_off X r Y n -> same_off X r Y p.
  Proof. intros He (OY & ET & HY). split; auto. split; auto. intros m Hm Hb. apply HY; auto. intros K. apply Hb. apply (below_edge_below t p n m); auto. Qed.

  Variables (db da : list (option (nd R))) (p n : nat).
  Hypothesis He : edge t p n.
  Hypothesis Hdb : forall c, edge t p c -> c <> n -> active X c = true -> is_diag X q c (nth (c - 1) db None).
  Hypothesis Hsz : forall c, edge t p c -> c <> n -> active X c = false -> csize X c = q.
  Hypothesis Hsib : exists c, edge t p c /\ c <> n.
  Hypothesis Hda : p <> r -> is_ctx X r q p (nth (p - 1) da None).

  Lemma ctx_step : exists A, diag_above_node X db da n = Some A /\ is_ctx X r q n (Some A).
  Proof.
    pose proof (proj1 O) as V. pose proof (proj1 V) as T0. destruct (local_ok X r q O Hq db p n He Hdb Hsz Hsib) as (T & ET & ST & GT).
    unfold diag_above_node. rewrite (parent_edge t r T0 p n He). rewrite (root_eq t r T0).
    change (match act_of X (filter (fun c => negb (c =? n)%nat) (children t p)) with
            | [] => diag_front (core X p) (map (chpos t) (inact_of X (filter (fun c => negb (c =? n)%nat) (children t p))))
            | _ :: _ => let* tmp := diag_acc db (act_of X (filter (fun c => negb (c =? n)%nat) (children t p))) in
                match inact_of X (filter (fun c => negb (c =? n)%nat) (children t p)) with
                | [] => ft_tensordot tmp (core X p) (seq 1 (ndim tmp - 1)) (map (chpos t) (act_of X (filter (fun c => negb (c =? n)%nat) (children t p))))
                | _ :: _ => ft_tensordot_eval_diag tmp (core X p) (seq 1 (ndim tmp - 1)) (map (chpos t) (act_of X (filter (fun c => negb (c =? n)%nat) (children t p)))) [0%nat] (map (chpos t) (inact_of X (filter (fun c => negb (c =? n)%nat) (children t p)))) false
                end
            end) with (local_up X db p n).
    rewrite ET. cbn [bind]. destruct (Nat.eqb_spec p r) as [->|NE].
    - exists T. split; auto. exists T. split; auto. split; auto. intros Y i is e HY Hi Hm Hv. rewrite (ctx_lin Y r n is e He HY). apply rsum_ext. intros x Hx. f_equal. symmetry. apply GT; auto.
    - destruct (Hda NE) as (P & EP & SP & GP). rewrite EP. cbn [bind].
      assert (Hl : is_leaf t p = false) by (apply (p_internal X r O p n He)). assert (Hp : node t p) by apply He.
      assert (Ex : exts X p = [csize X p]).
      { destruct (rt_has_parent t r T0 p Hp NE) as (pp & Hpp). apply (child_exts X r O pp p Hpp). apply (ok_internal X r O); auto. }
      destruct (ted_up P T q (csize X p) (csize X n) (exts X r) SP) as (U & EU & SU & GU); [rewrite ST, Ex; auto| |].
      { destruct O as (_ & _ & Har & HO). destruct (HO r) as (_ & K & _); [apply T0|]. destruct (K Har) as (_ & _ & K3). auto. }
      cbn [bind] in EU. rewrite EU. exists U. split; auto. exists U. split; auto. split; auto.
      intros Y i is e HY Hi Hm Hv. rewrite (GP Y i is e); auto.
      + assert (G1 : forall k, (k < csize X p)%nat -> tval Y p is [k] = rsum (csize X n) (fun x => tval Y n is [x] * get T [i; x; k])).
        { intros k Hk. rewrite (ctx_lin Y p n is [k] He HY). apply rsum_ext. intros x Hx. f_equal. symmetry. apply GT; auto. rewrite Ex. apply Forall2_cons; [auto|apply Forall2_nil]. }
        rewrite (rsum_ext (csize X p) _ (fun k => rsum (csize X n) (fun x => tval Y n is [x] * (get P (i :: k :: e) * get T [i; x; k])))).
        2:{ intros k Hk. rewrite G1 by auto. rewrite <- rsum_scal_r. apply rsum_ext. intros x Hx. ring. }
        rewrite rsum_exchange. apply rsum_ext. intros x Hx. rewrite (rsum_scal_l (csize X p) (tval Y n is [x]) (fun k => get P (i :: k :: e) * get T [i; x; k])). f_equal. symmetry. apply GU; auto.
      + apply (same_off_up Y p n He HY).
      + intros mu Hmu Hnp. apply Hm; auto. intros K. apply Hnp. apply (in_dims_child X r O p n mu He Hl K).
  Qed.
End Step.

Section Loop.
  Context {R : Type} {CR : CRing R}.
  Variables (X : tbt R) (r q : nat).
  Hypothesis O : tb_ok X r.
  Hypothesis Hq : (0 < q)%nat.
  Local Notation t := (ttree X).
  Variables (db : list (option (nd R))) (inc : list nat).
  Hypothesis Hup : forall p n, edge t p n -> In n inc -> p <> r -> In p inc.
  Hypothesis Hok : forall p n, edge t p n -> In n inc -> active X n = true ->
    (forall c, edge t p c -> c <> n -> active X c = true -> is_diag X q c (nth (c - 1) db None)) /\
    (forall c, edge t p c -> c <> n -> active X c = false -> csize X c = q) /\ (exists c, edge t p c /\ c <> n).

  Lemma above_loop da0 : length da0 = nbn t ->
    exists da, ofold (fun da n => if active X n && inb n inc
                       then match diag_above_node X db da n with Some a => Some (upd (n - 1) (Some a) da) | None => None end
                       else Some da) (flat_map (nodes_with_level t) (seq 1 (max_level t))) da0 = Some da /\ length da = nbn t /\
      nth (r - 1) da None = nth (r - 1) da0 None /\
      forall n, node t n -> n <> r -> active X n = true -> In n inc -> is_ctx X r q n (nth (n - 1) da None).
  Proof.
    intros L0. pose proof (proj1 O) as V. pose proof (proj1 V) as T0. assert (Hrn : node t r) by apply T0.
    assert (Etd : top_down t (max_level t) = nodes_with_level t 0 ++ flat_map (nodes_with_level t) (seq 1 (max_level t))) by reflexivity.
    assert (Hlev : forall n, In n (flat_map (nodes_with_level t) (seq 1 (max_level t))) -> node t n /\ n <> r).
    { intros n Hn. split.
      - assert (K : In n (top_down t (max_level t))) by (rewrite Etd; apply in_or_app; auto). apply in_top_down in K. apply K.
      - intros ->. apply in_flat_map in Hn. destruct Hn as (l & Hl & Hn). apply in_seq in Hl. unfold nodes_with_level in Hn. apply filter_In in Hn. destruct Hn as [_ Hn]. apply Nat.eqb_eq in Hn. rewrite (level_root t r T0) in Hn. lia. }
    assert (Main : forall l2 l1 da, flat_map (nodes_with_level t) (seq 1 (max_level t)) = l1 ++ l2 -> length da = nbn t ->
      nth (r - 1) da None = nth (r - 1) da0 None ->
      (forall n, In n l1 -> active X n = true -> In n inc -> is_ctx X r q n (nth (n - 1) da None)) ->
      exists da', ofold (fun da n => if active X n && inb n inc
                       then match diag_above_node X db da n with Some a => Some (upd (n - 1) (Some a) da) | None => None end
                       else Some da) l2 da = Some da' /\ length da' = nbn t /\ nth (r - 1) da' None = nth (r - 1) da0 None /\
        forall n, In n (l1 ++ l2) -> active X n = true -> In n inc -> is_ctx X r q n (nth (n - 1) da' None)).
    { induction l2 as [|n l2 IH]; intros l1 da EL Lda Hr0 Hinv.
      - exists da. cbn [ofold]. rewrite app_nil_r. auto.
      - assert (Hnin : In n (flat_map (nodes_with_level t) (seq 1 (max_level t)))) by (rewrite EL; apply in_or_app; simpl; auto).
        destruct (Hlev n Hnin) as [Hn NEr].
        assert (EL' : flat_map (nodes_with_level t) (seq 1 (max_level t)) = (l1 ++ [n]) ++ l2) by (rewrite EL, <- app_assoc; auto).
        cbn [ofold]. destruct (active X n && inb n inc) eqn:Eb.
        + apply andb_prop in Eb. destruct Eb as [Ha Hi]. apply inb_spec in Hi. pose proof (parent_is_edge t r T0 n Hn NEr) as He. set (p := parent t n) in *.
          destruct (Hok p n He Hi Ha) as (H1 & H2 & H3).
          destruct (ctx_step X r q O Hq db da p n He H1 H2 H3) as (A & EA & CA).
          { intros NEp. apply Hinv.
            - assert (K : In p (nodes_with_level t 0 ++ l1)).
              { unfold p. apply (top_down_topo t r T0 (max_level t) (nodes_with_level t 0 ++ l1) n l2); auto. rewrite Etd, EL, app_assoc. auto. }
              apply in_app_or in K. destruct K as [K|K]; auto. exfalso. apply NEp. unfold nodes_with_level in K. apply filter_In in K. destruct K as [K1 K2]. apply Nat.eqb_eq in K2.
              destruct (Nat.eq_dec p r) as [|NE]; auto. destruct (rt_has_parent t r T0 p (proj1 He) NE) as (pp & Hpp). pose proof (level_edge t r T0 pp p Hpp). lia.
            - apply (ok_internal X r O); [apply He|]. apply (p_internal X r O p n He).
            - apply (Hup p n He Hi NEp). }
          rewrite EA. rewrite EL in *. destruct (IH (l1 ++ [n]) (upd (n - 1) (Some A) da) EL') as (da' & E1 & E2 & E2' & E3).
          * rewrite upd_length. auto.
          * rewrite nth_upd_neq; auto. destruct Hn, Hrn. lia.
          * intros m Hm Ham Him. destruct (Nat.eq_dec m n) as [->|NE].
            -- rewrite nth_upd_eq; [auto|]. destruct Hn. lia.
            -- apply in_app_or in Hm. destruct Hm as [Hm|[Hm|[]]]; [|congruence]. rewrite nth_upd_neq; [apply Hinv; auto|].
               assert (Hmn : node t m) by (apply Hlev; rewrite EL'; apply in_or_app; left; apply in_or_app; auto). destruct Hmn, Hn. lia.
          * exists da'. rewrite <- app_assoc in E3. auto.
        + rewrite EL in *. destruct (IH (l1 ++ [n]) da EL' Lda Hr0) as (da' & E1 & E2 & E2' & E3).
          * intros m Hm Ham Him. apply in_app_or in Hm. destruct Hm as [Hm|[Hm|[]]]; [apply Hinv; auto|]. subst m. rewrite Ham in Eb. rewrite (proj2 (inb_spec n inc) Him) in Eb. discriminate.
          * exists da'. rewrite <- app_assoc in E3. auto. }
    destruct (Main _ [] da0 eq_refl L0 eq_refl) as (da & E1 & E2 & E2' & E3); [intros n []|]. exists da. split; auto. split; auto. split; auto.
    intros n Hn NE Ha Hi. apply E3; auto. cbn [app].
    assert (K : In n (top_down t (max_level t))) by (apply in_top_down; split; auto; apply (level_le_max t r T0); auto).
    rewrite Etd in K. apply in_app_or in K. destruct K as [K|K]; auto. exfalso. unfold nodes_with_level in K. apply filter_In in K. destruct K as [K1 K2]. apply Nat.eqb_eq in K2.
    destruct (rt_has_parent t r T0 n Hn NE) as (pp & Hpp). pose proof (level_edge t r T0 pp n Hpp). lia.
  Qed.
End Loop.
