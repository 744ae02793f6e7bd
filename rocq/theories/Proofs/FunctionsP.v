(** Proofs about functions on trees, the evaluation cache and grids. *)
From Coq Require Import List Arith Bool ZArith Lia Sorted Permutation.
From Verif.Base Require Import ListAux CRing Index.
From Verif.Model Require Import Sorting MultiIndices Numpy FullTensor Diagonal Canonical Sparse DimensionTree Functions.
From Verif.Spec Require Import MultiIndicesSpec TensorSpec TreeSpec FunctionSpec.
From Verif.Proofs Require Import NumpyP DimTreeP MIMoreP.
Import ListNotations.

Lemma sorted_filter_seq f a n : StronglySorted lt (filter f (seq a n)).
Proof.
  revert a; induction n as [|n IH]; intros a; simpl; [constructor|].
  destruct (f a); auto. constructor; auto. apply Forall_forall. intros x Hx. apply filter_In in Hx. destruct Hx as [Hx _]. apply in_seq in Hx. lia.
Qed.
Lemma omap_all {A B} (f : A -> option B) l : (forall a, In a l -> exists b, f a = Some b) -> exists bs, omap f l = Some bs /\ Forall2 (fun a b => f a = Some b) l bs.
Proof.
  induction l as [|a l IH]; intros H; simpl; [exists []; auto|].
  destruct (H a) as [b Hb]; simpl; auto. destruct IH as [bs [E F]]; [intros; apply H; simpl; auto|].
  rewrite Hb, E. exists (b :: bs); auto.
Qed.
Lemma ofold_filter {A S} (f : S -> A -> option S) (p : A -> bool) l s :
  ofold f (filter p l) s = ofold (fun s a => if p a then f s a else Some s) l s.
Proof. revert s; induction l as [|a l IH]; intros s; simpl; auto. destruct (p a); simpl; auto. destruct (f s a); auto. Qed.

Section Comp.
  Context {V : Type} (t : dtree) (r : nat) (HV : dim_tree t r).
  Lemma cm_init_ok (x : list V) : length (d2i t) <= length x ->
    exists z, cm_init t x = Some z /\ length z = nbn t /\
      forall mu, mu < length (d2i t) -> nth (nth mu (d2i t) 0 - 1) z None = nth_error x mu.
  Proof.
    intros Hl. unfold cm_init.
    assert (G : forall k, k <= length (d2i t) -> exists z,
      ofold (fun z nu => match nth_error x nu with Some v => Some (upd (nth nu (d2i t) 0 - 1) (Some v) z) | None => None end) (seq 0 k) (repeat None (nbn t)) = Some z
      /\ length z = nbn t /\ forall mu, mu < k -> nth (nth mu (d2i t) 0 - 1) z None = nth_error x mu).
    { induction k as [|k IH]; intros Hk.
      - exists (repeat None (nbn t)). simpl. rewrite repeat_length. repeat split; auto. intros; lia.
      - destruct IH as [z [E [Lz Nz]]]; [lia|]. rewrite seq_S_snoc.
        assert (OA : forall {A S} (f : S -> A -> option S) l1 l2 s, ofold f (l1 ++ l2) s = match ofold f l1 s with Some s' => ofold f l2 s' | None => None end).
        { intros A S f l1; induction l1; intros l2 s; simpl; auto. destruct (f s a); auto. }
        rewrite OA, E. simpl. destruct (nth_error x k) as [v|] eqn:Ev; [|apply nth_error_None in Ev; lia].
        eexists; split; [reflexivity|]. split; [rewrite upd_length; auto|]. intros mu Hmu.
        pose proof (d2i_node t r HV k ltac:(lia)) as Nk. unfold node in Nk.
        destruct (Nat.eq_dec mu k) as [->|Hne]; [rewrite nth_upd_eq by lia; auto|].
        pose proof (d2i_node t r HV mu ltac:(lia)) as Nmu. unfold node in Nmu.
        rewrite nth_upd_neq; [apply Nz; lia|]. intros C. apply Hne.
        apply (proj1 (NoDup_nth (d2i t) 0) (NoDup_d2i t r HV)); lia. }
    apply G; auto.
  Qed.
  Theorem cm_eval_ok (f : nat -> option (list V -> V)) (g : nat -> list V -> V) (x : list V) (v0 : V) :
    length (d2i t) <= length x ->
    (forall n, node t n -> is_leaf t n = false -> f n = Some (g n)) ->
    exists v, cm_eval t f x = Some v /\ composition t g (fun mu => nth mu x v0) r v.
  Proof.
    intros Hl Hf. pose proof (proj1 HV) as T. unfold cm_eval. destruct (cm_init_ok x Hl) as [z0 [-> [L0 N0]]].
    rewrite ofold_filter.
    pose (C := composition t g (fun mu => nth mu x v0)).
    pose (P := fun (done : list nat) (z : list (option V)) => length z = nbn t /\
      (forall mu, mu < length (d2i t) -> nth (nth mu (d2i t) 0 - 1) z None = nth_error x mu) /\
      forall n, In n done -> exists v, nth (n - 1) z None = Some v /\ C n v).
    destruct (bottom_up_ind t r T (fun s a => if negb (is_leaf t a) then cm_step t f s a else Some s) P z0) as [z [E [Lz [Nz Hz]]]].
    - split; auto. split; auto. intros n [].
    - intros done n z [Lz [Nz Hz]] Hn Hnd Hch Hpar Hdn. destruct (is_leaf t n) eqn:El; simpl.
      + exists z. split; auto. split; auto. split; auto. intros m Hm. apply in_app_or in Hm. destruct Hm as [Hm|[<-|[]]]; auto.
        destruct (leaf_index t n El) as [I1 I2]. pose proof (Nz _ I1) as Q. rewrite I2 in Q.
        destruct (nth_error x (index_of n (d2i t))) as [v|] eqn:Ev; [|apply nth_error_None in Ev; lia].
        exists v. split; auto. unfold C. rewrite <- I2 at 1. rewrite <- (nth_error_nth x _ v0 Ev).
        apply (comp_leaf t g (fun mu => nth mu x v0)). auto.
      + unfold cm_step. rewrite (Hf n Hn El).
        destruct (omap_all (fun c => nth (c - 1) z None) (children t n)) as [args [Ea Fa]].
        { intros c Hc. apply in_children in Hc; auto. destruct (Hz c (Hch c Hc)) as [v [Ev _]]. eauto. }
        rewrite Ea. eexists; split; [reflexivity|]. split; [rewrite upd_length; auto|]. split.
        * intros mu Hmu. rewrite nth_upd_neq; auto. intros Cn.
          pose proof (d2i_leaf t mu Hmu) as LF. pose proof (d2i_node t r HV mu Hmu) as Nd. unfold node in *.
          assert (nth mu (d2i t) 0 = n) by lia. congruence.
        * intros m Hm. apply in_app_or in Hm. destruct (Nat.eq_dec m n) as [->|Hne].
          -- rewrite nth_upd_eq by (unfold node in *; lia). eexists; split; [reflexivity|].
             apply (comp_node t g (fun mu => nth mu x v0) n (children t n)); auto.
             ++ intros Ce. apply (leaf_children t r HV n Hn) in Ce. congruence.
             ++ apply sorted_filter_seq.
             ++ intros c. apply in_children; auto.
             ++ assert (G : forall c, In c (children t n) -> forall v, nth (c - 1) z None = Some v -> C c v).
                { intros c Hc v Ev. apply in_children in Hc; auto. destruct (Hz c (Hch c Hc)) as [v' [Ev' Cv]]. congruence. }
                clear - Fa G. induction Fa as [|c v cs vs H1 H2 IH]; constructor; [apply G; simpl; auto|apply IH; intros; apply G; simpl; auto].
          -- destruct Hm as [Hm|[Hm|[]]]; [|congruence]. rewrite nth_upd_neq; auto.
             pose proof (Hdn m Hm). unfold node in *. lia.
    - rewrite E. rewrite (root_eq t r T). destruct (Hz r) as [v [Ev Cv]]; [apply (in_bottom_up t r T); apply T|]. exists v; auto.
  Qed.
  Lemma sorted_same : forall (l m : list nat), StronglySorted lt l -> StronglySorted lt m -> (forall c, In c l <-> In c m) -> l = m.
  Proof.
    induction l as [|a l IH]; intros [|b m] Hl Hm H; auto.
    - exfalso. apply (proj2 (H b)); simpl; auto.
    - exfalso. apply (proj1 (H a)); simpl; auto.
    - inversion Hl as [|? ? Sl Fl]; inversion Hm as [|? ? Sm Fm]; subst. rewrite Forall_forall in Fl, Fm.
      assert (a = b).
      { destruct (proj1 (H a) (or_introl eq_refl)) as [|Ha]; auto. destruct (proj2 (H b) (or_introl eq_refl)) as [|Hb]; auto.
        specialize (Fl _ Hb). specialize (Fm _ Ha). lia. }
      subst b. f_equal. apply IH; auto. intros c. split; intros Hc.
      + destruct (proj1 (H c) (or_intror Hc)) as [<-|]; auto. specialize (Fl _ Hc). lia.
      + destruct (proj2 (H c) (or_intror Hc)) as [<-|]; auto. specialize (Fm _ Hc). lia.
  Qed.
  Theorem composition_unique (g : nat -> list V -> V) (x : nat -> V) n v w : node t n ->
    composition t g x n v -> composition t g x n w -> v = w.
  Proof.
    pose proof (proj1 HV) as T. intros Hn. revert n Hn v w.
    apply (tree_up_ind t r T (fun n => forall v w, composition t g x n v -> composition t g x n w -> v = w)).
    intros n Hn IH v w H1 H2.
    inversion H1 as [mu Hmu En Ev|n1 cs vs N1 Hne1 S1 E1 F1 En Ev]; inversion H2 as [nu Hnu En' Ev'|n2 cs2 vs2 N2 Hne2 S2 E2 F2 En' Ev']; subst.
    - assert (mu = nu) by (apply (proj1 (NoDup_nth (d2i t) 0) (NoDup_d2i t r HV)); auto; congruence). congruence.
    - exfalso. destruct cs2 as [|c cs2]; [congruence|]. pose proof (proj1 (E2 c) (or_introl eq_refl)) as Ed.
      pose proof (d2i_leaf t mu Hmu) as L. apply (leaf_iff t r HV) in L. apply (proj2 L c). auto.
    - exfalso. destruct cs as [|c cs]; [congruence|]. pose proof (proj1 (E1 c) (or_introl eq_refl)) as Ed.
      pose proof (d2i_leaf t nu Hnu) as L. apply (leaf_iff t r HV) in L. apply (proj2 L c). auto.
    - assert (cs2 = cs) by (apply sorted_same; auto; intros c; rewrite E1, E2; tauto). subst cs2. f_equal.
      assert (G : forall c, In c cs -> edge t n c) by (intros c; apply E1). clear - F1 F2 G IH.
      revert vs2 F2. induction F1 as [|c v cs vs H1 H2 IH']; intros vs2 F2; inversion F2; subst; auto.
      f_equal; [eapply IH; eauto; apply G; simpl; auto|apply IH'; auto; intros; apply G; simpl; auto].
  Qed.
End Comp.
Lemma composition_hom {V W : Type} (t : dtree) (r : nat) (HV : dim_tree t r) (h : V -> W) (g : nat -> list V -> V) (g' : nat -> list W -> W) (x : nat -> V) (y : nat -> W) :
  (forall n vs, h (g n vs) = g' n (map h vs)) -> (forall mu, mu < length (d2i t) -> h (x mu) = y mu) ->
  forall n, node t n -> forall v, composition t g x n v -> composition t g' y n (h v).
Proof.
  intros Hg Hx. apply (tree_up_ind t r (proj1 HV) (fun n => forall v, composition t g x n v -> composition t g' y n (h v))). intros n Hn IH v H.
  inversion H as [mu Hmu En Ev|n1 cs vs N1 Hne1 S1 E1 F1 En Ev]; subst.
  - rewrite Hx by auto. constructor; auto.
  - rewrite Hg. econstructor; eauto. assert (G : forall c, In c cs -> edge t n c) by (intros c; apply E1). clear - F1 G IH.
    induction F1; simpl; constructor; [apply IH; auto; apply G; simpl; auto|apply IHF1; intros; apply G; simpl; auto].
Qed.
