(** Changing the root: the values. *)
From Coq Require Import List Arith Lia Bool Ring Permutation.
From Verif.Base Require Import ListAux CRing Index.
From Verif.Model Require Import Sorting Numpy FullTensor DimensionTree TreeBased TreeRoot.
From Verif.Spec Require Import TensorSpec TreeSpec TreeTensorSpec.
From Verif.Proofs Require Import NumpyP FullTensorP DimTreeP DimTreeP4 RandomTreeP TreeTensorP TreeRootP1 TreeRootP2 TreeRootP3.
Import ListNotations.

Section Star.
  Context {R : Type} {CR : CRing R}.
  Add Ring Rrt4 : (@rth R CR).
  Local Open Scope cr_scope.
  (** sums over the labels L of a core times messages *)
  Definition star (c : (nat -> nat) -> R) (L : list nat) (sz : nat -> nat) (H : nat -> nat -> R) (f0 : nat -> nat) : R :=
    esum L sz (fun f => c f * lprod L (fun m => H m (f m))) f0.
  Lemma lprod_ext_in (L : list nat) (F G : nat -> R) : (forall m, In m L -> F m = G m) -> lprod L F = lprod L G.
  Proof. apply lprod_ext. Qed.
  Lemma star_resp (c : (nat -> nat) -> R) (L : list nat) (H : nat -> nat -> R) : resp c -> resp (fun f => c f * lprod L (fun m => H m (f m))).
  Proof. intros Hc f g E. rewrite (Hc f g E). f_equal. apply lprod_ext_in. intros m _. rewrite E. auto. Qed.
  Lemma star_perm c L M sz H f0 : resp c -> NoDup L -> Permutation L M -> star c L sz H f0 = star c M sz H f0.
  Proof.
    intros Hc ND HP. unfold star. rewrite (esum_perm L M sz _ (star_resp c L H Hc) ND HP f0). apply esum_ext; [apply (Permutation_NoDup HP); auto|].
    intros g _ _. f_equal. apply lprod_perm, HP.
  Qed.
  Lemma star_ext c c' L sz sz' H H' f0 : NoDup L -> (forall m, In m L -> sz m = sz' m) -> (forall m k, In m L -> (k < sz m)%nat -> H m k = H' m k) ->
    (forall g, (forall a, In a L -> (g a < sz a)%nat) -> (forall a, ~ In a L -> g a = f0 a) -> c g = c' g) -> star c L sz H f0 = star c' L sz' H' f0.
  Proof.
    intros ND Hs HH Hc. unfold star.
    rewrite (esum_ext L sz _ (fun f => c' f * lprod L (fun m => H' m (f m))) ND).
    - clear - Hs ND. generalize (fun f : nat -> nat => c' f * lprod L (fun m => H' m (f m))). intros F. clear ND. revert f0. induction L as [|a L IH]; intros f0; cbn [esum]; auto.
      rewrite (Hs a) by (left; auto). apply rsum_ext. intros k _. apply IH. intros m Hm. apply Hs. right; auto.
    - intros g G1 G2. rewrite (Hc g G1 G2). f_equal. apply lprod_ext_in. intros m Hm. apply HH; auto.
  Qed.
  (** one label is summed last *)
  Lemma star_pull c L m M sz H f0 : resp c -> NoDup L -> Permutation L (m :: M) ->
    (forall f g, (forall a, In a L -> f a = g a) -> c f = c g) ->
    star c L sz H f0 = rsum (sz m) (fun k => H m k * star c M sz H (fun _ => k)).
  Proof.
    intros Hc ND HP Hd. rewrite (star_perm c L (m :: M) sz H f0 Hc ND HP). unfold star at 1. cbn [esum]. apply rsum_ext. intros k Hk.
    assert (ND' : NoDup (m :: M)) by (apply (Permutation_NoDup HP); auto). inversion ND' as [|? ? Hm NDM]. subst.
    rewrite (esum_ext M sz _ (fun f => H m k * (c f * lprod M (fun m => H m (f m)))) NDM).
    - rewrite esum_scal_l. f_equal. unfold star. apply esum_start; auto. intros h h' E1 E2. f_equal.
      + apply Hd. intros a Ha. apply (Permutation_in a HP) in Ha. destruct Ha as [<-|Ha]; auto. destruct (E2 m Hm) as [Ea Eb]. rewrite Ea, Eb. unfold fset. rewrite Nat.eqb_refl. auto.
      + apply lprod_ext_in. intros a Ha. rewrite (E1 a Ha). auto.
    - intros g _ G2. cbn [lprod]. rewrite (G2 m Hm). unfold fset at 1. rewrite Nat.eqb_refl. ring.
  Qed.
End Star.

Section Val.
  Context {R : Type} {CR : CRing R}.
  Add Ring Rrt5 : (@rth R CR).
  Local Open Scope cr_scope.
  Variables (X : tbt R) (r nod : nat).
  Hypothesis O : tb_ok X r.
  Hypothesis HE : exts X r = [].
  Hypothesis Hnod : node (ttree X) nod.
  Hypothesis Hne : nod <> r.
  Hypothesis Hact : active X nod = true.
  Hypothesis H2 : (2 <= length (children (ttree X) r))%nat.
  Local Notation t := (ttree X).
  Local Notation t' := (dt_change_root (ttree X) nod).
  Local Notation shX := (sh X).
  Variable Z : tbt R.
  Hypothesis ZT : ttree Z = t'.
  Hypothesis ZN : length (cores Z) = nbn t'.
  Hypothesis ZC : forall n, node t n -> is_leaf t n = false -> shape (core Z n) = map (shX n) (chp t' n) /\
    forall f, (forall m, In m (chp t n) -> (f m < shX n m)%nat) -> get (core Z n) (map f (chp t' n)) = get (core X n) (map f (chp t n)).
  Hypothesis ZL : forall n, node t n -> is_leaf t n = true -> n <> nod -> core Z n = core X n.
  Hypothesis ZD : is_leaf t nod = true -> shape (core Z nod) = [last (shape (core X nod)) 0%nat; nth 0 (shape (core X nod)) 0%nat] /\
    (forall i k, (i < nth 0 (shape (core X nod)) 0)%nat -> (k < last (shape (core X nod)) 0)%nat -> get (core Z nod) [k; i] = get (core X nod) [i; k]) /\
    core Z (nbn t + 1) = no_core.
  Let V : dim_tree t r := proj1 O.
  Let T : rooted_tree t r := proj1 V.
  Lemma vV : dim_tree t' nod. Proof. exact (nV X r nod O Hnod Hne H2). Qed.
  Lemma vT : rooted_tree t' nod. Proof. exact (proj1 vV). Qed.
  Lemma vOZ : tb_ok Z nod. Proof. eapply root_ok; eauto. Qed.
  Lemma w_int : is_leaf t r = false. Proof. eapply r_internal; eauto. Qed.
  Lemma w_sym p c : edge t p c -> active X c = true -> shX p c = shX c p. Proof. eapply sh_sym; eauto. Qed.
  Lemma w_act n : node t n -> active Z n = active X n. Proof. eapply nz_active; eauto. Qed.
  Lemma w_csize n c : node t n -> node t c -> edge t' n c -> is_leaf t n = false -> csize Z c = shX n c.
  Proof. eapply nz_csize; eauto. Qed.
  Lemma w_exts : exts Z nod = []. Proof. eapply root_exts; eauto. Qed.
  Lemma w_new : is_leaf t nod = true -> active Z (nbn t + 1) = false. Proof. eapply nz_new; eauto. Qed.
  Variable is : list nat.
  Hypothesis His : valid (tb_shape X) is.

  (** the core of an internal node as a function of the labels *)
  Definition cv (n : nat) (f : nat -> nat) : R := get (core X n) (map f (chp t n)).
  Lemma cv_resp n : resp (cv n).
  Proof. intros f g E. unfold cv. f_equal. apply map_ext. auto. Qed.
  Lemma cv_dep n f g : (forall a, In a (chp t n) -> f a = g a) -> cv n f = cv n g.
  Proof. intros E. unfold cv. f_equal. apply map_ext_in. auto. Qed.
  (** the message sent to n by its neighbour m *)
  Definition msg (n m k : nat) : R := if (m =? parent t n)%nat then tval Z m is [k] else tval X m is [k].
  Lemma msg_child n m k : edge t n m -> msg n m k = tval X m is [k].
  Proof.
    intros He. unfold msg. destruct (Nat.eqb_spec m (parent t n)) as [E|]; auto. exfalso. assert (Hn : node t n) by apply He.
    destruct (Nat.eq_dec n r) as [->|Hnr]; [rewrite (parent_root t r T) in E; assert (Hm : node t m) by apply He; unfold node in Hm; lia|].
    destruct (rt_has_parent t r T n Hn Hnr) as (p & Hp). rewrite (parent_edge t r T p n Hp) in E. subst. apply (edge_asym t r T _ _ He Hp).
  Qed.
  Lemma msg_parent n p k : edge t p n -> msg n p k = tval Z p is [k].
  Proof. intros He. unfold msg. rewrite (parent_edge t r T p n He), Nat.eqb_refl. auto. Qed.

  Lemma tval_star_X p n k : edge t p n -> is_leaf t n = false -> tval X n is [k] = star (cv n) (children t n) (shX n) (msg n) (fun _ => k).
  Proof.
    intros He El. assert (Hn : node t n) by apply He. rewrite (tval_esum X r O n p k is He El).
    apply (star_ext (cv n) (cv n) (children t n) (csize X) (shX n) (fun c k => tval X c is [k]) (msg n)); auto; [apply NoDup_children| |].
    - intros m Hm. apply in_children in Hm; auto. symmetry. apply (sh_child X r O); auto.
    - intros m j Hm _. apply in_children in Hm; auto. rewrite (msg_child n m j Hm). auto.
  Qed.
  Lemma tval_star_root : tval X r is [] = star (cv r) (chp t r) (shX r) (msg r) (fun _ => 0%nat).
  Proof.
    rewrite (tval_esum_root X r O is (fun _ => 0%nat)) by (apply w_int).
    assert (Hr : node t r) by apply T. transitivity (star (cv r) (children t r) (shX r) (msg r) (fun _ => 0%nat)); [|rewrite (chp_root t r T); reflexivity].
    apply (star_ext (cv r) (cv r) (children t r) (csize X) (shX r) (fun c k => tval X c is [k]) (msg r)); auto; [apply NoDup_children| |].
    - intros m Hm. apply in_children in Hm; auto. symmetry. apply (sh_child X r O); auto.
    - intros m j Hm _. apply in_children in Hm; auto. rewrite (msg_child r m j Hm). auto.
  Qed.

  Lemma off_child n c : ~ below t n nod -> edge t n c -> ~ below t c nod.
  Proof. intros H He HB. apply H. apply below_step. right. eauto. Qed.
  (** the children in the new tree, for nodes of the old tree *)
  Lemma new_child n m : node t n -> is_leaf t n = false -> In m (children t' n) ->
    node t m /\ edge t' n m /\ ((edge t n m /\ ~ below t m nod) \/ (edge t m n /\ below t n nod)).
  Proof.
    intros Hn El Hm. assert (Hn' : node t' n) by (apply (nr_node t r nod V Hne); auto). apply in_children in Hm; auto.
    assert (Hmn : node t m).
    { assert (Hm' : node t' m) by apply Hm. apply (nr_node t r nod V Hne) in Hm'. destruct Hm' as [|[Eln ->]]; auto.
      apply (nr_new_edge t r nod V Hnod Hne) in Hm; auto. destruct Hm as [-> _]. congruence. }
    split; auto. split; auto. apply (nr_edge t r nod V Hnod Hne); auto.
  Qed.
  (** below the path nothing changes *)
  Lemma off_val n : node t n -> ~ below t n nod -> forall k, (k < csize X n)%nat -> tval Z n is [k] = tval X n is [k].
  Proof.
    revert n. apply (tree_up_ind t r T (fun n => ~ below t n nod -> forall k, (k < csize X n)%nat -> tval Z n is [k] = tval X n is [k])).
    intros n Hn IH Hb k Hk. assert (Hnr : n <> r) by (intros ->; apply Hb; apply T; auto).
    assert (Hnn : n <> nod) by (intros ->; apply Hb; apply below_refl).
    destruct (rt_has_parent t r T n Hn Hnr) as (p & Hp).
    assert (Hp' : edge t' p n) by (apply (nr_edge t r nod V Hnod Hne); auto; apply Hp).
    assert (Ha : active Z n = active X n) by (apply w_act; auto).
    destruct (is_leaf t n) eqn:El.
    - assert (El' : is_leaf (ttree Z) n = true).
      { rewrite ZT, (nr_leaf t r nod V Hnod Hne n Hn). destruct (Nat.eqb_spec n nod); [contradiction|auto]. }
      assert (Ei : index_of n (d2i (ttree Z)) = index_of n (d2i t)) by (rewrite ZT; apply (nr_index t r nod V Hne); auto).
      assert (Ec : core Z n = core X n) by (apply ZL; auto).
      pose proof vOZ as OZ. destruct (active X n) eqn:HaX.
      + rewrite (tval_leaf Z nod (proj1 OZ) n), (tval_leaf X r V n), Ei, Ec by auto. auto.
      + rewrite (tval_inactive Z nod (proj1 OZ) n), (tval_inactive X r V n), Ei by auto. auto.
    - pose proof vOZ as OZ. assert (Hn' : node t' n) by (apply (nr_node t r nod V Hne); auto).
      assert (El' : is_leaf (ttree Z) n = false).
      { rewrite ZT, (nr_leaf t r nod V Hnod Hne n Hn). destruct (Nat.eqb_spec n nod); [auto|auto]. }
      assert (HpZ : edge (ttree Z) p n) by (rewrite ZT; auto).
      rewrite (tval_esum Z nod OZ n p k is HpZ El'), (tval_esum X r O n p k is Hp El). rewrite ZT.
      change (star (fun f => get (core Z n) (map f (chp t' n))) (children t' n) (csize Z) (fun c k => tval Z c is [k]) (fun _ => k)
            = star (cv n) (children t n) (csize X) (fun c k => tval X c is [k]) (fun _ => k)).
      assert (HP : Permutation (children t' n) (children t n)).
      { apply NoDup_Permutation; [apply NoDup_children|apply NoDup_children|]. intros m. split; intros Hm.
        - destruct (new_child n m Hn El Hm) as (Hmn & _ & [[He _]|[_ C]]); [apply in_children; auto|contradiction].
        - apply in_children in Hm; auto. apply in_children; auto. apply (nr_edge t r nod V Hnod Hne); auto; [apply Hm|]. left. split; auto. apply (off_child n m); auto. }
      rewrite (star_perm _ _ (children t n)) by (auto; try apply NoDup_children; intros f g E; f_equal; apply map_ext; auto).
      assert (Hcs : forall m, In m (children t n) -> csize Z m = csize X m).
      { intros m Hm. pose proof (Permutation_in m (Permutation_sym HP) Hm) as Hm'. apply in_children in Hm; auto. destruct (new_child n m Hn El Hm') as (Hmn & He' & _).
        rewrite (w_csize n m) by auto. apply (sh_child X r O); auto. }
      apply star_ext; auto; [apply NoDup_children| |].
      + intros m j Hm Hj. rewrite (Hcs m Hm) in Hj. apply in_children in Hm; auto. apply IH; auto. apply (off_child n m); auto.
      + intros g G1 G2. apply (proj2 (ZC n Hn El)). intros m Hm. apply (in_chp t r T n m Hn) in Hm. destruct Hm as [Hm|Hm].
        * rewrite (sh_child X r O n m Hm). rewrite <- Hcs by (apply in_children; auto). apply G1. apply in_children; auto.
        * assert (m = p) as -> by (apply (rt_uniq t r T m p n); auto). rewrite G2 by (intros C; apply in_children in C; auto; apply (edge_asym t r T _ _ C Hp)).
          rewrite <- (w_sym p n Hp) by (apply (ok_internal X r O); auto). rewrite (sh_child X r O p n Hp). auto.
  Qed.
  (** the messages in the new tree *)
  Lemma new_msg n m k : node t n -> is_leaf t n = false -> In m (children t' n) -> (k < shX n m)%nat -> tval Z m is [k] = msg n m k.
  Proof.
    intros Hn El Hm Hk. destruct (new_child n m Hn El Hm) as (Hmn & He' & [[He Hb]|[He Hb]]).
    - rewrite (msg_child n m k He). apply off_val; auto. rewrite <- (sh_child X r O n m He). auto.
    - rewrite (msg_parent n m k He). auto.
  Qed.
  Lemma new_core n (L : list nat) k : node t n -> is_leaf t n = false -> (forall m, In m (chp t n) -> ~ In m L -> (k < shX n m)%nat) ->
    forall g, (forall a, In a L -> (g a < shX n a)%nat) -> (forall a, ~ In a L -> g a = k) -> get (core Z n) (map g (chp t' n)) = cv n g.
  Proof.
    intros Hn El HL g G1 G2. apply (proj2 (ZC n Hn El)). intros m Hm. destruct (in_dec Nat.eq_dec m L) as [Hi|Hi]; auto. rewrite G2; auto.
  Qed.
  (** on the path: the value of p (below c in the new tree) *)
  Lemma tval_star_Z p c k : edge t p c -> below t c nod -> (k < shX p c)%nat ->
    tval Z p is [k] = star (cv p) (children t' p) (shX p) (msg p) (fun _ => k).
  Proof.
    intros He Hb Hk. assert (Hp : node t p) by apply He. pose proof (edge_internal X r O p c He) as El. pose proof vOZ as OZ.
    assert (Hc' : edge t' c p) by (apply (nr_edge t r nod V Hnod Hne); auto; apply He).
    assert (Hpn : p <> nod) by (intros ->; apply (rt_no_edge t' nod vT _ Hc')).
    assert (El' : is_leaf (ttree Z) p = false).
    { rewrite ZT, (nr_leaf t r nod V Hnod Hne p Hp). destruct (Nat.eqb_spec p nod); [auto|auto]. }
    assert (HcZ : edge (ttree Z) c p) by (rewrite ZT; auto).
    rewrite (tval_esum Z nod OZ p c k is HcZ El'). rewrite ZT.
    apply (star_ext (fun f => get (core Z p) (map f (chp t' p))) (cv p) (children t' p) (csize Z) (shX p) (fun c k => tval Z c is [k]) (msg p)); [apply NoDup_children| | |].
    - intros m Hm. destruct (new_child p m Hp El Hm) as (Hmn & He' & _). apply w_csize; auto.
    - intros m j Hm Hj. apply new_msg; auto. destruct (new_child p m Hp El Hm) as (Hmn & He' & _).
      rewrite (w_csize p m) in Hj; auto.
    - intros g G1 G2. apply (new_core p (children t' p) k); auto.
      + intros m Hm Hi. assert (m = c) as ->; auto.
        assert (HPP : Permutation (chp t p) (chp t' p)) by (apply (nr_nb X r nod O Hnod Hne H2); auto).
        apply (Permutation_in m HPP) in Hm. rewrite (chp_node t' nod vT p c Hc') in Hm. apply in_app_or in Hm. destruct Hm as [|[|[]]]; auto. contradiction.
      + intros a Ha. destruct (new_child p a Hp El Ha) as (Hmn & He' & _).
        rewrite <- (w_csize p a) by auto. apply G1; auto.
  Qed.
  Lemma tval_star_new : is_leaf t nod = false -> tval Z nod is [] = star (cv nod) (chp t nod) (shX nod) (msg nod) (fun _ => 0%nat).
  Proof.
    intros El. pose proof vOZ as OZ. assert (El' : is_leaf (ttree Z) nod = false).
    { rewrite ZT, (nr_leaf t r nod V Hnod Hne nod Hnod). rewrite Nat.eqb_refl. auto. }
    rewrite (tval_esum_root Z nod OZ is (fun _ => 0%nat) El'). rewrite ZT.
    assert (HPP : Permutation (chp t nod) (chp t' nod)) by (apply (nr_nb X r nod O Hnod Hne H2); auto; intros E; congruence).
    rewrite (chp_root t' nod vT) in HPP.
    rewrite (star_perm (cv nod) (chp t nod) (children t' nod)); auto; [|apply cv_resp|apply (NoDup_chp t r T); auto].
    apply (star_ext (fun f => get (core Z nod) (map f (chp t' nod))) (cv nod) (children t' nod) (csize Z) (shX nod) (fun c k => tval Z c is [k]) (msg nod)); [apply NoDup_children| | |].
    - intros m Hm. destruct (new_child nod m Hnod El Hm) as (Hmn & He' & _). apply w_csize; auto.
    - intros m j Hm Hj. apply new_msg; auto. destruct (new_child nod m Hnod El Hm) as (Hmn & He' & _).
      rewrite (w_csize nod m) in Hj; auto.
    - intros g G1 G2. apply (new_core nod (children t' nod) 0%nat); auto.
      + intros m Hm Hi. exfalso. apply Hi. apply (Permutation_in m HPP Hm).
      + intros a Ha. destruct (new_child nod a Hnod El Ha) as (Hmn & He' & _).
        rewrite <- (w_csize nod a) by auto. apply G1; auto.
  Qed.

  Local Notation St n := (star (cv n) (chp t n) (shX n) (msg n) (fun _ => 0%nat)).
  (** cutting the edge between p and c *)
  Lemma cut_above p c : edge t p c -> below t c nod -> St p = rsum (shX p c) (fun k => tval X c is [k] * tval Z p is [k]).
  Proof.
    intros He Hb. assert (Hp : node t p) by apply He. pose proof (edge_internal X r O p c He) as El.
    assert (Hc' : edge t' c p) by (apply (nr_edge t r nod V Hnod Hne); auto; apply He).
    assert (Hpn : p <> nod) by (intros ->; apply (rt_no_edge t' nod vT _ Hc')).
    assert (HPP : Permutation (chp t p) (c :: children t' p)).
    { apply (Permutation_trans (l' := chp t' p)); [apply (nr_nb X r nod O Hnod Hne H2); auto|]. rewrite (chp_node t' nod vT p c Hc').
      apply Permutation_sym, Permutation_cons_append. }
    rewrite (star_pull (cv p) (chp t p) c (children t' p)); auto; [|apply cv_resp|apply (NoDup_chp t r T); auto|apply cv_dep].
    apply rsum_ext. intros k Hk. rewrite (msg_child p c k He). f_equal. symmetry. apply (tval_star_Z p c k); auto.
  Qed.
  Lemma cut_below p c : edge t p c -> is_leaf t c = false -> St c = rsum (shX c p) (fun k => tval Z p is [k] * tval X c is [k]).
  Proof.
    intros He El. assert (Hc : node t c) by apply He.
    rewrite (star_pull (cv c) (chp t c) p (children t c)); auto; [|apply cv_resp|apply (NoDup_chp t r T); auto| |apply cv_dep].
    - apply rsum_ext. intros k Hk. rewrite (msg_parent c p k He). f_equal. symmetry. apply (tval_star_X p c k); auto.
    - rewrite (chp_node t r T c p He). apply Permutation_sym, Permutation_cons_append.
  Qed.
  Lemma path_star n : node t n -> below t n nod -> is_leaf t n = false -> St n = tval X r is [].
  Proof.
    revert n. apply (tree_down_ind t r T (fun n => below t n nod -> is_leaf t n = false -> St n = tval X r is [])).
    - intros _ _. symmetry. apply tval_star_root.
    - intros p c IH He Hb El. rewrite (cut_below p c He El). rewrite <- IH; [|apply below_step; right; eauto|apply (edge_internal X r O p c He)].
      rewrite (cut_above p c He Hb). rewrite (w_sym p c He) by (apply (ok_internal X r O); auto; apply He).
      apply rsum_ext. intros k _. ring.
  Qed.
  Theorem root_val : tval Z nod is [] = tval X r is [].
  Proof.
    destruct (bool_cases (is_leaf t nod)) as [El|El].
    2:{ rewrite tval_star_new by auto. apply path_star; auto. apply below_refl. }
    destruct (rt_has_parent t r T nod Hnod Hne) as (p & He).
    rewrite <- (path_star p) by (try apply He; try apply (edge_internal X r O p nod He); apply below_step; right; exists nod; split; auto; apply below_refl).
    rewrite (cut_above p nod He) by apply below_refl.
    pose proof vOZ as OZ. assert (El' : is_leaf (ttree Z) nod = false).
    { rewrite ZT, (nr_leaf t r nod V Hnod Hne nod Hnod). rewrite Nat.eqb_refl. auto. }
    assert (HnZ : node (ttree Z) nod) by (rewrite ZT; apply (nr_node t r nod V Hne); auto).
    rewrite (tval_internal Z nod (proj1 OZ) nod is []) by auto.
    assert (Hh : heads Z nod = shape (core Z nod)).
    { rewrite (ok_shape Z nod HnZ) by (apply (ok_root Z nod OZ)). rewrite w_exts, app_nil_r. auto. }
    rewrite Hh, ZT, (nr_children_leaf X r nod O Hnod Hne H2 p El He), (proj1 (ZD El)). cbn [bsum].
    rewrite (w_sym p nod He Hact). replace (shX nod p) with (last (shape (core X nod)) 0%nat) by (unfold sh; rewrite El; auto).
    apply rsum_ext. intros k Hk.
    set (i0 := nth (index_of nod (d2i t)) is 0%nat).
    assert (Hi0 : (i0 < nth 0 (shape (core X nod)) 0)%nat).
    { pose proof (valid_leaf_index X is nod His El) as H. unfold tb_size in H. rewrite Hact in H. exact H. }
    assert (Hnew : forall i, tval Z (nbn t + 1) is [i] = if (i =? i0)%nat then r1 else r0).
    { intros i. assert (Ell : is_leaf (ttree Z) (nbn t + 1) = true).
      { apply (leaf_iff (ttree Z) nod (proj1 OZ)). rewrite ZT. split; [apply (nr_node t r nod V Hne); auto|].
        intros c Hc. apply (nr_new_edge t r nod V Hnod Hne) in Hc; auto. unfold node in Hnod. lia. }
      rewrite (tval_inactive Z nod (proj1 OZ)) by (auto; apply (w_new El)).
      rewrite ZT, (nr_index_new t r nod V Hne El). fold i0. cbn [list_eqb]. destruct (Nat.eqb_spec i i0); auto. }
    rewrite (rsum_ext _ _ (fun i => (if (i =? i0)%nat then r1 else r0) * (get (core X nod) [i; k] * tval Z p is [k]))).
    - rewrite rsum_delta_mul by auto. rewrite (tval_leaf X r V nod is [k]) by auto. auto.
    - intros i Hi. cbn [combine lprod fst snd app]. rewrite Hnew. rewrite (proj1 (proj2 (ZD El))) by auto. ring.
  Qed.
End Val.
