(** Proofs for Model/FuncGrad.v: the branch for tensors with inactive nodes computes the same contracted tensor. *)
From Coq Require Import List Arith Lia Bool Permutation.
From Verif.Base Require Import ListAux CRing Index.
From Verif.Model Require Import Numpy FullTensor DimensionTree TreeBased TreeEval TreeReduce HsvdTree TreeGrad FuncGrad.
From Verif.Spec Require Import TensorSpec TreeSpec TreeTensorSpec GradSpec FuncGradSpec.
From Verif.Proofs Require Import NumpyP FullTensorP DimTreeP TreeTensorP TreeTensorP3 TreeTensorP4 TreeTensorP23.
Import ListNotations.
Local Open Scope cr_scope.

Lemma NoDup_map_on {A} (f : A -> nat) l : NoDup l -> (forall x y, In x l -> In y l -> f x = f y -> x = y) -> NoDup (map f l).
Proof.
  induction 1 as [|x l Hx Hl IH]; intros H; cbn; constructor.
  - intros Hin. apply in_map_iff in Hin. destruct Hin as (y & E & Hy). apply Hx. rewrite (H x y); simpl; auto.
  - apply IH. intros a b Ha Hb. apply H; simpl; auto.
Qed.

Section FuncGradP0.
  Context {R : Type} {CR : CRing R}.
  (** independent updates of a list of cores *)
  Lemma fold_set (tg : nat -> nat) (F : nat -> nd R -> option (nd R)) es : forall l, NoDup (map tg es) -> (forall e, In e es -> (1 <= tg e <= length l)%nat) ->
    match ofold (fun l e => let* A := F e (nthc l (tg e)) in Some (setc (tg e) A l)) es l with
    | Some k => length k = length l /\ (forall e, In e es -> F e (nthc l (tg e)) = Some (nthc k (tg e))) /\ forall m, (1 <= m)%nat -> ~ In m (map tg es) -> nthc k m = nthc l m
    | None => exists e, In e es /\ F e (nthc l (tg e)) = None
    end.
  Proof.
    induction es as [|e es IH]; intros l ND HR; cbn [ofold]; [split; auto; split; auto; intros ? []|].
    cbn [map] in ND. inversion ND as [|? ? Hni ND']; subst. destruct (F e (nthc l (tg e))) as [A|] eqn:EF; cbn [bind]; [|exists e; simpl; auto].
    assert (He : (1 <= tg e <= length l)%nat) by (apply HR; simpl; auto).
    assert (K : forall x, In x es -> nthc (setc (tg e) A l) (tg x) = nthc l (tg x)).
    { intros x Hx. rewrite nthc_setc; [|auto|apply HR; simpl; auto]. destruct (Nat.eqb_spec (tg x) (tg e)) as [E|]; auto. exfalso. apply Hni. rewrite <- E. apply in_map. auto. }
    specialize (IH (setc (tg e) A l) ND'). assert (HL : forall x, In x es -> (1 <= tg x <= length (setc (tg e) A l))%nat) by (intros x Hx; rewrite setc_length; apply HR; simpl; auto). specialize (IH HL).
    destruct (ofold _ es (setc (tg e) A l)) as [k|] eqn:EO in IH |- *.
    - destruct IH as (I1 & I2 & I3). rewrite setc_length in I1. split; auto. split.
      + intros x [<-|Hx].
        * rewrite EF. f_equal. rewrite I3 by (auto; lia). rewrite nthc_setc by lia. rewrite Nat.eqb_refl. auto.
        * rewrite <- K by auto. apply I2; auto.
      + intros m Hm Hn. rewrite I3; [|auto|intros H; apply Hn; right; auto]. rewrite nthc_setc by lia. destruct (Nat.eqb_spec m (tg e)) as [->|]; auto. exfalso. apply Hn. left. auto.
    - destruct IH as (x & Hx & Ex). exists x. split; [right; auto|]. rewrite <- K by auto. auto.
  Qed.
  Variables (X : tbt R) (r : nat) (Bs : list (nd R)) (dims : list nat).
  Hypothesis O : tb_ok X r.
  Hypothesis FI : few_inactive X.
  Hypothesis ND : NoDup dims.
  Hypothesis HD : Forall (fun k => (k < tb_order X)%nat) dims.
  Hypothesis H2 : (2 <= tb_order X)%nat.
  Local Notation t := (ttree X).
  Local Notation leaf mu := (nth mu (d2i t) 0%nat).
  Local Notation B mu := (nth mu Bs (scalar r0)).
  Lemma dims_node mu : In mu dims -> node t (leaf mu) /\ is_leaf t (leaf mu) = true /\ (active X (leaf mu) = false -> edge t (parent t (leaf mu)) (leaf mu)) /\ index_of (leaf mu) (d2i t) = mu.
  Proof.
    intros Hmu. rewrite Forall_forall in HD. pose proof (HD mu Hmu) as Hl. unfold tb_order in Hl. assert (L : is_leaf t (leaf mu) = true) by (apply d2i_leaf; auto).
    pose proof (leaf_node t r (proj1 O) _ L) as N. split; auto. split; auto. split; [|apply index_of_NoDup; auto; apply (NoDup_d2i t r (proj1 O))].
    intros _. apply (parent_is_edge t r (proj1 (proj1 O))); auto. intros E. rewrite E in L. rewrite (root_not_leaf X r O H2) in L. discriminate.
  Qed.
  Lemma leaf_inj mu nu : In mu dims -> In nu dims -> leaf mu = leaf nu -> mu = nu.
  Proof. intros H1 H2' E. rewrite <- (proj2 (proj2 (proj2 (dims_node mu H1)))), <- (proj2 (proj2 (proj2 (dims_node nu H2')))), E. auto. Qed.
  Lemma edge_not_leaf p c : edge t p c -> is_leaf t p = false.
  Proof. intros E. destruct (is_leaf t p) eqn:L; auto. apply (leaf_iff t r (proj1 O)) in L. destruct L as [_ L]. exfalso. exact (L c E). Qed.
  Lemma target_inj mu nu : In mu dims -> In nu dims -> target X mu = target X nu -> mu = nu.
  Proof.
    intros H1 H2' E. destruct (dims_node mu H1) as (N1 & L1 & E1 & _). destruct (dims_node nu H2') as (N2 & L2 & E2 & _). unfold target in E.
    destruct (active X (leaf mu)) eqn:A1, (active X (leaf nu)) eqn:A2.
    - apply leaf_inj; auto.
    - specialize (E2 eq_refl). rewrite <- E in E2. apply edge_not_leaf in E2. congruence.
    - specialize (E1 eq_refl). rewrite E in E1. apply edge_not_leaf in E1. congruence.
    - apply leaf_inj; auto. apply (FI (parent t (leaf mu))); auto. rewrite E. auto.
  Qed.
  Lemma target_node mu : In mu dims -> node t (target X mu).
  Proof. intros H. destruct (dims_node mu H) as (N & L & E & _). unfold target. destruct (active X (leaf mu)) eqn:A; auto. destruct (E eq_refl) as (K & _). exact K. Qed.

  Lemma fg_inactive_tmp H : tb_tmp X (map (fun mu => B mu) dims) (Some dims) = Some H -> fg_inactive X Bs dims = Some H.
  Proof.
    unfold tb_tmp. rewrite map_length, Nat.eqb_refl. pose proof (ok_cores_length X r O) as LC.
    set (F := fun mu A => ft_tensor_matrix_product A [B mu] (Some [target_axis X mu])).
    assert (EF : ofold (fun l mu => dim_step X (fun A d => ft_tensor_matrix_product A [nth (index_of mu dims) (map (fun mu => B mu) dims) (scalar r0)] (Some [d])) l mu) dims (cores X)
               = ofold (fun l mu => let* A := F mu (nthc l (target X mu)) in Some (setc (target X mu) A l)) dims (cores X)).
    { assert (G : forall es, incl es dims -> forall l, ofold (fun l mu => dim_step X (fun A d => ft_tensor_matrix_product A [nth (index_of mu dims) (map (fun mu => B mu) dims) (scalar r0)] (Some [d])) l mu) es l
               = ofold (fun l mu => let* A := F mu (nthc l (target X mu)) in Some (setc (target X mu) A l)) es l); [|apply G, incl_refl].
      induction es as [|mu es IH]; intros HI l; cbn [ofold]; auto. assert (Hmu : In mu dims) by (apply HI; simpl; auto). assert (IH' := IH (fun x Hx => HI x (or_intror Hx))).
      assert (E : dim_step X (fun A d => ft_tensor_matrix_product A [nth (index_of mu dims) (map (fun mu => B mu) dims) (scalar r0)] (Some [d])) l mu = let* A := F mu (nthc l (target X mu)) in Some (setc (target X mu) A l)).
      { unfold dim_step. rewrite Forall_forall in HD. rewrite (proj2 (Nat.ltb_lt _ _) (HD mu Hmu)). unfold F, target, target_axis. destruct (index_of_nth dims mu Hmu) as [L1 L2].
        rewrite (map_nth_in (fun mu => B mu) dims _ 0%nat (scalar r0)) by auto. rewrite L2. destruct (active X (leaf mu)); auto. }
      rewrite E. destruct (let* A := F mu (nthc l (target X mu)) in Some (setc (target X mu) A l)); auto. }
    rewrite EF. clear EF.
    assert (NDT : NoDup (map (target X) dims)) by (apply NoDup_map_on; auto; apply target_inj).
    pose proof (fold_set (target X) F dims (cores X) NDT) as FS. assert (RT : forall e, In e dims -> (1 <= target X e <= length (cores X))%nat) by (intros e He; rewrite LC; apply target_node; auto).
    specialize (FS RT). destruct (ofold _ dims (cores X)) as [k|] in FS |- *; [|discriminate]. cbn [bind]. destruct FS as (K1 & K2 & K3). intros EM.
    unfold fg_inactive. cbv zeta. set (lv := map (fun mu => leaf mu) dims). set (al := filter (fun n => inb n lv) (active_nodes X)). set (inl := filter (fun n => negb (active X n)) lv).
    set (pl := filter (fun p => inb p (map (parent t) inl)) (nodes t)).
    (* the active leaves *)
    assert (AL : forall n, In n al -> exists mu, In mu dims /\ n = leaf mu /\ active X n = true).
    { intros n Hn. apply filter_In in Hn. destruct Hn as [Hn Hl]. apply inb_spec in Hl. apply in_map_iff in Hl. destruct Hl as (mu & <- & Hmu). exists mu. split; auto. split; auto. unfold active_nodes in Hn. apply filter_In in Hn. tauto. }
    set (F1 := fun n (_ : nd R) => ft_tensor_matrix_product (core X n) [nth (index_of n (d2i t)) Bs (scalar r0)] (Some [0%nat])).
    assert (NDA : NoDup (map (fun n => n) al)) by (rewrite map_id; apply NoDup_filter; unfold active_nodes; apply NoDup_filter, NoDup_nodes).
    pose proof (fold_set (fun n => n) F1 al (cores X) NDA) as FS1. assert (RA : forall e, In e al -> (1 <= e <= length (cores X))%nat) by (intros e He; destruct (AL e He) as (mu & Hmu & -> & _); rewrite LC; exact (proj1 (dims_node mu Hmu))).
    specialize (FS1 RA). change (ofold _ al (cores X)) with (ofold (fun l e => let* A := F1 e (nthc l e) in Some (setc e A l)) al (cores X)).
    assert (KA : forall n, In n al -> F1 n (nthc (cores X) n) = Some (nthc k n)).
    { intros n Hn. destruct (AL n Hn) as (mu & Hmu & -> & Ac). specialize (K2 mu Hmu). unfold F, target, target_axis in K2. rewrite Ac in K2. unfold F1. rewrite (proj2 (proj2 (proj2 (dims_node mu Hmu)))). exact K2. }
    destruct (ofold _ al (cores X)) as [l1|] in FS1 |- *; [|exfalso; destruct FS1 as (e & He & Ee); rewrite KA in Ee by auto; discriminate]. cbn [bind]. destruct FS1 as (M1 & M2 & M3).
    (* the parents of the inactive leaves *)
    assert (PL : forall p, In p pl -> exists mu, In mu dims /\ active X (leaf mu) = false /\ p = parent t (leaf mu) /\ filter (fun c => inb c inl) (children t p) = [leaf mu]).
    { intros p Hp. apply filter_In in Hp. destruct Hp as [Hp Hi]. apply inb_spec in Hi. apply in_map_iff in Hi. destruct Hi as (c & <- & Hc). apply filter_In in Hc. destruct Hc as [Hc Ac]. apply negb_true_iff in Ac.
      apply in_map_iff in Hc. destruct Hc as (mu & <- & Hmu). exists mu. split; auto. split; auto. split; auto. destruct (dims_node mu Hmu) as (N & L & E & _). specialize (E Ac).
      assert (Hpn : node t (parent t (leaf mu))) by (destruct E; auto). assert (Hin : In (leaf mu) (children t (parent t (leaf mu)))) by (apply in_children; auto).
      assert (NDc : NoDup (filter (fun c => inb c inl) (children t (parent t (leaf mu))))) by (apply NoDup_filter, NoDup_children).
      assert (AllEq : forall c, In c (filter (fun c => inb c inl) (children t (parent t (leaf mu)))) -> c = leaf mu).
      { intros c Hc. apply filter_In in Hc. destruct Hc as [Hc Hl]. apply inb_spec in Hl. apply filter_In in Hl. destruct Hl as [_ Hl]. apply negb_true_iff in Hl. apply (FI (parent t (leaf mu))); auto. apply in_children; auto. }
      assert (Hmem : In (leaf mu) (filter (fun c => inb c inl) (children t (parent t (leaf mu))))).
      { apply filter_In. split; auto. apply inb_spec. apply filter_In. split; [unfold lv; apply (in_map (fun mu => leaf mu)); auto|rewrite Ac; auto]. }
      destruct (filter (fun c => inb c inl) (children t (parent t (leaf mu)))) as [|c1 [|c2 l]]; [contradiction| |].
      - f_equal. apply AllEq. simpl; auto.
      - exfalso. inversion NDc as [|? ? Hn _]; subst. apply Hn. rewrite (AllEq c1), (AllEq c2) by (simpl; auto). simpl; auto. }
    set (F2 := fun p (_ : nd R) => match filter (fun c => inb c inl) (children t p) with
                                 | [c] => ft_tensor_matrix_product (core X p) [nth (index_of c (d2i t)) Bs (scalar r0)] (Some [(child_number t c - 1)%nat])
                                 | _ => None
                                 end).
    assert (NDP : NoDup (map (fun n => n) pl)) by (rewrite map_id; apply NoDup_filter, NoDup_nodes).
    pose proof (fold_set (fun n => n) F2 pl l1 NDP) as FS2. assert (RP : forall e, In e pl -> (1 <= e <= length l1)%nat) by (intros e He; apply filter_In in He; destruct He as [He _]; apply in_nodes in He; rewrite M1, LC; exact He).
    specialize (FS2 RP).
    assert (EQ2 : ofold (fun l p => match filter (fun c => inb c inl) (children t p) with
                                 | [c] => let* A := ft_tensor_matrix_product (core X p) [nth (index_of c (d2i t)) Bs (scalar r0)] (Some [(child_number t c - 1)%nat]) in Some (setc p A l)
                                 | _ => None
                                 end) pl l1 = ofold (fun l e => let* A := F2 e (nthc l e) in Some (setc e A l)) pl l1).
    { generalize l1 pl. intros l pl'. revert l. induction pl' as [|p pl' IH]; intros l; cbn [ofold]; auto. unfold F2 at 1. destruct (filter (fun c => inb c inl) (children t p)) as [|c [|c' cs]]; cbn [bind]; auto.
      destruct (ft_tensor_matrix_product (core X p) [nth (index_of c (d2i t)) Bs (scalar r0)] (Some [(child_number t c - 1)%nat])); cbn [bind]; auto. }
    rewrite EQ2. clear EQ2.
    assert (KP : forall p z, In p pl -> F2 p z = Some (nthc k p)).
    { intros p z Hp. destruct (PL p Hp) as (mu & Hmu & Ac & -> & Ef). unfold F2. rewrite Ef. specialize (K2 mu Hmu). unfold F, target, target_axis in K2. rewrite Ac in K2. rewrite (proj2 (proj2 (proj2 (dims_node mu Hmu)))). exact K2. }
    destruct (ofold _ pl l1) as [l2|] in FS2 |- *; [|exfalso; destruct FS2 as (e & He & Ee); rewrite KP in Ee by auto; discriminate]. cbn [bind]. destruct FS2 as (Q1 & Q2 & Q3).
    replace l2 with k; auto.
    apply nth_ext' with (d := no_core); [congruence|]. intros i Hi. change (nthc k (S i) = nthc l2 (S i)) || (assert (GG : nthc k (S i) = nthc l2 (S i)); [|unfold nthc in GG; rewrite Nat.sub_succ, Nat.sub_0_r in GG; exact GG]).
    assert (Hn : node t (S i)) by (rewrite K1, LC in Hi; unfold node; lia).
    destruct (in_dec Nat.eq_dec (S i) pl) as [Hp|Hp].
    - specialize (Q2 (S i) Hp). rewrite KP in Q2 by auto. congruence.
    - rewrite Q3 by (rewrite ?map_id; auto; lia). destruct (in_dec Nat.eq_dec (S i) al) as [Hal|Hal].
      + specialize (M2 (S i) Hal). rewrite KA in M2 by auto. congruence.
      + rewrite M3 by (rewrite ?map_id; auto; lia). apply K3; [lia|]. intros Ht. apply in_map_iff in Ht. destruct Ht as (mu & Et & Hmu). unfold target in Et. destruct (active X (leaf mu)) eqn:Ac.
        * apply Hal. apply filter_In. split; [unfold active_nodes; apply filter_In; split; [apply in_nodes; auto|rewrite <- Et; auto]|]. apply inb_spec. rewrite <- Et. apply (in_map (fun mu => leaf mu)); auto.
        * apply Hp. apply filter_In. split; [apply in_nodes; auto|]. apply inb_spec. rewrite <- Et. apply in_map. apply filter_In. split; [apply (in_map (fun mu => leaf mu)); auto|rewrite Ac; auto].
  Qed.
End FuncGradP0.
Lemma siblings_unique t r : dim_tree t r -> siblings t -> unique_children t = [].
Proof.
  intros V HS. destruct (unique_children t) as [|c l] eqn:E; auto. exfalso. assert (Hc : In c (unique_children t)) by (rewrite E; simpl; auto). apply uniq_spec in Hc. destruct Hc as (p & Hp & Ep).
  assert (He : edge t p c) by (apply (in_children t p c Hp); rewrite Ep; simpl; auto). destruct (HS p c He) as (c' & He' & NE). apply (in_children t p c' Hp) in He'. rewrite Ep in He'. destruct He' as [|[]]; congruence.
Qed.
