(** Changing the root: the function. *)
From Coq Require Import List Arith Lia Bool Ring Permutation.
From Verif.Base Require Import ListAux CRing Index.
From Verif.Model Require Import Sorting Numpy FullTensor DimensionTree TreeBased TreeRoot.
From Verif.Spec Require Import TensorSpec TreeSpec TreeTensorSpec.
From Verif.Proofs Require Import NumpyP FullTensorP DimTreeP DimTreeP4 RandomTreeP TreeTensorP TreeTensorP4 TreeTensorP9 TreeTensorP11 TreeRootP1 TreeRootP2 TreeRootP3 TreeRootP4.
Import ListNotations.

Section Fun.
  Context {R : Type} {CR : CRing R}.
  Variables (X : tbt R) (r nod : nat).
  Hypothesis O : tb_ok X r.
  Hypothesis HE : exts X r = [].
  Hypothesis Hnod : node (ttree X) nod.
  Hypothesis Hne : nod <> r.
  Hypothesis Hact : active X nod = true.
  Hypothesis H2 : 2 <= length (children (ttree X) r).
  Local Notation t := (ttree X).
  Local Notation t' := (dt_change_root (ttree X) nod).
  Let V : dim_tree t r := proj1 O.
  Let T : rooted_tree t r := proj1 V.

  Lemma root_rank1 : tb_rank X r = 1.
  Proof.
    unfold tb_rank. pose proof (r_internal X r nod O Hne H2) as El. rewrite El, (parent_root t r T). cbn [Nat.eqb negb orb].
    assert (Hr : node t r) by apply T. pose proof (chp_length X r nod O HE Hne H2 r Hr El) as L. rewrite (chp_root t r T) in L. unfold ndim. rewrite L.
    destruct (Nat.eqb_spec (length (children t r)) (length (children t r) + 1)); [lia|auto].
  Qed.
  Let f := fun k => if inb k (dt_modified t nod) && (active X k && negb (is_leaf t k))
                    then ft_transpose (core X k) (where_cat (chp t k) (chp t' k)) else Some (core X k).
  Lemma f_leaf n : is_leaf t n = true -> f n = Some (core X n).
  Proof. intros El. unfold f. rewrite El. cbn [negb]. rewrite !andb_false_r. auto. Qed.
  Lemma f_internal n : node t n -> is_leaf t n = false -> exists B, f n = Some B /\ shape B = map (sh X n) (chp t' n) /\
    forall g, (forall m, In m (chp t n) -> g m < sh X n m) -> get B (map g (chp t' n)) = get (core X n) (map g (chp t n)).
  Proof.
    intros Hn El. unfold f. rewrite (ok_internal X r O n Hn El), El. cbn [negb andb]. rewrite andb_true_r. destruct (inb n (dt_modified t nod)) eqn:Ei.
    - assert (HP : Permutation (chp t n) (chp t' n)) by (apply (nr_nb X r nod O Hnod Hne H2 n Hn); intros E ->; congruence).
      pose proof (NoDup_chp t r T n Hn) as ND. pose proof (chp_length X r nod O HE Hne H2 n Hn El) as L.
      destruct (transpose_labels (core X n) (chp t n) (chp t' n) ND HP L) as (B & E & S & G). exists B. split; auto. split.
      + rewrite S. unfold sh. rewrite El. auto.
      + intros g Hg. apply G. intros x Hx. specialize (Hg x Hx). unfold sh in Hg. rewrite El in Hg. auto.
    - apply inb_false in Ei. destruct (modified_ok t r nod V Hnod) as (_ & _ & M). destruct (M n Hn Ei) as [M1 M2].
      assert (E : chp t' n = chp t n) by (unfold chp; rewrite M1, M2; auto). exists (core X n). rewrite E. split; auto. split; auto. apply (sh_shape X r nod O HE Hne H2 n Hn El).
  Qed.
  Definition rel_root (Z : tbt R) : Prop := tb_ok Z nod /\ exts Z nod = [] /\ tb_shape Z = tb_shape X /\ (forall n, node t n -> active Z n = active X n) /\
    forall is, valid (tb_shape X) is -> tval Z nod is [] = tval X r is [].
  Lemma change_root_rel : exists Z, tb_change_root X nod = Some Z /\ ttree Z = t' /\ rel_root Z.
  Proof.
    unfold tb_change_root. rewrite (root_eq t r T). destruct (Nat.eqb_spec nod r) as [|_]; [contradiction|]. rewrite Hact, root_rank1. cbn [Nat.ltb Nat.leb].
    change (omap (fun k => if inb k (dt_modified t nod) && (active X k && negb (is_leaf t k)) then ft_transpose (core X k) (where_cat (chp t k) (chp t' k)) else Some (core X k)) (nodes t)) with (omap f (nodes t)).
    destruct (omap_nodes f t) as (l & Hl & HL & HC).
    { intros n Hn. destruct (is_leaf t n) eqn:El; [rewrite (f_leaf n El); eauto|]. destruct (f_internal n Hn El) as (B & E & _). eauto. }
    rewrite Hl. cbn [bind]. pose proof (nr_nbn t r nod V Hne) as NB.
    assert (FIN : forall Z, ttree Z = t' -> length (cores Z) = nbn t' ->
      (forall n, node t n -> is_leaf t n = false \/ n <> nod -> core Z n = nthc l n) ->
      (is_leaf t nod = true -> shape (core Z nod) = [last (shape (core X nod)) 0; nth 0 (shape (core X nod)) 0] /\
        (forall i k, i < nth 0 (shape (core X nod)) 0 -> k < last (shape (core X nod)) 0 -> get (core Z nod) [k; i] = get (core X nod) [i; k]) /\
        core Z (nbn t + 1) = no_core) -> rel_root Z).
    { intros Z ZT ZN ZC0 ZD.
      assert (ZC : forall n, node t n -> is_leaf t n = false -> shape (core Z n) = map (sh X n) (chp t' n) /\
        forall g, (forall m, In m (chp t n) -> g m < sh X n m) -> get (core Z n) (map g (chp t' n)) = get (core X n) (map g (chp t n))).
      { intros n Hn El. rewrite (ZC0 n Hn (or_introl El)). destruct (f_internal n Hn El) as (B & E & S & G). rewrite (HC n Hn) in E. injection E as ->. auto. }
      assert (ZL : forall n, node t n -> is_leaf t n = true -> n <> nod -> core Z n = core X n).
      { intros n Hn El Hnn. rewrite (ZC0 n Hn (or_intror Hnn)). pose proof (HC n Hn) as E. rewrite (f_leaf n El) in E. injection E as <-. auto. }
      split; [|split; [|split; [|split]]].
      - eapply root_ok; eauto.
      - eapply root_exts; eauto.
      - eapply root_shape; eauto.
      - eapply nz_active; eauto.
      - intros is His. eapply root_val; eauto. }
    destruct (is_leaf t nod) eqn:El.
    - destruct (rt_has_parent t r T nod Hnod Hne) as (p & Hp). assert (Hpn : node t p) by apply Hp.
      rewrite (parent_edge t r T p nod Hp), (nr_children_leaf X r nod O Hnod Hne H2 p El Hp). cbn [filter]. destruct (Nat.eqb_spec p 0) as [->|_]; [unfold node in Hpn; lia|]. cbn [negb].
      assert (Ec : nthc l nod = core X nod). { pose proof (HC nod Hnod) as E. rewrite (f_leaf nod El) in E. injection E as <-. auto. }
      pose proof (leaf_shape X r nod O Hnod Hne Hact El) as LS.
      assert (Hlt : p < nbn t + 1) by (unfold node in Hpn; lia).
      destruct (transpose_labels (nthc l nod) [nbn t + 1; p] [p; nbn t + 1]) as (B & E & S & G).
      { repeat constructor; cbn [In]; lia. }
      { apply perm_swap. }
      { rewrite Ec, LS. auto. }
      rewrite E. cbn [bind].
      assert (IX1 : index_of p [nbn t + 1; p] = 1) by (cbn [index_of]; destruct (Nat.eqb_spec (nbn t + 1) p); [lia|rewrite Nat.eqb_refl; auto]).
      assert (IX0 : index_of (nbn t + 1) [nbn t + 1; p] = 0) by (cbn [index_of]; rewrite Nat.eqb_refl; auto).
      set (Z := TB t' (setc nod B (l ++ [no_core]))).
      assert (N1 : 1 <= nod <= nbn t) by exact Hnod.
      assert (HZ : rel_root Z).
      { apply FIN; auto.
        - cbn [cores Z]. unfold setc. rewrite upd_length, app_length, HL, NB. auto.
        - intros n Hn [H|H]; [|].
          + assert (n <> nod) by congruence. unfold core, Z. cbn [cores]. unfold nthc, setc. unfold node in Hn. rewrite nth_upd_neq by lia. rewrite app_nth1 by lia. auto.
          + unfold core, Z. cbn [cores]. unfold nthc, setc. unfold node in Hn. rewrite nth_upd_neq by lia. rewrite app_nth1 by lia. auto.
        - intros _. assert (CB : core Z nod = B).
          { unfold core, Z. cbn [cores]. unfold nthc, setc. rewrite nth_upd_eq; auto. rewrite app_length. lia. }
          rewrite CB. split; [|split].
          + rewrite S. cbn [map]. rewrite IX1, IX0, Ec. rewrite LS. auto.
          + intros i k Hi Hk. specialize (G (fun x => if x =? p then k else i)). cbn [map] in G. rewrite Nat.eqb_refl in G.
            destruct (Nat.eqb_spec (nbn t + 1) p); [lia|]. rewrite Ec in G. apply G.
            intros x [<-|[<-|[]]].
            * rewrite IX0. destruct (Nat.eqb_spec (nbn t + 1) p); [lia|]. auto.
            * rewrite IX1, Nat.eqb_refl. rewrite LS. cbn [nth]. auto.
          + unfold core, Z. cbn [cores]. unfold nthc, setc. rewrite nth_upd_neq by lia. rewrite app_nth2 by lia. replace (nbn t + 1 - 1 - length l) with 0 by lia. auto. }
      exists Z. split; [|auto]. apply (tb_make_ok (setc nod B (l ++ [no_core])) t' nod (proj1 HZ)).
    - assert (HZ : rel_root (TB t' l)).
      { apply FIN; auto; [cbn [cores]; rewrite HL, NB; auto|]. intros E. discriminate E. }
      exists (TB t' l). split; [|auto]. apply (tb_make_ok l t' nod (proj1 HZ)).
  Qed.
  (** the full tensor does not change *)
  Theorem change_root_full A : 2 <= tb_order X -> tb_full X = Some A ->
    exists Z, tb_change_root X nod = Some Z /\ tb_ok Z nod /\ ttree Z = t' /\ tb_shape Z = tb_shape X /\ (forall n, node t n -> active Z n = active X n) /\
      returns (tb_full Z) (shape A) (get A).
  Proof.
    intros HO HA. destruct change_root_rel as (Z & E & TZ & OZ & EZ & SZ & AZ & VZ). exists Z. repeat (split; auto).
    destruct (full_inv X r A O HO HA) as [HsA HgA]. apply (full_returns Z nod); auto.
    - unfold tb_order in *. apply (f_equal (@length nat)) in SZ. unfold tb_shape in SZ. rewrite !map_length in SZ. lia.
    - rewrite SZ, EZ, HsA, HE. auto.
    - intros is e Hi He. rewrite EZ in He. assert (e = []) as -> by (inversion He; auto). rewrite SZ in Hi. rewrite VZ by auto. rewrite HgA; auto. rewrite HE. auto.
  Qed.
End Fun.
