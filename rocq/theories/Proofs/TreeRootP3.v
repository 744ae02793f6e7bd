(** Changing the root: the cores of the result, well-formedness. *)
From Coq Require Import List Arith Lia Bool Ring Permutation.
From Verif.Base Require Import ListAux CRing Index.
From Verif.Model Require Import Sorting Numpy FullTensor DimensionTree TreeBased TreeRoot.
From Verif.Spec Require Import TensorSpec TreeSpec TreeTensorSpec.
From Verif.Proofs Require Import NumpyP FullTensorP DimTreeP DimTreeP4 RandomTreeP TreeTensorP TreeRootP1 TreeRootP2.
Import ListNotations.

Lemma index_of_last l (p : nat) : ~ In p l -> index_of p (l ++ [p]) = length l.
Proof.
  induction l as [|a l IH]; cbn [app index_of In length]; intros H; [rewrite Nat.eqb_refl; auto|].
  destruct (Nat.eqb_spec a p) as [->|]; [tauto|]. rewrite IH; tauto.
Qed.
Lemma index_of_in_app l m (p : nat) : In p l -> index_of p (l ++ m) = index_of p l.
Proof.
  induction l as [|a l IH]; cbn [app index_of In length]; intros H; [destruct H|].
  destruct (Nat.eqb_spec a p) as [->|]; auto. rewrite IH; [auto|]. destruct H; [contradiction|auto].
Qed.

Lemma bool_cases (b : bool) : b = true \/ b = false.
Proof. destruct b; auto. Qed.

Section Ok.
  Context {R : Type} {CR : CRing R}.
  Add Ring Rrt3 : (@rth R CR).
  Variables (X : tbt R) (r nod : nat).
  Hypothesis O : tb_ok X r.
  Hypothesis HE : exts X r = [].
  Hypothesis Hnod : node (ttree X) nod.
  Hypothesis Hne : nod <> r.
  Hypothesis Hact : active X nod = true.
  Hypothesis H2 : 2 <= length (children (ttree X) r).
  Local Notation t := (ttree X).
  Local Notation t' := (dt_change_root (ttree X) nod).
  Let V : dim_tree t r := proj1 O.
  Let T : rooted_tree t r := proj1 V.
  Lemma nV : dim_tree t' nod.
  Proof. exact (change_root_ok t r nod V Hnod Hne H2). Qed.
  Lemma nT : rooted_tree t' nod.
  Proof. exact (proj1 nV). Qed.

  (** size of the axis of the core of n that faces its neighbour m *)
  Definition sh (n m : nat) : nat := if is_leaf t n then last (shape (core X n)) 0 else nth (index_of m (chp t n)) (shape (core X n)) 0.

  Lemma r_internal : is_leaf t r = false.
  Proof.
    destruct (is_leaf t r) eqn:E; auto. exfalso. apply (leaf_iff t r V) in E. destruct E as [Hr E].
    apply (E (nth 0 (children t r) 0)). apply in_children; auto. apply nth_In. lia.
  Qed.
  Lemma edge_internal n c : edge t n c -> is_leaf t n = false.
  Proof. intros He. destruct (is_leaf t n) eqn:E; auto. apply (leaf_iff t r V) in E. destruct E as [_ E]. exfalso. apply (E c He). Qed.
  Lemma chp_length n : node t n -> is_leaf t n = false -> length (shape (core X n)) = length (chp t n).
  Proof.
    intros Hn El. pose proof (ok_internal X r O n Hn El) as Ha. rewrite (ok_shape X n Hn Ha), app_length, (heads_internal X r O n Hn El), map_length.
    destruct (Nat.eq_dec n r) as [->|Hnr].
    - rewrite HE, (chp_root t r T). cbn. lia.
    - rewrite (ok_exts_rank X r O n Hn Ha Hnr). destruct (rt_has_parent t r T n Hn Hnr) as (p & Hp). rewrite (chp_node t r T n p Hp), app_length. auto.
  Qed.
  Lemma sh_shape n : node t n -> is_leaf t n = false -> shape (core X n) = map (sh n) (chp t n).
  Proof.
    intros Hn El. pose proof (chp_length n Hn El) as L. apply nth_ext' with (d := 0); [rewrite map_length; auto|].
    intros j Hj. rewrite map_nth_in with (da := 0) by lia. unfold sh. rewrite El, index_of_NoDup by ((apply (NoDup_chp t r T); auto) || lia). auto.
  Qed.
  Lemma sh_child n c : edge t n c -> sh n c = csize X c.
  Proof.
    intros He. unfold sh. rewrite (edge_internal n c He). rewrite <- (csize_nth X r O n c He). f_equal. unfold chp. apply index_of_in_app.
    apply in_children; auto. apply He.
  Qed.
  Lemma sh_parent p n : edge t p n -> active X n = true -> sh n p = last (shape (core X n)) 0.
  Proof.
    intros He Ha. unfold sh. destruct (is_leaf t n) eqn:El; auto. assert (Hn : node t n) by apply He.
    pose proof (chp_length n Hn El) as L. rewrite (chp_node t r T n p He) in *. rewrite index_of_last.
    - rewrite app_length in L. cbn in L. destruct (exists_last (l := shape (core X n))) as (l & x & E).
      { intros E. rewrite E in L. cbn in L. lia. }
      rewrite E in *. rewrite app_length in L. cbn in L. rewrite last_last, app_nth2 by lia. replace (length (children t n) - length l) with 0 by lia. auto.
    - intros H. apply in_children in H; auto. apply (edge_asym t r T _ _ H He).
  Qed.
  Lemma sh_sym p c : edge t p c -> active X c = true -> sh p c = sh c p.
  Proof. intros He Ha. rewrite (sh_child p c He), (sh_parent p c He Ha). unfold csize. rewrite Ha. auto. Qed.

  (** neighbours in the new tree *)
  Lemma nr_und a b : node t a -> node t b -> (edge t' a b \/ edge t' b a <-> edge t a b \/ edge t b a).
  Proof. apply (change_root_edges t r nod V Hnod Hne H2). Qed.
  Lemma nr_nb n : node t n -> (is_leaf t nod = true -> n <> nod) -> Permutation (chp t n) (chp t' n).
  Proof.
    intros Hn Hl. assert (Hn' : node t' n) by (apply (nr_node t r nod V Hne); auto).
    apply NoDup_Permutation; [apply (NoDup_chp t r T n Hn)|apply (NoDup_chp t' nod nT n Hn')|].
    intros m. rewrite (in_chp t r T n m Hn), (in_chp t' nod nT n m Hn'). split; intros H.
    - apply nr_und; auto. destruct H as [H|H]; apply H.
    - assert (Hm : node t m).
      { assert (Hm' : node t' m) by (destruct H as [H|H]; apply H). apply (nr_node t r nod V Hne) in Hm'. destruct Hm' as [Hm'|[Eln ->]]; auto.
        exfalso. destruct H as [H|H]; apply (nr_new_edge t r nod V Hnod Hne) in H; auto; [destruct H as [-> _]; apply Hl; auto|destruct H as [E _]; unfold node in Hnod; lia]. }
      apply nr_und in H; auto.
  Qed.
  (** the children of a leaf that becomes the root *)
  Lemma nr_children_leaf p : is_leaf t nod = true -> edge t p nod -> children t' nod = [p; nbn t + 1].
  Proof.
    intros Eln He. assert (Hpn : node t p) by apply He. assert (EN : nodes t' = seq 1 (nbn t) ++ [nbn t + 1]).
    { unfold nodes. rewrite (nr_nbn t r nod V Hne), Eln, Nat.add_1_r, seq_S. reflexivity. }
    unfold children. rewrite EN, filter_app.
    assert (HA : forall m, node t' nod -> node t' m -> (adj t' nod m = true <-> edge t' nod m)) by (intros m H1 H3; unfold edge; tauto).
    assert (N1 : node t' nod) by (apply (nr_node t r nod V Hne); auto).
    assert (N2 : node t' (nbn t + 1)) by (apply (nr_node t r nod V Hne); auto).
    change [p; nbn t + 1] with ([p] ++ [nbn t + 1]). f_equal.
    - assert (ND : NoDup (filter (adj t' nod) (seq 1 (nbn t)))) by (apply NoDup_filter, seq_NoDup).
      assert (HI : forall m, In m (filter (adj t' nod) (seq 1 (nbn t))) <-> m = p).
      { intros m. rewrite filter_In, in_seq. split.
        - intros [Hm Ha]. assert (Hmn : node t m) by (unfold node; lia). assert (Hm' : node t' m) by (apply (nr_node t r nod V Hne); auto).
          apply HA in Ha; auto. assert (U : edge t' nod m \/ edge t' m nod) by auto. apply nr_und in U; auto. destruct U as [U|U].
          + apply (leaf_iff t r V) in Eln. exfalso. apply (proj2 Eln m U).
          + eapply (rt_uniq t r T); eauto.
        - intros ->. unfold node in Hpn. split; [lia|]. apply HA; auto; [apply (nr_node t r nod V Hne); auto|].
          assert (U : edge t nod p \/ edge t p nod) by auto. apply nr_und in U; auto. destruct U as [U|U]; auto. exfalso. apply (rt_no_edge t' nod nT _ U). }
      destruct (filter (adj t' nod) (seq 1 (nbn t))) as [|x [|y l]].
      + exfalso. apply (proj2 (HI p) eq_refl).
      + f_equal. apply HI. left; auto.
      + exfalso. assert (x = p) by (apply HI; left; auto). assert (y = p) by (apply HI; right; left; auto). subst. inversion ND. apply H1. left; auto.
    - cbn [filter]. rewrite (proj2 (HA (nbn t + 1) N1 N2)); auto. apply (nr_new_edge t r nod V Hnod Hne); auto.
  Qed.

  Variable Z : tbt R.
  Hypothesis ZT : ttree Z = t'.
  Hypothesis ZN : length (cores Z) = nbn t'.
  Hypothesis ZC : forall n, node t n -> is_leaf t n = false -> shape (core Z n) = map (sh n) (chp t' n) /\
    forall f, (forall m, In m (chp t n) -> f m < sh n m) -> get (core Z n) (map f (chp t' n)) = get (core X n) (map f (chp t n)).
  Hypothesis ZL : forall n, node t n -> is_leaf t n = true -> n <> nod -> core Z n = core X n.
  Hypothesis ZD : is_leaf t nod = true -> shape (core Z nod) = [last (shape (core X nod)) 0; nth 0 (shape (core X nod)) 0] /\
    (forall i k, i < nth 0 (shape (core X nod)) 0 -> k < last (shape (core X nod)) 0 -> get (core Z nod) [k; i] = get (core X nod) [i; k]) /\
    core Z (nbn t + 1) = no_core.

  Lemma act_prod (Y : tbt R) n : active Y n = negb (prodn (shape (core Y n)) =? 0).
  Proof. reflexivity. Qed.
  Lemma leaf_shape : is_leaf t nod = true -> shape (core X nod) = [nth 0 (shape (core X nod)) 0; last (shape (core X nod)) 0].
  Proof.
    intros El. rewrite (ok_shape X nod Hnod Hact) at 1. rewrite (heads_leaf X r O nod El Hact), (ok_exts_rank X r O nod Hnod Hact Hne). auto.
  Qed.
  Lemma nz_active n : node t n -> active Z n = active X n.
  Proof.
    intros Hn. destruct (is_leaf t n) eqn:El.
    - destruct (Nat.eq_dec n nod) as [->|Hnn].
      + rewrite !act_prod. rewrite (proj1 (ZD El)), (leaf_shape El). cbn [nth last prodn]. f_equal. f_equal. lia.
      + rewrite !act_prod. rewrite ZL; auto.
    - rewrite !act_prod. rewrite (proj1 (ZC n Hn El)), (sh_shape n Hn El). f_equal. f_equal.
      apply prodn_perm. apply Permutation_map, Permutation_sym, nr_nb; auto. intros E ->. congruence.
  Qed.
  Lemma nz_new : is_leaf t nod = true -> active Z (nbn t + 1) = false.
  Proof. intros El. rewrite act_prod. destruct (ZD El) as (_ & _ & ->). reflexivity. Qed.
  Lemma nz_parent p c : edge t' p c -> node t c -> is_leaf t c = false -> chp t' c = children t' c ++ [p].
  Proof. intros He Hc El. apply (chp_node t' nod nT c p He). Qed.

  Theorem root_ok : tb_ok Z nod.
  Proof.
    split; [rewrite ZT; exact nV|]. split; [rewrite ZT; auto|]. split; [rewrite nz_active; auto|].
    rewrite ZT. intros n Hn'. pose proof (proj1 (nr_node t r nod V Hne n) Hn') as Hn. destruct Hn as [Hn|[Eln ->]].
    2:{ split; [|split].
        - intros H. exfalso. assert (E : is_leaf t' (nbn t + 1) = true); [|congruence].
          apply (leaf_iff t' nod nV). split; auto. intros c Hc. apply (nr_new_edge t r nod V Hnod Hne) in Hc; auto. unfold node in Hnod. lia.
        - rewrite nz_new by auto. discriminate.
        - intros c Hc _. apply (nr_new_edge t r nod V Hnod Hne) in Hc; auto. unfold node in Hnod. lia. }
    split; [|split].
    - intros El. rewrite nz_active by auto. rewrite (nr_leaf t r nod V Hnod Hne n Hn) in El. destruct (Nat.eqb_spec n nod) as [->|]; auto.
      apply (ok_internal X r O); auto.
    - intros Ha. rewrite nz_active in Ha by auto. unfold arity_at, exts. rewrite ZT. unfold arity_at. rewrite (nr_leaf t r nod V Hnod Hne n Hn).
      destruct (is_leaf t n) eqn:El.
      + destruct (Nat.eqb_spec n nod) as [->|Hnn].
        * destruct (rt_has_parent t r T nod Hnod Hne) as (p & Hp). rewrite (nr_children_leaf p El Hp). unfold ndim. rewrite (proj1 (ZD El)). cbn. auto.
        * rewrite ZL by auto. assert (Hnr : n <> r) by (intros ->; rewrite r_internal in El; discriminate).
          pose proof (ok_shape X n Hn Ha) as S. rewrite (heads_leaf X r O n El Ha), (ok_exts_rank X r O n Hn Ha Hnr) in S. unfold ndim. rewrite S. cbn. auto.
      + unfold ndim. rewrite (proj1 (ZC n Hn El)). destruct (Nat.eqb_spec n nod) as [->|Hnn].
        * rewrite (chp_root t' nod nT). rewrite map_length. split; auto. split; auto. rewrite skipn_length, map_length. lia.
        * destruct (rt_has_parent t' nod nT n Hn' Hnn) as (p & Hp). rewrite (chp_node t' nod nT n p Hp). rewrite skipn_length, !map_length, app_length. cbn. lia.
    - intros c Hc Ha. assert (Hcn : node t c).
      { assert (Hc' : node t' c) by apply Hc. apply (nr_node t r nod V Hne) in Hc'. destruct Hc' as [|[Eln ->]]; auto. rewrite nz_new in Ha by auto. discriminate. }
      rewrite nz_active in Ha by auto. assert (Hci : In c (children t' n)) by (apply in_children; auto).
      assert (Hcd : c <> nod) by (intros ->; apply (rt_no_edge t' nod nT _ Hc)).
      assert (HL : last (shape (core Z c)) 0 = sh c n).
      { destruct (is_leaf t c) eqn:El; [rewrite ZL by auto; unfold sh; rewrite El; auto|].
        rewrite (proj1 (ZC c Hcn El)), (chp_node t' nod nT c n Hc), map_app. cbn [map]. apply last_last. }
      rewrite HL. destruct (is_leaf t n) eqn:Eln.
      + assert (n = nod) as ->.
        { destruct (Nat.eq_dec n nod) as [|Hnn]; auto. exfalso. assert (E : is_leaf t' n = true) by (rewrite (nr_leaf t r nod V Hnod Hne n Hn); destruct (Nat.eqb_spec n nod); auto; contradiction).
          apply (leaf_iff t' nod nV) in E. apply (proj2 E c Hc). }
        destruct (rt_has_parent t r T nod Hnod Hne) as (p & Hp). rewrite (nr_children_leaf p Eln Hp) in *. rewrite (proj1 (ZD Eln)).
        assert (c = p) as ->. { destruct Hci as [|[<-|[]]]; auto. unfold node in Hcn. lia. }
        cbn [index_of]. rewrite Nat.eqb_refl. cbn [nth]. rewrite (sh_sym p nod Hp Hact). unfold sh. rewrite Eln. auto.
      + rewrite (proj1 (ZC n Hn Eln)). assert (Hi : In c (chp t' n)) by (unfold chp; apply in_or_app; auto).
        replace (index_of c (children t' n)) with (index_of c (chp t' n)) by (unfold chp; apply index_of_in_app; auto).
        destruct (index_of_nth (chp t' n) c Hi) as [L1 L2]. rewrite map_nth_in with (da := 0) by auto. rewrite L2.
        assert (U : edge t n c \/ edge t c n) by (apply nr_und; auto). destruct U as [U|U]; [apply sh_sym; auto|].
        symmetry. apply sh_sym; auto. apply (ok_internal X r O); auto.
  Qed.
  Lemma root_exts : exts Z nod = [].
  Proof.
    unfold exts, arity_at. rewrite ZT, (nr_leaf t r nod V Hnod Hne nod Hnod), Nat.eqb_refl. destruct (bool_cases (is_leaf t nod)) as [El|El].
    - destruct (rt_has_parent t r T nod Hnod Hne) as (p & Hp). rewrite (nr_children_leaf p El Hp), (proj1 (ZD El)). auto.
    - rewrite (proj1 (ZC nod Hnod El)), (chp_root t' nod nT). apply skipn_all2. rewrite map_length. auto.
  Qed.
  (** sizes of the children in the new tree *)
  Lemma nz_csize n c : node t n -> node t c -> edge t' n c -> is_leaf t n = false -> csize Z c = sh n c.
  Proof.
    intros Hn Hc He El. assert (He' : edge (ttree Z) n c) by (rewrite ZT; auto). rewrite <- (csize_nth Z nod root_ok n c He'). rewrite ZT.
    assert (Hci : In c (children t' n)) by (apply in_children; auto; apply He).
    rewrite (proj1 (ZC n Hn El)). assert (Hi : In c (chp t' n)) by (unfold chp; apply in_or_app; auto).
    replace (index_of c (children t' n)) with (index_of c (chp t' n)) by (unfold chp; apply index_of_in_app; auto).
    destruct (index_of_nth (chp t' n) c Hi) as [L1 L2]. rewrite map_nth_in with (da := 0) by auto. rewrite L2. auto.
  Qed.
  Lemma root_shape : tb_shape Z = tb_shape X.
  Proof.
    unfold tb_shape. rewrite ZT, (nr_d2i t r nod V Hne).
    assert (G : forall n, node t n -> is_leaf t n = true -> n <> nod -> tb_size Z n = tb_size X n).
    { intros n Hn El Hnn. assert (Hnr : n <> r) by (intros ->; rewrite r_internal in El; discriminate).
      destruct (rt_has_parent t r T n Hn Hnr) as (p & Hp). destruct (active X n) eqn:Ha.
      - unfold tb_size. rewrite nz_active, Ha, ZL by auto. auto.
      - assert (E1 : csize X n = tb_size X n) by (unfold csize; rewrite Ha; auto). assert (E2 : csize Z n = tb_size Z n) by (unfold csize; rewrite nz_active, Ha; auto).
        rewrite <- E1, <- E2, <- (sh_child p n Hp). apply nz_csize; auto; [apply Hp| |apply (edge_internal p n Hp)].
        apply (nr_edge t r nod V Hnod Hne); auto; [apply Hp|]. left. split; auto. intros HB. apply below_step in HB. destruct HB as [HB|(d & Hd & _)]; [congruence|].
        apply (leaf_iff t r V) in El. apply (proj2 El d Hd). }
    destruct (bool_cases (is_leaf t nod)) as [Eln|Eln]; rewrite Eln.
    - destruct (leaf_index t nod Eln) as [Hi1 Hi2]. apply nth_ext' with (d := 0); [rewrite !map_length, upd_length; auto|].
      intros j Hj. rewrite map_length, upd_length in Hj. rewrite !map_nth_in with (da := 0) by (rewrite ?upd_length; auto).
      destruct (Nat.eq_dec j (index_of nod (d2i t))) as [->|Hj'].
      + rewrite nth_upd_eq, Hi2 by auto. unfold tb_size. rewrite nz_new, Hact by auto. rewrite ZT.
        assert (He : edge t' nod (nbn t + 1)) by (apply (nr_new_edge t r nod V Hnod Hne); auto).
        assert (He' : edge (ttree Z) nod (nbn t + 1)) by (rewrite ZT; auto). pose proof (child_index Z nod root_ok _ _ He') as CI. rewrite ZT in CI. rewrite CI, (parent_edge t' nod nT _ _ He). fold (core Z nod).
        destruct (rt_has_parent t r T nod Hnod Hne) as (p & Hp). rewrite (nr_children_leaf p Eln Hp), (proj1 (ZD Eln)).
        cbn [index_of]. destruct (Nat.eqb_spec p (nbn t + 1)) as [->|]; [destruct Hp as (Hp & _); unfold node in Hp; lia|]. rewrite Nat.eqb_refl. auto.
      + rewrite nth_upd_neq by auto. assert (El : is_leaf t (nth j (d2i t) 0) = true) by (apply d2i_leaf; auto). apply G; auto; [apply (leaf_node t r V); auto|].
        intros E. apply Hj'. rewrite <- E. symmetry. apply index_of_NoDup; auto. apply (NoDup_d2i t r V).
    - apply map_ext_in. intros n Hn. assert (El : is_leaf t n = true) by (apply inb_spec; auto). apply G; auto; [apply (leaf_node t r V); auto|]. intros ->. congruence.
  Qed.
End Ok.
