(** remove_unique_children: chains of single children are merged. *)
From Coq Require Import List Arith Lia Bool Sorted Ring Permutation.
From Verif.Base Require Import ListAux CRing Index.
From Verif.Model Require Import Utils Numpy FullTensor DimensionTree TreeBased TreeEval TreeReduce.
From Verif.Spec Require Import TensorSpec TreeSpec TreeTensorSpec.
From Verif.Proofs Require Import NumpyP FullTensorP FullTensorP3 FullTensorP4 FunctionsP DimTreeP TreeTensorP TreeTensorP2 TreeTensorP3 TreeTensorP4 TreeTensorP19 TreeTensorP20 TreeTensorP22.
Import ListNotations.

(** chains in a tree *)
Section Chain.
  Variables (t : dtree) (r : nat).
  Hypothesis V : dim_tree t r.
  Let T : rooted_tree t r := proj1 V.
  Definition uniq (c : nat) : Prop := exists p, node t p /\ children t p = [c].
  Lemma uniq_spec c : In c (unique_children t) <-> uniq c.
  Proof.
    unfold unique_children, uniq. rewrite in_flat_map. split.
    - intros (p & Hp & Hc). exists p. apply in_nodes in Hp. split; auto. destruct (children t p) as [|x [|y l]]; cbn in Hc; try contradiction. destruct Hc as [->|[]]; auto.
    - intros (p & Hp & E). exists p. split; [apply in_nodes; auto|]. rewrite E. simpl; auto.
  Qed.
  Fixpoint bot_fuel (f n : nat) : nat := match f with 0 => n | S f => match children t n with [c] => bot_fuel f c | _ => n end end.
  Definition bot (n : nat) : nat := bot_fuel (nbn t) n.
  Lemma uc_edge n c : node t n -> children t n = [c] -> edge t n c.
  Proof. intros Hn E. apply in_children; auto. rewrite E. simpl; auto. Qed.
  Lemma bot_stable f1 : forall n f2, node t n -> (nbn t - level t n <= f1)%nat -> (nbn t - level t n <= f2)%nat -> bot_fuel f1 n = bot_fuel f2 n.
  Proof.
    induction f1 as [|f1 IH]; intros n f2 Hn H1 H2; pose proof (level_lt t r T n Hn); [lia|]. destruct f2 as [|f2]; [lia|]. cbn [bot_fuel].
    destruct (children t n) as [|c [|c' l]] eqn:E; auto. pose proof (uc_edge n c Hn E) as He. pose proof (level_edge t r T n c He). apply IH; [apply He|lia|lia].
  Qed.
  Lemma bot_one n c : node t n -> children t n = [c] -> bot n = bot c.
  Proof.
    intros Hn E. unfold bot at 1. pose proof (level_lt t r T n Hn). destruct (nbn t) as [|m] eqn:En; [lia|]. cbn [bot_fuel]. rewrite E. unfold bot. rewrite En. pose proof (uc_edge n c Hn E) as He. pose proof (level_edge t r T n c He).
    apply bot_stable; [apply He|lia|lia].
  Qed.
  Lemma bot_self n : (forall c, children t n <> [c]) -> bot n = n.
  Proof. intros H. unfold bot. destruct (nbn t); auto. cbn [bot_fuel]. destruct (children t n) as [|c [|c' l]] eqn:E; auto. destruct (H c); auto. Qed.
  Lemma one_dec n : {c | children t n = [c]} + {forall c, children t n <> [c]}.
  Proof. destruct (children t n) as [|c [|c' l]]; [right; discriminate|left; exists c; auto|right; discriminate]. Qed.
  Lemma bot_end n : node t n -> node t (bot n) /\ below t n (bot n) /\ forall c, children t (bot n) <> [c].
  Proof.
    revert n. apply (tree_up_ind t r T (fun n => node t (bot n) /\ below t n (bot n) /\ forall c, children t (bot n) <> [c])). intros n Hn IH. destruct (one_dec n) as [[c E]|E].
    - pose proof (uc_edge n c Hn E) as He. rewrite (bot_one n c Hn E). destruct (IH c He) as (A1 & A2 & A3). split; auto. split; auto. apply below_step. right. exists c. auto.
    - rewrite (bot_self n E). split; auto. split; auto. apply below_refl.
  Qed.
  Inductive onchain (a : nat) : nat -> Prop :=
  | oc0 : onchain a a
  | ocS p c : onchain a p -> node t p -> children t p = [c] -> onchain a c.
  Lemma onchain_cons a c x : node t a -> children t a = [c] -> onchain c x -> onchain a x.
  Proof. intros Ha E H. induction H as [|p x H IH Hp E2]; [apply ocS with (p := a); auto; constructor|apply ocS with (p := p); auto]. Qed.
  Lemma onchain_bot a x : node t a -> onchain a x -> node t x /\ bot a = bot x.
  Proof. intros Ha H. induction H as [|p x H IH Hp E]; auto. destruct IH as [I1 I2]. split; [apply (uc_edge p x Hp E)|]. rewrite I2. apply bot_one; auto. Qed.
  Lemma onchain_to_bot a : node t a -> onchain a (bot a).
  Proof.
    revert a. apply (tree_up_ind t r T (fun a => onchain a (bot a))). intros n Hn IH. destruct (one_dec n) as [[c E]|E].
    - rewrite (bot_one n c Hn E). apply (onchain_cons n c); auto. apply IH. apply uc_edge; auto.
    - rewrite (bot_self n E). constructor.
  Qed.
  Lemma onchain_uniq a x : onchain a x -> a = x \/ uniq x.
  Proof. intros H. destruct H as [|p x H Hp E]; auto. right. exists p. auto. Qed.
  Lemma onchain_compare a : node t a -> forall b, node t b -> bot a = bot b -> onchain a b \/ onchain b a.
  Proof.
    revert a. apply (tree_up_ind t r T (fun a => forall b, node t b -> bot a = bot b -> onchain a b \/ onchain b a)). intros a Ha IH b Hb E. destruct (one_dec a) as [[c Ec]|Ec].
    - pose proof (uc_edge a c Ha Ec) as He. rewrite (bot_one a c Ha Ec) in E. destruct (IH c He b Hb E) as [Q|Q]; [left; apply (onchain_cons a c); auto|].
      inversion Q as [|p x Q1 Hp Q2]; subst; [left; apply ocS with (p := a); auto; constructor|]. right. assert (p = a); [|subst; auto]. apply (rt_uniq t r T p a c); auto. apply uc_edge; auto.
    - right. rewrite <- (bot_self a Ec), E. apply onchain_to_bot; auto.
  Qed.
  Lemma bot_inj a b : node t a -> node t b -> ~ uniq a -> ~ uniq b -> bot a = bot b -> a = b.
  Proof. intros Ha Hb Na Nb E. destruct (onchain_compare a Ha b Hb E) as [Q|Q]; apply onchain_uniq in Q; destruct Q as [Q|Q]; auto; contradiction. Qed.
  Lemma uniq_dec c : {uniq c} + {~ uniq c}.
  Proof. destruct (in_dec Nat.eq_dec c (unique_children t)) as [H|H]; rewrite uniq_spec in H; auto. Qed.
  Lemma top_exists m : node t m -> exists q, node t q /\ ~ uniq q /\ onchain q m /\ (level t q <= level t m)%nat.
  Proof.
    revert m. apply (tree_down_ind t r T (fun m => exists q, node t q /\ ~ uniq q /\ onchain q m /\ (level t q <= level t m)%nat)).
    - exists r. split; [apply T|]. split; [|split; [constructor|auto]]. intros (p & Hp & E). apply (rt_no_edge t r T p). apply uc_edge; auto.
    - intros p c (q & Q1 & Q2 & Q3 & Q4) He. assert (Hc : node t c) by apply He. destruct (uniq_dec c) as [U|U]; [|exists c; split; auto; split; auto; split; [constructor|auto]].
      destruct U as (p' & Hp' & E). assert (p' = p) by (apply (rt_uniq t r T p' p c); auto; apply uc_edge; auto). subst p'.
      exists q. split; auto. split; auto. split; [apply ocS with (p := p); auto|]. rewrite (level_edge t r T p c He). lia.
  Qed.
  Lemma child_bot_not_uniq n c : node t n -> In c (children t (bot n)) -> ~ uniq c.
  Proof.
    intros Hn Hc (p & Hp & E). destruct (bot_end n Hn) as (B1 & _ & B3). apply in_children in Hc; auto.
    assert (p = bot n) by (apply (rt_uniq t r T p (bot n) c); auto; apply uc_edge; auto). subst p. apply (B3 c); auto.
  Qed.
End Chain.

Section Ruc.
  Context {R : Type} {CR : CRing R}.
  Add Ring Rrt23 : rth.
  Local Open Scope cr_scope.
  Variables (X : tbt R) (r : nat).
  Hypothesis O : tb_ok X r.
  Local Notation t := (ttree X).
  Let V : dim_tree t r := proj1 O.
  Let T : rooted_tree t r := proj1 (proj1 O).
  Definition bsz (n : nat) : list nat := if is_leaf (ttree X) (bot (ttree X) n) then [tb_size X (bot (ttree X) n)] else map (csize X) (children (ttree X) (bot (ttree X) n)).
  (** the core of a node merged with the chain below it *)
  Definition merged (n : nat) (B : nd R) : Prop :=
    shape B = bsz n ++ exts X n /\ prodn (shape B) <> 0%nat /\
    forall is e, valid (tb_shape X) is -> valid (exts X n) e ->
      tval X n is e = if is_leaf (ttree X) (bot (ttree X) n) then get B (nth (index_of (bot (ttree X) n) (d2i (ttree X))) is 0%nat :: e)
        else bsum (map (csize X) (children (ttree X) (bot (ttree X) n))) (fun ks => get B (ks ++ e) * lprod (combine (children (ttree X) (bot (ttree X) n)) ks) (fun p => tval X (fst p) is [snd p])).
  Lemma merged_core n : node t n -> active X n = true -> (forall c, children t n <> [c]) -> merged n (core X n).
  Proof.
    intros Hn Ha H1. assert (E : bot (ttree X) n = n) by (apply bot_self; exact H1). unfold merged, bsz. rewrite E. split; [|split].
    - rewrite (ok_shape X n Hn Ha). f_equal. destruct (is_leaf (ttree X) n) eqn:El; [rewrite (heads_leaf X r O n El Ha); unfold tb_size; rewrite Ha; auto|apply (heads_internal X r O n Hn El)].
    - apply active_prod. auto.
    - intros is e His He. destruct (is_leaf (ttree X) n) eqn:El; [apply (tval_leaf X r V n is e El Ha)|]. rewrite (tval_internal X r V n is e Hn El). rewrite (heads_internal X r O n Hn El). auto.
  Qed.
  Lemma one_int n c : node t n -> children t n = [c] -> is_leaf t n = false.
  Proof. intros Hn E. destruct (is_leaf t n) eqn:El; auto. apply (leaf_iff t r V) in El. destruct El as [_ El]. destruct (El c). apply uc_edge; auto. Qed.
  Lemma one_shape n c : node t n -> children t n = [c] -> shape (core X n) = csize X c :: exts X n.
  Proof.
    intros Hn E. pose proof (one_int n c Hn E) as El. rewrite (ok_shape X n Hn (ok_internal X r O n Hn El)). rewrite (heads_internal X r O n Hn El). rewrite E. auto.
  Qed.
  Lemma one_tval n c is e : node t n -> children t n = [c] -> tval X n is e = rsum (csize X c) (fun k => get (core X n) (k :: e) * tval X c is [k]).
  Proof.
    intros Hn E. pose proof (one_int n c Hn E) as El. rewrite (tval_internal X r V n is e Hn El). rewrite (heads_internal X r O n Hn El). rewrite E. cbn [map bsum]. apply rsum_ext. intros k Hk. cbn. ring.
  Qed.
  Lemma merged_inactive p n : node t p -> children t p = [n] -> active X n = false -> merged p (core X p).
  Proof.
    intros Hp E Ha. pose proof (uc_edge t p n Hp E) as He. assert (Hn : node t n) by apply He.
    assert (El : is_leaf t n = true). { destruct (is_leaf t n) eqn:Q; auto. rewrite (ok_internal X r O n Hn Q) in Ha. discriminate. }
    assert (Eb : bot (ttree X) p = n).
    { rewrite (bot_one t r V p n Hp E). apply bot_self. intros c Ec. apply (leaf_iff t r V) in El. destruct El as [_ El]. apply (El c). apply uc_edge; auto. }
    assert (Ec : csize X n = tb_size X n) by (unfold csize; rewrite Ha; auto).
    unfold merged, bsz. rewrite Eb. rewrite El. split; [rewrite (one_shape p n Hp E), Ec; auto|]. split; [apply active_prod, (ok_internal X r O p Hp); apply (one_int p n); auto|].
    intros is e His He'. rewrite (one_tval p n is e Hp E). pose proof (valid_leaf_index X is n His El) as Hi. 
    rewrite (rsum_single _ (nth (index_of n (d2i t)) is 0%nat)).
    - rewrite (tval_inactive X r V n is) by auto. cbn [list_eqb]. rewrite Nat.eqb_refl. cbn [andb]. ring.
    - rewrite Ec. auto.
    - intros k Hk Hne. rewrite (tval_inactive X r V n is) by auto. cbn [list_eqb]. destruct (Nat.eqb_spec k (nth (index_of n (d2i t)) is 0%nat)); [contradiction|]. cbn [andb]. ring.
  Qed.
  Lemma sel_init (l : list nat) a : sel 0%nat (l ++ [a]) (seq 0 (length l)) = l.
  Proof. apply nth_ext' with (d := 0%nat); [rewrite sel_length, seq_length; auto|]. intros k Hk. rewrite sel_length, seq_length in Hk. rewrite sel_nth by (rewrite seq_length; auto). rewrite seq_nth by auto. rewrite app_nth1 by lia. f_equal. Qed.
  Lemma compl_last n : compl (S n) [n] = seq 0 n.
  Proof.
    unfold compl. rewrite seq_S, filter_app. cbn [filter]. rewrite filter_true.
    - replace (inb (0 + n) [n]) with true by (symmetry; apply inb_spec; simpl; auto). cbn. apply app_nil_r.
    - intros x Hx. apply in_seq in Hx. apply negb_true_iff, inb_false. intros [Q|[]]. lia.
  Qed.
  Lemma compl_first n : compl (S n) [0%nat] = seq 1 n.
  Proof.
    unfold compl. cbn [seq filter]. replace (inb 0 [0%nat]) with true by reflexivity. cbn [negb]. apply filter_true. intros x Hx. apply in_seq in Hx. apply negb_true_iff, inb_false. intros [Q|[]]. lia.
  Qed.
  Lemma merged_step p n B : node t p -> children t p = [n] -> active X n = true -> merged n B ->
    exists C, ft_tensordot B (core X p) [(ndim B - 1)%nat] [0%nat] = Some C /\ merged p C.
  Proof.
    intros Hp E Ha (S1 & P1 & G1). pose proof (uc_edge t p n Hp E) as He. assert (Hn : node t n) by apply He. pose proof (edge_ne t r T p n He) as Hnr.
    assert (Ex : exts X n = [csize X n]) by (unfold csize; rewrite Ha; apply (ok_exts_rank X r O n Hn Ha Hnr)).
    pose proof (one_shape p n Hp E) as Sp. pose proof (bot_one t r V p n Hp E) as Eb. 
    rewrite Ex in S1, G1. assert (NB : ndim B = S (length (bsz n))) by (unfold ndim; rewrite S1, app_length; cbn; lia).
    assert (Np : ndim (core X p) = S (length (exts X p))) by (unfold ndim; rewrite Sp; auto).
    rewrite NB. cbn [Nat.sub]. rewrite Nat.sub_0_r.
    destruct (ft_tensordot_spec B (core X p) [length (bsz n)] [0%nat]) as (C & EC & SC & GC).
    - constructor; [intros []|constructor].
    - constructor; [intros []|constructor].
    - rewrite NB. constructor; [lia|constructor].
    - rewrite Np. constructor; [lia|constructor].
    - rewrite S1, Sp. unfold sel. cbn [map nth]. rewrite app_nth2, Nat.sub_diag by lia. auto.
    - exists C. split; auto. rewrite NB, Np, compl_last, compl_first in *. rewrite S1, Sp in SC, GC. rewrite sel_init in SC, GC.
      assert (Et : sel 0%nat (csize X n :: exts X p) (seq 1 (length (exts X p))) = exts X p).
      { change (csize X n :: exts X p) with ([csize X n] ++ exts X p). change 1%nat with (length [csize X n]). apply TreeTensorP19.sel_tail. }
      rewrite Et in SC, GC. unfold sel in GC. cbn [map] in GC. rewrite app_nth2, Nat.sub_diag in GC by lia. cbn [nth] in GC.
      assert (Ebz : bsz p = bsz n) by (unfold bsz; rewrite Eb; auto).
      unfold merged. rewrite Ebz. split; [exact SC|]. split.
      + rewrite SC. rewrite S1 in P1. rewrite prodn_app in *. pose proof (proj1 (active_prod X p) (ok_internal X r O p Hp (one_int p n Hp E))) as P2. rewrite Sp in P2. cbn [prodn fold_right] in P2. intros Q. apply Nat.eq_mul_0 in Q. destruct Q as [Q|Q]; [rewrite Q in P1; apply P1; reflexivity|]. apply P2. unfold prodn in *. cbn [fold_right]. rewrite Q. lia.
      + intros is e His He'. rewrite Eb. rewrite (one_tval p n is e Hp E).
        assert (GC' : forall ks, valid (bsz n) ks -> get C (ks ++ e) = rsum (csize X n) (fun k => get B (ks ++ [k]) * get (core X p) (k :: e))).
        { intros ks Hks. rewrite GC by auto. cbn [bsum]. apply rsum_ext. intros k Hk. rewrite asm_last, asm_first; auto; [apply valid_length; auto|apply valid_length; auto]. }
        destruct (is_leaf t (bot t n)) eqn:El.
        * pose proof (valid_leaf_index X is (bot t n) His El) as Hi.  change (nth (index_of (bot t n) (d2i t)) is 0%nat :: e) with ([nth (index_of (bot t n) (d2i t)) is 0%nat] ++ e).
          rewrite GC' by (unfold bsz; rewrite El; constructor; [auto|constructor]).
          apply rsum_ext. intros k Hk. rewrite G1 by (first [exact His | (constructor; [exact Hk|constructor])]). cbn [app]. ring.
        * transitivity (bsum (map (csize X) (children t (bot t n))) (fun ks => rsum (csize X n) (fun k => get (core X p) (k :: e) * (get B (ks ++ [k]) * lprod (combine (children t (bot t n)) ks) (fun p0 => tval X (fst p0) is [snd p0]))))).
          { rewrite bsum_rsum_exchange. apply rsum_ext. intros k Hk. rewrite G1 by (first [exact His | (constructor; [exact Hk|constructor])]). rewrite bsum_scal_l. auto. }
          apply bsum_ext. intros ks Hks. rewrite GC' by (unfold bsz; rewrite El; auto). rewrite <- rsum_scal_r. apply rsum_ext. intros k Hk. ring.
  Qed.
End Ruc.
