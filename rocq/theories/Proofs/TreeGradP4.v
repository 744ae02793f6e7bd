(** eval_diag_below. *)
From Coq Require Import List Arith Lia Bool Sorted Ring Permutation.
From Verif.Base Require Import ListAux CRing Index.
From Verif.Model Require Import Utils Numpy FullTensor DimensionTree TreeBased TreeEval TreeGrad.
From Verif.Spec Require Import TensorSpec TreeSpec TreeTensorSpec.
From Verif.Proofs Require Import NumpyP FullTensorP FullTensorP3 FullTensorP4 FunctionsP DimTreeP TreeTensorP TreeTensorP2 TreeTensorP3 TreeTensorP7 EinsumP EinsumP2 TreeTensorP17 TreeTensorP18 TreeTensorP19 TreeGradP1 TreeGradP2 TreeGradP3.
Import ListNotations.

Lemma fold_none {A} (l : list nat) : forall (s : list (option A)) n, ~ In n l -> 1 <= n -> Forall (fun m => 1 <= m) l ->
  nth (n - 1) (fold_left (fun s n => upd (n - 1) None s) l s) None = nth (n - 1) s None.
Proof.
  induction l as [|m l IH]; intros s n Hn H1 HF; cbn [fold_left]; auto. inversion HF; subst. rewrite IH; auto; [|intros K; apply Hn; simpl; auto].
  apply nth_upd_neq. intros E. apply Hn. left. lia.
Qed.
Lemma fold_none_len {A} (l : list nat) : forall (s : list (option A)), length (fold_left (fun s n => upd (n - 1) None s) l s) = length s.
Proof. induction l as [|m l IH]; intros s; cbn [fold_left]; auto. rewrite IH, upd_length. auto. Qed.

Section Below.
  Context {R : Type} {CR : CRing R}.
  Add Ring Rrtg5 : rth.
  Local Open Scope cr_scope.
  Variables (X : tbt R) (r q : nat).
  Hypothesis O : tb_ok X r.
  Hypothesis Hq : (0 < q)%nat.
  Local Notation t := (ttree X).
  Local Notation D := (tb_order X).

  (** the entry [a] is the diagonal of the sub-tree of n *)
  Definition is_diag (n : nat) (a : option (nd R)) : Prop :=
    exists A, a = Some A /\ shape A = q :: exts X n /\
      forall i is e, (i < q)%nat -> (forall mu, In mu (dims t n) -> nth mu is 0%nat = i) -> valid (exts X n) e -> get A (i :: e) = tval X n is e.

  Lemma child_exts n c : edge t n c -> active X c = true -> exts X c = [csize X c].
  Proof.
    intros He Ha. unfold csize. rewrite Ha. apply (ok_exts_rank X r O); auto; [apply He|]. apply (edge_ne t r (proj1 (proj1 O)) n c He).
  Qed.
  Lemma child_inactive n c : edge t n c -> active X c = false -> is_leaf t c = true.
  Proof. intros He Ha. destruct (is_leaf t c) eqn:E; auto. rewrite (ok_internal X r O c) in Ha; [discriminate|apply He|auto]. Qed.
  Lemma inactive_val c is i x : is_leaf t c = true -> active X c = false -> (forall mu, In mu (dims t c) -> nth mu is 0%nat = i) ->
    tval X c is [x] = if (x =? i)%nat then r1 else r0.
  Proof.
    intros Hl Ha Hi. rewrite (tval_inactive X r (proj1 O)) by auto. rewrite list_eqb1. rewrite Hi; auto.
    rewrite (dims_leaf t r (proj1 O) c Hl). simpl. auto.
  Qed.
  Lemma inactive_size c : is_leaf t c = true -> active X c = false -> (forall mu, In mu (dims t c) -> nth mu (tb_shape X) 0%nat = q) -> csize X c = q.
  Proof.
    intros Hl Ha Hs. unfold csize. rewrite Ha. rewrite <- (tb_shape_leaf X c Hl). apply Hs. rewrite (dims_leaf t r (proj1 O) c Hl). simpl. auto.
  Qed.
  Lemma in_dims_child n c mu : edge t n c -> is_leaf t n = false -> In mu (dims t c) -> In mu (dims t n).
  Proof.
    intros He Hl Hm. rewrite (dims_internal t r (proj1 O) n (proj1 He) Hl). apply in_flat_map. exists c. split; auto. apply in_children; [apply He|]. apply He.
  Qed.
  Lemma kids_edge n c : node t n -> In c (children t n) -> edge t n c.
  Proof. intros Hn Hc. apply in_children in Hc; auto. Qed.
  Lemma core_kids n : node t n -> is_leaf t n = false -> shape (core X n) = map (csize X) (children t n) ++ exts X n.
  Proof. intros Hn Hl. rewrite <- (heads_internal X r O n Hn Hl). apply ok_shape; auto. apply (ok_internal X r O); auto. Qed.
  Lemma chpos_index n : node t n -> forall L, incl L (children t n) -> map (chpos t) L = map (fun c => index_of c (children t n)) L.
  Proof. intros Hn L HL. apply map_ext_in. intros c Hc. apply (child_index X r O n c). apply kids_edge; auto. Qed.
  Lemma leaf_kids n : node t n -> is_leaf t n = false -> children t n <> [].
  Proof.
    intros Hn Hl K. destruct (leaf_iff t r (proj1 O) n) as [_ Hlf]. rewrite Hlf in Hl; [discriminate|]. split; auto. intros c Hc. assert (Hc2 : In c (children t n)) by (apply in_children; auto). rewrite K in Hc2. destruct Hc2.
  Qed.

  (** outer products of diagonals *)
  Lemma diag_acc_ok s L n : (forall c, In c L -> edge t n c /\ active X c = true /\ is_diag c (nth (c - 1) s None)) -> L <> [] ->
    exists tmp, diag_acc s L = Some tmp /\ shape tmp = q :: map (csize X) L /\
      forall i is ks, (i < q)%nat -> valid (map (csize X) L) ks -> (forall c mu, In c L -> In mu (dims t c) -> nth mu is 0%nat = i) ->
        get tmp (i :: ks) = lprod (combine L ks) (fun p => tval X (fst p) is [snd p]).
  Proof.
    intros HL NE. set (F := fun c => match nth (c - 1) s None with Some A => A | None => scalar r0 end).
    assert (HF : forall c, In c L -> nth (c - 1) s None = Some (F c) /\ shape (F c) = [q; csize X c] /\
      forall i is x, (i < q)%nat -> (forall mu, In mu (dims t c) -> nth mu is 0%nat = i) -> (x < csize X c)%nat -> get (F c) [i; x] = tval X c is [x]).
    { intros c Hc. destruct (HL c Hc) as (He & Ha & A & EA & SA & GA). unfold F. rewrite EA. rewrite (child_exts n c He Ha) in *. split; auto. split; auto.
      intros i is x Hi Hm Hx. apply GA; auto. apply Forall2_cons; [auto|apply Forall2_nil]. }
    destruct (acc_ok F (csize X) q L NE) as (C & EC & SC & GC); [intros c Hc; apply HF; auto|].
    exists C. split.
    - unfold diag_acc. assert (E : omap (fun c => nth (c - 1) s None) L = Some (map F L)).
      { clear - HF. induction L as [|c L IH]; auto. cbn [omap map]. rewrite (proj1 (HF c (or_introl eq_refl))). rewrite IH by (intros; apply HF; simpl; auto). reflexivity. }
      rewrite E. exact EC.
    - split; auto. intros i is ks Hi Hk Hm. rewrite GC by (rewrite (valid_length _ _ Hk), map_length; auto).
      clear - HF Hi Hk Hm. revert ks Hk. induction L as [|c L IH]; intros ks Hk; inversion Hk as [|y ? ks' ? Hy Hk']; subst; auto. cbn [combine lprod fst snd].
      rewrite (proj2 (proj2 (HF c (or_introl eq_refl))) i is y) by (auto; intros mu Hmu; apply (Hm c mu); simpl; auto).
      f_equal. apply IH; auto; intros; [apply HF; simpl; auto|apply (Hm c0 mu); simpl; auto].
  Qed.

  (** the value of a node as a contraction of its core *)
  Lemma node_kval n is e : node t n -> is_leaf t n = false ->
    tval X n is e = kval (children t n) (csize X) (core X n) (fun c (_ : nat) x => tval X c is [x]) 0 e.
  Proof. intros Hn Hl. rewrite (tval_internal X r (proj1 O)) by auto. rewrite (heads_internal X r O n Hn Hl). reflexivity. Qed.

  Variable excl : list nat.
  Hypothesis HEx : forall p c, edge t p c -> In c excl -> In p excl.
  Hypothesis HS : forall n, node t n -> active X n = true -> ~ In n excl -> n <> r -> forall mu, In mu (dims t n) -> nth mu (tb_shape X) 0%nat = q.
  Hypothesis HR : ~ In r excl -> is_leaf t r = false -> (exists c, edge t r c /\ active X c = true) \/ (forall mu, In mu (dims t r) -> nth mu (tb_shape X) 0%nat = q).
  Hypothesis HRl : is_leaf t r = true -> In r excl.

  Definition plain (n : nat) : Prop := n <> r \/ (forall c, edge t n c -> active X c = true) \/ (forall c, edge t n c -> active X c = false).
  Lemma below_loop s0 : length s0 = nbn t -> (forall n, node t n -> ~ In n excl -> nth (n - 1) s0 None = Some (core X n)) ->
    exists s, ofold (fun s n => match diag_below_node X excl s n with Some a => Some (upd (n - 1) a s) | None => None end) (bottom_up t) s0 = Some s /\ length s = nbn t /\
      forall n, node t n -> ~ In n excl -> active X n = true -> (plain n -> is_diag n (nth (n - 1) s None)) /\
        exists B, nth (n - 1) s None = Some B /\ nth 0 (shape B) 0%nat = q.
  Proof.
    intros HL0 Hs0. pose proof (proj1 O) as V. pose proof (proj1 V) as T.
    set (Q := fun n (a : option (nd R)) => ~ In n excl -> active X n = true -> (plain n -> is_diag n a) /\ exists B, a = Some B /\ nth 0 (shape B) 0%nat = q).
    assert (QD : forall n a, is_diag n a -> (plain n -> is_diag n a) /\ exists B, a = Some B /\ nth 0 (shape B) 0%nat = q).
    { intros n a H. split; auto. destruct H as (A & E & S & _). exists A. rewrite S. auto. }
    destruct (bottom_up_local t r T None (diag_below_node X excl) Q s0 HL0) as (s & E & HL & HQ).
    2:{ exists s. split; auto. }
    intros n s Hn HLs Hs HQc. unfold diag_below_node. rewrite Hs. destruct (is_leaf t n) eqn:Hl.
    { cbn [orb]. eexists. split; [reflexivity|]. intros Hne Ha. apply QD. rewrite Hs0 by auto. exists (core X n). split; auto.
      assert (Nr : n <> r) by (intros ->; apply Hne, HRl; auto).
      destruct (leaf_index t n Hl) as [K1 K2].
      assert (Esz : tb_size X n = q). { rewrite <- (tb_shape_leaf X n Hl). apply (HS n); auto. rewrite (dims_leaf t r (proj1 O) n Hl). simpl. auto. }
      pose proof (heads_leaf X r O n Hl Ha) as Hh. assert (Hsh : shape (core X n) = heads X n ++ exts X n) by (apply ok_shape; auto). unfold tb_size in Esz. rewrite Ha in Esz. rewrite Esz in Hh. rewrite Hh in Hsh. cbn [app] in Hsh.
      split; auto. intros i is e Hi Hm He. rewrite (tval_leaf X r V) by auto. rewrite Hm; auto. rewrite (dims_leaf t r (proj1 O) n Hl). simpl. auto. }
    cbn [orb]. rewrite (ok_internal X r O n Hn Hl). cbn [negb orb]. destruct (inb n excl) eqn:Ein.
    { eexists. split; [reflexivity|]. intros Hne. apply inb_spec in Ein. contradiction. }
    apply inb_false in Ein. rewrite (Hs0 n Hn Ein). cbn [bind].
    assert (Ech : filter (fun c => negb (inb c excl)) (children t n) = children t n).
    { apply filter_true. intros c Hc. apply negb_true_iff, inb_false. intros K. apply Ein. apply (HEx n c); auto. apply kids_edge; auto. }
    rewrite Ech. set (cs := children t n). set (L := act_of X cs). set (M := inact_of X cs).
    pose proof (core_kids n Hn Hl) as HC. fold cs in HC. assert (NDc : NoDup cs) by apply NoDup_children.
    assert (IL : incl L cs) by (intros x Hx; apply filter_In in Hx; apply Hx). assert (IM : incl M cs) by (intros x Hx; apply filter_In in Hx; apply Hx).
    assert (NL : NoDup L) by (apply NoDup_filter; auto).
    assert (Eed : forall c, In c cs -> edge t n c) by (intros c Hc; apply kids_edge; auto).
    assert (HLd : forall c, In c L -> edge t n c /\ active X c = true /\ is_diag c (nth (c - 1) s None)).
    { intros c Hc. pose proof (IL c Hc) as Hc'. apply filter_In in Hc. destruct Hc as [_ Ha]. split; auto. split; auto. apply (HQc c (Eed c Hc')); auto.
      - intros K. apply Ein. apply (HEx n c); auto.
      - left. apply (edge_ne t r T n c). auto. }
    assert (Rest : filter (fun c => negb (inb c L)) cs = M).
    { apply filter_ext_in. intros c Hc. f_equal. destruct (active X c) eqn:Ea; [apply inb_spec, filter_In; auto|]. apply inb_false. intros K. apply filter_In in K. destruct K. congruence. }
    assert (HMs : n <> r \/ (forall mu, In mu (dims t n) -> nth mu (tb_shape X) 0%nat = q) -> forall c, In c M -> csize X c = q).
    { intros Hor c Hc. pose proof (IM c Hc) as Hc'. apply filter_In in Hc. destruct Hc as [_ Ha]. apply negb_true_iff in Ha. apply inactive_size; auto; [apply (child_inactive n); auto|].
      intros mu Hmu. assert (Hmn : In mu (dims t n)) by (apply (in_dims_child n c); auto). destruct Hor as [Hor|Hor]; auto. apply (HS n); auto. apply (ok_internal X r O); auto. }
    assert (HMv : forall c is i, In c M -> (forall mu, In mu (dims t n) -> nth mu is 0%nat = i) -> forall x, tval X c is [x] = if (x =? i)%nat then r1 else r0).
    { intros c is i Hc Hm x. pose proof (IM c Hc) as Hc'. apply filter_In in Hc. destruct Hc as [_ Ha]. apply negb_true_iff in Ha. apply inactive_val; auto; [apply (child_inactive n); auto|].
      intros mu Hmu. apply Hm. apply (in_dims_child n c); auto. }
    assert (HV : forall i is e, (i < q)%nat -> (forall mu, In mu (dims t n) -> nth mu is 0%nat = i) -> valid (exts X n) e -> (forall c, In c M -> csize X c = q) ->
      tval X n is e = bsum (map (csize X) L) (fun ks => lprod (combine L ks) (fun p => tval X (fst p) is [snd p]) * get (core X n) (map (ixf L ks (fun _ => i)) cs ++ e))).
    { intros i is e Hi Hm He HMq. rewrite (node_kval n is e Hn Hl). fold cs.
      rewrite (kval_delta cs (csize X) (core X n) (exts X n) (fun c (_ : nat) x => tval X c is [x]) NDc HC 0 e L (fun _ => i)); auto.
      - apply (valid_length _ _ He).
      - rewrite Rest. intros c Hc. rewrite (HMq c Hc). split; auto. }
    assert (EpL : map (chpos t) L = map (fun c => index_of c cs) L) by (apply chpos_index; auto).
    assert (EpM : map (chpos t) M = map (fun c => index_of c cs) M) by (apply chpos_index; auto).
    destruct L as [|a0 L'] eqn:EL.
    - (* no active child *)
      assert (EMc : M = cs) by (rewrite <- Rest; apply filter_true; auto).
      assert (HMq : forall c, In c M -> csize X c = q).
      { destruct (Nat.eq_dec n r) as [->|NEr]; [|apply HMs; auto]. destruct (HR Ein Hl) as [(c & Hc & Ha)|K]; [|apply HMs; auto].
        exfalso. assert (K : In c (filter (active X) cs)) by (apply filter_In; split; auto; apply in_children; auto; apply Hc). fold (act_of X cs) in K. unfold L in EL. rewrite EL in K. destruct K. }
      destruct (front_ok cs (csize X) (core X n) (exts X n) q NDc HC Hq (fun c => negb (active X c))) as (A & EA & SA & GA); auto.
      { fold (inact_of X cs). fold M. rewrite EMc. apply leaf_kids; auto. }
      fold (inact_of X cs) in EA, SA, GA. fold M in EA, SA, GA. rewrite EpM, EA. cbn [bind]. eexists. split; [reflexivity|]. intros _ _. apply QD. exists A. split; auto.
      assert (Zn : filter (fun c => negb (inb c M)) cs = []) by (apply filter_none; intros c Hc; apply negb_false_iff, inb_spec; rewrite EMc; auto). rewrite Zn in *. cbn [map app] in SA. split; auto.
      intros i is e Hi Hm He. rewrite (HV i is e Hi Hm He HMq). pose proof (GA i [] e Hi (Forall2_nil _) He) as G0. cbn [app] in G0. rewrite G0. cbn [map bsum combine lprod].
      replace (map (gof M [] i []) cs) with (map (ixf [] [] (fun _ => i)) cs); [ring|]. apply map_ext_in. intros c Hc. unfold ixf, gof. cbn [inb existsb]. rewrite (proj2 (inb_spec c M)) by (rewrite EMc; auto). auto.
    - rewrite <- EL in *. assert (NEL : L <> []) by (rewrite EL; discriminate).
      destruct (diag_acc_ok s L n HLd NEL) as (tmp & Et & St & Gt). rewrite Et. cbn [bind].
      assert (Gt' : forall i is ks, (i < q)%nat -> valid (map (csize X) L) ks -> (forall mu, In mu (dims t n) -> nth mu is 0%nat = i) -> get tmp (i :: ks) = lprod (combine L ks) (fun p => tval X (fst p) is [snd p])).
      { intros i is ks Hi Hk Hm. apply Gt; auto. intros c mu Hc Hmu. apply Hm. apply (in_dims_child n c); auto. }
      rewrite EpL, EpM.
      (* the plain contraction *)
      destruct (td_pos cs (csize X) (core X n) (exts X n) q (fun c i x => tval X c (repeat i D) [x]) NDc HC L tmp NL IL St) as (A & EA & SA & GA).
      { intros i ks Hi Hk. apply Gt'; auto. intros mu Hmu. apply nth_rep. apply (in_dims t r V n mu Hn) in Hmu. unfold tb_order. apply Hmu. }
      rewrite Rest in SA, GA.
      destruct M as [|b0 M'] eqn:EM.
      + rewrite EA. cbn [bind]. eexists. split; [reflexivity|]. intros _ _. apply QD. exists A. split; auto. cbn [map app] in SA. split; auto.
        intros i is e Hi Hm He. pose proof (GA i [] e Hi (Forall2_nil _) He) as G0. cbn [app] in G0. rewrite G0. rewrite (HV i is e Hi Hm He) by (intros c []).
        apply bsum_ext. intros ks Hks. rewrite <- (Gt' i is ks) by auto. rewrite <- (Gt' i (repeat i D) ks); auto; [|intros mu Hmu; apply nth_rep; apply (in_dims t r V n mu Hn) in Hmu; unfold tb_order; apply Hmu].
        f_equal. f_equal. pose proof (asm_fun cs (csize X) (core X n) (exts X n) NDc HC L ks (fun _ => i) e NL IL (valid_length _ _ He)) as Q1. cbv beta in Q1. rewrite Rest in Q1. exact Q1.
      + rewrite <- EM in *. assert (NEM : M <> []) by (rewrite EM; discriminate). destruct (Nat.eqb_spec n (root t)) as [Er|Er].
        * rewrite EA. cbn [bind]. eexists. split; [reflexivity|]. intros _ _. split; [|exists A; rewrite SA; auto].
          intros [P|[P|P]]; exfalso.
          -- apply P. rewrite Er. apply (root_eq t r T).
          -- assert (Hb : In b0 M) by (rewrite EM; simpl; auto). pose proof (IM b0 Hb) as Hb'. apply filter_In in Hb. destruct Hb as [_ Hb]. rewrite (P b0) in Hb by auto. discriminate.
          -- assert (Hb : In a0 L) by (rewrite EL; simpl; auto). pose proof (IL a0 Hb) as Hb'. apply filter_In in Hb. destruct Hb as [_ Hb]. rewrite (P a0) in Hb by auto. discriminate.
        * assert (Nr : n <> r) by (intros ->; apply Er; symmetry; apply (root_eq t r T)).
          assert (HMq : forall c, In c M -> csize X c = q) by (apply HMs; auto).
          destruct (ted_core cs (csize X) (core X n) (exts X n) q NDc HC (active X) HMq NEM tmp St) as (B & EB & SB & GB).
          fold (act_of X cs) in EB, GB. fold (inact_of X cs) in EB. fold L in EB, GB. fold M in EB. rewrite EB. cbn [bind]. eexists. split; [reflexivity|]. intros _ _. apply QD. exists B. split; auto. split; auto.
          intros i is e Hi Hm He. rewrite GB by (apply (valid_length _ _ He)). rewrite (HV i is e Hi Hm He HMq). apply bsum_ext. intros ks Hks. rewrite (Gt' i is ks) by auto. reflexivity.
  Qed.
End Below.
