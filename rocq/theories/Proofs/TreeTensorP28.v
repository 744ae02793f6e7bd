(** eval_diag(dims) and eval_at_indices of a tree-based tensor. *)
From Coq Require Import List Arith Lia Bool Sorted Ring Permutation.
From Verif.Base Require Import ListAux CRing Index.
From Verif.Model Require Import Utils Numpy FullTensor DimensionTree TreeBased TreeEval TreeReduce.
From Verif.Spec Require Import TensorSpec TreeSpec TreeTensorSpec.
From Verif.Proofs Require Import NumpyP FullTensorP FullTensorP3 FullTensorP4 FunctionsP DimTreeP DimTreeP2 DimTreeP4 DimTreeP5 TreeTensorP TreeTensorP2 TreeTensorP3 TreeTensorP4 TreeTensorP5 TreeTensorP18 TreeTensorP19 TreeTensorP20 TreeTensorP22 TreeTensorP24 TreeTensorP25 TreeTensorP27.
Import ListNotations.

Lemma NoDup_nth_map (l ks : list nat) : NoDup l -> NoDup ks -> Forall (fun k => k < length l) ks -> NoDup (map (fun k => nth k l 0) ks).
Proof.
  intros Nl Nk. induction Nk as [|a ks Ha Hk IH]; intros F; cbn [map]; constructor; inversion F as [|? ? F1 F2]; subst; auto.
  intros Hin. apply in_map_iff in Hin. destruct Hin as (x & Ex & Hx). apply Ha. rewrite Forall_forall in F2. specialize (F2 x Hx). rewrite (proj1 (NoDup_nth l 0) Nl a x); auto.
Qed.
Lemma skipn_1_nth (l : list nat) k : nth k (skipn 1 l) 0 = nth (S k) l 0.
Proof. destruct l; cbn; auto. destruct k; auto. Qed.

Section EvalDiagDims.
  Context {R : Type} {CR : CRing R}.
  Add Ring Rrt28 : rth.
  Local Open Scope cr_scope.
  Variables (X : tbt R) (r q : nat) (ds : list nat).
  Hypothesis O : tb_ok X r.
  Local Notation t := (ttree X).
  Let V : dim_tree t r := proj1 O.
  Let T : rooted_tree t r := proj1 (proj1 O).
  Hypothesis Hnode : exists n, node t n /\ Permutation ds (dims t n).
  Hypothesis H2d : (2 <= length ds)%nat.
  Hypothesis Hlt : (length ds < tb_order X)%nat.
  Hypothesis Hq : (0 < q)%nat.
  Hypothesis HS : forall k, In k ds -> nth k (tb_shape X) 0%nat = q.

  Lemma edd_ok : exists Z self r', tb_eval_diag_dims X ds = Some (Z, self) /\ tb_ok Z r' /\ tb_shape Z = q :: sel 0%nat (tb_shape X) (compl (tb_order X) ds) /\ exts Z r' = exts X r /\
    forall i is e, (i < q)%nat -> valid (sel 0%nat (tb_shape X) (compl (tb_order X) ds)) is -> valid (exts X r) e ->
      tval Z r' (i :: is) e = tval X r (asm (tb_order X) ds (repeat i (length ds)) is) e.
  Proof.
    unfold tb_eval_diag_dims. pose proof (node_with_dims_ok t r ds V) as HW. destruct (node_with_dims t ds) as [|a lw] eqn:Ew.
    { destruct Hnode as (n & Hn). apply HW in Hn. destruct Hn. }
    destruct (proj1 (HW a)) as [Ha Hp]; [simpl; auto|]. clear HW Ew lw Hnode.
    assert (Hal : is_leaf t a = false). { destruct (is_leaf t a) eqn:E; auto. rewrite (dims_leaf t r V a E) in Hp. apply Permutation_length in Hp. cbn in Hp. lia. }
    assert (Haa : active X a = true) by (apply (ok_internal X r O a Ha Hal)).
    assert (Har : a <> r). { intros ->. pose proof (dims_root t r V) as Q. apply Permutation_length in Q. rewrite seq_length in Q. apply Permutation_length in Hp. unfold tb_order in Hlt. lia. }
    rewrite (dt_sub_eq X r a O Ha). destruct (sub_net_ok X r a O Ha Haa) as (Os & Ss & Es & Vs).
    change (map (nthc (cores X)) (sub_nod X a)) with (cores (sub_net X a)). change (dt_restrict (sub_nod X a) (sub_d X a) (adj t)) with (ttree (sub_net X a)).
    assert (Emk : tb_make (cores (sub_net X a)) (ttree (sub_net X a)) = Some (sub_net X a)) by (apply (tb_make_ok _ _ 1); exact Os).
    rewrite Emk. cbn [bind].
    assert (Hds : forall k, In k ds <-> (k < length (d2i t))%nat /\ below t a (nth k (d2i t) 0%nat)).
    { intros k. rewrite <- (in_dims t r V a k Ha). split; apply Permutation_in; auto. apply Permutation_sym; auto. }
    assert (Hsd : forall n, In n (sub_d X a) -> tb_size X n = q).
    { intros n Hn. apply (sub_d_spec X r a O Ha) in Hn. destruct Hn as [Hb Hl]. rewrite <- (tb_shape_leaf X n Hl). apply HS. apply Hds. destruct (leaf_index t n Hl) as [Q1 Q2]. rewrite Q2. auto. }
    assert (NDs : NoDup ds). { apply (Permutation_NoDup (Permutation_sym Hp)). apply (NoDup_dims t r V a Ha). }
    assert (HFd : Forall (fun k => (k < tb_order X)%nat) ds) by (apply Forall_forall; intros k Hk; apply Hds in Hk; apply Hk).
    assert (NDd : NoDup (sub_d X a)) by (apply NoDup_filter; apply (sub_nod_spec X r a O Ha)).
    assert (Ld : length (sub_d X a) = length ds).
    { rewrite <- (map_length (fun k => nth k (d2i t) 0%nat) ds). apply Permutation_length. apply NoDup_Permutation; auto.
      - apply NoDup_nth_map; [apply (NoDup_d2i t r V)|auto|exact HFd].
      - intros n. rewrite (sub_d_spec X r a O Ha), in_map_iff. split.
        + intros [Hb Hl]. destruct (leaf_index t n Hl) as [Q1 Q2]. exists (index_of n (d2i t)). split; auto. apply Hds. rewrite Q2. auto.
        + intros (k & <- & Hk). apply Hds in Hk. split; [apply Hk|]. apply d2i_leaf. apply Hk. }
    assert (Ords : tb_order (sub_net X a) = length ds).
    { pose proof (tb_shape_length (sub_net X a)) as Q. rewrite Ss, map_length in Q. unfold tb_order. lia. }
    assert (HSs : tb_shape (sub_net X a) = repeat q (tb_order (sub_net X a))).
    { rewrite Ss, Ords, <- Ld. clear - Hsd. induction (sub_d X a) as [|n l IH]; auto. cbn [map length repeat]. f_equal; [apply Hsd; simpl; auto|]. apply IH. intros x Hx. apply Hsd; simpl; auto. }
    destruct (tb_eval_diag_ok (sub_net X a) 1 q Os) as (B & EB & SB & GB); auto; [lia|]. rewrite EB. cbn [bind]. rewrite Es in SB, GB.
    (* the restricted network *)
    set (ts := setc a B (cores X)). cbn [cores].
    set (K := filter (fun n => negb (inb n (descendants t a))) (nodes t)).
    assert (Ecd : compl (tb_order X) (dims t a) = compl (tb_order X) ds) by (apply compl_ext; intros k; split; apply Permutation_in; auto; apply Permutation_sym; auto).
    rewrite Ecd. set (rem := compl (tb_order X) ds). set (d := a :: sel 0%nat (d2i t) rem).
    destruct (descendants_spec t r T a Ha) as [_ Hde].
    assert (InK : forall n, In n K <-> node t n /\ ~ (n <> a /\ below t a n)).
    { intros n. unfold K. rewrite filter_In, in_nodes, negb_true_iff, inb_false, Hde. tauto. }
    assert (NK : NoDup K) by (apply NoDup_filter; apply NoDup_nodes).
    assert (HaK : In a K) by (apply InK; split; auto; tauto).
    assert (La : (a - 1 < length (cores X))%nat) by (rewrite (ok_cores_length X r O); unfold node in Ha; lia).
    assert (LK : forall n, node t n -> nthc ts n = if n =? a then B else core X n).
    { intros n Hn. unfold ts. rewrite nthc_setc; auto; [pose proof (ok_cores_length X r O); unfold node in Ha; lia|unfold node in Hn; lia]. }
    assert (Exa : exts X a = [csize X a]) by (unfold csize; rewrite Haa; apply (ok_exts_rank X r O); auto).
    assert (Hca0 : csize X a <> 0%nat).
    { pose proof (proj1 (active_prod X a) Haa) as P. rewrite (ok_shape X a Ha Haa), Exa, prodn_app in P. intros Q. apply P. rewrite Q. cbn. lia. }
    assert (Hact : forall n, node t n -> activec ts n = active X n).
    { intros n Hn. unfold activec. rewrite LK by auto. destruct (Nat.eqb_spec n a) as [->|N]; [|reflexivity]. rewrite Haa. unfold ft_storage, np_size. rewrite SB, Exa. apply negb_true_iff, Nat.eqb_neq. cbn. nia. }
    assert (HremF : Forall (fun k => (k < length (d2i t))%nat) rem) by (apply Forall_forall; intros k Hk; apply in_compl in Hk; apply Hk).
    assert (InD : forall n, In n d <-> n = a \/ (is_leaf t n = true /\ ~ below t a n)).
    { intros n. unfold d. cbn [In]. assert (G : In n (sel 0%nat (d2i t) rem) <-> is_leaf t n = true /\ ~ below t a n); [|rewrite G; split; intros [Q|Q]; auto].
      unfold sel. rewrite in_map_iff. split.
      - intros (k & <- & Hk). apply in_compl in Hk. destruct Hk as [K1 K2]. split; [apply d2i_leaf; auto|]. intros Q. apply K2. apply Hds. auto.
      - intros [Hl Hb]. destruct (leaf_index t n Hl) as [Q1 Q2]. exists (index_of n (d2i t)). split; auto. apply in_compl. split; auto. rewrite Hds, Q2. tauto. }
    assert (Hr : In r K). { apply InK. split; [apply T|]. intros [_ [k Hk]]. pose proof (level_below t r T a r k Ha Hk). destruct k; [apply depth_inv0 in Hk; congruence|]. apply depth_invS in Hk. destruct Hk as (p & _ & He). apply (rt_no_edge t r T p He). }
    assert (Hroot : forall p, In p K -> adj t p r = false).
    { intros p Hpk. destruct (adj t p r) eqn:E; auto. destruct (rt_no_edge t r T p). split; [apply InK; auto|]. split; [apply T|auto]. }
    assert (Strict : forall p c, edge t p c -> (c <> a /\ below t a c) <-> below t a p).
    { intros p c He. split.
      - intros [N [k Hk]]. destruct k as [|k]; [apply depth_inv0 in Hk; congruence|]. apply depth_invS in Hk. destruct Hk as (p' & Hp' & He'). rewrite (rt_uniq t r T p p' c He He'). exists k. auto.
      - intros Hb. split; [|apply (below_trans t a p c); auto; apply below_step; right; exists c; split; auto; apply below_refl].
        intros ->. destruct Hb as [k Hk]. pose proof (level_below t r T a p k Ha Hk). pose proof (level_edge t r T p a He). lia. }
    assert (Hpar : forall c, In c K -> c <> r -> exists p, In p K /\ adj t p c = true /\ (level t p < level t c)%nat /\ forall q, In q K -> adj t q c = true -> q = p).
    { intros c Hc Hne. apply InK in Hc. destruct Hc as [Hc Hs]. destruct (rt_has_parent t r T c Hc Hne) as (p & He). exists p. rewrite (Strict p c He) in Hs.
      split; [apply InK; split; [apply He|tauto]|]. split; [apply He|]. split; [rewrite (level_edge t r T p c He); lia|]. intros q' Hq' Hqa. apply (rt_uniq t r T q' p c); auto. split; [apply InK; auto|auto]. }
    pose (ch := fun n => if n =? a then [] else children t n).
    assert (Hch : forall n, In n K -> filter (adj t n) K = ch n).
    { intros n Hn. apply InK in Hn. destruct Hn as [Hn Hs]. unfold ch. destruct (Nat.eqb_spec n a) as [->|N].
      - apply filter_none. intros c Hc. destruct (adj t a c) eqn:E; auto. apply InK in Hc. destruct Hc as [Hc Hcs]. assert (He : edge t a c) by (split; auto). rewrite (Strict a c He) in Hcs. destruct Hcs. apply below_refl.
      - assert (Nb : ~ below t a n) by tauto. unfold children, K. assert (G : forall l, incl l (nodes t) -> filter (adj t n) (filter (fun n0 => negb (inb n0 (descendants t a))) l) = filter (adj t n) l); [|apply G, incl_refl].
        induction l as [|c l IH]; intros Hl; auto. assert (Hl' : incl l (nodes t)) by (intros x Hx; apply Hl; simpl; auto). cbn [filter]. destruct (adj t n c) eqn:E.
        + assert (Hc : node t c) by (apply in_nodes, Hl; simpl; auto). assert (He : edge t n c) by (split; auto). replace (inb c (descendants t a)) with false; [cbn [negb filter]; rewrite E, IH; auto|].
          symmetry. apply inb_false. rewrite Hde. rewrite (Strict n c He). auto.
        + destruct (inb c (descendants t a)); cbn [negb filter]; rewrite ?E; auto. }
    assert (Hd : NoDup d).
    { unfold d. constructor.
      - intros Q. unfold sel in Q. apply in_map_iff in Q. destruct Q as (k & Ek & Hk). apply in_compl in Hk. pose proof (d2i_leaf t k (proj1 Hk)) as Q. rewrite Ek in Q. congruence.
      - unfold sel. apply NoDup_nth_map; [apply (NoDup_d2i t r V)| |exact HremF]. apply NoDup_filter', seq_NoDup. }
    assert (Hdl : forall n, In n d <-> In n K /\ forall c, In c K -> adj t n c = false).
    { intros n. rewrite InD. split.
      - intros [->|[Hl Hb]].
        + split; auto. intros c Hc. pose proof (Hch a HaK) as E. unfold ch in E. rewrite Nat.eqb_refl in E. destruct (adj t a c) eqn:Q; auto. assert (In c (filter (adj t a) K)) by (apply filter_In; auto). rewrite E in H. destruct H.
        + assert (Hn : node t n) by (apply (leaf_node t r V); auto). split; [apply InK; split; auto; tauto|]. intros c Hc. destruct (adj t n c) eqn:E; auto. apply (leaf_iff t r V) in Hl. destruct Hl as [_ Hl]. destruct (Hl c). split; auto. split; auto. apply InK; auto.
      - intros [Hn Hc]. destruct (Nat.eq_dec n a) as [->|N]; auto. right. pose proof (proj1 (InK n) Hn) as [Hnn Hs]. assert (Nb : ~ below t a n) by tauto. split; auto. apply (leaf_iff t r V). split; auto. intros c He.
        assert (Hck : In c K) by (apply InK; split; [apply He|]; rewrite (Strict n c He); auto). specialize (Hc c Hck). destruct He as (_ & _ & He). congruence. }
    assert (Lf : forall n, In n K -> inb n d = (n =? a) || is_leaf t n).
    { intros n Hn. apply eq_true_iff_eq. rewrite inb_spec, InD, orb_true_iff, Nat.eqb_eq. split; [tauto|]. intros [Q|Q]; auto. apply InK in Hn. destruct (Nat.eq_dec n a); auto. right. split; auto. tauto. }
    assert (Hint : forall n, In n K -> ~ In n d -> activec ts n = true).
    { intros n Hn Hnd. assert (Hnn : node t n) by (apply InK; auto). rewrite Hact by auto. apply (ok_internal X r O n Hnn). apply inb_false in Hnd. rewrite Lf in Hnd by auto. apply orb_false_iff in Hnd. apply Hnd. }
    pose (dsz := fun n => if n =? a then q else tb_size X n).
    assert (Hshape : forall n, In n K -> activec ts n = true -> shape (nthc ts n) = (if inb n d then [dsz n] else map (csize X) (ch n)) ++ exts X n).
    { intros n Hn Hca. assert (Hnn : node t n) by (apply InK; auto). rewrite Hact in Hca by auto. rewrite Lf, LK by auto. unfold dsz, ch. destruct (Nat.eqb_spec n a) as [->|N]; cbn [orb]; [rewrite SB; auto|].
      rewrite (ok_shape X n Hnn Hca). f_equal. destruct (is_leaf t n) eqn:El; [rewrite (heads_leaf X r O n El Hca); unfold tb_size; rewrite Hca; auto|apply (heads_internal X r O n Hnn El)]. }
    assert (Hext : forall n, In n K -> n <> r -> activec ts n = true -> exts X n = [csize X n]).
    { intros n Hn Hne Hca. assert (Hnn : node t n) by (apply InK; auto). rewrite Hact in Hca by auto. unfold csize. rewrite Hca. apply (ok_exts_rank X r O); auto. }
    assert (Hextr : (length (exts X r) <= 1)%nat) by apply (ok_exts_root X r O).
    assert (Hina : forall n, In n K -> activec ts n = false -> csize X n = dsz n).
    { intros n Hn Hca. assert (Hnn : node t n) by (apply InK; auto). rewrite Hact in Hca by auto. unfold dsz. destruct (Nat.eqb_spec n a) as [->|N]; [congruence|]. unfold csize. rewrite Hca. auto. }
    assert (Hra : activec ts r = true) by (rewrite Hact by apply T; apply (ok_root X r O)).
    assert (Esh : map dsz d = q :: sel 0%nat (tb_shape X) rem).
    { unfold d. cbn [map]. f_equal; [unfold dsz; rewrite Nat.eqb_refl; auto|]. unfold sel. rewrite map_map. apply map_ext_in. intros k Hk. apply in_compl in Hk. unfold tb_shape. rewrite map_nth_in with (da := 0%nat) by apply Hk.
      unfold dsz. destruct (Nat.eqb_spec (nth k (d2i t) 0%nat) a) as [E|N]; auto. pose proof (d2i_leaf t k (proj1 Hk)) as Q. rewrite E in Q. congruence. }
    pose (emb := fun l : list nat => asm (tb_order X) ds (repeat (nth 0 l 0%nat) (length ds)) (skipn 1 l)).
    assert (Eix : forall n l, In n d -> n <> a -> nth (index_of n (d2i t)) (emb l) 0%nat = nth (index_of n d) l 0%nat).
    { intros n l Hn Nn. assert (Hn' : In n (sel 0%nat (d2i t) rem)) by (unfold d in Hn; destruct Hn; [congruence|auto]). unfold d. cbn [index_of]. destruct (Nat.eqb_spec a n); [congruence|].
      destruct (index_of_nth _ n Hn') as [Q1 Q2]. rewrite sel_length in Q1. assert (E : index_of n (d2i t) = nth (index_of n (sel 0%nat (d2i t) rem)) rem 0%nat).
      { rewrite sel_nth in Q2 by auto. rewrite <- Q2 at 1. apply index_of_NoDup; [apply (NoDup_d2i t r V)|]. rewrite Forall_forall in HremF. apply HremF. apply nth_In; auto. }
      rewrite E. unfold emb, rem. rewrite asm_nth_out by auto. rewrite skipn_1_nth. auto. }
    set (Z := TB (dt_restrict K d (adj t)) (map (nthc ts) K)).
    assert (OZ : tb_ok Z (S (index_of r K))) by (apply (rs_ok K d (adj t) NK r (level t) Hr Hroot Hpar Hd Hdl ts ch (csize X) dsz (exts X)); auto).
    rewrite (tb_make_ok _ _ (S (index_of r K))) by exact OZ. cbn [bind]. exists Z. eexists. exists (S (index_of r K)). split; [reflexivity|]. split; auto. split; [|split].
    - rewrite <- Esh. apply (rs_shape K d (adj t) NK r (level t) Hr Hroot Hpar Hd Hdl ts ch (csize X) dsz (exts X)); auto.
    - apply (rs_exts K d (adj t) NK r Hdl ts ch (csize X) dsz (exts X)); auto.
    - intros i is e Hi His He.
      apply (rs_tval K d (adj t) NK r (level t) Hr Hroot Hpar Hd Hdl ts ch (csize X) dsz (exts X)) with (G := fun n l e => tval X n (emb l) e); auto.
      + intros n l e' Hn Hca Hl He'. assert (Hk : In n K) by (apply Hdl in Hn; apply Hn). assert (Hnn : node t n) by (apply InK; auto). rewrite Hact in Hca by auto. rewrite LK by auto. destruct (Nat.eqb_spec n a) as [->|N].
        * unfold d at 1. cbn [index_of]. rewrite Nat.eqb_refl. rewrite Esh in Hl. inversion Hl as [|i0 ? l0 ? Hi0 Hl0]; subst. cbn [nth]. rewrite GB, Vs; auto.
          -- apply (tval_local X r V a); auto. intros mu Hmu. assert (Hmd : In mu ds) by (apply (Permutation_in mu (Permutation_sym Hp)); auto). destruct (index_of_nth ds mu Hmd) as [Q1 Q2]. unfold emb. cbn [nth]. rewrite <- Q2. rewrite asm_nth_in by auto. rewrite nth_rep by auto.
             apply Hds in Hmd. unfold sub_emb. rewrite Q2. rewrite map_nth_in with (da := 0%nat) by apply Hmd.
             assert (Hin : In (nth mu (d2i t) 0%nat) (sub_d X a)) by (apply (sub_d_spec X r a O Ha); split; [apply Hmd|apply d2i_leaf; apply Hmd]). destruct (index_of_nth _ _ Hin) as [Q3 _]. rewrite nth_rep; auto. rewrite Ords. lia.
          -- rewrite <- Ss, HSs. apply valid_intro; [rewrite !repeat_length; auto|]. rewrite repeat_length. intros k Hk'. rewrite !nth_rep by auto. auto.
        * assert (El : is_leaf t n = true) by (apply InD in Hn; destruct Hn as [Hn|Hn]; [contradiction|apply Hn]). rewrite (tval_leaf X r V n (emb l) e' El Hca). rewrite Eix by auto. auto.
      + intros n l k Hn Hca Hl Hk'. assert (Hk : In n K) by (apply Hdl in Hn; apply Hn). assert (Hnn : node t n) by (apply InK; auto). rewrite Hact in Hca by auto. assert (N : n <> a) by congruence.
        assert (El : is_leaf t n = true) by (apply InD in Hn; destruct Hn as [Hn|Hn]; [contradiction|apply Hn]). rewrite (tval_inactive X r V n (emb l) [k] El Hca). rewrite Eix by auto. cbn [list_eqb]. rewrite andb_true_r. auto.
      + intros n l e' Hn Hnd Hl He'. assert (Hnn : node t n) by (apply InK; auto). apply inb_false in Hnd. rewrite Lf in Hnd by auto. apply orb_false_iff in Hnd. destruct Hnd as [Na El]. rewrite LK by auto. unfold ch. rewrite Na.
        rewrite (tval_internal X r V n (emb l) e' Hnn El). rewrite (heads_internal X r O n Hnn El). auto.
      + rewrite Esh. constructor; auto.
      + rewrite Hra. auto.
  Qed.
End EvalDiagDims.
