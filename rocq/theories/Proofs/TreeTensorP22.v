(** squeeze: removal of dimensions of size one. *)
From Coq Require Import List Arith Lia Bool Sorted Ring Permutation.
From Verif.Base Require Import ListAux CRing Index.
From Verif.Model Require Import Utils Numpy FullTensor DimensionTree TreeBased TreeEval TreeReduce.
From Verif.Spec Require Import TensorSpec TreeSpec TreeTensorSpec.
From Verif.Proofs Require Import NumpyP FullTensorP FullTensorP4 FunctionsP DimTreeP TreeTensorP TreeTensorP2 TreeTensorP3 TreeTensorP4 TreeTensorP17 TreeTensorP18 TreeTensorP19 TreeTensorP20 TreeTensorP21.
Import ListNotations.

Section Squeeze.
  Context {R : Type} {CR : CRing R}.
  Add Ring Rrt22 : rth.
  Local Open Scope cr_scope.
  Variables (X : tbt R) (r : nat) (ds : list nat).
  Hypothesis O : tb_ok X r.
  Let t := ttree X.
  Let D := tb_order X.
  Hypothesis HN : NoDup ds.
  Hypothesis HF : Forall (fun k => (k < tb_order X)%nat) ds.
  Hypothesis H1 : forall k, In k ds -> nth k (tb_shape X) 0%nat = 1%nat.
  Hypothesis Hrem : compl (tb_order X) ds <> [].
  Let rem := compl (tb_order X) ds.
  Let V : dim_tree t r := proj1 O.
  Let T : rooted_tree t r := proj1 (proj1 O).
  Definition sqb (n : nat) : bool := forallb (fun mu => inb mu ds) (dims (ttree X) n).
  Definition zix : list nat := repeat 0%nat (tb_order X).
  Definition sqrest (n : nat) : list nat := filter (fun c => negb (sqb c)) (children (ttree X) n).
  Let v (c k : nat) : R := tval X c zix [k].
  Let h := csize X.

  Lemma sqb_leaf n : is_leaf t n = true -> sqb n = inb (index_of n (d2i t)) ds.
  Proof. intros Hl. unfold sqb. fold t. rewrite (dims_leaf t r V n Hl). cbn. apply andb_true_r. Qed.
  Lemma sqb_int n : node t n -> is_leaf t n = false -> sqb n = forallb sqb (children t n).
  Proof.
    intros Hn Hl. unfold sqb at 1. fold t. rewrite (dims_internal t r V n Hn Hl). unfold sqb. fold t. induction (children t n) as [|c l IH]; auto. cbn [flat_map]. rewrite forallb_app, IH. auto.
  Qed.
  Lemma sqb_root : sqb r = false.
  Proof.
    destruct (compl (tb_order X) ds) as [|mu l] eqn:E; [congruence|]. assert (Hm : In mu (compl (tb_order X) ds)) by (rewrite E; simpl; auto).
    apply in_compl in Hm. destruct Hm as [Hm1 Hm2]. destruct (sqb r) eqn:Es; auto. exfalso. unfold sqb in Es. rewrite forallb_forall in Es.
    apply Hm2. apply inb_spec. apply Es. fold t. apply (in_dims t r V r mu (proj1 T)). split; [exact Hm1|]. apply (rt_below t r T). apply (d2i_node t r V); exact Hm1.
  Qed.
  Lemma sqb_child p c : edge t p c -> sqb p = true -> sqb c = true.
  Proof.
    intros He Hs. assert (Hl : is_leaf t p = false). { destruct (is_leaf t p) eqn:E; auto. apply (leaf_iff t r V) in E. destruct E as [_ E]. destruct (E c He). }
    rewrite sqb_int in Hs by (auto; apply He). rewrite forallb_forall in Hs. apply Hs. apply in_children; [apply He|auto].
  Qed.
  Lemma zix_nth k : nth k zix 0%nat = 0%nat.
  Proof. unfold zix. destruct (Nat.lt_ge_cases k (tb_order X)); [apply nth_rep; auto|apply nth_overflow; rewrite repeat_length; auto]. Qed.
  Lemma sq_leaf_size n : is_leaf t n = true -> sqb n = true -> tb_size X n = 1%nat.
  Proof.
    intros Hl Hs. rewrite sqb_leaf in Hs by auto. apply inb_spec in Hs. rewrite <- (tb_shape_leaf X n Hl). apply H1. exact Hs.
  Qed.
  Lemma sq_inactive c : node t c -> active X c = false -> sqb c = true -> h c = 1%nat /\ v c 0 = r1.
  Proof.
    intros Hc Ha Hs. assert (Hl : is_leaf t c = true). { destruct (is_leaf t c) eqn:E; auto. rewrite (ok_internal X r O c Hc E) in Ha. discriminate. }
    split.
    - unfold h, csize. rewrite Ha. apply sq_leaf_size; auto.
    - unfold v. rewrite (tval_inactive X r V c) by auto. rewrite zix_nth. reflexivity.
  Qed.
  (** the tensor of a processed node *)
  Definition sq_tensor (n : nat) (B : nd R) : Prop :=
    shape B = map (csize X) (sqrest n) ++ exts X n /\
    forall W : nat -> nat -> R, (forall c k, In c (children (ttree X) n) -> sqb c = true -> (k < csize X c)%nat -> W c k = tval X c zix [k]) ->
      forall e, valid (exts X n) e ->
      bsum (heads X n) (fun ks => get (core X n) (ks ++ e) * lprod (combine (children (ttree X) n) ks) (fun p => W (fst p) (snd p)))
      = bsum (map (csize X) (sqrest n)) (fun ks => get B (ks ++ e) * lprod (combine (sqrest n) ks) (fun p => W (fst p) (snd p))).
  Definition sq_inv (done : list nat) (st : list (nd R) * list nat) : Prop :=
    length (fst st) = nbn t /\
    (forall n, inb n (snd st) = true <-> node t n /\ sqb n = true /\ (is_leaf t n = true \/ In n done)) /\
    (forall n, node t n -> sqb n = false \/ (forall p, edge t p n -> ~ In p done) ->
       if is_leaf t n || negb (inb n done) then nthc (fst st) n = core X n else sq_tensor n (nthc (fst st) n)).

  Lemma sq_run : exists st, ofold (sq_node X) (bottom_up t) (cores X, sel 0%nat (d2i t) ds) = Some st /\ sq_inv (bottom_up t) st.
  Proof.
    apply (bottom_up_ind t r T (sq_node X) sq_inv).
    - split; [apply (ok_cores_length X r O)|]. split.
      + intros n. cbn [snd]. rewrite inb_spec. split.
        * intros Hn. unfold sel in Hn. apply in_map_iff in Hn. destruct Hn as (k & <- & Hk). pose proof (proj1 (Forall_forall _ _) HF k Hk) as Hlt.
          pose proof (d2i_leaf t k Hlt) as Hl. split; [apply (leaf_node t r V); auto|]. split; [|auto]. rewrite sqb_leaf by auto. rewrite index_of_NoDup by (auto; apply (NoDup_d2i t r V)). apply inb_spec; auto.
        * intros (Hn & Hs & [Hl|[]]). rewrite sqb_leaf in Hs by auto. apply inb_spec in Hs. destruct (leaf_index t n Hl) as [Q1 Q2]. unfold sel. apply in_map_iff. exists (index_of n (d2i t)). auto.
      + intros n Hn _. cbn [inb existsb negb fst]. rewrite orb_true_r. reflexivity.
    - intros done n [ts ind] (HL & HI & HT) Hn Hnd Hch Hpar Hdn. cbn [fst snd] in *. unfold sq_node. fold t. destruct (is_leaf t n) eqn:El.
      + exists (ts, ind). split; auto. split; auto. split.
        * intros m. cbn [snd]. rewrite HI, in_app_iff. cbn [In]. split; [tauto|]. intros (A1 & A2 & A3). split; auto. split; auto. destruct A3 as [A3|[A3|[<-|[]]]]; auto.
        * cbn [fst]. intros m Hm Hs. specialize (HT m Hm). assert (Hs' : sqb m = false \/ (forall p, edge t p m -> ~ In p done)).
          { destruct Hs as [Hs|Hs]; auto. right. intros p Hp K. apply (Hs p Hp). apply in_or_app; auto. }
          specialize (HT Hs'). destruct (Nat.eq_dec m n) as [->|N]; [rewrite El in *; auto|].
          replace (inb m (done ++ [n])) with (inb m done); auto. unfold inb. rewrite existsb_app. cbn [existsb]. destruct (Nat.eqb_spec m n); [contradiction|]. rewrite orb_false_r. auto.
      + pose (ch := children t n).
        assert (NDc : NoDup ch) by apply NoDup_children.
        assert (Ec : forall c, In c ch -> edge t n c) by (intros c Hc; apply in_children in Hc; auto).
        assert (Ic : forall c, In c ch -> inb c ind = sqb c).
        { intros c Hc. destruct (sqb c) eqn:Es.
          - apply HI. split; [apply (Ec c Hc)|]. split; auto.
          - destruct (inb c ind) eqn:E; auto. apply HI in E. destruct E as (_ & E & _). congruence. }
        assert (Hnn : ~ In n ch). { intros Q. apply Ec in Q. pose proof (level_edge t r T n n Q). lia. }
        assert (HTn : nthc ts n = core X n).
        { specialize (HT n Hn). rewrite El in HT. replace (inb n done) with false in HT by (symmetry; apply inb_false; auto). apply HT. right. intros p Hp. apply Hpar. exact Hp. }
        assert (Hrow : forall c, In c ch -> active X c = true -> inb c ind = true -> sq_row h v c (nthc ts c)).
        { intros c Hc Ha Hi. pose proof (Ec c Hc) as He. pose proof (edge_ne t r T n c He) as Hcr. assert (Hcn : node t c) by apply He.
          rewrite Ic in Hi by auto. specialize (HT c Hcn). assert (Hq : forall p, edge t p c -> ~ In p done).
          { intros p Hp. rewrite (rt_uniq t r T p n c Hp He). auto. }
          specialize (HT (or_intror Hq)). pose proof (ok_exts_rank X r O c Hcn Ha Hcr) as Ex.
          assert (Eh : h c = last (shape (core X c)) 0%nat) by (unfold h, csize; rewrite Ha; auto).
          destruct (is_leaf t c) eqn:Elc.
          - cbn [orb] in HT. right. rewrite HT. rewrite (ok_shape X c Hcn Ha), Ex. rewrite (heads_leaf X r O c Elc Ha). pose proof (sq_leaf_size c Elc Hi) as S1. unfold tb_size in S1. rewrite Ha in S1. rewrite S1, Eh. split; auto.
            intros j Hj. unfold v. rewrite (tval_leaf X r V c) by auto. rewrite zix_nth. auto.
          - replace (inb c done) with true in HT by (symmetry; apply inb_spec; auto). cbn [orb negb] in HT. destruct HT as [S1 G1]. left.
            assert (Er : sqrest c = []).
            { rewrite sqb_int in Hi by auto. unfold sqrest. fold t. apply filter_none. intros x Hx. rewrite forallb_forall in Hi. rewrite (Hi x Hx). auto. }
            rewrite Er in *. cbn [map app] in S1. rewrite S1, Ex, Eh. split; auto. intros j Hj. unfold v. rewrite (tval_internal X r V c) by auto.
            specialize (G1 (fun c k => tval X c zix [k]) (fun _ _ _ _ _ => eq_refl) [j]). rewrite G1 by (rewrite Ex; constructor; [lia|constructor]). cbn. ring. }
        assert (HshN : shape (nthc ts n) = map h ch ++ exts X n).
        { rewrite HTn. rewrite (ok_shape X n Hn (ok_internal X r O n Hn El)). f_equal. apply (heads_internal X r O n Hn El). }
        destruct (sq_node_ok X n ind h v (exts X n)) with (ch := ch) (ts := ts) as (ts1 & ts2 & E1 & E2 & L2 & F2 & S2 & G2); auto.
        { intros c Ha Hi. apply HI in Hi. apply sq_inactive; tauto. }
        { unfold node in Hn. lia. }
        { intros c Hc. destruct (Ec c Hc) as (_ & Q & _). unfold node in Q. lia. }
        fold ch. rewrite E1. cbn [bind]. cbv zeta in E2. rewrite E2. cbn [bind].
        assert (Er : filter (fun c => negb (inb c ind)) ch = sqrest n).
        { unfold sqrest. fold t ch. apply filter_ext_in. intros c Hc. rewrite Ic; auto. }
        assert (Ef : forallb (fun c => inb c ind) ch = sqb n).
        { rewrite (sqb_int n Hn El). fold ch. clear - Ic. induction ch as [|c l IH]; auto. cbn [forallb]. rewrite Ic, IH; simpl; auto. intros x Hx. apply Ic. simpl; auto. }
        rewrite Ef, Er in *. eexists. split; [reflexivity|]. split; [cbn [fst]; lia|]. split.
        * intros m. cbn [snd]. rewrite in_app_iff. cbn [In]. destruct (sqb n) eqn:Es.
          -- unfold inb. cbn [existsb]. fold (inb m ind). rewrite orb_true_iff, HI, Nat.eqb_eq. split; [|intuition].
             intros [->|Q]; [split; auto|]. tauto.
          -- rewrite HI. split; [tauto|]. intros (A1 & A2 & A3). split; auto. split; auto. destruct A3 as [A3|[A3|[<-|[]]]]; auto. congruence.
        * cbn [fst]. intros m Hm Hs. destruct (Nat.eq_dec m n) as [->|N].
          -- rewrite El. replace (inb n (done ++ [n])) with true by (symmetry; apply inb_spec, in_or_app; simpl; auto). cbn [orb negb].
             split; [exact S2|]. intros W HW e He. specialize (G2 W). rewrite (heads_internal X r O n Hn El). rewrite <- HTn. apply G2; auto.
             intros c k Hc Hi Hk. rewrite Ic in Hi by auto. apply HW; auto.
          -- replace (inb m (done ++ [n])) with (inb m done) by (unfold inb; rewrite existsb_app; cbn [existsb]; destruct (Nat.eqb_spec m n); [contradiction|]; rewrite orb_false_r; auto).
             assert (Hs' : sqb m = false \/ (forall p, edge t p m -> ~ In p done)).
             { destruct Hs as [Hs|Hs]; auto. right. intros p Hp K. apply (Hs p Hp). apply in_or_app; auto. }
             specialize (HT m Hm Hs'). rewrite F2; auto; [unfold node in Hm; lia|]. intros [Q1 Q2]. rewrite Ic in Q2 by auto. destruct Hs as [Hs|Hs]; [congruence|].
             apply (Hs n (Ec m Q1)). apply in_or_app. simpl; auto.
  Qed.

  (** the multi-index of the operand: 0 on the removed dimensions *)
  Definition sqemb (is : list nat) : list nat := asm (tb_order X) ds (repeat 0%nat (length ds)) is.
  Lemma sqemb_zix n is mu : sqb n = true -> In mu (dims t n) -> nth mu (sqemb is) 0%nat = nth mu zix 0%nat.
  Proof.
    intros Hs Hm. rewrite zix_nth. unfold sqb in Hs. rewrite forallb_forall in Hs. specialize (Hs mu Hm). apply inb_spec in Hs.
    destruct (index_of_nth ds mu Hs) as [Q1 Q2]. unfold sqemb. rewrite <- Q2. rewrite asm_nth_in by auto. apply nth_rep. auto.
  Qed.
  Lemma prodn_pos l : (forall x, In x l -> (0 < x)%nat) -> prodn l <> 0%nat.
  Proof. induction l as [|a l IH]; cbn; intros H; [lia|]. assert (0 < a)%nat by (apply H; auto). assert (prodn l <> 0%nat) by (apply IH; auto). nia. Qed.
  Lemma prodn_in_pos l x : prodn l <> 0%nat -> In x l -> (0 < x)%nat.
  Proof. intros Hp Hx. destruct x; [|lia]. destruct Hp. apply prodn_zero. auto. Qed.

  Lemma sq_restrict ts ind : sq_inv (bottom_up t) (ts, ind) ->
    let K := filter (fun n => negb (inb n ind)) (nodes t) in
    let Z := TB (dt_restrict K (sel 0%nat (d2i t) rem) (adj t)) (map (nthc ts) K) in
    exists r', tb_ok Z r' /\ tb_shape Z = sel 0%nat (tb_shape X) rem /\ exts Z r' = exts X r /\
      forall is e, valid (sel 0%nat (tb_shape X) rem) is -> valid (exts X r) e -> tval Z r' is e = tval X r (sqemb is) e.
  Proof.
    intros (HL & HI & HT) K Z. cbn [fst snd] in *.
    assert (NK : NoDup K) by (apply NoDup_filter; apply NoDup_nodes).
    assert (InK : forall n, In n K <-> node t n /\ sqb n = false).
    { intros n. unfold K. rewrite filter_In, in_nodes, negb_true_iff. split; intros [Q1 Q2]; split; auto.
      - destruct (sqb n) eqn:E; auto. assert (Q : inb n ind = true) by (apply HI; split; auto; split; auto; right; apply (in_bottom_up t r T); auto). congruence.
      - destruct (inb n ind) eqn:E; auto. apply HI in E. destruct E as (_ & E & _). congruence. }
    assert (KT : forall n, In n K -> if is_leaf t n then nthc ts n = core X n else sq_tensor n (nthc ts n)).
    { intros n Hn. apply InK in Hn. destruct Hn as [Q1 Q2]. specialize (HT n Q1 (or_introl Q2)). replace (inb n (bottom_up t)) with true in HT by (symmetry; apply inb_spec, (in_bottom_up t r T); auto).
      cbn [negb] in HT. rewrite orb_false_r in HT. auto. }
    pose (d := sel 0%nat (d2i t) rem).
    assert (Hr : In r K) by (apply InK; split; [apply T|apply sqb_root]).
    assert (HremF : Forall (fun k => (k < length (d2i t))%nat) rem).
    { apply Forall_forall. intros k Hk. apply in_compl in Hk. apply Hk. }
    assert (Nrem : NoDup rem) by apply NoDup_filter', seq_NoDup.
    assert (Hd : NoDup d).
    { unfold d, sel. pose proof (NoDup_d2i t r V) as NDd. clear - Nrem NDd HremF. induction Nrem as [|a l Ha Hl IH]; cbn [map]; constructor.
      - intros Hin. apply in_map_iff in Hin. destruct Hin as (x & Ex & Hx). apply Ha. inversion HremF as [|? ? F1 F2]; subst. rewrite Forall_forall in F2. specialize (F2 x Hx).
        rewrite (proj1 (NoDup_nth (d2i t) 0%nat) NDd a x); auto.
      - apply IH. inversion HremF; auto. }
    assert (Ld : forall n, In n d <-> is_leaf t n = true /\ sqb n = false).
    { intros n. unfold d, sel. rewrite in_map_iff. split.
      - intros (k & <- & Hk). pose proof (proj1 (Forall_forall _ _) HremF k Hk) as Hlt. pose proof (d2i_leaf t k Hlt) as Hl. split; auto. rewrite sqb_leaf by auto.
        rewrite index_of_NoDup by (auto; apply (NoDup_d2i t r V)). apply inb_false. apply in_compl in Hk. apply Hk.
      - intros [Hl Hs]. rewrite sqb_leaf in Hs by auto. apply inb_false in Hs. destruct (leaf_index t n Hl) as [Q1 Q2]. exists (index_of n (d2i t)). split; auto. apply in_compl. split; auto. }
    assert (EE : forall p c, In p K -> In c K -> adj t p c = true -> edge t p c).
    { intros p c Hp Hc Ha. apply InK in Hp, Hc. split; [apply Hp|]. split; [apply Hc|auto]. }
    assert (Hroot : forall p, In p K -> adj t p r = false).
    { intros p Hp. destruct (adj t p r) eqn:E; auto. destruct (rt_no_edge t r T p). apply EE; auto. }
    assert (Hpar : forall c, In c K -> c <> r -> exists p, In p K /\ adj t p c = true /\ (level t p < level t c)%nat /\ forall q, In q K -> adj t q c = true -> q = p).
    { intros c Hc Hne. pose proof Hc as Hc'. apply InK in Hc. destruct Hc as [Hc Hs]. destruct (rt_has_parent t r T c Hc Hne) as (p & Hp). exists p.
      assert (Hpk : In p K). { apply InK. split; [apply Hp|]. destruct (sqb p) eqn:E; auto. rewrite (sqb_child p c Hp E) in Hs. discriminate. }
      split; auto. split; [apply Hp|]. split; [rewrite (level_edge t r T p c Hp); lia|]. intros q Hq Ha. apply (rt_uniq t r T q p c); auto. }
    assert (Hdl : forall n, In n d <-> In n K /\ forall c, In c K -> adj t n c = false).
    { intros n. rewrite Ld. split.
      - intros [Hl Hs]. assert (Hn : node t n) by (apply (leaf_node t r V); auto). assert (Hk : In n K) by (apply InK; auto). split; auto.
        intros c Hc. destruct (adj t n c) eqn:E; auto. apply (leaf_iff t r V) in Hl. destruct Hl as [_ Hl]. destruct (Hl c). auto.
      - intros [Hk Hc]. pose proof Hk as Hk'. apply InK in Hk. destruct Hk as [Hn Hs]. split; auto. destruct (is_leaf t n) eqn:El; auto. exfalso. rewrite (sqb_int n Hn El) in Hs.
        assert (Q : exists c, In c (children t n) /\ sqb c = false).
        { clear - Hs. induction (children t n) as [|c l IH]; cbn [forallb] in Hs; [discriminate|]. destruct (sqb c) eqn:E; [|exists c; simpl; auto]. destruct IH as (x & Q1 & Q2); auto. exists x. simpl; auto. }
        destruct Q as (c & Q1 & Q2). apply in_children in Q1; auto. assert (Hck : In c K) by (apply InK; split; auto; apply Q1). destruct Q1 as (_ & _ & Q1). rewrite (Hc c Hck) in Q1. discriminate. }
    assert (Hch : forall n, In n K -> filter (adj t n) K = sqrest n).
    { intros n Hn. unfold sqrest, children. fold t. unfold K. clear - HI InK T. assert (G : forall l, incl l (nodes t) -> filter (adj t n) (filter (fun m => negb (inb m ind)) l) = filter (fun c => negb (sqb c)) (filter (adj t n) l)); [|apply G, incl_refl].
      induction l as [|a l IH]; intros Hl; auto. cbn [filter]. assert (Ea : inb a ind = sqb a).
      { assert (Hna : node t a) by (apply in_nodes, Hl; simpl; auto). destruct (sqb a) eqn:E; [apply HI; split; auto; split; auto; right; apply (in_bottom_up t r T); auto|].
        destruct (inb a ind) eqn:E2; auto. apply HI in E2. destruct E2 as (_ & E2 & _). congruence. }
      rewrite Ea. destruct (sqb a) eqn:E; cbn [negb]; [destruct (adj t n a); cbn [filter]; rewrite ?E; cbn [negb]; apply IH; intros x Hx; apply Hl; simpl; auto|].
      cbn [filter]. destruct (adj t n a); cbn [filter]; rewrite ?E; cbn [negb]; rewrite IH; auto; intros x Hx; apply Hl; simpl; auto. }
    assert (Lf : forall n, In n K -> inb n d = is_leaf t n).
    { intros n Hn. destruct (is_leaf t n) eqn:E; [apply inb_spec, Ld; split; auto; apply InK; auto|]. apply inb_false. intros Q. apply Ld in Q. destruct Q. congruence. }
    assert (Hact : forall n, In n K -> activec ts n = active X n).
    { intros n Hn. pose proof (KT n Hn) as Q. destruct (is_leaf t n) eqn:El; [unfold active, activec; unfold core in Q; rewrite Q; auto|].
      assert (Hnn : node t n) by (apply InK; auto). rewrite (ok_internal X r O n Hnn El). destruct Q as [Q _]. unfold activec, ft_storage, np_size. rewrite Q. apply negb_true_iff, Nat.eqb_neq.
      pose proof (proj1 (active_prod X n) (ok_internal X r O n Hnn El)) as P0. rewrite (ok_shape X n Hnn (ok_internal X r O n Hnn El)), (heads_internal X r O n Hnn El) in P0.
      apply prodn_pos. intros x Hx. apply (prodn_in_pos _ x P0). apply in_app_iff in Hx. apply in_or_app. destruct Hx as [Hx|Hx]; auto. left. apply in_map_iff in Hx. destruct Hx as (c & <- & Hc). apply in_map. apply filter_In in Hc. apply Hc. }
    assert (Hint : forall n, In n K -> ~ In n d -> activec ts n = true).
    { intros n Hn Hnd. rewrite Hact by auto. apply (ok_internal X r O n); [apply InK; auto|]. fold t. rewrite <- Lf by auto. apply inb_false; auto. }
    assert (Hshape : forall n, In n K -> activec ts n = true -> shape (nthc ts n) = (if inb n d then [tb_size X n] else map (csize X) (sqrest n)) ++ exts X n).
    { intros n Hn Ha. rewrite Hact in Ha by auto. rewrite Lf by auto. pose proof (KT n Hn) as Q. assert (Hnn : node t n) by (apply InK; auto). destruct (is_leaf t n) eqn:El.
      - rewrite Q, (ok_shape X n Hnn Ha), (heads_leaf X r O n El Ha). unfold tb_size. rewrite Ha. auto.
      - apply Q. }
    assert (Hext : forall n, In n K -> n <> r -> activec ts n = true -> exts X n = [csize X n]).
    { intros n Hn Hne Ha. rewrite Hact in Ha by auto. unfold csize. rewrite Ha. apply (ok_exts_rank X r O); auto. apply InK; auto. }
    assert (Hextr : (length (exts X r) <= 1)%nat) by apply (ok_exts_root X r O).
    assert (Hina : forall n, In n K -> activec ts n = false -> csize X n = tb_size X n).
    { intros n Hn Ha. rewrite Hact in Ha by auto. unfold csize. rewrite Ha. auto. }
    assert (Esh : map (tb_size X) d = sel 0%nat (tb_shape X) rem).
    { unfold d, sel. rewrite map_map. apply map_ext_in. intros k Hk. pose proof (proj1 (Forall_forall _ _) HremF k Hk) as Hlt. unfold tb_shape. fold t. rewrite map_nth_in with (da := 0%nat) by auto. auto. }
    assert (Hra : activec ts r = true) by (rewrite Hact by auto; apply (ok_root X r O)).
    assert (Eix : forall n is, In n d -> nth (index_of n (d2i t)) (sqemb is) 0%nat = nth (index_of n d) is 0%nat).
    { intros n is Hn. destruct (index_of_nth d n Hn) as [Q1 Q2]. assert (Q1' : (index_of n d < length rem)%nat) by (unfold d, sel in Q1; rewrite map_length in Q1; auto).
      assert (E : index_of n (d2i t) = nth (index_of n d) rem 0%nat).
      { unfold d in Q2 at 2. unfold sel in Q2. rewrite map_nth_in with (da := 0%nat) in Q2 by auto. rewrite <- Q2 at 1. apply index_of_NoDup; [apply (NoDup_d2i t r V)|]. apply (proj1 (Forall_forall _ _) HremF). apply nth_In; auto. }
      rewrite E. unfold sqemb, rem. rewrite asm_nth_out; auto. }
    exists (S (index_of r K)). split; [|split; [|split]].
    - apply (rs_ok K d (adj t) NK r (level t) Hr Hroot Hpar Hd Hdl ts sqrest (csize X) (tb_size X) (exts X)); auto.
    - rewrite <- Esh. apply (rs_shape K d (adj t) NK r (level t) Hr Hroot Hpar Hd Hdl ts sqrest (csize X) (tb_size X) (exts X)); auto.
    - apply (rs_exts K d (adj t) NK r Hdl ts sqrest (csize X) (tb_size X) (exts X)); auto.
    - intros is e His He. apply (rs_tval K d (adj t) NK r (level t) Hr Hroot Hpar Hd Hdl ts sqrest (csize X) (tb_size X) (exts X)) with (G := fun n is e => tval X n (sqemb is) e); auto.
      + intros n is' e' Hn Ha _ _. assert (Hk : In n K) by (apply Hdl in Hn; apply Hn). pose proof (proj1 (Ld n) Hn) as [Hl _]. rewrite Hact in Ha by auto. rewrite (tval_leaf X r V n) by auto. fold t. rewrite Eix by auto.
        pose proof (KT n Hk) as Q. rewrite Hl in Q. rewrite Q. auto.
      + intros n is' k Hn Ha _ _. assert (Hk : In n K) by (apply Hdl in Hn; apply Hn). pose proof (proj1 (Ld n) Hn) as [Hl _]. rewrite Hact in Ha by auto. rewrite (tval_inactive X r V n) by auto. fold t. rewrite Eix by auto.
        cbn [list_eqb]. rewrite andb_true_r. auto.
      + intros n is' e' Hn Hnd _ He'. pose proof (KT n Hn) as Q. assert (Hnn : node t n) by (apply InK; auto). assert (El : is_leaf t n = false) by (rewrite <- Lf by auto; apply inb_false; auto).
        rewrite El in Q. destruct Q as [_ Q]. rewrite (tval_internal X r V n) by auto. apply (Q (fun c k => tval X c (sqemb is') [k])); auto.
        intros c k Hc Hs Hk. apply (tval_local X r V c); [apply in_children in Hc; [apply Hc|auto]|]. intros mu Hmu. apply (sqemb_zix c); auto.
      + rewrite Esh. auto.
      + rewrite Hra. auto.
  Qed.
End Squeeze.
