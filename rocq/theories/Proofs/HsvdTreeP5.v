(** gramians: the entries of the array. *)
From Coq Require Import List Arith Lia Bool Reals Lra Permutation.
From Verif.Base Require Import ListAux CRing Index RealAux.
From Verif.Model Require Import Sorting Numpy FullTensor Diagonal Canonical DimensionTree TreeBased Truncator HSVD HsvdTree.
From Verif.Spec Require Import TensorSpec TreeSpec TreeTensorSpec TruncatorSpec.
From Verif.Proofs Require Import NumpyP FullTensorP FullTensorP3 FullTensorP4 DimTreeP DimTreeP2 TreeTensorP TreeTensorP2 TreeTensorP3 TreeTensorP4 TreeTensorP12 TreeTensorP13 TreeTensorP14 TreeTensorP15 TreeTensorP29 PolyP5 SpectralP LapackP EckartP HsvdP2 HsvdP7 HsvdP9 HsvdTreeP1 HsvdTreeP2.
Import ListNotations.
Local Open Scope R_scope.

(** contraction of all the axes except one *)
Lemma td_mid (A B : nd R) s1 s2 m m' : shape A = s1 ++ m :: s2 -> shape B = s1 ++ m' :: s2 ->
  let cl := compl (ndim A) [length s1] in
  exists C, ft_tensordot A B cl cl = Some C /\ shape C = [m; m'] /\
    forall k l, (k < m)%nat -> (l < m')%nat -> get C [k; l] = bsum s1 (fun a => bsum s2 (fun b => get A (a ++ k :: b) * get B (a ++ l :: b))).
Proof.
  intros HA HB cl. set (N := length (s1 ++ m :: s2)). assert (NA : ndim A = N) by (unfold ndim; rewrite HA; auto).
  assert (NB : ndim B = N) by (unfold ndim; rewrite HB; unfold N; rewrite !app_length; auto).
  assert (Hq : (length s1 < N)%nat) by (unfold N; rewrite app_length; simpl; lia).
  assert (ND : NoDup cl) by (apply NoDup_filter, seq_NoDup).
  assert (LT : Forall (fun k => (k < N)%nat) cl) by (apply Forall_forall; intros x Hx; apply in_compl in Hx; lia).
  assert (SA : sel 0%nat (shape A) cl = s1 ++ s2) by (unfold cl; rewrite NA, HA; apply sel_compl1).
  assert (SB : sel 0%nat (shape B) cl = s1 ++ s2).
  { unfold cl. rewrite NA, HB. replace N with (length (s1 ++ m' :: s2)) by (unfold N; rewrite !app_length; auto). apply sel_compl1. }
  assert (CC : compl N cl = [length s1]).
  { unfold cl. rewrite NA. unfold compl at 1. transitivity (filter (fun k => (k =? length s1)%nat) (seq 0 N)).
    - apply filter_ext_in. intros k Hk. apply in_seq in Hk. destruct (Nat.eqb_spec k (length s1)) as [->|NE].
      + apply negb_true_iff, inb_false. intros Hi. apply in_compl in Hi. simpl in Hi. tauto.
      + apply negb_false_iff, inb_spec, in_compl. simpl. lia.
    - replace N with (length s1 + S (N - S (length s1)))%nat by lia. rewrite seq_app, filter_app. cbn [seq filter plus]. rewrite Nat.eqb_refl.
      rewrite !filter_none; auto; intros x Hx; apply in_seq in Hx; apply Nat.eqb_neq; lia. }
  destruct (ft_tensordot_spec A B cl cl) as (C & E & ES & EG); auto; try (rewrite NA; auto); try (rewrite NB; auto); [congruence|].
  rewrite NA, NB, CC, HA, HB in ES, EG.
  assert (S1 : forall x, sel 0%nat (s1 ++ x :: s2) [length s1] = [x]) by (intros x; unfold sel; cbn [map]; rewrite app_nth2, Nat.sub_diag by lia; auto).
  rewrite !S1 in ES, EG. exists C. split; auto. split; auto. intros k l Hk Hl.
  change [k; l] with ([k] ++ [l]). rewrite EG by (constructor; auto; constructor). rewrite <- HA, SA, bsum_app. apply bsum_ext_R. intros a Va. apply bsum_ext_R. intros b Vb.
  assert (AS : forall x, asm N cl (a ++ b) [x] = a ++ x :: b).
  { intros x. assert (LX : length (a ++ x :: b) = N) by (unfold N; rewrite !app_length; simpl; rewrite (valid_length _ _ Va), (valid_length _ _ Vb); auto).
    assert (EX : [x] = sel 0%nat (a ++ x :: b) (compl N cl)) by (rewrite CC; unfold sel; cbn [map]; rewrite <- (valid_length _ _ Va), app_nth2, Nat.sub_diag by lia; auto). rewrite EX.
    assert (EY : a ++ b = sel 0%nat (a ++ x :: b) cl).
    { unfold cl. rewrite NA, <- LX, <- (valid_length _ _ Va). symmetry. apply sel_compl1. }
    rewrite put_asm; auto.
    - rewrite EY. apply put_sel; auto. rewrite LX. auto.
    - rewrite EY, sel_length. auto. }
  rewrite !AS. auto.
Qed.

(** top-down enumeration *)
Lemma sorted_after (f : nat -> list nat) (lev : nat -> nat) : (forall a x, In x (f a) -> lev x = a) ->
  forall k a l1 n l2 m, flat_map f (seq a k) = l1 ++ n :: l2 -> In m (n :: l2) -> (lev n <= lev m)%nat.
Proof.
  intros Hf. induction k as [|k IH]; intros a l1 n l2 m E Hm; [destruct l1; discriminate|].
  cbn [seq flat_map] in E. apply app_eq_app in E. destruct E as [l [[E1 E2]|[E1 E2]]].
  - destruct l as [|x l].
    + cbn [app] in E2. apply (IH (S a) [] n l2 m); auto.
    + cbn [app] in E2. inversion E2; subst x. rewrite (Hf a n) by (rewrite E1; apply in_or_app; simpl; auto).
      destruct Hm as [<-|Hm]; [rewrite (Hf a n); auto; rewrite E1; apply in_or_app; simpl; auto|].
      rewrite H1 in Hm. apply in_app_or in Hm. destruct Hm as [Hm|Hm]; [rewrite (Hf a m); auto; rewrite E1; apply in_or_app; simpl; auto|].
      apply in_flat_map in Hm. destruct Hm as (b & Hb & Hm). rewrite (Hf b m) by auto. apply in_seq in Hb. lia.
  - apply (IH (S a) l n l2 m); auto.
Qed.
Lemma in_top_down t ml n : In n (top_down t ml) <-> node t n /\ (level t n <= ml)%nat.
Proof.
  unfold top_down. rewrite in_flat_map. split.
  - intros (a & Ha & Hn). apply in_seq in Ha. unfold nodes_with_level in Hn. apply filter_In in Hn. destruct Hn as [Hn E]. apply in_nodes in Hn. apply Nat.eqb_eq in E. split; auto. lia.
  - intros [Hn Hl]. exists (level t n). split; [apply in_seq; lia|]. unfold nodes_with_level. apply filter_In. split; [apply in_nodes; auto|apply Nat.eqb_refl].
Qed.
Lemma top_down_topo t r (T : rooted_tree t r) ml l1 n l2 : top_down t ml = l1 ++ n :: l2 -> n <> r -> In (parent t n) l1.
Proof.
  intros E NE. assert (Hn : In n (top_down t ml)) by (rewrite E; apply in_or_app; simpl; auto). apply in_top_down in Hn. destruct Hn as [Hn Hl].
  pose proof (parent_is_edge t r T n Hn NE) as He. pose proof (level_edge t r T _ _ He) as L.
  assert (Hp : In (parent t n) (top_down t ml)) by (apply in_top_down; split; [apply He|lia]).
  rewrite E in Hp. apply in_app_or in Hp. destruct Hp as [Hp|Hp]; auto. exfalso.
  assert (Hf : forall a x, In x (nodes_with_level t a) -> level t x = a) by (intros a x Hx; unfold nodes_with_level in Hx; apply filter_In in Hx; apply Nat.eqb_eq; tauto).
  pose proof (sorted_after (nodes_with_level t) (level t) Hf (S ml) 0 l1 n l2 (parent t n) E Hp). lia.
Qed.
(** writing several entries *)
Lemma ofold_upd {A} (f : nat -> option A) (L : list nat) : forall (g : list (option A)), (forall c, In c L -> (1 <= c <= length g)%nat /\ exists x, f c = Some x) ->
  exists g', ofold (fun g c => match f c with None => None | Some x => Some (upd (c - 1) (Some x) g) end) L g = Some g' /\ length g' = length g /\
    (forall c, In c L -> nth (c - 1) g' None = f c) /\ (forall m, (1 <= m)%nat -> ~ In m L -> nth (m - 1) g' None = nth (m - 1) g None).
Proof.
  induction L as [|c L IH]; intros g H; cbn [ofold].
  - exists g. split; auto. split; auto. split; auto. intros c [].
  - destruct (H c (or_introl eq_refl)) as (Hc & x & Ex). rewrite Ex. destruct (IH (upd (c - 1) (Some x) g)) as (g' & E1 & E2 & E3 & E4).
    { intros d Hd. rewrite upd_length. apply H. simpl. auto. }
    exists g'. split; auto. split; [rewrite E2; apply upd_length|]. split.
    + intros d [<-|Hd]; auto. destruct (in_dec Nat.eq_dec c L) as [Hi|Hi]; [auto|]. rewrite E4 by (auto; lia). rewrite Ex. apply nth_upd_eq. lia.
    + intros m Hm Hi. rewrite E4; auto; [|intros Hi2; apply Hi; simpl; auto]. apply nth_upd_neq. simpl in Hi. lia.
Qed.

Section Gramians.
  Variables (X : tbt R) (r : nat).
  Hypothesis O : tb_ok X r.
  Hypothesis H2 : (2 <= tb_order X)%nat.
  Hypothesis HO : forall n, node (ttree X) n -> active X n = true -> n <> r -> orth_cols (core X n).
  Local Notation t := (ttree X).
  Let V : dim_tree t r := proj1 O.
  Let T : rooted_tree t r := proj1 V.
  (** G is the Gramian of the node n *)
  Definition good (n : nat) (G : nd R) : Prop := shape G = [csize X n; csize X n] /\ exists W, fact X r n W /\
    forall i j, (i < csize X n)%nat -> (j < csize X n)%nat -> get G [i; j] = gm X r n W [i] [j].
  Variables (ln : list nat) (ml : nat).
  Hypothesis L1 : forall m, In m ln -> node t m /\ active X m = true.
  Hypothesis L2 : forall m, In m ln -> m <> r -> In (parent t m) ln.
  Hypothesis L3 : forall m, In m ln -> (level t m <= ml)%nat.
  Lemma core_split p n cs1 cs2 : edge t p n -> children t p = cs1 ++ n :: cs2 -> shape (core X p) = map (csize X) cs1 ++ csize X n :: (map (csize X) cs2 ++ exts X p).
  Proof.
    intros He Hch. assert (Hp : node t p) by apply He. pose proof (int_of_edge X r O p n He) as Hl.
    rewrite (ok_shape X p Hp (ok_internal X r O p Hp Hl)), (heads_internal X r O p Hp Hl), Hch, map_app. rewrite <- app_assoc. reflexivity.
  Qed.
  (** the Gramian of a child *)
  Lemma gram_child p n tmp : edge t p n -> active X n = true -> (exists W, fact X r p W /\ shape tmp = shape (core X p) /\
      forall ks e, valid (heads X p) ks -> valid (exts X p) e -> get tmp (ks ++ e) = bsum (exts X p) (fun e' => get (core X p) (ks ++ e') * gm X r p W e e')) ->
    exists G, ft_tensordot (core X p) tmp (compl (ndim (core X p)) [(child_number t n - 1)%nat]) (compl (ndim (core X p)) [(child_number t n - 1)%nat]) = Some G /\ good n G.
  Proof.
    intros He Ha (W & HW & HS & HV). destruct (children_split X p n He) as (cs1 & cs2 & Hch & Hq & _). assert (Hp : node t p) by apply He. pose proof (int_of_edge X r O p n He) as Hl.
    pose proof (core_split p n cs1 cs2 He Hch) as SC. rewrite (child_index X r O p n He), <- Hq.
    destruct (td_mid (core X p) tmp _ _ _ _ SC (eq_trans HS SC)) as (G & E & ES & EG). rewrite map_length in E. exists G. split; auto.
    split; auto. exists (wstep X p n cs1 cs2 W). split; [apply (fact_step X r O H2); auto|]. intros i j Hi Hj. rewrite EG by auto.
    rewrite (gm_step X r O H2 HO p n cs1 cs2 W i j) by auto. apply bsum_ext_R. intros a Va. rewrite bsum_app. apply bsum_ext_R. intros b Vb. apply bsum_ext_R. intros e Vee.
    replace (a ++ j :: b ++ e) with ((a ++ j :: b) ++ e) by (rewrite <- app_assoc; auto). rewrite HV; auto.
    - rewrite <- bsum_scal_l_R. apply bsum_ext_R. intros e' _. rewrite <- app_assoc. cbn [app]. ring.
    - rewrite (heads_internal X r O p Hp Hl), Hch, map_app. apply valid_app; auto. cbn [map]. constructor; auto.
  Qed.
  Definition one11 : nd R := ND [1%nat; 1%nat] (fun _ => 1).
  Definition ginv (done : list nat) (g : list (option (nd R))) : Prop :=
    length g = nbn t /\ nth (r - 1) g None = Some one11 /\
    (forall m, node t m -> m <> r -> In m ln -> In (parent t m) done -> exists G, nth (m - 1) g None = Some G /\ good m G) /\
    (forall m, node t m -> m <> r -> ~ (In m ln /\ In (parent t m) done) -> nth (m - 1) g None = None).
  Lemma gram_step_ok done g n : ginv done g -> node t n -> (n <> r -> In (parent t n) done) -> ~ In n done -> exists g', gram_step X ln g n = Some g' /\ ginv (done ++ [n]) g'.
  Proof.
    intros (I1 & I2 & I3 & I4) Hn Hpd Hnd. unfold gram_step. cbv zeta.
    assert (NoCh : inb n ln && negb (is_leaf t n) = false -> ginv (done ++ [n]) g).
    { intros Hc. split; [auto|]. split; [auto|]. split.
      - intros m Hm NE Hi Hp. apply in_app_or in Hp. destruct Hp as [Hp|[Hp|[]]]; [auto|]. exfalso. pose proof (parent_is_edge t r T m Hm NE) as He. rewrite <- Hp in He.
        rewrite (int_of_edge X r O n m He) in Hc. cbn [negb] in Hc. rewrite andb_true_r in Hc. apply inb_false in Hc. apply Hc. rewrite Hp. apply L2; auto.
      - intros m Hm NE Hi. apply I4; auto. intros [K1 K2]. apply Hi. split; auto. apply in_or_app. auto. }
    destruct (inb n ln && negb (is_leaf t n)) eqn:EB; [|exists g; split; auto]. clear NoCh.
    apply andb_true_iff in EB. destruct EB as [Hin Hl]. apply inb_spec in Hin. apply negb_true_iff in Hl. destruct (L1 n Hin) as [_ Ha].
    (* the temporary tensor *)
    assert (TMP : exists tmp, (if (n =? root t)%nat then Some (core X n) else let* G := nth (n - 1) g None in ft_tensor_matrix_product (core X n) [G] (Some [(ndim (core X n) - 1)%nat])) = Some tmp /\
      exists W, fact X r n W /\ shape tmp = shape (core X n) /\ forall ks e, valid (heads X n) ks -> valid (exts X n) e -> get tmp (ks ++ e) = bsum (exts X n) (fun e' => get (core X n) (ks ++ e') * gm X r n W e e')).
    { rewrite (root_eq t r T). destruct (Nat.eqb_spec n r) as [->|NE].
      - eexists. split; [reflexivity|]. eexists. split; [apply (fact_root X r)|]. split; auto. intros ks e Vk Vee.
        rewrite (bsum_ext_R _ _ (fun e' => del e e' * get (core X r) (ks ++ e'))); [rewrite bsum_del_l; auto|]. intros e' He'. rewrite (gm_root X r O) by auto. ring.
      - destruct (I3 n Hn NE Hin (Hpd NE)) as (G & EG & SG & W & HW & VG). rewrite EG. cbn [bind]. pose proof (exts_n X r O n Hn Ha NE) as EN.
        pose proof (ok_shape X n Hn Ha) as SC. rewrite EN in SC.
        destruct (tmp_single (core X n) G (heads X n) [] (csize X n) (csize X n) SC SG) as (tmp & E & ES & EV).
        replace (ndim (core X n) - 1)%nat with (length (heads X n)) by (unfold ndim; rewrite SC, app_length; simpl; lia). exists tmp. split; auto. exists W. split; auto. split; [congruence|].
        intros ks e Vk Vee. rewrite EN in Vee. inversion Vee as [|i ? e' ? Hi Ve']; subst. inversion Ve'; subst. rewrite EV; auto. rewrite EN. cbn [bsum].
        apply rsum_ext_R. intros k Hk. rewrite VG by auto. rcbn. ring. }
    destruct TMP as (tmp & -> & HT). cbn [bind]. set (L := filter (fun c => inb c ln) (children t n)).
    assert (HL : forall c, In c L <-> edge t n c /\ In c ln) by (intros c; unfold L; rewrite filter_In, inb_spec, in_children by auto; tauto).
    destruct (ofold_upd (fun c => ft_tensordot (core X n) tmp (compl (ndim (core X n)) [(child_number t c - 1)%nat]) (compl (ndim (core X n)) [(child_number t c - 1)%nat])) L g) as (g' & E1 & E2 & E3 & E4).
    { intros c Hc. apply HL in Hc. destruct Hc as [He Hc]. split; [destruct He as (_ & Hc' & _); unfold node in Hc'; lia|].
      destruct (gram_child n c tmp He (proj2 (L1 c Hc)) HT) as (G & EG & _). eauto. }
    exists g'. split; [exact E1|]. split; [congruence|]. pose proof (proj1 T) as Hr. unfold node in Hr. split.
    { rewrite E4; auto; [lia|]. intros Hi. apply HL in Hi. apply (edge_ne t r T n r (proj1 Hi)). auto. }
    split.
    - intros m Hm NE Hi Hp. destruct (in_dec Nat.eq_dec m L) as [HmL|HmL].
      + rewrite E3 by auto. apply HL in HmL. apply (gram_child n m tmp (proj1 HmL) (proj2 (L1 m Hi)) HT).
      + rewrite E4 by (auto; unfold node in Hm; lia). apply I3; auto. apply in_app_or in Hp. destruct Hp as [Hp|[Hp|[]]]; auto. exfalso. apply HmL, HL. split; auto. rewrite Hp. apply parent_is_edge with (r := r); auto.
    - intros m Hm NE Hi. assert (HmL : ~ In m L).
      { intros HmL. apply HL in HmL. apply Hi. split; [tauto|]. rewrite (parent_edge t r T n m (proj1 HmL)). apply in_or_app. simpl. auto. }
      rewrite E4 by (auto; unfold node in Hm; lia). apply I4; auto. intros [K1 K2]. apply Hi. split; auto. apply in_or_app. auto.
  Qed.
  Lemma gram_loop : exists g, ofold (gram_step X ln) (top_down t ml) (upd (root t - 1) (Some one11) (repeat None (nbn t))) = Some g /\ length g = nbn t /\ nth (r - 1) g None = Some one11 /\
    (forall m, node t m -> m <> r -> In m ln -> exists G, nth (m - 1) g None = Some G /\ good m G) /\ (forall m, node t m -> m <> r -> ~ In m ln -> nth (m - 1) g None = None).
  Proof.
    assert (ND : NoDup (top_down t ml)).
    { unfold top_down. generalize (S ml). intros k. generalize 0%nat. induction k as [|k IH]; intros a; cbn [seq flat_map]; [constructor|]. apply NoDup_app; auto.
      - apply NoDup_filter, NoDup_nodes.
      - intros x Hx Hx2. apply in_flat_map in Hx2. destruct Hx2 as (b & Hb & Hx2). unfold nodes_with_level in *. apply filter_In in Hx, Hx2. destruct Hx as [_ E1]. destruct Hx2 as [_ E2]. apply Nat.eqb_eq in E1, E2. apply in_seq in Hb. lia. }
    assert (G : forall l2 l1 g, top_down t ml = l1 ++ l2 -> ginv l1 g -> exists g', ofold (gram_step X ln) l2 g = Some g' /\ ginv (l1 ++ l2) g').
    { induction l2 as [|n l2 IH]; intros l1 g E Hg; cbn [ofold].
      - exists g. rewrite app_nil_r. auto.
      - assert (Hn : In n (top_down t ml)) by (rewrite E; apply in_or_app; simpl; auto). apply in_top_down in Hn. rewrite E in ND. apply NoDup_remove_2 in ND.
        destruct (gram_step_ok l1 g n Hg) as (g1 & E1 & I1); [tauto| | |].
        + intros NE. apply (top_down_topo t r T ml l1 n l2 E NE).
        + intros Hi. apply ND, in_or_app. auto.
        + rewrite E1. destruct (IH (l1 ++ [n]) g1) as (g' & E2 & I2); auto; [rewrite <- app_assoc; auto|]. exists g'. split; auto. rewrite <- app_assoc in I2. auto. }
    pose proof (proj1 T) as Hr. unfold node in Hr. rewrite (root_eq t r T).
    destruct (G (top_down t ml) [] (upd (r - 1) (Some one11) (repeat None (nbn t)))) as (g & E & I1 & I2 & I3 & I4); auto.
    { split; [rewrite upd_length, repeat_length; auto|]. split; [apply nth_upd_eq; rewrite repeat_length; lia|]. split; [intros m _ _ _ []|].
      intros m Hm NE _. unfold node in Hm. rewrite nth_upd_neq by lia. apply nth_repeat. }
    cbn [app] in *. exists g. split; auto. split; auto. split; auto. split.
    - intros m Hm NE Hi. apply I3; auto. apply in_top_down. pose proof (parent_is_edge t r T m Hm NE) as He. pose proof (level_edge t r T _ _ He). pose proof (L3 m Hi). split; [apply He|lia].
    - intros m Hm NE Hi. apply I4; auto. tauto.
  Qed.
End Gramians.
