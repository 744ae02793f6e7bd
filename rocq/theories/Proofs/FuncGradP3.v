(** Proofs for Model/FuncGrad.v: parameter_gradient_eval. *)
From Coq Require Import List Arith Lia Bool Permutation Sorted.
From Verif.Base Require Import ListAux CRing Index.
From Verif.Model Require Import Numpy FullTensor DimensionTree TreeBased TreeEval TreeReduce HsvdTree TreeGrad FuncGrad.
From Verif.Spec Require Import TensorSpec TreeSpec TreeTensorSpec GradSpec FuncGradSpec.
From Verif.Proofs Require Import NumpyP FullTensorP DimTreeP TreeTensorP TreeTensorP3 TreeTensorP4 TreeTensorP11 TreeTensorP17 TreeGradP8 TreeGradP9 TreeGradP10 TreeGradP11 FuncGradP0 FuncGradP1 FuncGradP2 FunctionsP FunctionsP3 FunctionalP7.
Import ListNotations.
Local Open Scope cr_scope.

(** sorting the labels puts the permuted axes back in order *)
Lemma argsort_restore ch p : StronglySorted lt ch -> is_perm (length ch) p -> sel 0 p (np_argsort (sel 0 ch p)) = seq 0 (length ch).
Proof.
  intros SS Hp. assert (ND : NoDup ch).
  { clear Hp. induction SS as [|x l S0 IH F]; constructor; auto. rewrite Forall_forall in F. intros Hx. specialize (F x Hx). lia. }
  pose proof (sel_perm 0%nat _ p ch Hp eq_refl) as P0.
  assert (ND2 : NoDup (sel 0 ch p)) by (apply (Permutation_NoDup (Permutation_sym P0)); auto).
  assert (HF : Forall (fun k => (k < S (list_max ch))%nat) (sel 0 ch p)).
  { apply Forall_forall. intros k Hk. apply (Permutation_in _ P0) in Hk. pose proof (proj1 (list_max_le ch (list_max ch)) (le_n _)) as K. rewrite Forall_forall in K. specialize (K k Hk). lia. }
  pose proof (sort_dims _ _ ND2 HF) as E.
  assert (E2 : filter (fun k => inb k (sel 0 ch p)) (seq 0 (S (list_max ch))) = ch).
  { apply sorted_same; auto using sorted_filter_seq. intros x. rewrite filter_In, in_seq, inb_spec. rewrite Forall_forall in HF. split; [intros [_ K]; apply (Permutation_in _ P0); auto|].
    intros Hx. assert (In x (sel 0 ch p)) by (apply (Permutation_in _ (Permutation_sym P0)); auto). specialize (HF x H). split; [lia|auto]. }
  rewrite E2 in E. destruct (np_argsort_spec (sel 0 ch p)) as [Hs _]. pose proof (is_perm_length _ _ Hs) as Ls. rewrite sel_length in Ls. pose proof (is_perm_length _ _ Hp) as Lp.
  assert (Lt : forall k, In k (np_argsort (sel 0 ch p)) -> (k < length p)%nat) by (intros k Hk; apply (proj1 (is_perm_in _ _ _ Hs)) in Hk; rewrite sel_length in Hk; auto).
  rewrite sel_sel in E by (apply Forall_forall; exact Lt).
  apply nth_ext' with (d := 0%nat); [rewrite sel_length, seq_length; lia|]. intros k Hk. rewrite sel_length in Hk. rewrite seq_nth by lia. cbn [Nat.add].
  assert (Hin : (nth k (sel 0 p (np_argsort (sel 0 ch p))) 0 < length ch)%nat).
  { rewrite sel_nth by auto. apply (proj1 (is_perm_in _ _ _ Hp)). apply nth_In. apply Lt. apply nth_In. auto. }
  assert (E3 : nth (nth k (sel 0 p (np_argsort (sel 0 ch p))) 0%nat) ch 0%nat = nth k ch 0%nat).
  { rewrite <- (sel_nth 0%nat ch _ k) by (rewrite sel_length; auto). rewrite E. auto. }
  apply (proj1 (NoDup_nth ch 0%nat) ND) in E3; auto. lia.
Qed.

(** transposing the block of axes 1..n of an array *)
Lemma block_transpose {R : Type} {CR : CRing R} (G : nd R) q hs w p P :
  shape G = q :: sel 0 hs p ++ w -> is_perm (length hs) p -> is_perm (length hs) P -> sel 0 p P = seq 0 (length hs) ->
  exists T, ft_transpose G (0%nat :: map S P ++ seq (S (length hs)) (length w)) = Some T /\ shape T = q :: hs ++ w /\
    forall i ks v, (i < q)%nat -> valid hs ks -> valid w v -> get T (i :: ks ++ v) = get G (i :: sel 0 ks p ++ v).
Proof.
  intros SG Hp HP E. pose proof (is_perm_length _ _ Hp) as Lp. pose proof (is_perm_length _ _ HP) as LP. set (n := length hs) in *.
  assert (Gen : forall (x : nat) ks v, length ks = n -> length v = length w -> sel 0 (x :: sel 0 ks p ++ v) (0%nat :: map S P ++ seq (S n) (length w)) = x :: ks ++ v).
  { intros x ks v L1 L2. unfold sel at 1. cbn [map]. change (nth 0 (x :: sel 0 ks p ++ v) 0%nat) with x. f_equal. rewrite map_app, map_map. f_equal.
    - transitivity (sel 0 (sel 0 ks p) P).
      + change (sel 0 (sel 0 ks p) P) with (map (fun k => nth k (sel 0 ks p) 0%nat) P). apply map_ext_in. intros k Hk. cbn [nth]. apply app_nth1. rewrite sel_length. apply (proj1 (is_perm_in _ _ _ HP)) in Hk. lia.
      + rewrite sel_sel; [rewrite E, <- L1; apply sel_seq|]. apply Forall_forall. intros k Hk. apply (proj1 (is_perm_in _ _ _ HP)) in Hk. lia.
    - rewrite <- seq_shift, map_map, <- L2. apply nth_ext' with (d := 0%nat); [rewrite map_length, seq_length; auto|]. intros k Hk. rewrite map_length, seq_length in Hk.
      rewrite (map_nth_in _ _ _ 0%nat) by (rewrite seq_length; auto). rewrite seq_nth by auto. cbn [nth]. rewrite app_nth2 by (rewrite sel_length; lia). rewrite sel_length. f_equal. lia. }
  assert (PP : is_perm (ndim G) (0%nat :: map S P ++ seq (S n) (length w))).
  { unfold is_perm, ndim. rewrite SG. cbn [length]. rewrite app_length, sel_length, Lp. cbn [seq]. apply perm_skip. rewrite seq_app. cbn [Nat.add]. apply Permutation_app.
    - rewrite <- seq_shift. apply Permutation_map. exact HP.
    - apply Permutation_refl. }
  destruct (ft_transpose_spec G _ PP) as (T & ET & ST & GT & _). exists T. split; auto. split; [rewrite ST, SG; apply Gen; auto|].
  intros i ks v Hi Hks Hv. rewrite <- (GT (i :: sel 0 ks p ++ v)).
  - f_equal. symmetry. apply Gen; [apply (valid_length _ _ Hks)|apply (valid_length _ _ Hv)].
  - rewrite SG. apply Forall2_cons; auto. apply valid_app; auto. apply sel_valid; auto. apply Forall_forall. intros k Hk. apply (proj1 (is_perm_in _ _ _ Hp)) in Hk. auto.
Qed.

Section FuncGradP3.
  Context {R : Type} {CR : CRing R}.
  Add Ring Rfg3 : rth.
  Variables (X : tbt R) (r a q : nat) (Bs : list (nd R)).
  Hypothesis O : tb_ok X r.
  Hypothesis H2 : (2 <= tb_order X)%nat.
  Hypothesis FM : grad_format X.
  Hypothesis Ha : node (ttree X) a.
  Hypothesis Hq : (0 < q)%nat.
  Hypothesis HB : bases_ok X Bs q.
  Local Notation t := (ttree X).

  Lemma differs_refl : differs_at X X r a.
  Proof. split; auto. Qed.
  (** the contracted tensor and those of the tensors that differ from X at a *)
  Lemma cont_all : exists H,
      (if forallb (active X) (nodes t) then tb_tmp X (map (fun mu => nth mu Bs (scalar r0)) (fg_dims X a)) (Some (fg_dims X a))
       else match unique_children t with [] => fg_inactive X Bs (fg_dims X a) | _ => None end) = Some H /\
      tb_ok H r /\ ttree H = t /\ exts H r = exts X r /\ (forall n, node t n -> active H n = active X n) /\ core H a = core X a /\
      (forall mu, (mu < tb_order X)%nat -> ~ In mu (own_dims X a) -> nth mu (tb_shape H) 0%nat = q) /\
      (forall mu, In mu (own_dims X a) -> nth mu (tb_shape H) 0%nat = nth mu (tb_shape X) 0%nat) /\
      forall Y, differs_at X Y r a -> exists W, differs_at H W r a /\ core W a = core Y a /\
        forall i e, (i < q)%nat -> valid (exts X r) e -> diag_with W r a (fun d => nth d Bs (scalar r0)) i e = value_at Y r Bs i e.
  Proof.
    rewrite (dms_eq X r a q O H2 Ha Hq).
    destruct (cont_value X r a q Bs O H2 Ha Hq HB X differs_refl) as (H & E & OH & TH & XH & AH & S1 & S2 & _). unfold cont in E.
    assert (AG : forall Y, differs_at X Y r a -> exists W, cont X a Bs Y = Some W /\ (forall m, node t m -> m <> a -> core W m = core H m) /\ core H a = core X a /\ core W a = core Y a).
    { intros Y HY. apply (tmp_agree X Y r a _ _ H O H2 Ha HY); auto.
      - apply NoDup_compl.
      - apply compl_lt.
      - rewrite map_length; auto.
      - apply (dms_ms X a q Bs Hq HB).
      - apply (y_shape X r a O Y HY).
      - apply (dms_not_a X r a O H2 Ha). }
    exists H. split.
    { destruct (forallb (active X) (nodes t)) eqn:EA; auto. destruct FM as [HA | [FI SB]].
      - exfalso. assert (forallb (active X) (nodes t) = true); [|congruence]. apply forallb_forall. intros n Hn. apply HA. apply in_nodes. auto.
      - rewrite (siblings_unique t r (proj1 O) SB). apply (fg_inactive_tmp X r Bs _ O FI); auto; [apply NoDup_compl|apply compl_lt]. }
    split; auto. split; auto. split; auto. split; auto. split.
    { destruct (AG X differs_refl) as (_ & _ & _ & K & _). auto. }
    split; auto. split; auto. intros Y HY. destruct (AG Y HY) as (W & EW & C1 & C2 & C3).
    destruct (cont_value X r a q Bs O H2 Ha Hq HB Y HY) as (W' & EW' & OW & TW & XW & AW & _ & _ & VW). rewrite EW in EW'. inversion EW'; subst W'. clear EW'.
    exists W. split; [|split; auto]. split; auto. split; [congruence|]. split; [rewrite C2, C3; apply HY|]. intros m Hm NE. apply C1; auto. rewrite <- TH. auto.
  Qed.

  Lemma own_H (H : tbt R) : ttree H = t -> (forall n, node t n -> active H n = active X n) -> own_dims H a = own_dims X a.
  Proof.
    intros TH AH. unfold own_dims, own_leaves. rewrite TH. destruct (is_leaf t a); auto. f_equal. apply filter_ext_in. intros c Hc.
    apply (proj1 (in_children t a c Ha)) in Hc. rewrite AH by apply Hc. auto.
  Qed.
  Lemma axes_perm (H : tbt R) : ttree H = t -> is_perm (length (children t a)) (kid_axes H a true ++ kid_axes H a false).
  Proof.
    intros TH. unfold kid_axes. rewrite TH. unfold is_perm. generalize (seq 0 (length (children t a))). intros l. induction l as [|k l IH]; cbn [filter app]; [apply Permutation_refl|].
    destruct (active H (nth k (children t a) 0%nat)); cbn [Bool.eqb]; [apply perm_skip; auto|]. eapply perm_trans; [apply Permutation_sym; apply Permutation_middle|]. apply perm_skip. auto.
  Qed.
  Lemma kids_sel (H : tbt R) : ttree H = t -> act_of H (children t a) ++ inact_of H (children t a) = sel 0 (children t a) (kid_axes H a true ++ kid_axes H a false).
  Proof.
    intros TH. unfold sel. rewrite map_app. unfold act_of, inact_of, kid_axes. rewrite TH.
    assert (K : forall (f : nat -> bool) (l : list nat), map (fun k => nth k l 0%nat) (filter (fun k => f (nth k l 0%nat)) (seq 0 (length l))) = filter f l).
    { intros f l. transitivity (filter f (map (fun k => nth k l 0%nat) (seq 0 (length l)))); [|f_equal; apply map_seq_nth]. generalize (seq 0 (length l)). intros m. induction m as [|k m IH]; cbn [filter map]; auto. destruct (f (nth k l 0%nat)); cbn [map]; rewrite IH; auto. }
    rewrite <- (K (active H)), <- (K (fun c => negb (active H c))). f_equal; f_equal; apply filter_ext; intros k; destruct (active H (nth k (children t a) 0%nat)); auto.
  Qed.
  Lemma perm_1_perm (H : tbt R) : ttree H = t -> is_perm (length (children t a)) (np_argsort (act_of H (children t a) ++ inact_of H (children t a))) /\
    sel 0 (kid_axes H a true ++ kid_axes H a false) (np_argsort (act_of H (children t a) ++ inact_of H (children t a))) = seq 0 (length (children t a)).
  Proof.
    intros TH. rewrite (kids_sel H TH). pose proof (axes_perm H TH) as Hp. split.
    - destruct (np_argsort_spec (sel 0 (children t a) (kid_axes H a true ++ kid_axes H a false))) as [Hs _]. rewrite sel_length, (is_perm_length _ _ Hp) in Hs. auto.
    - apply argsort_restore; auto. unfold children. apply sorted_filter_seq.
  Qed.

  Hypothesis Hsib : siblings_above t a.
  (** a node other than the root *)
  Lemma ften_grad : active X a = true -> a <> r -> exts X r <> [1%nat] ->
    exists G, ften_param_grad X Bs a = Some G /\ shape G = q :: shape (core X a) ++ exts X r /\
      forall Y i e, differs_at X Y r a -> (i < q)%nat -> valid (exts X r) e ->
        value_at Y r Bs i e = bsum (shape (core X a)) (fun ks => get G (i :: ks ++ e) * get (core Y a) ks).
  Proof.
    intros Act NE NX. destruct cont_all as (H & EH & OH & TH & XH & AH & CH & S1 & S2 & DH).
    unfold ften_param_grad. rewrite EH. cbn [bind].
    assert (Hr : is_leaf t r = false) by (apply root_not_leaf; auto).
    assert (OrdH : tb_order H = tb_order X) by (unfold tb_order; rewrite TH; auto).
    assert (ActH : active H a = true) by (rewrite AH; auto).
    pose proof (own_H H TH AH) as OwnH.
    assert (Hsz : forall mu, (mu < tb_order H)%nat -> ~ In mu (own_dims H a) -> nth mu (tb_shape H) 0%nat = q) by (rewrite OwnH, OrdH; auto).
    assert (HM : forall d, In d (own_dims H a) -> shape (nth d Bs (scalar r0)) = [q; nth d (tb_shape H) 0%nat]).
    { rewrite OwnH. intros d Hd. rewrite S2 by auto. apply HB. apply (own_D X r a O Ha d Hd). }
    assert (HaH : node (ttree H) a) by (rewrite TH; auto). assert (HsibH : siblings_above (ttree H) a) by (rewrite TH; auto).
    assert (Shp : heads H a ++ exts H a = shape (core X a)) by (unfold heads, exts; rewrite CH; apply firstn_skipn).
    destruct (is_leaf t a) eqn:Hl.
    - assert (HlH : is_leaf (ttree H) a = true) by (rewrite TH; auto). assert (HrH : is_leaf (ttree H) r = false) by (rewrite TH; auto).
      destruct (grad_leaf H r q a OH Hq HrH HaH ActH Hsz HsibH Bs HM (fun E => False_ind _ (NE E)) HlH) as (G & EG & SG & VG).
      rewrite EG. cbn [bind]. exists G. split; auto. split; [rewrite SG, app_assoc, Shp, XH; auto|].
      intros Y i e HY Hi He. destruct (DH Y HY) as (W & DW & CW & VW). rewrite <- (VW i e Hi He). rewrite VG by (auto; rewrite XH; auto).
      rewrite <- Shp. rewrite bsum_app. apply bsum_ext. intros ks Hks. apply bsum_ext. intros k Hk. rewrite CW, <- app_assoc. auto.
    - assert (HlH : is_leaf (ttree H) a = false) by (rewrite TH; auto). assert (HrH : is_leaf (ttree H) r = false) by (rewrite TH; auto).
      destruct (grad_internal H r q a OH Hq HrH HaH ActH Hsz HsibH Bs HM (fun E => False_ind _ (NE E)) HlH NE) as (G & EG & SG & VG).
      rewrite EG. cbn [bind]. destruct (perm_1_perm H TH) as [P1 P2].
      assert (Lh : length (heads H a) = length (children t a)).
      { unfold heads. rewrite firstn_length. rewrite TH. unfold arity_at. rewrite Hl. pose proof (ok_arity H r OH a HaH ActH) as K. rewrite TH in K. unfold arity_at in K. rewrite Hl in K. unfold ndim in K. lia. }
      pose proof (ok_exts H r OH a HaH ActH NE) as E1. pose proof (axes_perm H TH) as Hp. rewrite <- Lh in P1, P2, Hp.
      assert (SG' : shape G = q :: sel 0 (heads H a) (kid_axes H a true ++ kid_axes H a false) ++ (exts H a ++ exts X r)).
      { rewrite SG. unfold sel. rewrite map_app, <- app_assoc, XH. auto. }
      destruct (block_transpose G q (heads H a) (exts H a ++ exts X r) _ _ SG' Hp P1 P2) as (T & ET & ST & GT).
      assert (PE : fg_perm X H a G = 0%nat :: map S (np_argsort (act_of H (children t a) ++ inact_of H (children t a))) ++ seq (S (length (heads H a))) (length (exts H a ++ exts X r))).
      { unfold fg_perm. rewrite (root_eq t r (proj1 (proj1 O))). rewrite (proj2 (Nat.eqb_neq a r) NE). cbn [negb andb]. f_equal. f_equal.
        pose proof (root_rank X r O H2) as RR. rewrite (root_eq t r (proj1 (proj1 O))) in RR. rewrite RR.
        assert (NC : ndim (core H a) = S (length (children t a))) by (unfold ndim; rewrite (ok_shape H a HaH ActH), app_length, E1, Lh; lia).
        assert (NG : ndim G = (S (S (length (children t a))) + length (exts X r))%nat).
        { unfold ndim. rewrite SG'. cbn [length]. rewrite app_length, sel_length, (is_perm_length _ _ Hp), app_length, E1, Lh. lia. }
        rewrite NC, NG, app_length, E1, Lh. pose proof (ok_exts_root X r O) as LX. pose proof (proj1 (active_prod X r) (ok_root X r O)) as PX.
        rewrite (ok_shape X r (rt_root _ _ (proj1 (proj1 O))) (ok_root X r O)), prodn_app in PX.
        destruct (exts X r) as [|k [|k' l]]; cbn [length nth] in *; [|destruct k as [|[|k]]; [exfalso; cbn in PX; lia|congruence|]|lia].
        - cbn [Nat.ltb Nat.leb app]. auto.
        - cbn [Nat.ltb Nat.leb app Nat.add seq]. f_equal. f_equal. lia. }
      rewrite PE, ET. exists T. split; auto. split; [rewrite ST, app_assoc, Shp; auto|].
      intros Y i e HY Hi He. destruct (DH Y HY) as (W & DW & CW & VW). rewrite <- (VW i e Hi He). rewrite VG by (auto; rewrite XH; auto).
      rewrite <- Shp. rewrite bsum_app. apply bsum_ext. intros ks Hks. apply bsum_ext. intros k Hk. rewrite CW. rewrite <- app_assoc. rewrite GT; auto.
      + unfold sel at 3. rewrite map_app, <- app_assoc. auto.
      + apply valid_app; auto.
  Qed.
End FuncGradP3.
  (** the root *)
Section FuncGradRoot.
  Context {R : Type} {CR : CRing R}.
  Variables (X : tbt R) (r q : nat) (Bs : list (nd R)).
  Hypothesis O : tb_ok X r.
  Hypothesis H2 : (2 <= tb_order X)%nat.
  Hypothesis FM : grad_format X.
  Hypothesis Hq : (0 < q)%nat.
  Hypothesis HB : bases_ok X Bs q.
  Local Notation t := (ttree X).
  Lemma root_active_child : exists c, edge t r c /\ active X c = true.
  Proof.
    assert (Hr : is_leaf t r = false) by (apply root_not_leaf; auto). pose proof (rt_root _ _ (proj1 (proj1 O))) as Ha.
    destruct (children t r) as [|c l] eqn:Ec.
    - exfalso. assert (K : is_leaf t r = true); [|congruence]. apply (leaf_iff t r (proj1 O)). split; auto. intros c Hc. assert (In c (children t r)) by (apply in_children; auto). rewrite Ec in *. auto.
    - assert (K : edge t r c) by (apply (proj1 (in_children t r c Ha)); rewrite Ec; simpl; auto). destruct FM as [HA | [FI SB]].
      + exists c. split; auto. apply HA. apply K.
      + destruct (active X c) eqn:Ac; [exists c; auto|]. destruct (SB r c K) as (c' & K' & NE). exists c'. split; auto. destruct (active X c') eqn:Ac'; auto. exfalso. apply NE. apply (FI r); auto.
  Qed.
  Lemma ften_grad_root : 
    exists G, ften_param_grad X Bs r = Some G /\ shape G = q :: heads X r /\
      forall Y i e, differs_at X Y r r -> (i < q)%nat -> valid (exts X r) e ->
        value_at Y r Bs i e = bsum (heads X r) (fun ks => get G (i :: ks) * get (core Y r) (ks ++ e)).
  Proof.
    pose proof (rt_root _ _ (proj1 (proj1 O))) as Ha. destruct (cont_all X r r q Bs O H2 FM Ha Hq HB) as (H & EH & OH & TH & XH & AH & CH & S1 & S2 & DH).
    unfold ften_param_grad. rewrite EH. cbn [bind].
    assert (Hr : is_leaf t r = false) by (apply root_not_leaf; auto). rewrite Hr.
    assert (OrdH : tb_order H = tb_order X) by (unfold tb_order; rewrite TH; auto).
    assert (OwnH : own_dims H r = own_dims X r) by (apply own_H; auto).
    assert (Hsz : forall mu, (mu < tb_order H)%nat -> ~ In mu (own_dims H r) -> nth mu (tb_shape H) 0%nat = q) by (rewrite OwnH, OrdH; auto).
    assert (HM : forall d, In d (own_dims H r) -> shape (nth d Bs (scalar r0)) = [q; nth d (tb_shape H) 0%nat]).
    { rewrite OwnH. intros d Hd. rewrite S2 by auto. apply HB. apply (own_D X r r O Ha d Hd). }
    assert (HaH : node (ttree H) r) by (rewrite TH; auto). assert (HrH : is_leaf (ttree H) r = false) by (rewrite TH; auto).
    assert (Shp : heads H r = heads X r) by (unfold heads; rewrite CH, TH; auto).
    assert (Hch : exists c, edge (ttree H) r c /\ active H c = true).
    { rewrite TH. destruct root_active_child as (c & Ec & Ac). exists c. split; auto. rewrite AH; auto. apply Ec. }
    destruct (root_public H r q Bs OH Hq HrH (or_introl Hch) Hsz HM) as (G & EG & SG & VG).
    rewrite EG. cbn [bind]. destruct (perm_1_perm X r H TH) as [P1 P2]. pose proof (axes_perm X r H TH) as Hp.
    assert (Lh : length (heads X r) = length (children t r)).
    { rewrite (ok_heads_length X r O r Ha (ok_root X r O)). unfold arity_at. rewrite Hr. auto. }
    rewrite <- Lh in P1, P2, Hp.
    assert (SG' : shape G = q :: sel 0 (heads X r) (kid_axes H r true ++ kid_axes H r false) ++ []).
    { rewrite SG, Shp, app_nil_r. unfold sel. rewrite map_app. auto. }
    destruct (block_transpose G q (heads X r) [] _ _ SG' Hp P1 P2) as (T & ET & ST & GT).
    assert (PE : fg_perm X H r G = 0%nat :: map S (np_argsort (act_of H (children t r) ++ inact_of H (children t r))) ++ seq (S (length (heads X r))) (length (@nil nat))).
    { unfold fg_perm. rewrite (root_eq t r (proj1 (proj1 O))), Nat.eqb_refl. cbn [negb andb length seq app]. auto. }
    rewrite PE, ET. exists T. split; auto. split; [rewrite ST, app_nil_r; auto|].
    intros Y i e HY Hi He. destruct (DH Y HY) as (W & DW & CW & VW). rewrite <- (VW i e Hi He). rewrite VG by (auto; rewrite XH; auto). rewrite Shp.
    apply bsum_ext. intros ks Hks. rewrite CW. f_equal. rewrite <- (app_nil_r ks) at 3. rewrite GT; auto; [|apply Forall2_nil]. f_equal. f_equal. rewrite app_nil_r. unfold sel. rewrite map_app. auto.
  Qed.
End FuncGradRoot.
(** a decision procedure for the examples *)
Definition fewb {R : Type} {CR : CRing R} (X : tbt R) : bool :=
  forallb (fun p => forallb (fun c => forallb (fun c' => negb (adj (ttree X) p c) || negb (adj (ttree X) p c') || active X c || active X c' || (c =? c')%nat)
    (nodes (ttree X))) (nodes (ttree X))) (nodes (ttree X)).
Lemma fewb_ok {R : Type} {CR : CRing R} (X : tbt R) : fewb X = true -> few_inactive X.
Proof.
  intros H p c c' (Hp & Hc & He) (_ & Hc' & He') A1 A2. unfold fewb in H. rewrite forallb_forall in H. specialize (H p (proj2 (in_nodes _ p) Hp)). rewrite forallb_forall in H.
  specialize (H c (proj2 (in_nodes _ c) Hc)). rewrite forallb_forall in H. specialize (H c' (proj2 (in_nodes _ c') Hc')). rewrite He, He', A1, A2 in H. apply Nat.eqb_eq. exact H.
Qed.
