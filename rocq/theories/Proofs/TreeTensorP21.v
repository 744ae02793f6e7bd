(** squeeze: contraction of the removed children of a node. *)
From Coq Require Import List Arith Lia Bool Sorted Ring Permutation.
From Verif.Base Require Import ListAux CRing Index.
From Verif.Model Require Import Utils Numpy FullTensor DimensionTree TreeBased TreeEval TreeReduce.
From Verif.Spec Require Import TensorSpec TreeSpec TreeTensorSpec.
From Verif.Proofs Require Import NumpyP FullTensorP FullTensorP4 FunctionsP FunctionsP3 DimTreeP TreeTensorP TreeTensorP2 TreeTensorP3 TreeTensorP4 TreeTensorP17 TreeTensorP18 TreeTensorP19 TreeTensorP20.
Import ListNotations.

Section SqNode.
  Context {R : Type} {CR : CRing R}.
  Add Ring Rrt21 : rth.
  Local Open Scope cr_scope.
  Variables (X : tbt R) (n : nat) (ind : list nat) (h : nat -> nat) (v : nat -> nat -> R) (ext : list nat).
  Let h1 (c : nat) : nat := if inb c ind then 1%nat else h c.
  Let V1 (V : nat -> nat -> R) (p : nat * nat) : R := if inb (fst p) ind then r1 else V (fst p) (snd p).
  Let V0 (V : nat -> nat -> R) (p : nat * nat) : R := V (fst p) (snd p).
  (** the tensor of a removed active child holds its values *)
  Definition sq_row (c : nat) (M : nd R) : Prop :=
    (shape M = [h c] /\ forall j, (j < h c)%nat -> get M [j] = v c j) \/
    (shape M = [1%nat; h c] /\ forall j, (j < h c)%nat -> get M [0%nat; j] = v c j).
  Definition sq_agree (l : list nat) (V : nat -> nat -> R) : Prop := forall c k, In c l -> inb c ind = true -> (k < h c)%nat -> V c k = v c k.
  Hypothesis Hin : forall c, active X c = false -> inb c ind = true -> h c = 1%nat /\ v c 0 = r1.

  Lemma sq_loop ch2 : forall ch1 ts, NoDup (ch1 ++ ch2) -> ~ In n (ch1 ++ ch2) -> (1 <= n <= length ts)%nat ->
    (forall c, In c ch2 -> (1 <= c <= length ts)%nat) ->
    (forall c, In c ch2 -> active X c = true -> inb c ind = true -> sq_row c (nthc ts c)) ->
    shape (nthc ts n) = map h1 ch1 ++ map h ch2 ++ ext ->
    exists ts', ofold (sq_child X n ind) (combine (seq (length ch1) (length ch2)) ch2) ts = Some ts' /\ length ts' = length ts /\
      (forall m, (1 <= m)%nat -> m <> n -> ~ (In m ch2 /\ inb m ind = true) -> nthc ts' m = nthc ts m) /\
      shape (nthc ts' n) = map h1 (ch1 ++ ch2) ++ ext /\
      forall V, sq_agree ch2 V -> forall e, valid ext e ->
        bsum (map h1 ch1) (fun a1 => bsum (map h ch2) (fun a2 => get (nthc ts n) (a1 ++ a2 ++ e) * (lprod (combine ch1 a1) (V1 V) * lprod (combine ch2 a2) (V0 V))))
        = bsum (map h1 (ch1 ++ ch2)) (fun a => get (nthc ts' n) (a ++ e) * lprod (combine (ch1 ++ ch2) a) (V1 V)).
  Proof.
    induction ch2 as [|c ch2 IH]; intros ch1 ts ND Hn Hb Hc HM Hs.
    - cbn [length seq combine ofold]. exists ts. split; auto. split; auto. split; auto. rewrite app_nil_r. split; [exact Hs|]. intros V _ e He. cbn [map]. apply bsum_ext. intros a Ha. cbn [bsum combine lprod app]. ring.
    - cbn [length seq combine ofold].
      assert (Hcn : c <> n) by (intros ->; apply Hn; apply in_or_app; simpl; auto).
      assert (Hc1 : (1 <= c <= length ts)%nat) by (apply Hc; simpl; auto).
      assert (Hstep : exists ts1, sq_child X n ind ts (length ch1, c) = Some ts1 /\ length ts1 = length ts /\
        (forall m, (1 <= m)%nat -> m <> n -> ~ (m = c /\ inb m ind = true) -> nthc ts1 m = nthc ts m) /\
        shape (nthc ts1 n) = map h1 (ch1 ++ [c]) ++ map h ch2 ++ ext /\
        forall V, sq_agree [c] V -> forall a1 w, valid (map h1 ch1) a1 -> valid (map h ch2 ++ ext) w ->
          rsum (h c) (fun k => get (nthc ts n) (a1 ++ k :: w) * V c k) = rsum (h1 c) (fun k => get (nthc ts1 n) (a1 ++ k :: w) * V1 V (c, k))).
      { unfold sq_child. destruct (inb c ind) eqn:Ei; [destruct (active X c) eqn:Ea|].
        - cbn [andb].
          assert (EM : exists M, (if ndim (nthc ts c) =? 1 then ft_reshape (nthc ts c) [1%nat; np_size (nthc ts c)] else Some (nthc ts c)) = Some M /\
             shape M = [1%nat; h c] /\ forall j, (j < h c)%nat -> get M [0%nat; j] = v c j).
          { destruct (HM c) as [[S1 G1]|[S1 G1]]; auto; [simpl; auto| |].
            - unfold ndim, np_size, ft_reshape, np_reshapeF. rewrite S1. cbn [length Nat.eqb]. replace (prodn [1%nat; prodn [h c]] =? prodn [h c]) with true by (symmetry; apply Nat.eqb_eq; cbn; lia).
              eexists. split; [reflexivity|]. cbn [shape get]. split; [cbn; f_equal; f_equal; lia|]. intros j Hj. rewrite <- G1 by auto. f_equal.
              cbn [sub2indF ind2subF]. f_equal. rewrite Nat.mod_small; lia.
            - exists (nthc ts c). unfold ndim. rewrite S1. cbn. auto. }
          destruct EM as (M & EM & SM & GM). rewrite EM. cbn [bind]. cbn [map app] in Hs.
          destruct (tmp_single (nthc ts n) M (map h1 ch1) (map h ch2 ++ ext) (h c) 1 Hs SM) as (C & HC & SC & GC). rewrite map_length in HC. rewrite HC. cbn [bind].
          exists (setc c no_core (setc n C ts)). split; auto. split; [rewrite !setc_length; auto|]. split; [|split].
          + intros m Hm Hmn Hmc. rewrite !nthc_setc by (rewrite ?setc_length; auto). destruct (Nat.eqb_spec m c) as [->|]; [destruct Hmc; auto|]. destruct (Nat.eqb_spec m n); [contradiction|auto].
          + rewrite !nthc_setc by (rewrite ?setc_length; auto; apply Hb). destruct (Nat.eqb_spec n c); [congruence|]. rewrite Nat.eqb_refl. rewrite SC, map_app, <- app_assoc. cbn [map app]. replace (h1 c) with 1%nat by (unfold h1; rewrite Ei; auto). auto.
          + intros V HV a1 w Ha Hw. unfold h1. rewrite Ei. cbn [rsum]. unfold V1. cbn [fst]. rewrite Ei. rewrite !nthc_setc by (rewrite ?setc_length; auto; apply Hb). destruct (Nat.eqb_spec n c); [congruence|]. rewrite Nat.eqb_refl.
            rewrite GC by auto. transitivity (rsum (h c) (fun k => get M [0%nat; k] * get (nthc ts n) (a1 ++ k :: w))); [|ring].
            apply rsum_ext. intros k Hk. rewrite GM by auto. rewrite HV by (simpl; auto). ring.
        - cbn [andb]. exists ts. destruct (Hin c Ea Ei) as [H1 H2]. split; auto. split; auto. split; auto. split.
          + rewrite map_app, <- app_assoc. cbn [map app]. replace (h1 c) with (h c) by (unfold h1; rewrite Ei; auto). exact Hs.
          + intros V HV a1 w Ha Hw. unfold h1, V1. cbn [fst snd]. rewrite Ei, H1. cbn [rsum]. rewrite HV by (simpl; auto; lia). rewrite H2. ring.
        - rewrite andb_false_r. exists ts. split; auto. split; auto. split; auto. split.
          + rewrite map_app, <- app_assoc. cbn [map app]. replace (h1 c) with (h c) by (unfold h1; rewrite Ei; auto). exact Hs.
          + intros V HV a1 w Ha Hw. unfold h1, V1. cbn [fst snd]. rewrite Ei. auto. }
      destruct Hstep as (ts1 & E1 & L1 & F1 & S1 & G1). rewrite E1. 
      assert (Ea : ch1 ++ c :: ch2 = (ch1 ++ [c]) ++ ch2) by (rewrite <- app_assoc; auto).
      assert (Nc : ~ In c ch2). { apply NoDup_remove_2 in ND. intros Q. apply ND. apply in_or_app; auto. }
      destruct (IH (ch1 ++ [c]) ts1) as (ts' & E2 & L2 & F2 & S2 & G2).
      + rewrite <- Ea. auto.
      + rewrite <- Ea. auto.
      + lia.
      + intros x Hx. rewrite L1. apply Hc. simpl; auto.
      + intros x Hx Q1 Q2. rewrite F1; [apply HM; simpl; auto| | |]; [specialize (Hc x); simpl in Hc; destruct Hc; auto| |].
        * intros ->. apply Hn. apply in_or_app. simpl; auto.
        * intros [-> _]. auto.
      + exact S1.
      + rewrite app_length in E2. cbn [length] in E2. rewrite Nat.add_1_r in E2. exists ts'. split; auto. split; [lia|]. split; [|split].
        * intros m Hm Hmn Hmc. rewrite F2, F1; auto; intros [Q1 Q2]; apply Hmc; simpl; auto.
        * rewrite Ea. exact S2.
        * intros V HV e He. rewrite Ea. rewrite <- G2; [|intros x k Hx; apply HV; simpl; auto|auto].
          rewrite map_app, bsum_app. apply bsum_ext. intros a1 Ha1. cbn [map bsum].
          transitivity (bsum (map h ch2) (fun a2 => rsum (h c) (fun k => get (nthc ts n) (a1 ++ k :: a2 ++ e) * V c k) * (lprod (combine ch1 a1) (V1 V) * lprod (combine ch2 a2) (V0 V)))).
          { rewrite <- bsum_rsum_exchange. apply bsum_ext. intros a2 Ha2. rewrite <- rsum_scal_r. apply rsum_ext. intros k Hk. cbn [combine lprod app]. unfold V0 at 1. cbn [fst snd]. ring. }
          transitivity (bsum (map h ch2) (fun a2 => rsum (h1 c) (fun k => get (nthc ts1 n) (a1 ++ k :: a2 ++ e) * V1 V (c, k)) * (lprod (combine ch1 a1) (V1 V) * lprod (combine ch2 a2) (V0 V)))).
          { apply bsum_ext. intros a2 Ha2. f_equal. apply G1; auto; [intros x k [<-|[]] Q; apply HV; simpl; auto|apply valid_app; auto]. }
          symmetry. rewrite <- bsum_rsum_exchange. apply bsum_ext. intros a2 Ha2. rewrite <- rsum_scal_r. apply rsum_ext. intros k Hk.
          rewrite <- app_assoc. cbn [app]. rewrite combine_app2 by (rewrite (valid_length _ _ Ha1), map_length; auto). rewrite lprod_app. cbn [combine lprod]. ring.
  Qed.

  (** the contraction of the removed children followed by the removal of their axes *)
  Lemma sq_node_ok ch ts : NoDup ch -> ~ In n ch -> (1 <= n <= length ts)%nat -> (forall c, In c ch -> (1 <= c <= length ts)%nat) ->
    (forall c, In c ch -> active X c = true -> inb c ind = true -> sq_row c (nthc ts c)) ->
    shape (nthc ts n) = map h ch ++ ext ->
    let axes := filter (fun k => inb (nth k ch 0%nat) ind) (seq 0 (length ch)) in
    let rest := filter (fun c => negb (inb c ind)) ch in
    exists ts1 ts2, ofold (sq_child X n ind) (combine (seq 0 (length ch)) ch) ts = Some ts1 /\
      match axes with [] => Some ts1 | _ => bind (ft_squeeze (nthc ts1 n) (Some axes)) (fun A => Some (setc n A ts1)) end = Some ts2 /\
      length ts2 = length ts /\ (forall m, (1 <= m)%nat -> m <> n -> ~ (In m ch /\ inb m ind = true) -> nthc ts2 m = nthc ts m) /\
      shape (nthc ts2 n) = map h rest ++ ext /\
      forall V, sq_agree ch V -> forall e, valid ext e ->
        bsum (map h ch) (fun a => get (nthc ts n) (a ++ e) * lprod (combine ch a) (fun p => V (fst p) (snd p)))
        = bsum (map h rest) (fun a => get (nthc ts2 n) (a ++ e) * lprod (combine rest a) (fun p => V (fst p) (snd p))).
  Proof.
    intros ND Nn Hb Hc HM Hs axes rest. destruct (sq_loop ch [] ts) as (ts1 & E1 & L1 & F1 & S1 & G1); auto. cbn [app length] in *.
    exists ts1. pose (L := filter (fun c => inb c ind) ch).
    assert (NL : NoDup L) by (apply NoDup_filter; auto). assert (IL : incl L ch) by (intros x Hx; apply filter_In in Hx; apply Hx).
    assert (Ea : axes = map (fun c => index_of c ch) L).
    { unfold axes, L. rewrite (seq_pos ch ND). assert (G : forall l, incl l ch -> filter (fun k => inb (nth k ch 0%nat) ind) (map (fun c => index_of c ch) l) = map (fun c => index_of c ch) (filter (fun c => inb c ind) l)).
      { induction l as [|c l IH]; intros Hl; auto. cbn [map filter]. rewrite IH by (intros x Hx; apply Hl; simpl; auto). destruct (index_of_nth ch c) as [_ Q]; [apply Hl; simpl; auto|]. rewrite Q. destruct (inb c ind); auto. }
      apply G. apply incl_refl. }
    assert (Er : filter (fun c => negb (inb c L)) ch = rest).
    { apply filter_ext_in. intros c Hci. f_equal. destruct (inb c ind) eqn:Q; [apply inb_spec, filter_In; auto|apply inb_false; intros K; apply filter_In in K; destruct K; congruence]. }
    assert (S1' : shape (nthc ts1 n) = map h1 ch ++ ext) by exact S1.
    assert (N1 : ndim (nthc ts1 n) = (length ch + length ext)%nat) by (unfold ndim; rewrite S1', app_length, map_length; auto).
    assert (Hr1 : map h1 rest = map h rest).
    { apply map_ext_in. intros c Hcr. apply filter_In in Hcr. destruct Hcr as [_ Q]. apply negb_true_iff in Q. unfold h1. rewrite Q. auto. }
    assert (Sq : exists ts2, match axes with [] => Some ts1 | _ => bind (ft_squeeze (nthc ts1 n) (Some axes)) (fun A => Some (setc n A ts1)) end = Some ts2 /\
      length ts2 = length ts /\ (forall m, (1 <= m)%nat -> m <> n -> nthc ts2 m = nthc ts1 m) /\ shape (nthc ts2 n) = map h rest ++ ext /\
      forall a e, length a = length rest -> length e = length ext -> get (nthc ts2 n) (a ++ e) = get (nthc ts1 n) (asm (length ch) axes (repeat 0%nat (length axes)) a ++ e)).
    { assert (Ecc : compl (ndim (nthc ts1 n)) axes = map (fun c => index_of c ch) rest ++ seq (length ch) (length ext)).
      { rewrite Ea, <- Er. apply (compl_posC ch h1 (nthc ts1 n) ext ND S1' L IL). }
      assert (Sel : sel 0%nat (shape (nthc ts1 n)) (compl (ndim (nthc ts1 n)) axes) = map h rest ++ ext).
      { rewrite Ecc, S1'. unfold sel. rewrite map_app. fold (sel 0%nat (map h1 ch ++ ext) (map (fun c => index_of c ch) rest)). fold (sel 0%nat (map h1 ch ++ ext) (seq (length ch) (length ext))).
        f_equal; [rewrite <- Hr1; apply sel_pos; intros x Hx; apply filter_In in Hx; apply Hx|]. rewrite <- (map_length h1 ch). apply sel_tail. }
      assert (Asm : forall a e, length a = length rest -> length e = length ext -> asm (ndim (nthc ts1 n)) axes (repeat 0%nat (length axes)) (a ++ e) = asm (length ch) axes (repeat 0%nat (length axes)) a ++ e).
      { intros a e La Le. rewrite N1, <- Le. symmetry. apply (asm_extend ch h1 (nthc ts1 n) ext S1'); [rewrite Ea; apply pos_inj; auto|rewrite Ea; apply pos_lt; auto|]. rewrite Ea, (compl_pos ch ND L IL), map_length, Er. auto. }
      destruct axes as [|x0 xs] eqn:Eax.
      - exists ts1. split; auto. split; auto. split; auto. rewrite compl_nil in Sel. split; [rewrite <- Sel; unfold ndim; rewrite sel_seq; auto|].
        intros a e La Le. rewrite <- Asm by auto. rewrite asm_nil; auto. rewrite app_length, La, Le, N1. f_equal. destruct L as [|l0 l]; [|discriminate]. rewrite <- Er. rewrite filter_true; auto.
      - rewrite <- Eax in *. replace (match axes with [] => Some ts1 | _ => bind (ft_squeeze (nthc ts1 n) (Some axes)) (fun A => Some (setc n A ts1)) end) with (bind (ft_squeeze (nthc ts1 n) (Some axes)) (fun A => Some (setc n A ts1))) by (rewrite Eax; auto).
        unfold ft_squeeze, np_squeeze. replace (forallb _ axes && nodupb axes) with true.
        + cbn [bind]. eexists. split; [reflexivity|]. split; [rewrite setc_length; auto|]. split; [|split].
          * intros m Hm Hmn. rewrite nthc_setc by (auto; lia). destruct (Nat.eqb_spec m n); [contradiction|auto].
          * rewrite nthc_setc by (auto; lia). rewrite Nat.eqb_refl. cbn [shape]. auto.
          * intros a e La Le. rewrite nthc_setc by (auto; lia). rewrite Nat.eqb_refl. cbn [get]. rewrite Asm by auto. auto.
        + symmetry. apply andb_true_intro. split.
          * apply forallb_forall. intros k Hk. rewrite Ea in Hk. apply in_map_iff in Hk. destruct Hk as (c & <- & Hcl). destruct (index_of_nth ch c (IL c Hcl)) as [Q1 Q2]. rewrite S1', N1.
            apply andb_true_intro. split; [apply Nat.ltb_lt; lia|]. rewrite app_nth1 by (rewrite map_length; auto). rewrite map_nth_in with (da := 0%nat) by auto. rewrite Q2. apply Nat.eqb_eq. unfold h1. apply filter_In in Hcl. destruct Hcl as [_ Q]. rewrite Q. auto.
          * apply nodupb_spec. rewrite Ea. apply pos_inj; auto. }
    destruct Sq as (ts2 & E2 & L2 & F2 & S2 & G2). exists ts2. split; auto. split; auto. split; auto. split; [intros m Hm Hmn Hmc; rewrite F2, F1; auto|]. split; auto.
    intros V HV e He. specialize (G1 V HV e He). cbn [bsum map combine lprod app] in G1.
    transitivity (bsum (map h1 ch) (fun a => get (nthc ts1 n) (a ++ e) * lprod (combine ch a) (V1 V))).
    { rewrite <- G1. apply bsum_ext. intros a Ha. unfold V0. cbn. ring. }
    rewrite (bsum_asm (map h1 ch) axes) by (rewrite Ea, ?map_length; auto using pos_inj, pos_lt).
    assert (Es : sel 0%nat (map h1 ch) axes = repeat 1%nat (length axes)).
    { rewrite Ea, map_length. pose proof (sel_pos ch h1 [] L IL) as Q. rewrite app_nil_r in Q. rewrite Q. clear -L. unfold L. induction ch as [|c l IH]; cbn [filter]; auto. destruct (inb c ind) eqn:E; auto. cbn [map length repeat]. f_equal; auto. unfold h1. rewrite E. auto. }
    rewrite Es, map_length. rewrite (bsum_single _ (repeat 0%nat (length axes))).
    - assert (Ec : sel 0%nat (map h1 ch) (compl (length ch) axes) = map h rest).
      { rewrite Ea, (compl_pos ch ND L IL), Er, <- Hr1. pose proof (sel_pos ch h1 [] rest) as Q. rewrite app_nil_r in Q. apply Q. intros x Hx; apply filter_In in Hx; apply Hx. }
      rewrite Ec. apply bsum_ext. intros a Ha. pose proof (valid_length _ _ Ha) as La. rewrite map_length in La. rewrite G2 by (auto; apply valid_length; auto). f_equal.
      pose (W := fun c k => V1 V (c, k)). transitivity (lprod (combine ch (asm (length ch) axes (repeat 0%nat (length axes)) a)) (fun p => W (fst p) (snd p))).
      { apply lprod_ext. intros [c k] _. reflexivity. }
      rewrite Ea, map_length. rewrite (lprod_split ch h1 (nthc ts1 n) ext ND S1' W L (repeat 0%nat (length L)) a NL IL); [|apply repeat_length|rewrite Er; auto].
      rewrite Er. rewrite (lprod_one (combine L _)).
      + match goal with |- _ = ?b => transitivity (r1 * b); [|ring] end. f_equal. apply lprod_ext. intros [c k] Hp. unfold W, V1. cbn [fst snd]. apply in_combine_l in Hp. apply filter_In in Hp. destruct Hp as [_ Q]. apply negb_true_iff in Q. rewrite Q. auto.
      + intros [c k] Hp. unfold W, V1. cbn [fst snd]. apply in_combine_l in Hp. apply filter_In in Hp. destruct Hp as [_ Q]. rewrite Q. auto.
    - clear. induction (length axes); cbn; constructor; auto.
    - intros js Hj Hne. exfalso. apply Hne. clear - Hj. revert js Hj. induction (length axes) as [|m IH]; intros js Hj; inversion Hj; subst; auto. cbn [repeat]. f_equal; [lia|auto].
  Qed.
End SqNode.
