(** Kronecker products of matrices and interleaved indices. *)
From Coq Require Import List Arith Lia Bool Reals Permutation.
From Verif.Base Require Import ListAux CRing Index RealAux LinAlg.
From Verif.Model Require Import Sorting Numpy FullTensor Diagonal Canonical DimensionTree TreeBased Truncator HSVD Functions Measures Learning DensityL2 MagicIndices AltMin TensorPCA.
From Verif.Proofs Require Import NumpyP FullTensorP FullTensorP3.
Import ListNotations.
Local Open Scope R_scope.

(** the list i0, j0, i1, j1, ... *)
Fixpoint inter (is js : list nat) : list nat := match is, js with i :: is', j :: js' => i :: j :: inter is' js' | _, _ => [] end.
Definition kval (Bs : list mx) (is js : list nat) : R := lprod (combine Bs (combine is js)) (fun p => ment (fst p) (fst (snd p)) (snd (snd p))).
Definition rowsof (Bs : list mx) := map mrows Bs.
Definition colsof (Bs : list mx) := map mcols Bs.

Lemma inter_length : forall is js, length is = length js -> length (inter is js) = (2 * length is)%nat.
Proof. induction is as [|i is IH]; intros [|j js] H; cbn in *; try lia. rewrite IH by lia. lia. Qed.
Lemma inter_nth : forall is js k, length is = length js -> (k < length is)%nat ->
  nth (2 * k) (inter is js) 0%nat = nth k is 0%nat /\ nth (2 * k + 1) (inter is js) 0%nat = nth k js 0%nat.
Proof.
  induction is as [|i is IH]; intros [|j js] k H Hk; cbn [length] in *; try lia. destruct k as [|k].
  - cbn. auto.
  - replace (2 * S k)%nat with (S (S (2 * k))) by lia. cbn [inter nth Nat.add]. apply IH; lia.
Qed.
Lemma evens_eq m : filter Nat.even (seq 0 (2 * m)) = map (fun k => 2 * k)%nat (seq 0 m).
Proof.
  induction m as [|m IH]; [reflexivity|]. replace (2 * S m)%nat with (2 * m + 2)%nat by lia. rewrite seq_app, filter_app, IH.
  replace (S m) with (m + 1)%nat by lia. rewrite seq_app, map_app. f_equal. cbn [seq filter map Nat.add]. rewrite Nat.even_succ, Nat.odd_mul, Nat.even_mul. cbn. reflexivity.
Qed.
Lemma odds_eq m : compl (2 * m) (filter Nat.even (seq 0 (2 * m))) = map (fun k => 2 * k + 1)%nat (seq 0 m).
Proof.
  unfold compl. transitivity (filter (fun k => negb (Nat.even k)) (seq 0 (2 * m))).
  { apply filter_ext_in. intros k Hk. f_equal. destruct (Nat.even k) eqn:E.
    - apply inb_spec, filter_In. auto.
    - apply inb_false. intros H. apply filter_In in H. destruct H. congruence. }
  induction m as [|m IH]; [reflexivity|]. replace (2 * S m)%nat with (2 * m + 2)%nat by lia. rewrite seq_app, filter_app, IH.
  replace (S m) with (m + 1)%nat by lia. rewrite seq_app, map_app. f_equal. cbn [seq filter map Nat.add]. rewrite Nat.even_succ, Nat.odd_mul, Nat.even_mul. cbn. f_equal. lia.
Qed.
Lemma sel_evens is js : length is = length js -> sel 0%nat (inter is js) (filter Nat.even (seq 0 (2 * length is))) = is.
Proof.
  intros H. rewrite evens_eq. unfold sel. rewrite map_map. apply (nth_ext' 0%nat); [rewrite map_length, seq_length; auto|]. intros k Hk. rewrite map_length, seq_length in Hk.
  rewrite nth_map_seq by auto. apply inter_nth; auto.
Qed.
Lemma sel_odds is js : length is = length js -> sel 0%nat (inter is js) (compl (2 * length is) (filter Nat.even (seq 0 (2 * length is)))) = js.
Proof.
  intros H. rewrite odds_eq. unfold sel. rewrite map_map. apply (nth_ext' 0%nat); [rewrite map_length, seq_length; auto|]. intros k Hk. rewrite map_length, seq_length in Hk.
  rewrite nth_map_seq by auto. apply inter_nth; auto.
Qed.
Lemma valid_inter : forall ns ms is js, valid ns is -> valid ms js -> length ns = length ms -> valid (inter ns ms) (inter is js).
Proof.
  induction ns as [|n ns IH]; intros [|m ms] is js H1 H2 HL; cbn in HL; try lia; inversion H1; inversion H2; subst; cbn [inter]; [apply NumpyP.valid_intro; [reflexivity|cbn; lia]|].
  unfold valid. repeat (constructor; auto). apply IH; auto.
Qed.
Lemma inter_app : forall a a' b b', length a = length a' -> inter (a ++ b) (a' ++ b') = inter a a' ++ inter b b'.
Proof. induction a as [|x a IH]; intros [|y a'] b b' H; cbn in *; try lia; [reflexivity|]. rewrite IH by lia. reflexivity. Qed.

Lemma compl_nil n : compl n [] = seq 0 n.
Proof. unfold compl. cbn. apply filter_true. auto. Qed.
Lemma sel_all (l : list nat) : sel 0%nat l (seq 0 (length l)) = l.
Proof. apply sel_seq. Qed.

Lemma combine_app_l {A B} : forall (a : list A) (a' : list B) b b', length a = length a' -> combine (a ++ b) (a' ++ b') = combine a a' ++ combine b b'.
Proof. induction a as [|x a IH]; intros [|y a'] b b' H; cbn in *; try lia; [reflexivity|]. rewrite IH by lia. reflexivity. Qed.
(** the outer products *)
Lemma outer_spec (A B : nd R) : exists C, ft_tensordot A B [] [] = Some C /\ shape C = shape A ++ shape B /\
  forall is js, valid (shape A) is -> valid (shape B) js -> get C (is ++ js) = get A is * get B js.
Proof.
  destruct (ft_tensordot_spec A B [] []) as (C & HC & HS & HG); [constructor|constructor|constructor|constructor|reflexivity|].
  exists C. split; [auto|]. rewrite !compl_nil in *. unfold ndim in *. rewrite !sel_all in *. split; [auto|]. intros is js Vi Vj. rewrite HG by auto. cbn [sel map bsum].
  assert (AS : forall (D : nd R) ks, valid (shape D) ks -> asm (length (shape D)) [] [] ks = ks).
  { intros D ks V. apply valid_length in V. assert (E := asm_sel (length (shape D)) [] ks V (NoDup_nil _) (Forall_nil _)). cbn in E.
    fold (compl (length (shape D)) []) in E. rewrite compl_nil, <- V, sel_all in E. rewrite <- V. exact E. }
  rewrite !AS by auto. reflexivity.
Qed.
Lemma fold_outer : forall (Bs : list mx) (B : nd R) (done : list mx), done <> [] -> shape B = inter (rowsof done) (colsof done) ->
  (forall is js, valid (rowsof done) is -> valid (colsof done) js -> get B (inter is js) = kval done is js) ->
  exists C, ofold (fun B C => ft_tensordot B C [] []) (map nd_of Bs) B = Some C /\ shape C = inter (rowsof (done ++ Bs)) (colsof (done ++ Bs)) /\
    forall is js, valid (rowsof (done ++ Bs)) is -> valid (colsof (done ++ Bs)) js -> get C (inter is js) = kval (done ++ Bs) is js.
Proof.
  induction Bs as [|M Bs IH]; intros B done HD HS HG.
  - cbn. exists B. rewrite app_nil_r. auto.
  - cbn [map ofold]. destruct (outer_spec B (nd_of M)) as (C & HC & HsC & HgC). rewrite HC.
    replace (done ++ M :: Bs) with ((done ++ [M]) ++ Bs) by (rewrite <- app_assoc; reflexivity).
    apply IH; [destruct done; discriminate| |].
    + rewrite HsC, HS. unfold rowsof, colsof. rewrite !map_app, inter_app by (rewrite !map_length; auto). reflexivity.
    + intros is js Vi Vj. unfold rowsof in Vi. unfold colsof in Vj. rewrite map_app in Vi, Vj.
      destruct (valid_app_inv _ _ _ Vi) as (i1 & i2 & -> & V1 & V2). destruct (valid_app_inv _ _ _ Vj) as (j1 & j2 & -> & V3 & V4).
      assert (L1 := valid_length _ _ V1). assert (L3 := valid_length _ _ V3). rewrite map_length in L1, L3.
      cbn [map] in V2, V4. inversion V2 as [|? ? ? ? Q1 Q2]; subst. inversion Q2; subst. inversion V4 as [|? ? ? ? Q3 Q4]; subst. inversion Q4; subst.
      rewrite inter_app by lia. rewrite HgC.
      * rewrite HG by auto. unfold kval. rewrite (combine_app_l i1) by lia. rewrite combine_app_l by (rewrite combine_length; lia). rewrite lprod_app. cbn. ring.
      * rewrite HS. apply valid_inter; auto. unfold rowsof, colsof. rewrite !map_length. auto.
      * cbn [inter nd_of shape]. repeat constructor; auto.
Qed.
Lemma kron_spec (Bs : list mx) : Bs <> [] -> exists B, tensor_product_bases Bs = Some B /\ mrows B = prodn (rowsof Bs) /\ mcols B = prodn (colsof Bs) /\
  forall is js, valid (rowsof Bs) is -> valid (colsof Bs) js -> ment B (sub2indF (rowsof Bs) is) (sub2indF (colsof Bs) js) = kval Bs is js.
Proof.
  intros HN. destruct Bs as [|B0 Bs]; [congruence|]. unfold tensor_product_bases. cbn [map].
  destruct (fold_outer Bs (nd_of B0) [B0]) as (C & HC & HS & HG).
  { discriminate. } { reflexivity. }
  { intros is js Vi Vj. cbn in Vi, Vj. inversion Vi as [|? ? ? ? Q1 Q2]; subst. inversion Q2; subst. inversion Vj as [|? ? ? ? Q3 Q4]; subst. inversion Q4; subst. cbn. ring. }
  rewrite HC. cbn [bind]. cbn [app] in HS, HG. set (Bl := B0 :: Bs) in *.
  assert (LL : length (rowsof Bl) = length (colsof Bl)) by (unfold rowsof, colsof; rewrite !map_length; auto).
  assert (ND : ndim C = (2 * length (rowsof Bl))%nat) by (unfold ndim; rewrite HS; apply inter_length; auto).
  rewrite ft_matricize_default. set (ev := filter Nat.even (seq 0 (ndim C))).
  destruct (ft_matricize_spec C ev (compl (ndim C) ev)) as (M & HM & HsM & HgM).
  { apply app_compl_perm; [apply NoDup_filter, seq_NoDup|]. apply Forall_forall. intros k Hk. apply filter_In in Hk. destruct Hk as [Hk _]. apply in_seq in Hk. lia. }
  rewrite HM. cbn [bind]. exists (to_mx M). split; [reflexivity|]. unfold to_mx. cbn [mrows mcols ment]. rewrite HsM. cbn [nth].
  assert (E1 : sel 0%nat (shape C) ev = rowsof Bl) by (rewrite HS; unfold ev; rewrite ND; apply sel_evens; auto).
  assert (E2 : sel 0%nat (shape C) (compl (ndim C) ev) = colsof Bl) by (rewrite HS; unfold ev; rewrite ND; apply sel_odds; auto).
  rewrite E1, E2 in *. split; [auto|]. split; [auto|]. intros is js Vi Vj.
  assert (VI : valid (shape C) (inter is js)) by (rewrite HS; apply valid_inter; auto). specialize (HgM _ VI).
  assert (Li := valid_length _ _ Vi). assert (Lj := valid_length _ _ Vj).
  assert (E3 : sel 0%nat (inter is js) ev = is) by (unfold ev; rewrite ND, <- Li; apply sel_evens; lia).
  assert (E4 : sel 0%nat (inter is js) (compl (ndim C) ev) = js) by (unfold ev; rewrite ND, <- Li; apply sel_odds; lia).
  rewrite E3, E4 in HgM. rewrite HgM. apply HG; auto.
Qed.
