(** Alternating minimisation: sweeps and iterations. *)
From Coq Require Import List Arith Lia Bool Reals Lra Sorted.
From Verif.Base Require Import ListAux CRing Index RealAux LinAlg.
From Verif.Model Require Import Sorting Numpy FullTensor Diagonal Canonical DimensionTree TreeBased TreeEval Truncator HSVD HsvdTree OrthNode TreeGrad FuncGrad Learning AltMin.
From Verif.Spec Require Import TensorSpec TreeSpec TreeTensorSpec TruncatorSpec LearningSpec FunctionalSpec OrthNodeSpec GradSpec FuncGradSpec AltMinSpec.
From Verif.Proofs Require Import NumpyP FullTensorP DimTreeP TreeTensorP TreeTensorP3 TreeTensorP4 TreeTensorP7 AltMinP4 LapackP PolyP5.
Import ListNotations.
Local Open Scope R_scope.

Lemma flat_sorted {A} (f : nat -> list A) (lv : A -> nat) k : (forall l a, In a (f l) -> lv a = l) -> forall a, StronglySorted (fun x y => (lv x <= lv y)%nat) (flat_map f (seq a k)).
Proof.
  intros H. induction k as [|k IH]; intros a; cbn [seq flat_map]; [constructor|].
  assert (G : forall l, (forall x, In x l -> lv x = a) -> StronglySorted (fun x y => (lv x <= lv y)%nat) (l ++ flat_map f (seq (S a) k))).
  { induction l as [|x l IHl]; intros Hl; cbn [app]; auto. constructor; [apply IHl; intros z Hz; apply Hl; right; auto|]. apply Forall_forall. intros z Hz. rewrite (Hl x (or_introl eq_refl)).
    apply in_app_iff in Hz. destruct Hz as [Hz|Hz]; [rewrite (Hl z); [lia|right; auto]|]. apply in_flat_map in Hz. destruct Hz as (l' & Hl' & Hz). apply in_seq in Hl'. rewrite (H _ _ Hz). lia. }
  apply G. intros x Hx. apply H; auto.
Qed.
Lemma sorted_nth {A} (Rl : A -> A -> Prop) l d : StronglySorted Rl l -> forall i j, (i < j)%nat -> (j < length l)%nat -> Rl (nth i l d) (nth j l d).
Proof.
  induction 1 as [|x l H IH HF]; intros i j Hij Hj; [cbn in Hj; lia|]. destruct j as [|j]; [lia|]. cbn in Hj. destruct i as [|i]; cbn [nth]; [|apply IH; lia].
  apply (proj1 (Forall_forall _ _) HF). apply nth_In. lia.
Qed.
Lemma NoDup_flat {A} (f : nat -> list A) (lv : A -> nat) k : (forall l a, In a (f l) -> lv a = l) -> (forall l, NoDup (f l)) -> forall a, NoDup (flat_map f (seq a k)).
Proof.
  intros H ND. induction k as [|k IH]; intros a; cbn [seq flat_map]; [constructor|]. apply NoDup_app; auto. intros x Hx Hz.
  apply in_flat_map in Hz. destruct Hz as (l' & Hl' & Hz). apply in_seq in Hl'. pose proof (H _ _ Hx). pose proof (H _ _ Hz). lia.
Qed.
Lemma last_cons {A} (l : list A) a d : last (a :: l) d = last l a.
Proof. revert a d. induction l as [|b l IH]; intros a d; auto. transitivity (last (b :: l) d); auto. rewrite IH. rewrite IH. auto. Qed.
Lemma last_nth_am {A} (l : list A) d : l <> [] -> last l d = nth (length l - 1) l d.
Proof. induction l as [|a l IH]; intros H; [congruence|]. destruct l as [|b l]; auto. change (last (a :: b :: l) d) with (last (b :: l) d). rewrite IH by discriminate. cbn [length]. replace (S (S (length l)) - 1)%nat with (S (length l)) by lia. cbn [nth]. replace (S (length l) - 1)%nat with (length l) by lia. auto. Qed.
Lemma strategy_spec (X : tbt R) r : tb_ok X r -> NoDup (am_strategy X) /\ (forall n, In n (am_strategy X) <-> node (ttree X) n /\ active X n = true) /\
  (forall i j a b, (i < j)%nat -> (j < length (am_strategy X))%nat -> depth (ttree X) r (nth i (am_strategy X) 0%nat) a -> depth (ttree X) r (nth j (am_strategy X) 0%nat) b -> (a <= b)%nat).
Proof.
  intros O. pose proof (proj1 (proj1 O)) as T. set (f := fun l => filter (fun n => inb n (active_nodes X)) (nodes_with_level (ttree X) l)).
  assert (HL : forall l a, In a (f l) -> level (ttree X) a = l). { intros l a Ha. unfold f, nodes_with_level in Ha. apply filter_In in Ha. destruct Ha as [Ha _]. apply filter_In in Ha. apply Nat.eqb_eq. tauto. }
  split; [|split].
  - apply (NoDup_flat f (level (ttree X))); auto. intros l. unfold f, nodes_with_level. apply NoDup_filter, NoDup_filter, NoDup_nodes.
  - intros n. unfold am_strategy. rewrite in_flat_map. unfold active_nodes, nodes_with_level. split.
    + intros (l & _ & Hn). apply filter_In in Hn. destruct Hn as [_ Hn]. apply inb_spec in Hn. apply filter_In in Hn. rewrite in_nodes in Hn. auto.
    + intros [Hn Ha]. exists (level (ttree X) n). split; [apply in_seq; pose proof (level_le_max _ r T n Hn); lia|]. apply filter_In. split; [apply filter_In; split; [apply in_nodes; auto|apply Nat.eqb_refl]|].
      apply inb_spec. apply filter_In. split; auto. apply in_nodes; auto.
  - intros i j a b Hij Hj Da Db. pose proof (sorted_nth _ _ 0%nat (flat_sorted f (level (ttree X)) (S (max_level (ttree X))) HL 0) i j Hij Hj) as Q. cbv beta in Q. change (flat_map f (seq 0 (S (max_level (ttree X))))) with (am_strategy X) in Q.
    assert (Hr : node (ttree X) r) by apply T. pose proof (level_below _ r T r _ a Hr Da) as E1. pose proof (level_below _ r T r _ b Hr Db) as E2. lia.
Qed.

Section Run.
  Variable svd : nd R -> nd R * list R * nd R.
  Variable qr : nd R -> nd R * nd R.
  Variable mrank : nd R -> nat.
  Variable pinv : nd R -> nd R.
  Variable inv : nd R -> option (nd R).
  Hypothesis SVD : svd_contract svd.
  Hypothesis QR : qr_contract qr.
  Hypothesis RK : rank_contract mrank.
  Hypothesis PI : pinv_contract pinv.
  Hypothesis IV : inv_contract inv.
  Hypothesis IC : inv_complete inv.
  Variable L : lapack.
  Variable s : solver.
  Hypothesis LK : lapack_ok L.
  Hypothesis LZ : lstsq_zero L.
  Variables (r q : nat) (Bs : list (nd R)) (y : nd R).
  Hypothesis Hq : (0 < q)%nat.
  (** the hypotheses on the tensor, kept by the updates *)
  Definition inv_ok (X : tbt R) (fl : bool) : Prop := tb_ok X r /\ (2 <= tb_order X)%nat /\ few_inactive X /\ siblings (ttree X) /\
    bases_ok X Bs q /\ outputs_ok X r y q /\ exts X r <> [1%nat] /\ flag_right X r fl.
  Lemma inv_keep X Y fl fl' : inv_ok X fl -> same_format X Y r -> flag_right Y r fl' -> inv_ok Y fl'.
  Proof.
    intros (O & H2 & AA & SB & BO & OO & NE & HF) (O' & T & S & E & A' & _) HF'. split; auto. split; [unfold tb_order in *; rewrite T; auto|]. split; [intros p c c'; rewrite T; intros E1 E2; rewrite !A' by (apply E1 || apply E2); apply (AA p c c' E1 E2)|]. split; [rewrite T; auto|].
    split; [unfold bases_ok, tb_order in *; rewrite T, S; auto|]. split; [unfold outputs_ok; rewrite E; auto|]. split; [rewrite E; auto|auto].
  Qed.
  Lemma format_refl (X : tbt R) : tb_ok X r -> same_format X X r.
  Proof. intros O. unfold same_format. repeat (split; auto). Qed.
  Local Notation step := (am_step svd qr mrank pinv inv L s Bs y).
  Local Notation sweep := (am_sweep svd qr mrank pinv inv L s Bs y).
  Local Notation risk X := (risk X r Bs y q).
  Lemma step_all X fl mu : inv_ok X fl -> node (ttree X) mu -> active X mu = true ->
    exists b Y fl', step (X, fl) mu = Some (b, (Y, fl')) /\ same_format X Y r /\ inv_ok Y fl' /\ risk Y <= risk X /\
      (b = false -> core_min Y r Bs y q mu) /\ (b = true -> same_function X Y r /\ zero_min Y r Bs y q mu).
  Proof.
    intros HI Hmu Amu. pose proof HI as (O & H2 & AA & SB & BO & OO & NE & HF).
    destruct (step_spec svd qr mrank pinv inv SVD QR RK PI IV IC L s LK LZ r q Bs y Hq X fl mu O H2 AA SB BO OO NE HF Hmu Amu) as (b & Y & fl' & E & SF & HF' & RL & B1 & B2).
    exists b, Y, fl'. split; auto. split; auto. split; [apply (inv_keep X Y fl); auto|]. split; auto. split; auto. intros Eb. destruct (B2 Eb) as [SV ZM]. split.
    - split; [apply SV|]. intros Bs' i e He. apply value_same; auto.
    - intros Y' D. unfold risk0. rewrite (proj1 (proj2 (proj2 (proj2 SV)))). apply ZM; auto.
  Qed.
  (** the tensors after each update of a sweep *)
  Lemma sweep_all l : forall X fl, inv_ok X fl -> (forall n, In n l -> node (ttree X) n /\ active X n = true) ->
    exists Y fl' hs, sweep (X, fl) l = Some (Y, fl') /\ inv_ok Y fl' /\ Y = last hs X /\ (length hs <= length l)%nat /\
      Forall (fun h => same_format X h r) hs /\
      (forall j, (j < length hs)%nat -> risk (nth j hs X) <= risk (nth j (X :: hs) X)) /\
      (forall j, (j < length hs)%nat -> core_min (nth j hs X) r Bs y q (nth j l 0%nat) \/
         S j = length hs /\ same_function (nth j (X :: hs) X) (nth j hs X) r /\ zero_min (nth j hs X) r Bs y q (nth j l 0%nat)) /\
      ((length hs < length l)%nat -> exists j, S j = length hs /\ zero_min (nth j hs X) r Bs y q (nth j l 0%nat)).
  Proof.
    induction l as [|mu l IH]; intros X fl HI Hl.
    - exists X, fl, []. cbn [am_sweep length]. split; auto. split; auto. split; auto. split; auto. split; auto. split; [intros; lia|]. split; [intros; lia|]. intros; lia.
    - destruct (step_all X fl mu HI (proj1 (Hl mu (or_introl eq_refl))) (proj2 (Hl mu (or_introl eq_refl)))) as (b & Y & fl' & E & SF & HI' & RL & B1 & B2). cbn [am_sweep]. rewrite E. cbn [bind fst snd]. destruct b.
      + destruct (B2 eq_refl) as [SFn ZM]. exists Y, fl', [Y]. split; auto. split; auto. split; auto. split; [cbn; lia|]. split; [apply Forall_cons; [exact SF|apply Forall_nil]|].
        split; [intros [|j] Hj; [cbn; auto|cbn in Hj; lia]|]. split; [intros [|j] Hj; [right; cbn; auto|cbn in Hj; lia]|]. intros _. exists 0%nat. split; auto.
      + destruct (IH Y fl' HI') as (Z & fl2 & hs & E' & HI2 & LZ' & LE & FF & RR & MM & SS); [intros n Hn; rewrite (proj1 (proj2 SF)); destruct (Hl n (or_intror Hn)) as [Q1 Q2]; split; auto; rewrite (proj1 (proj2 (proj2 (proj2 (proj2 SF))))); auto|].
        exists Z, fl2, (Y :: hs). split; auto. split; auto. split; [rewrite LZ'; symmetry; apply last_cons|]. split; [cbn; lia|].
        assert (ND : forall j, (j < length hs)%nat -> nth j hs X = nth j hs Y) by (intros j Hj; apply nth_indep; auto).
        split; [|split; [|split]].
        * constructor; auto. eapply Forall_impl; [|exact FF]. intros h Hh. apply (same_format_trans X Y h r SF Hh).
        * intros [|j] Hj; [cbn; auto|]. cbn [nth length] in *. rewrite ND by lia. specialize (RR j ltac:(lia)). destruct j as [|j]; cbn [nth] in *; auto. rewrite ND by lia. auto.
        * intros [|j] Hj; [left; cbn; auto|]. cbn [nth length] in *. rewrite ND by lia. specialize (MM j ltac:(lia)). destruct MM as [MM|(A1 & A2 & A3)]; auto. right. split; [lia|]. split; auto.
          destruct j as [|j]; cbn [nth] in *; auto. rewrite ND by lia. auto.
        * intros Hlt. destruct SS as (j & Ej & ZM); [cbn in Hlt; lia|]. exists (S j). cbn [length nth]. split; [lia|]. rewrite ND by lia. auto.
  Qed.
  (** the iterations *)
  Variable stop : nat -> tbt R -> tbt R -> bool.
  Local Notation iterates := (am_iterates svd qr mrank pinv inv L s Bs y stop).
  Lemma sweep_risk l X fl : inv_ok X fl -> (forall n, In n l -> node (ttree X) n /\ active X n = true) -> exists Y fl', sweep (X, fl) l = Some (Y, fl') /\ inv_ok Y fl' /\ same_format X Y r /\ risk Y <= risk X.
  Proof.
    intros HI Hl. destruct (sweep_all l X fl HI Hl) as (Y & fl' & hs & E & HI' & EY & _ & FF & RR & _). exists Y, fl'. split; auto. split; auto. rewrite EY. clear E HI' EY. split.
    - destruct hs as [|h hs]; [apply format_refl; apply HI|]. apply (proj1 (Forall_forall _ _) FF). rewrite (last_nth_am (h :: hs) X) by discriminate. apply nth_In. cbn. lia.
    - assert (G : forall j, (j <= length hs)%nat -> risk (nth j (X :: hs) X) <= risk X).
      { induction j as [|j IHj]; intros Hj; [apply Rle_refl|]. cbn [nth]. eapply Rle_trans; [apply RR; lia|apply IHj; lia]. }
      destruct hs as [|h hs]; [apply Rle_refl|]. rewrite (last_nth_am (h :: hs) X) by discriminate. replace (length (h :: hs) - 1)%nat with (length hs) by (cbn; lia). exact (G (S (length hs)) (le_n _)).
  Qed.
  Lemma iterates_all l k : forall it X fl, inv_ok X fl -> (forall n, In n l -> node (ttree X) n /\ active X n = true) ->
    exists its, iterates l k it (X, fl) = Some its /\ (length its <= k)%nat /\ (its = [] -> k = 0%nat) /\
      (forall j, (j < length its)%nat -> same_format X (nth j (map fst its) X) r /\ risk (nth j (map fst its) X) <= risk (nth j (X :: map fst its) X)) /\
      (forall j, (j < length its)%nat -> (S j < length its)%nat -> stop (it + j) (nth j (map fst its) X) (nth j (X :: map fst its) X) = false) /\
      (forall j, S j = length its -> (S j < k)%nat -> stop (it + j) (nth j (map fst its) X) (nth j (X :: map fst its) X) = true).
  Proof.
    induction k as [|k IH]; intros it X fl HI Hl; cbn [am_iterates].
    - exists []. split; auto. split; auto. split; auto. cbn. split; [|split]; intros; lia.
    - destruct (sweep_risk l X fl HI Hl) as (Y & fl' & E & HI' & SF & RL). rewrite E. cbn [bind fst]. destruct (stop it Y X) eqn:ES.
      + exists [(Y, fl')]. split; auto. split; [cbn; lia|]. split; [discriminate|]. cbn [map fst length]. split; [|split].
        * intros [|j] Hj; [|lia]. cbn [nth]. auto.
        * intros; lia.
        * intros [|j] Hj _; [|lia]. cbn [nth]. rewrite Nat.add_0_r. auto.
      + destruct (IH (S it) Y fl' HI') as (its & E' & LE & NN & H1 & H2 & H3); [intros n Hn; rewrite (proj1 (proj2 SF)); destruct (Hl n Hn) as [Q1 Q2]; split; auto; rewrite (proj1 (proj2 (proj2 (proj2 (proj2 SF))))); auto|]. rewrite E'. cbn [bind]. exists ((Y, fl') :: its). split; auto. split; [cbn; lia|]. split; [discriminate|].
        cbn [map fst length]. set (Ts := map fst its) in *. assert (LT : length Ts = length its) by apply map_length.
        assert (ND : forall j, (j < length its)%nat -> nth j Ts X = nth j Ts Y) by (intros j Hj; apply nth_indep; lia).
        assert (EQ : forall j, (j < length its)%nat -> nth j (Y :: Ts) X = nth j (Y :: Ts) Y) by (intros j Hj; apply nth_indep; cbn; lia).
        split; [|split].
        * intros [|j] Hj; [cbn [nth]; auto|]. change (nth (S j) (X :: Y :: Ts) X) with (nth j (Y :: Ts) X). change (nth (S j) (Y :: Ts) X) with (nth j Ts X). rewrite ND, EQ by lia.
          destruct (H1 j ltac:(lia)) as (A1 & A2). split; auto. apply (same_format_trans X Y _ r SF A1).
        * intros [|j] Hj Hj'; [cbn [nth]; rewrite Nat.add_0_r; auto|]. change (nth (S j) (X :: Y :: Ts) X) with (nth j (Y :: Ts) X). change (nth (S j) (Y :: Ts) X) with (nth j Ts X). rewrite ND, EQ by lia.
          replace (it + S j)%nat with (S it + j)%nat by lia. apply H2; lia.
        * intros [|j] Hj Hj'; [assert (k = 0)%nat by (apply NN; destruct its; auto; cbn in Hj; lia); lia|]. change (nth (S j) (X :: Y :: Ts) X) with (nth j (Y :: Ts) X). change (nth (S j) (Y :: Ts) X) with (nth j Ts X). rewrite ND, EQ by lia.
          replace (it + S j)%nat with (S it + j)%nat by lia. apply H3; lia.
  Qed.
  Local Notation solve := (am_solve svd qr mrank pinv inv L s Bs y stop).
  Lemma solve_all max_iterations X fl : inv_ok X fl ->
    exists f its, solve max_iterations (X, fl) = Some (f, its) /\ f = last its X /\ (length its <= max_iterations)%nat /\ (its = [] -> max_iterations = 0%nat) /\
      (forall j, (j < length its)%nat -> same_format X (nth j its X) r /\ risk (nth j its X) <= risk (nth j (X :: its) X)) /\
      (forall j, (S j < length its)%nat -> stop j (nth j its X) (nth j (X :: its) X) = false) /\
      (forall j, S j = length its -> (S j < max_iterations)%nat -> stop j (nth j its X) (nth j (X :: its) X) = true).
  Proof.
    intros HI. destruct (strategy_spec X r (proj1 HI)) as (_ & HS & _). destruct (iterates_all (am_strategy X) max_iterations 0 X fl HI) as (its & E & LE & NN & H1 & H2 & H3); [intros n Hn; apply HS; auto|].
    unfold am_solve. cbn [fst]. rewrite E. cbn [bind]. exists (fst (last its (X, fl))), (map fst its). split; auto. split.
    - clear. induction its as [|a its IH]; auto. destruct its as [|b its]; auto.
    - rewrite map_length. split; auto. split; [intros Hm; apply NN; destruct its; auto; discriminate|]. split; auto. split; auto. intros j Hj. unfold amstate in *. apply (H2 j); lia.
  Qed.
End Run.
(** LAPACK can meet its contracts and return zero for the zero matrix *)
Lemma lapack_zero_exists : exists L, lapack_ok L /\ lstsq_zero L.
Proof.
  destruct lapack_exists as (L & H1 & H2 & H3 & H4 & H5).
  set (zm := fun M : mx => forallb (fun i => forallb (fun j => if Req_EM_T (ment M i j) 0 then true else false) (seq 0 (Learning.mcols M))) (seq 0 (Learning.mrows M))).
  assert (HZ : forall M, zm M = true <-> forall i j, (i < Learning.mrows M)%nat -> (j < Learning.mcols M)%nat -> ment M i j = 0).
  { intros M. unfold zm. rewrite forallb_forall. split.
    - intros H i j Hi Hj. specialize (H i ltac:(apply in_seq; lia)). rewrite forallb_forall in H. specialize (H j ltac:(apply in_seq; lia)). destruct (Req_EM_T (ment M i j) 0); congruence.
    - intros H i Hi. apply forallb_forall. intros j Hj. apply in_seq in Hi. apply in_seq in Hj. destruct (Req_EM_T (ment M i j) 0) as [|N]; auto. exfalso. apply N. apply H; lia. }
  exists (Lapack (l_qr L) (l_solve L) (fun M b => if zm M then fun _ => 0 else l_lstsq L M b) (l_inv L) (l_pinv L) (l_cond L)). split.
  - split; [|split; [|split; [|split]]]; cbn [l_qr l_solve l_lstsq l_inv l_pinv]; auto. intros M b. destruct (zm M) eqn:E; auto. rewrite HZ in E. intros x'. apply Req_le. apply rsum_ext_R. intros i Hi. unfold mv.
    f_equal. f_equal. apply rsum_ext_R. intros j Hj. rcbn. rewrite (E i j Hi Hj). ring.
  - intros M b H j Hj. cbn [l_lstsq]. apply HZ in H. rewrite H. auto.
Qed.
