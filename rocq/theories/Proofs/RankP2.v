(** Proofs for Model/RankAdapt.v: make_ranks_admissible. *)
From Coq Require Import List Arith Lia Bool Permutation Sorted ZArith.
From Verif.Base Require Import ListAux CRing Index.
From Verif.Model Require Import Sorting Utils Numpy FullTensor DimensionTree TreeBased RankAdapt.
From Verif.Spec Require Import TensorSpec TreeSpec TreeTensorSpec RankSpec.
From Verif.Proofs Require Import NumpyP DimTreeP TreeTensorP TreeTensorP3 TreeTensorP4 FunctionsP RankP1.
Import ListNotations.

Lemma combs_sound l : forall k p, In p (combs l k) -> length p = k /\ (NoDup l -> NoDup p) /\ incl p l.
Proof.
  induction l as [|x l IH]; intros [|k] p H; cbn [combs] in H.
  - destruct H as [<- | []]. split; auto. split; [intros; constructor|intros y []].
  - destruct H.
  - destruct H as [<- | []]. split; auto. split; [intros; constructor|intros y []].
  - apply in_app_or in H. destruct H as [H | H].
    + apply in_map_iff in H. destruct H as (p' & <- & H). destruct (IH k p' H) as (A1 & A2 & A3). split; [cbn; lia|]. split.
      * intros ND. inversion ND; subst. constructor; auto.
      * intros y [<- | Hy]; [left; auto|right; auto].
    + destruct (IH (S k) p H) as (A1 & A2 & A3). split; auto. split; [intros ND; inversion ND; auto|]. intros y Hy. right. auto.
Qed.
Lemma combs_complete f l : In (filter f l) (combs l (length (filter f l))).
Proof.
  induction l as [|x l IH]; cbn [filter]; [cbn; auto|]. destruct (f x).
  - cbn [length combs]. apply in_or_app. left. apply in_map. auto.
  - destruct (length (filter f l)) as [|k] eqn:E; cbn [combs].
    + destruct (filter f l); [left; auto|discriminate].
    + apply in_or_app. right. rewrite <- E in *. auto.
Qed.
Lemma ofind_app {A} (f : A -> option bool) l1 l2 : (forall x, In x l1 -> exists b, f x = Some b) ->
  ofind f (l1 ++ l2) = match ofind f l1 with Some (Some x) => Some (Some x) | _ => ofind f l2 end.
Proof.
  induction l1 as [|x l1 IH]; intros H; auto. cbn [app ofind]. destruct (H x (or_introl eq_refl)) as [[|] E]; rewrite E; auto. apply IH. intros y Hy. apply H. right. auto.
Qed.
Lemma ofind_spec {A} (f : A -> option bool) l : (forall x, In x l -> exists b, f x = Some b) ->
  match ofind f l with Some (Some x) => In x l /\ f x = Some true | Some None => forall x, In x l -> f x = Some false | None => False end.
Proof.
  induction l as [|x l IH]; intros H; cbn [ofind]; [intros y []|]. destruct (H x (or_introl eq_refl)) as [[|] E]; rewrite E; [split; auto; left; auto|].
  assert (H' : forall y, In y l -> exists b, f y = Some b) by (intros y Hy; apply H; right; auto). specialize (IH H'). destruct (ofind f l) as [[y|]|]; auto.
  - split; [right|]; apply IH.
  - intros y [<- | Hy]; auto.
Qed.
Lemma ofind_layers {A} (f : A -> option bool) (g : nat -> list A) : forall m a, (forall i x, In x (g i) -> exists b, f x = Some b) ->
  match ofind f (flat_map g (seq a m)) with
  | Some (Some x) => exists i, a <= i < a + m /\ In x (g i) /\ f x = Some true /\ forall j y, a <= j < i -> In y (g j) -> f y = Some false
  | Some None => forall j y, a <= j < a + m -> In y (g j) -> f y = Some false
  | None => False
  end.
Proof.
  induction m as [|m IH]; intros a H; cbn [seq flat_map]; [cbn [ofind]; intros; lia|]. rewrite ofind_app by (intros x Hx; apply (H a); auto).
  pose proof (ofind_spec f (g a) (H a)) as K. destruct (ofind f (g a)) as [[x|]|]; [| |contradiction].
  - exists a. split; [lia|]. destruct K. split; auto. split; auto. intros; lia.
  - specialize (IH (S a) H). destruct (ofind f (flat_map g (seq (S a) m))) as [[x|]|]; auto.
    + destruct IH as (i & Hi & H1 & H2 & H3). exists i. split; [lia|]. split; auto. split; auto. intros j y Hj Hy. destruct (Nat.eq_dec j a) as [-> | NE]; [auto|]. apply (H3 j); auto. lia.
    + intros j y Hj Hy. destruct (Nat.eq_dec j a) as [-> | NE]; auto. apply (IH j); auto. lia.
Qed.

Section RankP2.
  Context {R : Type} {CR : CRing R}.
  Variables (X : tbt R) (r : nat) (rank : list nat) (sh : nat -> list (list nat) -> list (list nat)).
  Hypothesis O : tb_ok X r.
  Hypothesis HX : exts X r = [] \/ exts X r = [1].
  Hypothesis HS : inactive_sorted X.
  Hypothesis HSH : forall i l, Permutation (sh i l) l.
  Local Notation t := (ttree X).
  Local Notation N := (nbn (ttree X)).
  Local Notation ranks := (tb_ranks X).
  Local Notation rank1 := (mra_rank X rank).
  Local Notation delta := (map (fun p => Z.of_nat (fst p) - Z.of_nat (snd p))%Z (combine rank1 ranks)).

  Lemma nodes_len : length (nodes t) = N.
  Proof. unfold nodes. apply seq_length. Qed.
  Lemma ranks_len : length ranks = N.
  Proof. unfold tb_ranks. rewrite map_length. apply nodes_len. Qed.
  Lemma rank1_len : length rank1 = N.
  Proof. unfold mra_rank. rewrite map_length. apply nodes_len. Qed.
  Lemma nodes_nth k : k < N -> nth k (nodes t) 0 = S k.
  Proof. intros Hk. unfold nodes. rewrite seq_nth; auto. Qed.
  Lemma ranks_nth n : node t n -> rk ranks n = tb_rank X n.
  Proof. intros Hn. unfold rk, tb_ranks. assert (1 <= n <= N) by exact Hn. rewrite (map_nth_in _ _ _ 0) by (rewrite nodes_len; lia). rewrite nodes_nth by lia. f_equal. lia. Qed.
  Lemma rank1_nth n : node t n -> rk rank1 n = wanted X rank n.
  Proof.
    intros Hn. unfold rk at 1, mra_rank. assert (1 <= n <= N) by exact Hn. rewrite (map_nth_in _ _ _ 0) by (rewrite nodes_len; lia). rewrite nodes_nth by lia. replace (S (n - 1)) with n by lia.
    unfold wanted. fold (rk rank n). destruct (active X n) eqn:Ha; auto. destruct (is_leaf t n) eqn:Hl; auto. rewrite (act_leaf_size X n Hn Hl Ha). cbn [andb]. destruct (Nat.ltb_spec (nth 0 (shape (core X n)) 0) (rk rank n)); lia.
  Qed.
  Lemma delta_len : length delta = N.
  Proof. rewrite map_length, combine_length, ranks_len, rank1_len. lia. Qed.
  Lemma delta_nth k : k < N -> nth k delta 0%Z = (Z.of_nat (nth k rank1 0%nat) - Z.of_nat (nth k ranks 0%nat))%Z.
  Proof.
    intros Hk. rewrite (map_nth_in _ _ _ (0, 0)) by (rewrite combine_length, ranks_len, rank1_len; lia). rewrite combine_nth by (rewrite ranks_len, rank1_len; auto). auto.
  Qed.
  (** the rank that keeps the current rank at the positions of D *)
  Definition mix (D : nat -> bool) : list nat := map (fun k => if D k then nth k ranks 0 else nth k rank1 0) (seq 0 N).
  Definition dl (D : nat -> bool) : list Z := map (fun k => if D k then 0%Z else nth k delta 0%Z) (seq 0 (length delta)).
  Lemma mix_len D : length (mix D) = N.
  Proof. unfold mix. rewrite map_length, seq_length. auto. Qed.
  Lemma mix_nth D k : k < N -> nth k (mix D) 0 = if D k then nth k ranks 0 else nth k rank1 0.
  Proof. intros Hk. unfold mix. rewrite nth_map_seq by auto. auto. Qed.
  Lemma dl_nth D k : k < N -> nth k (dl D) 0%Z = if D k then 0%Z else nth k delta 0%Z.
  Proof. intros Hk. unfold dl. rewrite nth_map_seq by (rewrite delta_len; auto). auto. Qed.
  Lemma dl_len D : length (dl D) = N.
  Proof. unfold dl. rewrite map_length, seq_length. apply delta_len. Qed.
  Lemma add_nth e k : length e = N -> k < N -> nth k (add_delta ranks e) 0 = Z.to_nat (Z.of_nat (nth k ranks 0%nat) + nth k e 0%Z).
  Proof.
    intros Le Hk. unfold add_delta. rewrite (map_nth_in _ _ _ (0, 0%Z)) by (rewrite combine_length, ranks_len; lia). rewrite combine_nth by (rewrite ranks_len; auto). auto.
  Qed.
  Lemma add_len e : length e = N -> length (add_delta ranks e) = N.
  Proof. intros Le. unfold add_delta. rewrite map_length, combine_length, ranks_len. lia. Qed.
  Lemma add_dl D : add_delta ranks (dl D) = mix D.
  Proof.
    apply nth_ext' with (d := 0); [rewrite add_len by apply dl_len; rewrite mix_len; auto|]. intros k Hk. rewrite add_len in Hk by apply dl_len. rewrite add_nth by (auto using dl_len). rewrite dl_nth, mix_nth by auto.
    destruct (D k); [lia|]. rewrite delta_nth by auto. lia.
  Qed.
  Lemma dl_none : dl (fun _ => false) = delta.
  Proof. unfold dl. apply map_seq_nth. Qed.
  Lemma nonzero_dl D : map S (nonzero_z (dl D)) = filter (fun n => negb (rk (mix D) n =? tb_rank X n)) (nodes t).
  Proof.
    unfold nonzero_z. rewrite dl_len. unfold nodes. rewrite <- seq_shift. 
    assert (G : forall l, (forall k, In k l -> k < N) -> map S (filter (fun k => negb (nth k (dl D) 0 =? 0)%Z) l) = filter (fun n => negb (rk (mix D) n =? tb_rank X n)) (map S l)).
    { induction l as [|k l IH]; intros Hl; auto. cbn [map filter]. assert (Hk : k < N) by (apply Hl; left; auto). rewrite dl_nth by auto. unfold rk. replace (S k - 1) with k by lia. rewrite mix_nth by auto.
      assert (E : nth k ranks 0 = tb_rank X (S k)) by (rewrite <- ranks_nth; [unfold rk; f_equal; lia|unfold node; lia]). rewrite delta_nth, E by auto.
      assert (IH' := IH (fun k0 H0 => Hl k0 (or_intror H0))). unfold rk in IH'.
      destruct (D k).
      - rewrite Nat.eqb_refl. cbn [Z.eqb negb]. apply IH'.
      - destruct (Z.eqb_spec (Z.of_nat (nth k rank1 0) - Z.of_nat (tb_rank X (S k))) 0); destruct (Nat.eqb_spec (nth k rank1 0) (tb_rank X (S k))); try lia; cbn [negb map]; rewrite IH'; auto. }
    apply G. intros k Hk. apply in_seq in Hk. lia.
  Qed.
  Lemma mix_between D : between X rank (mix D).
  Proof.
    split; [apply mix_len|]. intros n Hn. assert (1 <= n <= N) by exact Hn. unfold rk. rewrite mix_nth by lia. fold (rk ranks n) (rk rank1 n). rewrite ranks_nth, rank1_nth by auto. destruct (D (n - 1)); auto.
  Qed.
  (** every rank between the two is of this form *)
  Definition off (w : list nat) (k : nat) : bool := negb (nth k w 0 =? nth k rank1 0).
  Lemma between_mix w : between X rank w -> w = mix (off w).
  Proof.
    intros [L H]. apply nth_ext' with (d := 0); [rewrite mix_len; auto|]. intros k Hk. rewrite L in Hk. rewrite mix_nth by auto. assert (Hn : node t (S k)) by (unfold node; lia).
    specialize (H (S k) Hn). rewrite <- (ranks_nth _ Hn), <- (rank1_nth _ Hn) in H. unfold rk in H. replace (S k - 1) with k in H by lia. unfold off.
    destruct (Nat.eqb_spec (nth k w 0) (nth k rank1 0)) as [E | NE]; cbn [negb]; auto. destruct H; congruence.
  Qed.
  Local Notation ind := (nonzero_z delta).
  Lemma ind_spec k : In k ind <-> k < N /\ nth k ranks 0 <> nth k rank1 0.
  Proof.
    unfold nonzero_z. rewrite filter_In, in_seq, delta_len. split.
    - intros [H1 H2]. split; [lia|]. rewrite delta_nth in H2 by lia. apply negb_true_iff, Z.eqb_neq in H2. lia.
    - intros [H1 H2]. split; [lia|]. rewrite delta_nth by lia. apply negb_true_iff, Z.eqb_neq. lia.
  Qed.
  Lemma ind_NoDup : NoDup ind.
  Proof. apply NoDup_filter, seq_NoDup. Qed.
  Lemma refused_len w : length w = N -> refused X rank w = length (filter (off w) (seq 0 N)).
  Proof.
    intros L. unfold refused, nodes. rewrite <- seq_shift.
    assert (G : forall l, (forall k, In k l -> k < N) -> length (filter (fun n => negb (rk w n =? wanted X rank n)) (map S l)) = length (filter (off w) l)).
    { induction l as [|k l IH]; intros Hl; auto. cbn [map filter]. assert (Hk : k < N) by (apply Hl; left; auto). assert (Hn : node t (S k)) by (unfold node; lia).
      assert (E : negb (rk w (S k) =? wanted X rank (S k)) = off w k). { rewrite <- (rank1_nth _ Hn). unfold rk, off. replace (S k - 1) with k by lia. auto. }
      rewrite E. destruct (off w k); cbn [length]; rewrite IH; auto; intros k0 H0; apply Hl; right; auto. }
    apply G. intros k Hk. apply in_seq in Hk. lia.
  Qed.
  Lemma off_ind w k : between X rank w -> k < N -> off w k = true -> In k ind.
  Proof.
    intros HB Hk Ho. apply ind_spec. split; auto. intros E. rewrite (between_mix w HB) in Ho. unfold off in Ho at 1. rewrite mix_nth in Ho by auto. destruct (off w k); [rewrite E, Nat.eqb_refl in Ho; discriminate|].
    rewrite Nat.eqb_refl in Ho. discriminate.
  Qed.
  (** the combination of positions that gives w *)
  Definition pos_of (w : list nat) : list nat := filter (fun p => off w (nth p ind 0)) (seq 0 (length ind)).
  Lemma pos_sel w : sel 0 ind (pos_of w) = filter (off w) ind.
  Proof.
    unfold sel, pos_of. transitivity (filter (off w) (map (fun k => nth k ind 0) (seq 0 (length ind)))); [|f_equal; apply map_seq_nth].
    generalize (seq 0 (length ind)). intros l. induction l as [|p l IH]; auto. cbn [filter map]. destruct (off w (nth p ind 0)); cbn [map]; rewrite IH; auto.
  Qed.
  Lemma off_filter w : between X rank w -> filter (off w) ind = filter (off w) (seq 0 N).
  Proof.
    intros HB. apply sorted_same.
    - assert (G : forall f l, StronglySorted lt l -> StronglySorted lt (filter f l)).
      { intros f l H. induction H as [|a l S0 IH F]; cbn [filter]; [constructor|]. destruct (f a); auto. constructor; auto. apply Forall_forall. intros x Hx. apply filter_In in Hx. rewrite Forall_forall in F. apply F, Hx. }
      apply G. unfold nonzero_z. apply sorted_filter_seq.
    - apply sorted_filter_seq.
    - intros k. rewrite !filter_In, in_seq. split; [|intros [H1 H2]; split; auto; apply (off_ind w); auto; lia]. intros [H1 H2]. apply ind_spec in H1. split; auto. lia.
  Qed.
  Lemma loc_dl pos : map (fun k => if inb k (sel 0 ind pos) then 0%Z else nth k delta 0%Z) (seq 0 (length delta)) = dl (fun k => inb k (sel 0 ind pos)).
  Proof. reflexivity. Qed.
  Lemma mix_ext D D' : (forall k, k < N -> nth k ranks 0 <> nth k rank1 0 -> D k = D' k) -> mix D = mix D'.
  Proof.
    intros H. unfold mix. apply map_ext_in. intros k Hk. apply in_seq in Hk. destruct (Nat.eq_dec (nth k ranks 0) (nth k rank1 0)) as [E | NE]; [rewrite E; destruct (D k), (D' k); auto|]. rewrite H; auto. lia.
  Qed.
  Lemma pos_mix w : between X rank w -> mix (fun k => inb k (sel 0 ind (pos_of w))) = w.
  Proof.
    intros HB. transitivity (mix (off w)); [|symmetry; apply between_mix; auto]. apply mix_ext. intros k Hk NE. rewrite pos_sel. destruct (off w k) eqn:E.
    - apply inb_spec, filter_In. split; auto. apply ind_spec. auto.
    - apply inb_false. rewrite filter_In. intros [_ K]. congruence.
  Qed.
  Lemma pos_in w : between X rank w -> In (pos_of w) (combs (seq 0 (length ind)) (refused X rank w)).
  Proof.
    intros HB. rewrite (refused_len w) by apply HB. rewrite <- (off_filter w HB), <- (pos_sel w). unfold sel. rewrite map_length. apply combs_complete.
  Qed.
  Lemma refused_le w : between X rank w -> refused X rank w <= length ind.
  Proof.
    intros HB. rewrite (refused_len w) by apply HB. rewrite <- (off_filter w HB). apply filter_length_le.
  Qed.
  Lemma refused_mix pos i : In pos (combs (seq 0 (length ind)) i) -> refused X rank (mix (fun k => inb k (sel 0 ind pos))) = i.
  Proof.
    intros Hp. destruct (combs_sound _ _ _ Hp) as (L & ND & IC). specialize (ND (seq_NoDup _ _)). rewrite refused_len by apply mix_len. rewrite <- L.
    assert (LS : length (sel 0 ind pos) = length pos) by apply map_length. rewrite <- LS.
    assert (NS : NoDup (sel 0 ind pos)).
    { unfold sel. apply NoDup_map_inj; auto. intros a b Ha Hb E. apply IC in Ha. apply IC in Hb. apply in_seq in Ha. apply in_seq in Hb. apply (proj1 (NoDup_nth ind 0) ind_NoDup) in E; auto; lia. }
    assert (IS : forall k, In k (sel 0 ind pos) -> In k ind).
    { intros k Hk. unfold sel in Hk. apply in_map_iff in Hk. destruct Hk as (p & <- & Hp'). apply nth_In. apply IC in Hp'. apply in_seq in Hp'. lia. }
    assert (EQ : forall k, In k (filter (off (mix (fun k => inb k (sel 0 ind pos)))) (seq 0 N)) <-> In k (sel 0 ind pos)).
    { intros k. rewrite filter_In, in_seq. unfold off. split.
      - intros [H1 H2]. rewrite mix_nth in H2 by lia. destruct (inb k (sel 0 ind pos)) eqn:E; [apply inb_spec; auto|]. rewrite Nat.eqb_refl in H2. discriminate.
      - intros Hk. pose proof (proj1 (ind_spec k) (IS k Hk)) as [K1 K2]. split; [lia|]. rewrite mix_nth by auto. rewrite (proj2 (inb_spec k _) Hk). apply negb_true_iff, Nat.eqb_neq. auto. }
    apply Nat.le_antisymm; apply NoDup_incl_length; auto; try (intros k; apply EQ). apply NoDup_filter, seq_NoDup.
  Qed.
  Lemma make_ranks_spec : exists v d, make_ranks X sh rank = Some (v, d) /\ length v = N /\
    ((exists w, between X rank w /\ admissible X r w) -> between X rank v /\ admissible X r v /\ d = filter (fun n => negb (rk v n =? tb_rank X n)) (nodes t) /\
       forall w, between X rank w -> admissible X r w -> refused X rank v <= refused X rank w) /\
    ((forall w, between X rank w -> ~ admissible X r w) -> v = map (wanted X rank) (nodes t) /\ d = []).
  Proof.
    unfold make_ranks.
    assert (E0 : add_delta ranks delta = mix (fun _ => false)) by (rewrite <- dl_none; apply add_dl).
    assert (E1 : map S ind = filter (fun n => negb (rk (mix (fun _ => false)) n =? tb_rank X n)) (nodes t)) by (rewrite <- dl_none at 1; apply nonzero_dl).
    rewrite E0, E1.
    destruct (admissible_spec X r O (mix (fun _ => false)) (mix_len _) HX HS) as (b & E & Hb). rewrite E. cbn [bind]. destruct b.
    - exists (mix (fun _ => false)), (filter (fun n => negb (rk (mix (fun _ => false)) n =? tb_rank X n)) (nodes t)). split; auto. split; [apply mix_len|]. pose proof (proj1 Hb eq_refl) as AD. split.
      + intros _. split; [apply mix_between|]. split; auto. split; auto. intros w _ _. rewrite refused_len by apply mix_len.
        replace (filter (off (mix (fun _ => false))) (seq 0 N)) with (@nil nat); [cbn; lia|]. symmetry. apply filter_none. intros k Hk. apply in_seq in Hk. unfold off. rewrite mix_nth by lia. rewrite Nat.eqb_refl. auto.
      + intros HN. exfalso. apply (HN _ (mix_between _) AD).
    - set (f := fun pos => tb_is_admissible X (add_delta ranks (map (fun k => if inb k (sel 0 ind pos) then 0%Z else nth k delta 0%Z) (seq 0 (length delta))))).
      assert (F1 : forall pos, exists b, f pos = Some b /\ (b = true <-> admissible X r (mix (fun k => inb k (sel 0 ind pos))))).
      { intros pos. unfold f. rewrite loc_dl, add_dl. apply admissible_spec; auto. apply mix_len. }
      assert (F2 : forall i x, In x (sh i (combs (seq 0 (length ind)) i)) -> exists b, f x = Some b) by (intros i x _; destruct (F1 x) as (b & Eb & _); exists b; auto).
      assert (NW : forall w, between X rank w -> admissible X r w -> 1 <= refused X rank w <= length ind).
      { intros w HB AD. split; [|apply refused_le; auto]. destruct (refused X rank w) as [|k] eqn:ER; [|lia]. exfalso. rewrite refused_len in ER by apply HB.
        assert (EW : w = mix (fun _ => false)).
        { rewrite (between_mix w HB). apply mix_ext. intros k Hk _. destruct (off w k) eqn:Eo; auto. exfalso. assert (In k (filter (off w) (seq 0 N))) by (apply filter_In; split; auto; apply in_seq; lia). destruct (filter (off w) (seq 0 N)); [auto|discriminate]. }
        rewrite EW in AD. apply Hb in AD. discriminate. }
      assert (FW : forall w, between X rank w -> admissible X r w -> In (pos_of w) (sh (refused X rank w) (combs (seq 0 (length ind)) (refused X rank w))) /\ f (pos_of w) = Some true).
      { intros w HB AD. split; [apply (Permutation_in _ (Permutation_sym (HSH _ _))); apply pos_in; auto|]. destruct (F1 (pos_of w)) as (b & Eb & Hb'). rewrite (pos_mix w HB) in Hb'. apply Hb' in AD. subst b. auto. }
      pose proof (ofind_layers f (fun i => sh i (combs (seq 0 (length ind)) i)) (length ind) 1 F2) as K.
      destruct (ofind f (flat_map (fun i => sh i (combs (seq 0 (length ind)) i)) (seq 1 (length ind)))) as [[pos|]|] eqn:EF; [| |contradiction]; cbn [bind].
      + destruct K as (i & Hi & Hin & Hf & Hlt). rewrite loc_dl, add_dl, nonzero_dl. eexists. eexists. split; [reflexivity|]. split; [apply mix_len|].
        assert (AD : admissible X r (mix (fun k => inb k (sel 0 ind pos)))). { destruct (F1 pos) as (b & Eb & Hb'). rewrite Hf in Eb. inversion Eb; subst b. apply Hb'. auto. }
        assert (RM : refused X rank (mix (fun k => inb k (sel 0 ind pos))) = i) by (apply refused_mix; apply (Permutation_in pos (HSH i (combs (seq 0 (length ind)) i))); auto).
        split; [|intros HN; exfalso; apply (HN _ (mix_between _) AD)]. intros _. split; [apply mix_between|]. split; auto. split; auto. intros w HB ADw. rewrite RM.
        destruct (le_lt_dec i (refused X rank w)) as [|LT]; auto. exfalso. destruct (NW w HB ADw) as [N1 N2]. destruct (FW w HB ADw) as [W1 W2]. rewrite (Hlt _ _ (conj N1 LT) W1) in W2. discriminate.
      + exists rank1, []. split; auto. split; [apply rank1_len|]. split.
        * intros (w & HB & AD). exfalso. destruct (NW w HB AD) as [N1 N2]. destruct (FW w HB AD) as [W1 W2]. assert (Q : 1 <= refused X rank w < 1 + length ind) by lia. rewrite (K _ _ Q W1) in W2. discriminate.
        * intros _. split; auto. apply nth_ext' with (d := 0); [rewrite rank1_len, map_length, nodes_len; auto|]. intros k Hk. rewrite rank1_len in Hk. rewrite (map_nth_in _ _ _ 0) by (rewrite nodes_len; auto). rewrite nodes_nth by auto.
          rewrite <- rank1_nth by (unfold node; lia). unfold rk. f_equal. lia.
  Qed.
End RankP2.
