(** Dimension trees: constructors, permutations, ascendants, descendants. *)
From Coq Require Import List Arith Lia Bool Permutation.
From Verif.Base Require Import ListAux CRing Index.
From Verif.Model Require Import Sorting Numpy DimensionTree.
From Verif.Spec Require Import TreeSpec.
From Verif.Proofs Require Import NumpyP DimTreeP.
Import ListNotations.

Lemma rooted_by_parent t par : 1 <= nbn t ->
  (forall p c, node t p -> node t c -> (adj t p c = true <-> c <> 1 /\ p = par c)) ->
  (forall c, node t c -> c <> 1 -> 1 <= par c < c) -> rooted_tree t 1.
Proof.
  intros H1 Ha Hp. split; [unfold node; lia|]. split; [|split].
  - intros p (Hn & Hc & He). apply Ha in He; auto. lia.
  - intros c Hc Hne. pose proof (Hp c Hc Hne) as Hlt.
    assert (Hpn : node t (par c)) by (unfold node in *; lia).
    exists (par c). split.
    + split; auto. split; auto. apply Ha; auto.
    + intros q (Hq & _ & He). apply Ha in He; tauto.
  - intros c. induction c as [c IH] using lt_wf_ind. intros Hc.
    destruct (Nat.eq_dec c 1) as [->|Hne]; [apply below_refl|].
    pose proof (Hp c Hc Hne) as Hlt.
    assert (Hpn : node t (par c)) by (unfold node in *; lia).
    destruct (IH (par c)) as [k Hk]; auto; [lia|]. exists (S k). apply depth_child with (p := par c); auto.
    split; auto. split; auto. apply Ha; auto.
Qed.
Lemma scatter_spec sigma l : is_perm (length l) sigma -> scatter sigma l = sel 0 l (inv_perm sigma).
Proof.
  intros Hp. pose proof (is_perm_length _ _ Hp) as L.
  assert (G : forall ks vs a, NoDup ks -> length ks = length vs -> Forall (fun k => k < length a) ks ->
     length (fold_left (fun a p => upd (fst p) (snd p) a) (combine ks vs) a) = length a /\
     (forall j, j < length ks -> nth (nth j ks 0) (fold_left (fun a p => upd (fst p) (snd p) a) (combine ks vs) a) 0 = nth j vs 0) /\
     (forall x, ~ In x ks -> nth x (fold_left (fun a p => upd (fst p) (snd p) a) (combine ks vs) a) 0 = nth x a 0)).
  { induction ks as [|k ks IH]; intros [|v vs] a Hnd Hl Hf; simpl in *; try discriminate.
    - split; auto. split; [lia|auto].
    - inversion Hnd; subst. inversion Hf; subst.
      destruct (IH vs (upd k v a)) as (I1 & I2 & I3); auto.
      { rewrite upd_length; auto. }
      rewrite upd_length in I1. split; auto. split.
      + intros [|j] Hj; [|apply I2; lia]. rewrite I3 by auto. apply nth_upd_eq; auto.
      + intros x Hx. rewrite I3 by tauto. apply nth_upd_neq. intros ->. apply Hx; auto. }
  destruct (G sigma l l) as (G1 & G2 & G3); auto.
  { eapply is_perm_NoDup; eauto. }
  { apply Forall_forall. intros x Hx. apply (is_perm_in _ _ _ Hp); auto. }
  fold (scatter sigma l) in *. apply nth_ext' with (d := 0).
  - rewrite sel_length, inv_perm_length. congruence.
  - intros n Hn. rewrite G1 in Hn. rewrite sel_nth by (rewrite inv_perm_length; lia).
    destruct (inv_perm_nth _ _ n Hp Hn) as [I1 I2]. rewrite <- G2 by lia. rewrite I2. auto.
Qed.
Lemma scatter_perm sigma l : is_perm (length l) sigma -> Permutation (scatter sigma l) l.
Proof. intros H. rewrite scatter_spec by auto. apply sel_perm with (n := length l); auto. apply inv_perm_is_perm; auto. Qed.

Lemma dim_tree_d2i t t' r : nbn t' = nbn t -> (forall i j, adj t' i j = adj t i j) -> Permutation (d2i t') (d2i t) ->
  dim_tree t r -> dim_tree t' r.
Proof.
  intros Hn Ha Hp (Ht & Hd & Hl).
  assert (HN : forall n, node t' n <-> node t n) by (intros n; unfold node; rewrite Hn; tauto).
  assert (HE : forall p c, edge t' p c <-> edge t p c) by (intros p c; unfold edge; rewrite !HN, Ha; tauto).
  assert (HD : forall a n k, depth t' a n k <-> depth t a n k).
  { intros a n k; split; induction 1 as [|p c k Hdp IH He]; try constructor; apply depth_child with (p := p); auto; apply HE; auto. }
  split; [|split].
  - destruct Ht as (R1 & R2 & R3 & R4). split; [apply HN; auto|]. split; [intros p; rewrite HE; auto|]. split.
    + intros c Hc Hne. destruct (R3 c) as (p & Hpe & Hpu); [apply HN; auto|auto|]. exists p. split; [apply HE; auto|].
      intros q Hq. apply Hpu, HE; auto.
    + intros c Hc. destruct (R4 c) as [k Hk]; [apply HN; auto|]. exists k. apply HD; auto.
  - eapply Permutation_NoDup; [apply Permutation_sym; eauto|auto].
  - intros n. split.
    + intros Hi. apply (Permutation_in _ Hp) in Hi. apply Hl in Hi. destruct Hi as [Hi1 Hi2].
      split; [apply HN; auto|]. intros c Hc. apply (Hi2 c), HE; auto.
    + intros [H1 H2]. apply (Permutation_in _ (Permutation_sym Hp)). apply Hl. split; [apply HN; auto|].
      intros c Hc. apply (H2 c), HE; auto.
Qed.

(** trivial *)
Lemma dt_trivial_ok d : 1 <= d -> dim_tree (dt_trivial d) 1.
Proof.
  intros Hd. assert (HA : forall p c, node (dt_trivial d) p -> node (dt_trivial d) c -> (adj (dt_trivial d) p c = true <-> c <> 1 /\ p = 1)).
  { intros p c Hp Hc. unfold node in *; cbn [nbn adj dt_trivial] in *. rewrite andb_true_iff, Nat.eqb_eq, Nat.leb_le. lia. }
  split; [|split].
  - apply rooted_by_parent with (par := fun _ => 1); auto.
    + simpl; lia.
    + intros c Hc Hne. unfold node in Hc. lia.
  - apply seq_NoDup.
  - intros n. cbn [d2i dt_trivial]. rewrite in_seq. split.
    + intros Hn. split; [unfold node; simpl; lia|]. intros c (H1 & H2 & H3). apply HA in H3; auto. lia.
    + intros [Hn He]. unfold node in Hn; simpl in Hn. destruct (Nat.eq_dec n 1) as [->|]; [|lia].
      exfalso. apply (He 2). assert (node (dt_trivial d) 2) by (unfold node; simpl; lia).
      split; [unfold node; simpl; lia|]. split; auto.
Qed.

(** linear *)
Definition lin_par (c : nat) : nat := if c <=? 3 then 1 else if Nat.even c then c - 2 else c - 3.
Lemma even_cases c : exists k, (c = 2 * k /\ Nat.even c = true) \/ (c = 2 * k + 1 /\ Nat.even c = false).
Proof.
  exists (c / 2). pose proof (Nat.div_mod c 2). pose proof (Nat.mod_upper_bound c 2).
  destruct (Nat.Even_or_Odd c) as [[m ->]|[m ->]].
  - left. replace (2 * m / 2) with m by (rewrite Nat.mul_comm, Nat.div_mul; lia). split; auto. rewrite Nat.even_mul; auto.
  - right. replace ((2 * m + 1) / 2) with m.
    + split; auto. rewrite Nat.even_add, Nat.even_mul; auto.
    + apply Nat.div_unique with (r := 1); lia.
Qed.
Lemma lin_adj d order p c : node (dt_linear d order) p -> node (dt_linear d order) c -> 2 <= d ->
  (adj (dt_linear d order) p c = true <-> c <> 1 /\ p = lin_par c).
Proof.
  intros Hp Hc Hd. unfold node in *. cbn [nbn adj dt_linear] in *.
  rewrite orb_true_iff, andb_true_iff, orb_true_iff, !Nat.eqb_eq, existsb_exists. unfold lin_par. split.
  - intros [[-> [->| ->]]|(l & Hl & Hx)]; try (split; [lia|reflexivity]).
    apply in_seq in Hl. rewrite andb_true_iff, orb_true_iff, !Nat.eqb_eq in Hx. destruct Hx as [-> Hx].
    split; [lia|]. destruct (Nat.leb_spec c 3); [lia|].
    destruct (even_cases c) as (k & [[Hk ->]|[Hk ->]]); lia.
  - intros [Hne ->]. destruct (Nat.leb_spec c 3); [left; lia|]. right.
    destruct (even_cases c) as (k & [[Hk He]|[Hk He]]); rewrite He in *.
    + exists (k - 2). split; [apply in_seq; lia|]. rewrite andb_true_iff, orb_true_iff, !Nat.eqb_eq. lia.
    + exists (k - 2). split; [apply in_seq; lia|]. rewrite andb_true_iff, orb_true_iff, !Nat.eqb_eq. lia.
Qed.
Lemma dt_linear_id_ok d : 2 <= d ->
  dim_tree (DT (2 * d - 1) ((2 * d - 2) :: map (fun k => 2 * k + 1) (rev (seq 1 (d - 1)))) (adj (dt_linear d []))) 1.
Proof.
  intros Hd. set (t := DT _ _ _).
  assert (HA : forall p c, node t p -> node t c -> (adj t p c = true <-> c <> 1 /\ p = lin_par c)).
  { intros p c Hp Hc. apply (lin_adj d []); auto. }
  split; [|split].
  - apply rooted_by_parent with (par := lin_par); auto.
    + simpl; lia.
    + intros c Hc Hne. unfold node in Hc. cbn in Hc. unfold lin_par. destruct (Nat.leb_spec c 3); [lia|].
      destruct (Nat.even c); lia.
  - cbn [d2i t]. constructor.
    + intros Hi. apply in_map_iff in Hi. destruct Hi as (k & Hk & _). lia.
    + apply NoDup_map_inj; [intros x y _ _; lia|]. apply NoDup_rev, seq_NoDup.
  - intros n. cbn [d2i t]. simpl. rewrite in_map_iff. split.
    + intros Hn. assert (Hlf : n = 2 * d - 2 \/ exists k, n = 2 * k + 1 /\ 1 <= k <= d - 1).
      { destruct Hn as [<-|(k & <- & Hk)]; [left; lia|]. right. exists k. rewrite <- in_rev, in_seq in Hk. lia. }
      split; [unfold node; cbn; destruct Hlf as [->|(k & -> & Hk)]; lia|].
      intros c (H1 & H2 & H3). apply HA in H3; auto. unfold node in H1, H2. cbn in H1, H2. destruct H3 as [H3 H4].
      unfold lin_par in H4. destruct (Nat.leb_spec c 3).
      * destruct Hlf as [Hlf|(k & Hlf & Hk)]; lia.
      * destruct (even_cases c) as (j & [[Hj He]|[Hj He]]); rewrite He in H4; destruct Hlf as [Hlf|(k & Hlf & Hk)]; lia.
    + intros [Hn He]. unfold node in Hn. cbn in Hn.
      destruct (Nat.eq_dec n (2 * d - 2)) as [->|Hne]; [left; lia|]. right.
      destruct (even_cases n) as (j & [[Hj He']|[Hj He']]).
      * (* even: has a child n + 2 *)
        exfalso. apply (He (n + 2)). assert (node t (n + 2)) by (unfold node; cbn; lia).
        assert (node t n) by (unfold node; cbn; lia).
        split; auto. split; auto. apply HA; auto. split; [lia|]. unfold lin_par.
        destruct (Nat.leb_spec (n + 2) 3); [lia|]. rewrite Nat.even_add, He'. cbn. lia.
      * destruct (Nat.eq_dec j 0) as [->|].
        -- exfalso. apply (He 2). assert (node t 2) by (unfold node; cbn; lia). assert (node t n) by (unfold node; cbn; lia).
           split; auto. split; auto. apply HA; auto.
        -- exists j. split; [lia|]. rewrite <- in_rev, in_seq. lia.
Qed.
Lemma dt_linear_ok d order : 2 <= d -> is_perm d order -> dim_tree (dt_linear d order) 1.
Proof.
  intros Hd Hp. eapply dim_tree_d2i; [| | |apply (dt_linear_id_ok d Hd)]; auto.
  cbn [d2i dt_linear]. apply scatter_perm. simpl. rewrite map_length, rev_length, seq_length.
  replace (S (d - 1)) with d by lia. auto.
Qed.

(** balanced *)
Lemma bal_adj d order p c : node (dt_balanced d order) p -> node (dt_balanced d order) c ->
  (adj (dt_balanced d order) p c = true <-> c <> 1 /\ p = c / 2).
Proof.
  intros Hp Hc. unfold node in *. cbn [nbn adj dt_balanced] in *.
  rewrite orb_true_iff, andb_true_iff, orb_true_iff, !Nat.eqb_eq, existsb_exists. split.
  - intros [[-> [->| ->]]|(l & Hl & Hx)]; try (split; [lia|reflexivity]).
    apply in_seq in Hl. rewrite andb_true_iff, orb_true_iff, !Nat.eqb_eq in Hx. destruct Hx as [-> Hx].
    split; [lia|]. destruct Hx; [apply Nat.div_unique with (r := 0)|apply Nat.div_unique with (r := 1)]; lia.
  - intros [Hne ->]. destruct (even_cases c) as (k & [[Hk _]|[Hk _]]).
    + assert (E : c / 2 = k) by (symmetry; apply Nat.div_unique with (r := 0); lia). rewrite E.
      destruct (Nat.eq_dec k 1); [left; lia|]. right. exists (k - 1). split; [apply in_seq; lia|].
      rewrite andb_true_iff, orb_true_iff, !Nat.eqb_eq. lia.
    + assert (E : c / 2 = k) by (symmetry; apply Nat.div_unique with (r := 1); lia). rewrite E.
      destruct (Nat.eq_dec k 1); [left; lia|]. right. exists (k - 1). split; [apply in_seq; lia|].
      rewrite andb_true_iff, orb_true_iff, !Nat.eqb_eq. lia.
Qed.
Lemma dt_balanced_id_ok d : 1 <= d -> dim_tree (DT (2 * d - 1) (seq d d) (adj (dt_balanced d []))) 1.
Proof.
  intros Hd. set (t := DT _ _ _).
  assert (HA : forall p c, node t p -> node t c -> (adj t p c = true <-> c <> 1 /\ p = c / 2)).
  { intros p c Hp Hc. apply (bal_adj d []); auto. }
  assert (Hdiv : forall c, 2 * (c / 2) <= c <= 2 * (c / 2) + 1).
  { intros c. pose proof (Nat.div_mod c 2). pose proof (Nat.mod_upper_bound c 2). lia. }
  split; [|split].
  - apply rooted_by_parent with (par := fun c => c / 2); auto.
    + simpl; lia.
    + intros c Hc Hne. unfold node in Hc. specialize (Hdiv c). lia.
  - apply seq_NoDup.
  - intros n. cbn [d2i t]. rewrite in_seq. split.
    + intros Hn. split; [unfold node; cbn; lia|].
      intros c (H1 & H2 & H3). apply HA in H3; auto. unfold node in H1, H2. cbn in H1, H2. specialize (Hdiv c). lia.
    + intros [Hn He]. unfold node in Hn. cbn in Hn. destruct (le_lt_dec d n); [lia|]. exfalso. apply (He (2 * n)).
      assert (node t (2 * n)) by (unfold node; cbn; lia). assert (node t n) by (unfold node; cbn; lia).
      split; auto. split; auto. apply HA; auto. split; [lia|]. apply Nat.div_unique with (r := 0); lia.
Qed.
Lemma dt_balanced_ok d order : 1 <= d -> is_perm d order -> dim_tree (dt_balanced d order) 1.
Proof.
  intros Hd Hp. eapply dim_tree_d2i; [| | |apply (dt_balanced_id_ok d Hd)]; auto.
  cbn [d2i dt_balanced]. apply scatter_perm. rewrite seq_length. auto.
Qed.

(** permutations of the dimensions *)
Lemma dt_permute_ok t r sigma : dim_tree t r -> is_perm (length (d2i t)) sigma ->
  dim_tree (dt_permute t sigma) r /\
  forall mu, mu < length (d2i t) -> nth (nth mu sigma 0) (d2i (dt_permute t sigma)) 0 = nth mu (d2i t) 0.
Proof.
  intros V Hp. split.
  - eapply dim_tree_d2i; [| | |exact V]; auto. apply scatter_perm; auto.
  - intros mu Hm. cbn [d2i dt_permute]. rewrite scatter_spec by auto.
    rewrite sel_nth by (rewrite inv_perm_length, (is_perm_length _ _ Hp); apply (is_perm_nth _ _ _ Hp); auto).
    rewrite (inv_perm_nth' _ _ _ Hp) by auto. auto.
Qed.
Lemma dt_ipermute_ok t r sigma : dim_tree t r -> is_perm (length (d2i t)) sigma ->
  dim_tree (dt_ipermute t sigma) r /\
  forall mu, mu < length (d2i t) -> nth mu (d2i (dt_ipermute t sigma)) 0 = nth (nth mu sigma 0) (d2i t) 0.
Proof.
  intros V Hp. split.
  - eapply dim_tree_d2i; [| | |exact V]; auto. cbn [d2i dt_ipermute]. apply sel_perm with (n := length (d2i t)); auto.
  - intros mu Hm. cbn [d2i dt_ipermute]. apply sel_nth. rewrite (is_perm_length _ _ Hp). auto.
Qed.
Lemma dt_permute_ipermute t sigma : is_perm (length (d2i t)) sigma ->
  d2i (dt_ipermute (dt_permute t sigma) sigma) = d2i t /\ d2i (dt_permute (dt_ipermute t sigma) sigma) = d2i t.
Proof.
  intros Hp. pose proof (is_perm_length _ _ Hp) as L. cbn [d2i dt_permute dt_ipermute]. split.
  - rewrite scatter_spec by auto. eapply sel_inv_perm'; eauto.
  - rewrite scatter_spec by (rewrite sel_length, L; auto). eapply sel_inv_perm; eauto.
Qed.

Section Asc.
  Variables (t : dtree) (r : nat).
  Hypothesis T : rooted_tree t r.

  (** ascendants: the nodes strictly above n, from the parent to the root *)
  Lemma asc_loop_spec fuel n : node t n -> level t n <= fuel ->
    let a := asc_loop t fuel (parent t n) in
    length a = level t n /\ (forall m, In m a <-> node t m /\ m <> n /\ below t m n) /\
    (forall k, k < length a -> edge t (nth k a 0) (nth k (n :: a) 0)).
  Proof.
    revert n; induction fuel as [|f IH]; intros n Hn Hf; simpl.
    - assert (E : level t n = 0) by lia. split; auto.
      assert (n = r) by (eapply level_zero; eauto). subst n. split; [|intros k; lia].
      intros m. split; [intros []|]. intros (Hm & Hne & k & Hk). exfalso.
      pose proof (level_below t r T m r k Hm Hk). destruct k; [apply depth_inv0 in Hk; congruence|lia].
    - destruct (Nat.eqb_spec (parent t n) 0) as [E|E].
      + apply (parent_zero t r T) in E; auto. subst n. rewrite (level_root t r T). split; auto. split; [|simpl; lia].
        intros m. split; [intros []|]. intros (Hm & Hne & k & Hk). exfalso.
        pose proof (level_below t r T m r k Hm Hk). rewrite (level_root t r T) in H. destruct k; [apply depth_inv0 in Hk; congruence|lia].
      + assert (He : edge t (parent t n) n).
        { apply (parent_is_edge t r T); auto. intros ->. apply E, (parent_root t r T). }
        pose proof (level_edge t r T _ _ He) as Hl.
        destruct (IH (parent t n)) as (I1 & I2 & I3); [apply He|lia|].
        split; [simpl; lia|]. split.
        * intros m. simpl. rewrite I2. split.
          -- intros [<-|(Hm & Hne & Hb)].
             ++ split; [apply He|]. split.
                ** intros Eq. rewrite Eq in Hl. lia.
                ** apply below_step. right. exists n; split; auto. apply below_refl.
             ++ split; auto. split.
                ** intros ->. destruct Hb as [k Hk]. pose proof (level_below t r T n _ k Hn Hk). lia.
                ** eapply below_trans; eauto. apply below_step. right. exists n; split; auto. apply below_refl.
          -- intros (Hm & Hne & k & Hk). destruct k as [|k]; [apply depth_inv0 in Hk; congruence|].
             apply depth_invS in Hk. destruct Hk as (p & Hd & Hpe).
             rewrite (rt_uniq t r T _ _ _ He Hpe). destruct (Nat.eq_dec p m) as [->|Hnm]; auto.
             right. split; auto. split; auto. exists k; auto.
        * intros [|k] Hk; simpl; auto. apply (I3 k). simpl in Hk; lia.
  Qed.
  Lemma ascendants_spec n : node t n ->
    length (ascendants t n) = level t n /\
    (forall m, In m (ascendants t n) <-> node t m /\ m <> n /\ below t m n) /\
    (forall k, k < length (ascendants t n) -> edge t (nth k (ascendants t n) 0) (nth k (n :: ascendants t n) 0)).
  Proof. intros Hn. apply asc_loop_spec; auto. pose proof (level_lt t r T n Hn). lia. Qed.

  (** descendants: the nodes strictly below n *)
  Lemma desc_loop_spec fuel n : node t n -> nbn t <= fuel + level t n ->
    NoDup (desc_loop t fuel n) /\ (forall m, In m (desc_loop t fuel n) <-> m <> n /\ below t n m).
  Proof.
    revert n; induction fuel as [|f IH]; intros n Hn Hf; simpl.
    - pose proof (level_lt t r T n Hn). lia.
    - assert (IHc : forall c, edge t n c -> NoDup (c :: desc_loop t f c) /\ (forall m, In m (c :: desc_loop t f c) <-> below t c m)).
      { intros c Hc. destruct (IH c) as (I1 & I2); [apply Hc|rewrite (level_edge t r T _ _ Hc); lia|]. split.
        - constructor; auto. rewrite I2. tauto.
        - intros m. simpl. rewrite I2. split.
          + intros [<-|[_ H]]; auto. apply below_refl.
          + intros Hb. destruct (Nat.eq_dec m c); auto. }
      split.
      + apply NoDup_flat_map_disjoint.
        * apply NoDup_children.
        * intros c Hc. apply IHc. apply in_children; auto.
        * intros a b x Ha Hb Hxa Hxb. apply in_children in Ha, Hb; auto. apply IHc in Hxa, Hxb; auto.
          eapply (siblings_disjoint t r T n); eauto.
      + intros m. rewrite in_flat_map. split.
        * intros (c & Hc & Hm). apply in_children in Hc; auto. apply IHc in Hm; auto. split.
          -- intros ->. destruct Hm as [k Hk]. assert (Hnc : node t c) by apply Hc.
             pose proof (level_below t r T c n k Hnc Hk). pose proof (level_edge t r T _ _ Hc). lia.
          -- apply below_step. right; eauto.
        * intros [Hne Hb]. apply below_step in Hb. destruct Hb as [|(c & Hc & Hb)]; [congruence|].
          exists c. split; [apply in_children; auto|]. apply IHc; auto.
  Qed.
  Lemma descendants_spec n : node t n ->
    NoDup (descendants t n) /\ (forall m, In m (descendants t n) <-> m <> n /\ below t n m).
  Proof. intros Hn. apply desc_loop_spec; auto. lia. Qed.
End Asc.
