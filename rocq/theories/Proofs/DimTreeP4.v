(** Dimension trees: add_child, change_root, sub_dimension_tree. *)
From Coq Require Import List Arith Lia Bool Permutation.
From Verif.Base Require Import ListAux CRing Index.
From Verif.Model Require Import Sorting Numpy DimensionTree.
From Verif.Spec Require Import TreeSpec.
From Verif.Proofs Require Import NumpyP DimTreeP DimTreeP2.
Import ListNotations.

Section AddChild.
  Variables (t : dtree) (r nod : nat).
  Hypothesis V : dim_tree t r.
  Hypothesis Hnod : node t nod.
  Let T : rooted_tree t r := proj1 V.
  Let t' := dt_add_child t nod.

  Lemma ac_node n : node t' n <-> node t n \/ n = nbn t + 1.
  Proof. unfold node, t'; simpl. lia. Qed.
  Lemma ac_edge p c : edge t' p c <-> edge t p c \/ (p = nod /\ c = nbn t + 1).
  Proof.
    unfold edge. rewrite !ac_node. unfold t'; cbn [adj dt_add_child]. unfold node in *.
    destruct (Nat.leb_spec p (nbn t)), (Nat.leb_spec c (nbn t)); cbn [andb];
      rewrite ?andb_true_iff, ?Nat.eqb_eq; intuition (try lia; subst; try lia).
  Qed.
  Lemma ac_rooted : rooted_tree t' r.
  Proof.
    assert (Hr : node t r) by apply T. split; [apply ac_node; auto|]. split; [|split].
    - intros p. rewrite ac_edge. intros [H|[_ H]]; [apply (rt_no_edge t r T _ H)|unfold node in Hr; lia].
    - intros c Hc Hne. apply ac_node in Hc. destruct Hc as [Hc| ->].
      + destruct (rt_has_parent t r T c Hc Hne) as (p & Hp). exists p. split; [apply ac_edge; auto|].
        intros q Hq. apply ac_edge in Hq. destruct Hq as [Hq|[_ Hq]]; [eapply rt_uniq; eauto|unfold node in Hc; lia].
      + exists nod. split; [apply ac_edge; auto|]. intros q Hq. apply ac_edge in Hq.
        destruct Hq as [(_ & Hq & _)|[Hq _]]; auto. unfold node in Hq; lia.
    - assert (G : forall c, node t c -> below t' r c).
      { apply (tree_down_ind t r T (fun c => below t' r c)).
        - apply below_refl.
        - intros p c [k Hk] He. exists (S k). apply depth_child with (p := p); auto. apply ac_edge; auto. }
      intros c Hc. apply ac_node in Hc. destruct Hc as [Hc| ->]; auto.
      destruct (G nod Hnod) as [k Hk]. exists (S k). apply depth_child with (p := nod); auto. apply ac_edge; auto.
  Qed.
  Lemma ac_ok : dim_tree t' r.
  Proof.
    split; [apply ac_rooted|]. unfold t'; cbn [d2i dt_add_child].
    assert (Hlt : forall x, In x (d2i t) -> x <= nbn t).
    { intros x Hx. assert (node t x) by (apply (leaf_node t r V); apply inb_spec; auto). unfold node in H; lia. }
    unfold node in Hnod.
    destruct (is_leaf t nod) eqn:El; split.
    - apply NoDup_map_inj; [|apply (NoDup_d2i t r V)].
      intros x y Hx Hy. pose proof (Hlt x Hx); pose proof (Hlt y Hy).
      destruct (Nat.eqb_spec x nod), (Nat.eqb_spec y nod); subst; auto; lia.
    - intros n. rewrite in_map_iff. fold t'. rewrite ac_node. split.
      + intros (x & Hx & Hi). apply inb_spec in Hi as Hl. apply (leaf_iff t r V) in Hl. destruct Hl as [Hl1 Hl2].
        destruct (Nat.eqb_spec x nod) as [E|Hne]; rewrite <- Hx.
        * split; auto. intros c. rewrite ac_edge. intros [(H & _)|[H _]]; [unfold node in H|]; lia.
        * split; auto. intros c. rewrite ac_edge. intros [H|[H _]]; [apply (Hl2 c H)|congruence].
      + intros [Hn He]. assert (Hno : n <> nod).
        { intros ->. apply (He (nbn t + 1)). apply ac_edge; auto. }
        destruct Hn as [Hn| ->].
        * exists n. destruct (Nat.eqb_spec n nod); [contradiction|]. split; auto. apply inb_spec, (leaf_iff t r V). split; auto.
          intros c Hc. apply (He c), ac_edge; auto.
        * exists nod. rewrite Nat.eqb_refl. split; auto. apply inb_spec; auto.
    - apply NoDup_app; [apply (NoDup_d2i t r V)|apply NoDup_single|]. intros x Hx [<-|[]]. apply Hlt in Hx; lia.
    - intros n. rewrite in_app_iff. fold t'. rewrite ac_node. simpl. split.
      + intros [Hi|[<-|[]]].
        * apply inb_spec in Hi as Hl. apply (leaf_iff t r V) in Hl. destruct Hl as [Hl1 Hl2]. split; auto.
          intros c. rewrite ac_edge. intros [H|[-> _]]; [apply (Hl2 c H)|]. apply inb_spec in Hi. unfold is_leaf in El. congruence.
        * split; auto. intros c. rewrite ac_edge. intros [(H & _)|[H _]]; [unfold node in H|]; lia.
      + intros [[Hn| ->] He]; auto. left. apply inb_spec, (leaf_iff t r V). split; auto. intros c Hc. apply (He c), ac_edge; auto.
  Qed.
End AddChild.

Section ChangeRoot.
  Variables (t : dtree) (r nod : nat).
  Hypothesis V : dim_tree t r.
  Hypothesis Hnod : node t nod.
  Hypothesis Hne : nod <> r.
  Let T : rooted_tree t r := proj1 V.

  (** the reversed path *)
  Lemma rev_edges_spec a A : NoDup a -> forall i j,
    reverse_edges a A i j =
      if existsb (fun p => (i =? snd p) && (j =? fst p)) (combine a (tl a)) then false
      else if existsb (fun p => (i =? fst p) && (j =? snd p)) (combine a (tl a)) then true else A i j.
  Proof.
    unfold reverse_edges. revert A. induction a as [|x a IH]; intros A Hnd i j; simpl; auto.
    destruct a as [|y a]; simpl; auto. inversion Hnd as [|? ? Hx Hnd']; subst. simpl in IH. rewrite IH by auto.
    set (l := match a with [] => [] | y0 :: tl' => (y, y0) :: combine a tl' end) in *.
    assert (Hl1 : forall p, In p l -> In (fst p) (y :: a) /\ In (snd p) (y :: a)).
    { intros [u v] Hp. change l with (combine (y :: a) a) in Hp. split; [eapply in_combine_l; eauto|]. right. eapply in_combine_r; eauto. }
    destruct (Nat.eqb_spec i y) as [->|Hiy]; destruct (Nat.eqb_spec j x) as [->|Hjx]; simpl; auto.
    - (* (y, x): no pair of l contains x *)
      assert (E1 : existsb (fun p => (y =? snd p) && (x =? fst p)) l = false).
      { apply not_true_iff_false. intros C. apply existsb_exists in C. destruct C as (p & Hp & C).
        rewrite andb_true_iff, !Nat.eqb_eq in C. destruct (Hl1 p Hp) as [C1 _]. destruct C as [_ C]. rewrite <- C in C1. contradiction. }
      assert (E2 : existsb (fun p => (y =? fst p) && (x =? snd p)) l = false).
      { apply not_true_iff_false. intros C. apply existsb_exists in C. destruct C as (p & Hp & C).
        rewrite andb_true_iff, !Nat.eqb_eq in C. destruct (Hl1 p Hp) as [_ C1]. destruct C as [_ C]. rewrite <- C in C1. contradiction. }
      rewrite E1, E2. auto.
    - destruct (existsb _ l); auto. destruct (existsb _ l); auto.
      + rewrite orb_true_r; auto.
      + rewrite orb_false_r. destruct ((y =? x) && (j =? y)); auto.
    - destruct (existsb _ l); auto. destruct (existsb _ l); auto.
      + rewrite orb_true_r; auto.
      + rewrite orb_false_r. destruct ((i =? x) && (x =? y)); auto.
    - destruct (existsb _ l); auto. destruct (existsb _ l); auto.
      + rewrite orb_true_r; auto.
      + rewrite orb_false_r. destruct ((i =? x) && (j =? y)); auto.
  Qed.

  Let a := nod :: ascendants t nod.
  Lemma path_in n : In n a <-> node t n /\ below t n nod.
  Proof.
    unfold a. simpl. destruct (ascendants_spec t r T nod Hnod) as (_ & H & _). rewrite H. split.
    - intros [<-|H']; [split; auto; apply below_refl|tauto].
    - intros [H1 H2]. destruct (Nat.eq_dec n nod); auto.
  Qed.
  Lemma path_NoDup : NoDup a.
  Proof.
    destruct (ascendants_spec t r T nod Hnod) as (Hl & _ & He).
    assert (Hlev : forall k, k < length a -> level t (nth k a 0) + k = level t nod).
    { induction k as [|k IH]; intros Hk; [unfold a; simpl; lia|].
      pose proof (He k) as Hek. unfold a in *. simpl in Hk. specialize (Hek ltac:(lia)).
      rewrite <- (IH ltac:(simpl; lia)). pose proof (level_edge t r T _ _ Hek). simpl nth at 1. lia. }
    apply (NoDup_nth a 0). intros i j Hi Hj E. pose proof (Hlev i Hi). pose proof (Hlev j Hj). rewrite E in H. lia.
  Qed.
  Lemma path_pairs i j : In (i, j) (combine a (tl a)) <-> edge t j i /\ below t i nod.
  Proof.
    destruct (ascendants_spec t r T nod Hnod) as (Hl & Hin & He). split.
    - intros Hp. apply In_nth with (d := (0, 0)) in Hp. destruct Hp as (k & Hk & E).
      rewrite combine_length in Hk. unfold a in Hk. cbn [length tl] in Hk.
      assert (E' : nth k a 0 = i /\ nth k (tl a) 0 = j).
      { assert (G : forall (l m : list nat) k, k < length l -> k < length m -> nth k (combine l m) (0, 0) = (nth k l 0, nth k m 0)).
        { clear. induction l as [|x l IH]; intros [|y m] [|k] H1 H2; simpl in *; try lia; auto. apply IH; lia. }
        rewrite G in E by (unfold a; cbn [length tl]; lia). inversion E; auto. }
      destruct E' as [<- <-]. unfold a at 1 2. cbn [tl]. split; [apply He; lia|].
      apply path_in. apply nth_In. unfold a; simpl; lia.
    - intros [Hji Hb]. assert (Hi : In i a) by (apply path_in; split; auto; apply Hji).
      apply In_nth with (d := 0) in Hi. destruct Hi as (k & Hk & E).
      assert (Hk' : k < length (ascendants t nod)).
      { destruct (Nat.eq_dec k (length (ascendants t nod))) as [->|]; [|unfold a in Hk; simpl in Hk; lia].
        exfalso. (* i would be at level 0 *)
        assert (Hlev : forall k, k < length a -> level t (nth k a 0) + k = level t nod).
        { clear E Hk. induction k as [|k IH]; intros Hk; [unfold a; simpl; lia|].
          pose proof (He k) as Hek. unfold a in *. simpl in Hk. specialize (Hek ltac:(lia)).
          rewrite <- (IH ltac:(simpl; lia)). pose proof (level_edge t r T _ _ Hek). simpl nth at 1. lia. }
        pose proof (Hlev _ Hk). rewrite E in H. pose proof (level_edge t r T _ _ Hji). lia. }
      assert (Ej : nth k (tl a) 0 = j).
      { pose proof (He k Hk') as Hek. unfold a in E. rewrite E in Hek. eapply (rt_uniq t r T); eauto. }
      rewrite <- E, <- Ej.
      assert (G : forall (l m : list nat) k, k < length l -> k < length m -> In (nth k l 0, nth k m 0) (combine l m)).
      { clear. induction l as [|x l IH]; intros [|y m] [|k] H1 H2; simpl in *; try lia; auto. right; apply IH; lia. }
      apply G; auto.
  Qed.

  Let A' := reverse_edges a (adj t).
  Lemma rev_adj i j : node t i -> node t j ->
    (A' i j = true <-> (edge t i j /\ ~ below t j nod) \/ (edge t j i /\ below t i nod)).
  Proof.
    intros Hi Hj. unfold A'. rewrite rev_edges_spec by apply path_NoDup.
    destruct (existsb (fun p => (i =? snd p) && (j =? fst p)) _) eqn:E1.
    - apply existsb_exists in E1. destruct E1 as ([x y] & Hp & E). rewrite andb_true_iff, !Nat.eqb_eq in E. simpl in E. destruct E; subst x y.
      apply path_pairs in Hp. split; [discriminate|]. intros [[_ C]|[C _]]; [tauto|].
      destruct Hp as [Hp _]. pose proof (level_edge t r T _ _ Hp). pose proof (level_edge t r T _ _ C). lia.
    - assert (N1 : ~ (edge t i j /\ below t j nod)).
      { intros C. apply path_pairs in C. apply not_true_iff_false in E1. apply E1. apply existsb_exists. exists (j, i).
        split; auto. simpl. rewrite !Nat.eqb_refl; auto. }
      destruct (existsb (fun p => (i =? fst p) && (j =? snd p)) _) eqn:E2.
      + apply existsb_exists in E2. destruct E2 as ([x y] & Hp & E). rewrite andb_true_iff, !Nat.eqb_eq in E. simpl in E. destruct E; subst x y.
        apply path_pairs in Hp. tauto.
      + assert (N2 : ~ (edge t j i /\ below t i nod)).
        { intros C. apply path_pairs in C. apply not_true_iff_false in E2. apply E2. apply existsb_exists. exists (i, j).
          split; auto. simpl. rewrite !Nat.eqb_refl; auto. }
        assert (Heq : adj t i j = true <-> edge t i j) by (unfold edge; tauto). tauto.
  Qed.

  (** the tree with the reversed path: same nodes, root nod *)
  Let t1 := DT (nbn t) (d2i t) A'.
  Lemma cr_edge i j : edge t1 i j <-> (edge t i j /\ ~ below t j nod) \/ (edge t j i /\ below t i nod).
  Proof.
    unfold edge at 1. change (node t1) with (node t). cbn [adj t1]. split.
    - intros (H1 & H2 & H3). apply rev_adj; auto.
    - intros H. assert (node t i /\ node t j) as [H1 H2] by (unfold edge in H; tauto).
      split; auto. split; auto. apply rev_adj; auto.
  Qed.
  Lemma below_dec_path n : node t n -> below t n nod \/ ~ below t n nod.
  Proof.
    intros Hn. destruct (in_dec Nat.eq_dec n a) as [H|H]; [left; apply path_in; auto|].
    right. intros C. apply H, path_in; auto.
  Qed.
  Lemma not_below_root : ~ below t nod r.
  Proof.
    intros [k Hk]. pose proof (level_below t r T nod r k Hnod Hk). rewrite (level_root t r T) in H.
    assert (level t nod = 0) by lia. apply (level_zero t r T) in H0; auto.
  Qed.
  Lemma cr_rooted : rooted_tree t1 nod.
  Proof.
    split; [exact Hnod|]. split; [|split].
    - intros p. rewrite cr_edge. intros [[_ C]|[C1 C2]].
      + apply C, below_refl.
      + destruct C2 as [k Hk]. assert (Hp : node t p) by apply C1. pose proof (level_below t r T p nod k Hp Hk).
        pose proof (level_edge t r T _ _ C1). lia.
    - intros c Hc Hcn. change (node t1 c) with (node t c) in Hc.
      destruct (below_dec_path c Hc) as [Hb|Hb].
      + (* c above nod: its new parent is its child towards nod *)
        apply below_step in Hb as Hb'. destruct Hb' as [E|(p & Hp & Hpb)]; [congruence|].
        exists p. split; [apply cr_edge; auto|]. intros q Hq. apply cr_edge in Hq. destruct Hq as [[Hq1 Hq2]|[Hq1 Hq2]]; [contradiction|].
        eapply (siblings_disjoint t r T c); eauto.
      + assert (Hcr : c <> r) by (intros ->; apply Hb, (rt_below t r T); auto).
        destruct (rt_has_parent t r T c Hc Hcr) as (p & Hp). exists p. split; [apply cr_edge; auto|].
        intros q Hq. apply cr_edge in Hq. destruct Hq as [[Hq1 Hq2]|[Hq1 Hq2]]; [eapply rt_uniq; eauto|].
        exfalso. apply Hb. apply below_step. right; eauto.
    - (* every node is reached *)
      assert (Hup : forall k c, node t c -> depth t c nod k -> below t1 nod c).
      { induction k as [|k IH]; intros c Hc Hk.
        - apply depth_inv0 in Hk. rewrite Hk. apply below_refl.
        - apply depth_uncons in Hk. destruct Hk as (b & Hb & Hk). assert (Hbn : node t b) by apply Hb.
          destruct (IH b Hbn Hk) as [j Hj]. exists (S j). apply depth_child with (p := b); auto.
          apply cr_edge. right. split; auto. exists k; auto. }
      intros c Hc. change (node t1 c) with (node t c) in Hc. revert c Hc.
      apply (tree_down_ind t r T (fun c => below t1 nod c)).
      + destruct (rt_below t r T nod Hnod) as [k Hk]. apply (Hup k); auto. apply T.
      + intros p c IH He. assert (Hc : node t c) by apply He. destruct (below_dec_path c Hc) as [[k Hk]|Hb].
        * apply (Hup k); auto.
        * destruct IH as [j Hj]. exists (S j). apply depth_child with (p := p); auto. apply cr_edge; auto.
  Qed.

  Hypothesis Harity : 2 <= length (children t r).
  Lemma root_other_child : exists c, edge t r c /\ ~ below t c nod.
  Proof.
    destruct (children t r) as [|x [|y l]] eqn:E; simpl in Harity; try lia.
    assert (Hr : node t r) by apply T.
    assert (Hx : edge t r x) by (apply in_children; auto; rewrite E; simpl; auto).
    assert (Hy : edge t r y) by (apply in_children; auto; rewrite E; simpl; auto).
    assert (Hxy : x <> y).
    { pose proof (NoDup_children t r) as Hnd. rewrite E in Hnd. inversion Hnd as [|? ? Hn]; subst. intros ->. apply Hn; simpl; auto. }
    destruct (below_dec_path x) as [Hb|Hb]; [apply Hx| |exists x; auto].
    exists y. split; auto. intros C. apply Hxy. eapply (siblings_disjoint t r T r); eauto.
  Qed.
  Lemma cr_leaf n : node t n -> n <> nod -> ((forall c, ~ edge t1 n c) <-> (forall c, ~ edge t n c)).
  Proof.
    intros Hn Hnn. split; intros H c Hc.
    - (* n has a child c in t *)
      destruct (below_dec_path n Hn) as [Hb|Hb].
      + destruct (Nat.eq_dec n r) as [->|Hnr].
        * destruct root_other_child as (d & Hd1 & Hd2). apply (H d), cr_edge; auto.
        * destruct (rt_has_parent t r T n Hn Hnr) as (p & Hp). apply (H p), cr_edge; auto.
      + apply (H c), cr_edge. left. split; auto. intros C. apply Hb. apply below_step. right; eauto.
    - apply cr_edge in Hc. destruct Hc as [[Hc _]|[Hc Hb]]; [apply (H c Hc)|].
      apply below_step in Hb. destruct Hb as [Hb|(d & Hd & _)]; [congruence|apply (H d Hd)].
  Qed.
  Lemma nod_has_child : exists c, edge t1 nod c.
  Proof. destruct (rt_has_parent t r T nod Hnod Hne) as (p & Hp). exists p. apply cr_edge. right. split; auto. apply below_refl. Qed.

  Lemma change_root_ok : dim_tree (dt_change_root t nod) nod.
  Proof.
    unfold dt_change_root. rewrite (root_eq t r T). destruct (Nat.eqb_spec nod r) as [|_]; [contradiction|].
    fold a. fold A'. destruct (is_leaf t nod) eqn:El.
    - (* the tree with the reversed path, then a new child of nod *)
      assert (Ed : fold_left (fun l d => upd d (nbn t + 1) l) (dims t nod) (d2i t)
                   = upd (index_of nod (d2i t)) (nbn t + 1) (d2i t)).
      { rewrite (dims_leaf t r V) by auto. reflexivity. }
      rewrite Ed. clear Ed. destruct (leaf_index t nod El) as [Hi1 Hi2].
      set (t2 := DT _ _ _).
      assert (HN : forall n, node t2 n <-> node t n \/ n = nbn t + 1) by (intros n; unfold node, t2; simpl; lia).
      assert (HE : forall p c, edge t2 p c <-> edge t1 p c \/ (p = nod /\ c = nbn t + 1)).
      { intros p c. unfold edge. rewrite !HN. change (node t1) with (node t). cbn [adj t1 t2]. unfold node in *.
        destruct (Nat.leb_spec p (nbn t)), (Nat.leb_spec c (nbn t)); cbn [andb];
          rewrite ?andb_true_iff, ?Nat.eqb_eq; intuition (try lia; subst; try lia). }
      assert (Hcr : rooted_tree t1 nod) by apply cr_rooted.
      split; [|split].
      + split; [apply HN; auto|]. split; [|split].
        * intros p. rewrite HE. intros [H|[_ H]]; [apply (rt_no_edge t1 nod Hcr _ H)|unfold node in Hnod; lia].
        * intros c Hc Hcn. apply HN in Hc. destruct Hc as [Hc| ->].
          -- destruct (rt_has_parent t1 nod Hcr c Hc Hcn) as (p & Hp). exists p. split; [apply HE; auto|].
             intros q Hq. apply HE in Hq. destruct Hq as [Hq|[_ Hq]]; [eapply (rt_uniq t1 nod Hcr); eauto|unfold node in Hc; lia].
          -- exists nod. split; [apply HE; auto|]. intros q Hq. apply HE in Hq.
             destruct Hq as [(_ & Hq & _)|[Hq _]]; auto. unfold node in Hq; simpl in Hq; lia.
        * assert (G : forall c, node t1 c -> below t2 nod c).
          { apply (tree_down_ind t1 nod Hcr (fun c => below t2 nod c)).
            - apply below_refl.
            - intros p c [k Hk] He. exists (S k). apply depth_child with (p := p); auto. apply HE; auto. }
          intros c Hc. apply HN in Hc. destruct Hc as [Hc| ->]; auto.
          exists 1. apply depth_child with (p := nod); [constructor|]. apply HE; auto.
      + cbn [d2i t2]. rewrite upd_split by auto.
        pose proof (NoDup_d2i t r V) as Hnd. rewrite (list_split_nth (index_of nod (d2i t)) 0 (d2i t)) in Hnd by auto.
        assert (Hlt : forall x, In x (d2i t) -> x <> nbn t + 1).
        { intros x Hx. assert (node t x) by (apply (leaf_node t r V); apply inb_spec; auto). unfold node in H; lia. }
        apply NoDup_remove in Hnd. destruct Hnd as [Hnd _].
        apply Permutation_NoDup with (l := (nbn t + 1) :: firstn (index_of nod (d2i t)) (d2i t) ++ skipn (S (index_of nod (d2i t))) (d2i t)).
        { apply Permutation_middle. }
        constructor; auto. intros Hx.
        apply (Hlt (nbn t + 1)); auto. rewrite (list_split_nth (index_of nod (d2i t)) 0 (d2i t)) by auto.
        apply in_app_iff in Hx. apply in_app_iff. simpl. tauto.
      + assert (Hin : forall n, In n (upd (index_of nod (d2i t)) (nbn t + 1) (d2i t)) <-> n = nbn t + 1 \/ (In n (d2i t) /\ n <> nod)).
        { intros n. split.
          - intros Hx. apply In_nth with (d := 0) in Hx. destruct Hx as (k & Hk & <-). rewrite upd_length in Hk.
            destruct (Nat.eq_dec k (index_of nod (d2i t))) as [->|Hkn]; [left; apply nth_upd_eq; auto|].
            right. rewrite nth_upd_neq by auto. split; [apply nth_In; auto|]. intros E. apply Hkn.
            rewrite <- E. symmetry. apply index_of_NoDup; auto. apply (NoDup_d2i t r V).
          - intros [->|[Hx Hxn]].
            + rewrite <- (nth_upd_eq (index_of nod (d2i t)) (nbn t + 1) 0 (d2i t)) at 1 by auto.
              apply nth_In. rewrite upd_length; auto.
            + apply In_nth with (d := 0) in Hx. destruct Hx as (k & Hk & <-).
              assert (Hkn : k <> index_of nod (d2i t)) by (intros ->; congruence).
              rewrite <- (nth_upd_neq (index_of nod (d2i t)) k (nbn t + 1) 0 (d2i t)) by auto.
              apply nth_In. rewrite upd_length; auto. }
        intros n. cbn [d2i t2]. rewrite Hin, HN. split.
        * intros [->|[Hx Hxn]].
          -- split; auto. intros c. rewrite HE. intros [(H & _)|[H _]]; unfold node in *; simpl in *; lia.
          -- apply inb_spec in Hx as Hl. apply (leaf_iff t r V) in Hl. destruct Hl as [Hl1 Hl2]. split; auto.
             intros c. rewrite HE. intros [H|[H _]]; [|contradiction]. revert c H. apply cr_leaf; auto.
        * intros [[Hn| ->] He]; auto. right.
          assert (Hnn : n <> nod) by (intros ->; apply (He (nbn t + 1)), HE; auto). split; auto.
          apply inb_spec, (leaf_iff t r V). split; auto. apply cr_leaf; auto. intros c Hc. apply (He c), HE; auto.
    - fold t1. split; [apply cr_rooted|]. split; [apply (NoDup_d2i t r V)|].
      intros n. change (node t1 n) with (node t n). cbn [d2i t1]. split.
      + intros Hx. apply inb_spec in Hx as Hl. assert (n <> nod) by (intros ->; unfold is_leaf in El; congruence).
        apply (leaf_iff t r V) in Hl. destruct Hl as [Hl1 Hl2]. split; auto. apply cr_leaf; auto.
      + intros [Hn He]. assert (Hnn : n <> nod) by (intros ->; destruct nod_has_child as (c & Hc); apply (He c Hc)).
        apply inb_spec, (leaf_iff t r V). split; auto. apply cr_leaf; auto.
  Qed.
  (** same undirected edges *)
  Lemma change_root_edges p c : node t p -> node t c ->
    (edge (dt_change_root t nod) p c \/ edge (dt_change_root t nod) c p <-> edge t p c \/ edge t c p).
  Proof.
    intros Hp Hc.
    assert (G : forall x y, node t x -> node t y -> (edge (dt_change_root t nod) x y <-> edge t1 x y)).
    { intros x y Hx Hy. unfold dt_change_root. rewrite (root_eq t r T). destruct (Nat.eqb_spec nod r) as [|_]; [contradiction|].
      fold a. fold A'. destruct (is_leaf t nod); [|tauto].
      unfold edge, node in *. cbn [adj t1 nbn]. destruct (Nat.leb_spec x (nbn t)), (Nat.leb_spec y (nbn t)); try lia. cbn [andb].
      intuition lia. }
    rewrite !G by auto. rewrite !cr_edge.
    destruct (below_dec_path p Hp), (below_dec_path c Hc); tauto.
  Qed.
End ChangeRoot.

Section Sub.
  Variables (t : dtree) (r a : nat).
  Hypothesis V : dim_tree t r.
  Hypothesis Ha : node t a.
  Let T : rooted_tree t r := proj1 V.
  Let nod := snd (dt_sub t a).
  Let s := fst (dt_sub t a).

  Lemma sub_nodes : NoDup nod /\ forall n, In n nod <-> below t a n.
  Proof.
    destruct (descendants_spec t r T a Ha) as [H1 H2]. unfold nod; simpl. split.
    - constructor; auto. rewrite H2. tauto.
    - intros n. simpl. rewrite H2. split; [intros [<-|[_ H]]; auto; apply below_refl|].
      intros H. destruct (Nat.eq_dec n a); auto.
  Qed.
  Let num (i : nat) := nth (i - 1) nod 0.
  Lemma sub_num i : node s i -> below t a (num i) /\ node t (num i).
  Proof.
    intros Hi. unfold node, s in Hi. simpl in Hi. assert (Hb : below t a (num i)).
    { apply sub_nodes. apply nth_In. unfold nod; simpl. lia. }
    split; auto. eapply below_node; eauto.
  Qed.
  Lemma sub_num_inj i j : node s i -> node s j -> num i = num j -> i = j.
  Proof.
    intros Hi Hj E. unfold node, s in *. simpl in *. destruct sub_nodes as [Hnd _].
    assert (i - 1 = j - 1); [|lia]. apply (NoDup_nth nod 0); auto; unfold nod; simpl; lia.
  Qed.
  Lemma sub_num_surj n : below t a n -> exists i, node s i /\ num i = n.
  Proof.
    intros Hb. apply sub_nodes in Hb. apply In_nth with (d := 0) in Hb. destruct Hb as (k & Hk & E).
    exists (S k). split; [unfold node, s; unfold nod in Hk; simpl in *; lia|]. unfold num. replace (S k - 1) with k by lia. auto.
  Qed.
  Lemma sub_edge i j : node s i -> node s j -> (edge s i j <-> edge t (num i) (num j)).
  Proof.
    intros Hi Hj. unfold edge. pose proof (proj2 (sub_num i Hi)). pose proof (proj2 (sub_num j Hj)).
    unfold s; cbn [fst adj dt_sub]. unfold num, nod. cbn [snd dt_sub]. tauto.
  Qed.
  Lemma num_1 : num 1 = a. Proof. reflexivity. Qed.
  Lemma sub_rooted : rooted_tree s 1.
  Proof.
    assert (H1 : node s 1) by (unfold node, s; simpl; lia).
    split; auto. split; [|split].
    - intros p He. assert (Hp : node s p) by apply He. apply sub_edge in He; auto. rewrite num_1 in He.
      destruct (sub_num p Hp) as [[k Hk] _]. pose proof (level_below t r T a _ k Ha Hk). pose proof (level_edge t r T _ _ He). lia.
    - intros c Hc Hne. destruct (sub_num c Hc) as [Hb Hn]. destruct Hb as [k Hk].
      destruct k as [|k].
      { apply depth_inv0 in Hk. exfalso. apply Hne. apply sub_num_inj; auto. }
      apply depth_invS in Hk. destruct Hk as (q & Hq & He).
      destruct (sub_num_surj q) as (p & Hp & Ep); [exists k; auto|]. subst q.
      exists p. split; [apply sub_edge; auto|]. intros q Hq'. assert (Hqs : node s q) by apply Hq'.
      apply sub_edge in Hq'; auto. apply sub_num_inj; auto. eapply (rt_uniq t r T); eauto.
    - intros c Hc. destruct (sub_num c Hc) as [[k Hk] _]. revert c Hc Hk. induction k as [|k IH]; intros c Hc Hk.
      + apply depth_inv0 in Hk. assert (E : c = 1) by (apply sub_num_inj; auto). rewrite E. apply below_refl.
      + apply depth_invS in Hk. destruct Hk as (q & Hq & He).
        destruct (sub_num_surj q) as (p & Hp & Ep); [exists k; auto|]. subst q.
        destruct (IH p Hp Hq) as [j Hj]. exists (S j). apply depth_child with (p := p); auto. apply sub_edge; auto.
  Qed.
  Lemma sub_leaves n : In n (sel 0 (d2i t) (dims t a)) <-> below t a n /\ is_leaf t n = true.
  Proof.
    unfold sel. rewrite in_map_iff. split.
    - intros (mu & <- & Hm). apply (in_dims t r V) in Hm; auto. split; [tauto|]. apply d2i_leaf; tauto.
    - intros [Hb Hl]. destruct (leaf_index t n Hl) as [H1 H2]. exists (index_of n (d2i t)). split; auto.
      apply (in_dims t r V); auto. rewrite H2. auto.
  Qed.
  Lemma sub_ok : dim_tree s 1.
  Proof.
    split; [apply sub_rooted|]. split.
    - unfold s; cbn [fst d2i dt_sub]. apply NoDup_map_inj; [intros; lia|]. apply NoDup_filter', seq_NoDup.
    - intros n. unfold s at 1. cbn [fst d2i dt_sub]. rewrite in_map_iff. split.
      + intros (k & <- & Hk). apply filter_In in Hk. rewrite in_seq, inb_spec in Hk. destruct Hk as [Hk Hl].
        assert (Hn : node s (S k)) by (unfold node, s; simpl in *; lia).
        split; auto. intros c Hc. assert (Hcs : node s c) by apply Hc. apply sub_edge in Hc; auto.
        apply sub_leaves in Hl. destruct Hl as [_ Hl]. apply (leaf_iff t r V) in Hl. destruct Hl as [_ Hl].
        apply (Hl (num c)). unfold num at 1 in Hc. replace (S k - 1) with k in Hc by lia. exact Hc.
      + intros [Hn He]. exists (n - 1). assert (Hn' := Hn). unfold node, s in Hn'. simpl in Hn'. split; [lia|].
        apply filter_In. rewrite in_seq, inb_spec. split; [simpl; lia|].
        apply sub_leaves. destruct (sub_num n Hn) as [Hb Hnt]. split; [exact Hb|].
        apply (leaf_iff t r V). split; auto. intros c Hc.
        destruct (sub_num_surj c) as (j & Hj & <-).
        { eapply below_trans; eauto. apply below_step. right. exists c. split; [exact Hc|apply below_refl]. }
        apply (He j). apply sub_edge; auto.
  Qed.
End Sub.
