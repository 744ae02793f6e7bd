(** remove_unique_children: the loop and its result. *)
From Coq Require Import List Arith Lia Bool Sorted Ring Permutation.
From Verif.Base Require Import ListAux CRing Index.
From Verif.Model Require Import Utils Numpy FullTensor DimensionTree TreeBased TreeEval TreeReduce.
From Verif.Spec Require Import TensorSpec TreeSpec TreeTensorSpec.
From Verif.Proofs Require Import NumpyP FullTensorP FullTensorP3 FullTensorP4 FunctionsP DimTreeP TreeTensorP TreeTensorP2 TreeTensorP3 TreeTensorP4 TreeTensorP19 TreeTensorP20 TreeTensorP22 TreeTensorP23.
Import ListNotations.

Section Ruc2.
  Context {R : Type} {CR : CRing R}.
  Add Ring Rrt24 : rth.
  Local Open Scope cr_scope.
  Variables (X : tbt R) (r : nat).
  Hypothesis O : tb_ok X r.
  Local Notation t := (ttree X).
  Let V : dim_tree t r := proj1 O.
  Let T : rooted_tree t r := proj1 (proj1 O).
  Definition ucd (done : list nat) (n : nat) : bool := match children (ttree X) n with [c] => inb c done | _ => false end.
  Definition cur (done : list nat) (n : nat) : nat := if ucd done n then bot (ttree X) n else n.
  Lemma ucd_spec done n : ucd done n = true <-> exists c, children t n = [c] /\ In c done.
  Proof.
    unfold ucd. destruct (children t n) as [|c [|c' l]]; (split; [try discriminate|]).
    - intros (c & Q & _). discriminate.
    - intros Q. apply inb_spec in Q. exists c. auto.
    - intros (x & Q & H). inversion Q. subst. apply inb_spec. auto.
    - intros (x & Q & _). discriminate.
  Qed.
  Lemma cur_full done n : node t n -> (forall c, edge t n c -> In c done) -> cur done n = bot t n.
  Proof.
    intros Hn Hc. unfold cur. destruct (ucd done n) eqn:E; auto. symmetry. apply bot_self. intros c Ec.
    assert (Q : ucd done n = true) by (apply ucd_spec; exists c; split; auto; apply Hc; apply uc_edge; auto). congruence.
  Qed.
  Lemma ucd_snoc done n m : ~ (children t m = [n]) -> ucd (done ++ [n]) m = ucd done m.
  Proof.
    intros H. unfold ucd. destruct (children t m) as [|c [|c' l]]; auto. destruct (Nat.eq_dec c n) as [->|N]; [destruct H; auto|].
    unfold inb. rewrite existsb_app. cbn [existsb]. destruct (Nat.eqb_spec c n); [contradiction|]. rewrite orb_false_r. auto.
  Qed.
  Definition ruc_inv (done : list nat) (st : list (nd R) * (nat -> nat -> bool) * list nat) : Prop :=
    let '(ts, A, d) := st in
    length ts = nbn t /\ length d = length (d2i t) /\
    (forall i j, node t i -> node t j -> uniq t i -> In i done -> ~ (uniq t j /\ In j done) -> A i j = false) /\
    (forall i j, node t i -> node t j -> ~ (uniq t i /\ In i done) -> ~ (uniq t j /\ In j done) -> A i j = adj t (cur done i) j) /\
    (forall i, node t i -> ~ (uniq t i /\ In i done) -> if ucd done i then merged X i (nthc ts i) else nthc ts i = core X i) /\
    (forall k, (k < length (d2i t))%nat -> let x := nth k d 0%nat in node t x /\ ~ (uniq t x /\ In x done) /\ bot t x = nth k (d2i t) 0%nat /\ (x = nth k (d2i t) 0%nat \/ ucd done x = true)).

  Lemma ruc_run : exists st, ofold (ruc_step X) (bottom_up t) (cores X, adj t, d2i t) = Some st /\ ruc_inv (bottom_up t) st.
  Proof.
    apply (bottom_up_ind t r T (ruc_step X) ruc_inv).
    - assert (U0 : forall n, ucd [] n = false) by (intros n; unfold ucd; destruct (children t n) as [|c [|c' l]]; auto).
      split; [apply (ok_cores_length X r O)|]. split; auto. split; [intros i j _ _ _ [] _|]. split; [|split].
      + intros i j Hi Hj _ _. unfold cur. rewrite U0. auto.
      + intros i Hi _. rewrite U0. auto.
      + intros k Hk. cbv zeta. pose proof (d2i_leaf t k Hk) as Hl. split; [apply (leaf_node t r V); auto|]. split; [intros [_ []]|]. split; auto.
        apply bot_self. intros c Ec. apply (leaf_iff t r V) in Hl. destruct Hl as [Hn Hl]. apply (Hl c). apply uc_edge; auto.
    - intros done n [[ts A] d] (HL & HLd & HZ & HA & HT & HD) Hn Hnd Hch Hpar Hdn. unfold ruc_step.
      destruct (inb n (unique_children t)) eqn:Eu.
      2:{ assert (Nu : ~ uniq t n) by (intros Q; apply uniq_spec in Q; apply inb_spec in Q; congruence).
          assert (Uc : forall m, node t m -> ucd (done ++ [n]) m = ucd done m) by (intros m Hm; apply ucd_snoc; intros Q; apply Nu; exists m; auto).
          assert (Dd : forall m, (uniq t m /\ In m (done ++ [n])) <-> (uniq t m /\ In m done)).
          { intros m. rewrite in_app_iff. cbn [In]. split; [|tauto]. intros [Q1 [Q2|[<-|[]]]]; auto. contradiction. }
          exists (ts, A, d). split; auto. split; auto. split; auto. split; [|split; [|split]].
          - intros i j Hi Hj H1 H2 H3. rewrite Dd in H3. apply HZ; auto. apply (Dd i). auto.
          - intros i j Hi Hj. rewrite !Dd. intros H1 H2. rewrite HA by auto. unfold cur. rewrite Uc; auto.
          - intros i Hi. rewrite Dd, Uc by auto. intros H1. apply HT; auto.
          - intros k Hk. specialize (HD k Hk). cbv zeta in *. destruct HD as (D1 & D2 & D3 & D4). rewrite Dd, Uc; auto. }
      apply inb_spec, uniq_spec in Eu. destruct Eu as (p & Hp & Ep). pose proof (uc_edge t p n Hp Ep) as He.
      assert (Un : uniq t n) by (exists p; auto).
      assert (Hpd : ~ In p done) by (apply Hpar; auto).
      assert (Hpn : p <> n) by (intros ->; pose proof (level_edge t r T n n He); lia).
      assert (Up : ucd done p = false). { destruct (ucd done p) eqn:Q; auto. apply ucd_spec in Q. destruct Q as (c & Ec & Hc). rewrite Ep in Ec. inversion Ec. subst. contradiction. }
      assert (Hsearch : forall i, node t i -> A i n = (i =? p)).
      { intros i Hi. destruct (uniq_dec t i) as [Ui|Ui]; [destruct (in_dec Nat.eq_dec i done) as [Di|Di]|].
        - rewrite HZ by tauto. destruct (Nat.eqb_spec i p); auto. subst. contradiction.
        - rewrite HA; auto; [|tauto|tauto]. revert Di. clear HA. intros Di. destruct (Nat.eqb_spec i p) as [->|N].
          + unfold cur. rewrite Up. apply He.
          + destruct (adj t (cur done i) n) eqn:Q; auto. exfalso. assert (Hci : node t (cur done i)) by (unfold cur; destruct (ucd done i); auto; apply (bot_end t r V i Hi)).
            assert (Ecp : cur done i = p) by (apply (rt_uniq t r T (cur done i) p n); auto; split; auto). unfold cur in Ecp. destruct (ucd done i); [|contradiction].
            destruct (bot_end t r V i Hi) as (_ & _ & B). apply (B n). rewrite Ecp. auto.
        - rewrite HA; auto; [|tauto|tauto]. clear HA. destruct (Nat.eqb_spec i p) as [->|N].
          + unfold cur. rewrite Up. apply He.
          + destruct (adj t (cur done i) n) eqn:Q; auto. exfalso. assert (Hci : node t (cur done i)) by (unfold cur; destruct (ucd done i); auto; apply (bot_end t r V i Hi)).
            assert (Ecp : cur done i = p) by (apply (rt_uniq t r T (cur done i) p n); auto; split; auto). unfold cur in Ecp. destruct (ucd done i); [|contradiction].
            destruct (bot_end t r V i Hi) as (_ & _ & B). apply (B n). rewrite Ecp. auto. }
      assert (Ef : filter (fun q => A q n) (nodes t) = [p]).
      { rewrite (filter_ext_in _ (fun i => i =? p)) by (intros i Hi; apply in_nodes in Hi; auto).
        assert (In p (nodes t)) by (apply in_nodes; auto). assert (NoDup (nodes t)) by apply seq_NoDup.
        revert H H0. generalize (nodes t) as l. induction l as [|a l IH]; intros Hi N; [destruct Hi|]. inversion N; subst. cbn [filter]. destruct (Nat.eqb_spec a p) as [->|Na].
        - f_equal. apply filter_none. intros x Hx. destruct (Nat.eqb_spec x p); auto. subst. contradiction.
        - apply IH; auto. destruct Hi; auto. contradiction. }
      rewrite Ef.
      assert (Udn : ~ (uniq t n /\ In n done)) by tauto.
      assert (Udp : ~ (uniq t p /\ In p done)) by tauto.
      assert (Dd : forall m, (uniq t m /\ In m (done ++ [n])) <-> ((uniq t m /\ In m done) \/ m = n)).
      { intros m. rewrite in_app_iff. cbn [In]. split; [intros [Q1 [Q2|[<-|[]]]]; auto|]. intros [Q| ->]; tauto. }
      assert (Uc : forall m, node t m -> m <> p -> ucd (done ++ [n]) m = ucd done m).
      { intros m Hm Nm. apply ucd_snoc. intros Q. apply Nm. apply (rt_uniq t r T m p n); auto. apply uc_edge; auto. }
      assert (Up' : ucd (done ++ [n]) p = true) by (apply ucd_spec; exists n; split; auto; apply in_or_app; simpl; auto).
      assert (Ebot : bot t p = bot t n) by (apply (bot_one t r V p n Hp Ep)).
      assert (Etp : nthc ts p = core X p) by (specialize (HT p Hp Udp); rewrite Up in HT; auto).
      assert (HDn : forall k, (k < length (d2i t))%nat -> let x := nth k (map (fun x => if x =? n then p else x) d) 0%nat in
         node t x /\ ~ (uniq t x /\ In x (done ++ [n])) /\ bot t x = nth k (d2i t) 0%nat /\ (x = nth k (d2i t) 0%nat \/ ucd (done ++ [n]) x = true)).
      { intros k Hk. specialize (HD k Hk). cbv zeta in *. rewrite map_nth_in with (da := 0%nat) by lia. destruct HD as (D1 & D2 & D3 & D4). destruct (Nat.eqb_spec (nth k d 0%nat) n) as [Q|Q].
        - rewrite Q in *. split; auto. split; [rewrite Dd; intros [Z|Z]; auto|]. split; [congruence|auto].
        - split; auto. split; [rewrite Dd; tauto|]. split; auto. destruct D4 as [D4|D4]; auto. destruct (Nat.eq_dec (nth k d 0%nat) p) as [E|E]; [rewrite E; auto|]. rewrite Uc; auto. }
      assert (Lp : (p - 1 < length ts)%nat) by (unfold node in Hp; lia).
      assert (Ln : (n - 1 < length ts)%nat) by (unfold node in Hn; lia).
      destruct (active X n) eqn:Ea.
      + assert (Hm : merged X n (nthc ts n)).
        { specialize (HT n Hn Udn). destruct (ucd done n) eqn:Q; auto. rewrite HT. apply (merged_core X r O n Hn Ea). intros c Ec.
          assert (ucd done n = true) by (apply ucd_spec; exists c; split; auto; apply Hch; apply uc_edge; auto). congruence. }
        destruct (merged_step X r O p n (nthc ts n) Hp Ep Ea Hm) as (C & EC & MC). rewrite Etp, EC. cbn [bind].
        eexists. split; [reflexivity|]. split; [rewrite !setc_length; auto|]. split; [rewrite map_length; auto|]. split; [|split; [|split; [|exact HDn]]].
        * intros i j Hi Hj H1 H2 H3. rewrite Dd in H3. destruct (Nat.eqb_spec i n) as [->|N]; auto. destruct (proj1 (Dd i) (conj H1 H2)) as [[Q1 Q2]|Q]; [|contradiction].
          destruct (Nat.eqb_spec i p) as [->|N2]; [contradiction|]. apply HZ; tauto.
        * intros i j Hi Hj H1 H2. rewrite Dd in H1, H2. destruct (Nat.eqb_spec i n) as [->|N]; [tauto|].
          destruct (Nat.eqb_spec i p) as [->|N2].
          -- rewrite HA by tauto. unfold cur at 2. rewrite Up', Ebot. rewrite cur_full; auto.
          -- rewrite HA by tauto. unfold cur. rewrite Uc; auto.
        * intros i Hi H1. rewrite Dd in H1. rewrite nthc_setc by (rewrite ?setc_length; unfold node in *; lia). destruct (Nat.eqb_spec i n) as [->|Nin]; [tauto|].
          destruct (Nat.eq_dec i p) as [->|N2].
          -- rewrite nthc_setc by (unfold node in *; lia). rewrite Nat.eqb_refl, Up'. auto.
          -- rewrite nthc_setc by (unfold node in *; lia). destruct (Nat.eqb_spec i p); [contradiction|]. rewrite Uc by auto. apply HT; tauto.
      + eexists. split; [reflexivity|]. split; [rewrite setc_length; auto|]. split; [rewrite map_length; auto|]. 
        assert (El : is_leaf t n = true). { destruct (is_leaf t n) eqn:Q; auto. rewrite (ok_internal X r O n Hn Q) in Ea. discriminate. }
        assert (Hno : forall j, node t j -> adj t n j = false).
        { intros j Hj. apply (leaf_iff t r V) in El. destruct El as [_ El]. destruct (adj t n j) eqn:Q; auto. destruct (El j). split; auto. }
        assert (Eb : bot t n = n). { apply bot_self. intros c Ec. pose proof (uc_edge t n c Hn Ec) as Q. destruct Q as (_ & Q1 & Q). rewrite Hno in Q by auto. discriminate. }
        split; [|split; [|split; [|exact HDn]]].
        * intros i j Hi Hj H1 H2 H3. rewrite Dd in H3. destruct (proj1 (Dd i) (conj H1 H2)) as [[Q1 Q2]| ->]; [apply HZ; tauto|].
          rewrite HA by tauto. unfold cur. destruct (ucd done n); [rewrite Eb|]; auto.
        * intros i j Hi Hj H1 H2. rewrite Dd in H1, H2. rewrite HA by tauto. destruct (Nat.eq_dec i p) as [->|N2].
          -- unfold cur. rewrite Up, Up', Ebot, Eb. rewrite Hno by auto. destruct (adj t p j) eqn:Q; auto.
             assert (In j (children t p)) by (apply in_children; auto; split; auto). rewrite Ep in H. destruct H as [H|[]]. subst. tauto.
          -- unfold cur. rewrite Uc; auto.
        * intros i Hi H1. rewrite Dd in H1. rewrite nthc_setc by (rewrite ?setc_length; unfold node in *; lia). destruct (Nat.eqb_spec i n) as [->|Nin]; [tauto|].
          destruct (Nat.eq_dec i p) as [->|N2].
          -- rewrite Up', Etp. apply (merged_inactive X r O p n); auto.
          -- rewrite Uc by auto. apply HT; tauto.
  Qed.

  Lemma ruc_restrict ts A d : ruc_inv (bottom_up t) (ts, A, d) ->
    let K := filter (fun n => negb (inb n (unique_children t))) (nodes t) in
    let Z := TB (dt_restrict K d A) (map (nthc ts) K) in
    exists r', tb_ok Z r' /\ tb_shape Z = tb_shape X /\ exts Z r' = exts X r /\
      (forall is e, valid (tb_shape X) is -> valid (exts X r) e -> tval Z r' is e = tval X r is e) /\
      (forall n, node (ttree Z) n -> length (children (ttree Z) n) <> 1%nat).
  Proof.
    intros (HL & HLd & _ & HA & HT & HD) K Z.
    assert (NK : NoDup K) by (apply NoDup_filter; apply NoDup_nodes).
    assert (InK : forall n, In n K <-> node t n /\ ~ uniq t n).
    { intros n. unfold K. rewrite filter_In, in_nodes, negb_true_iff, inb_false, uniq_spec. tauto. }
    assert (Bu : forall n, node t n -> In n (bottom_up t)) by (intros n Hn; apply (in_bottom_up t r T); auto).
    assert (Cf : forall n, node t n -> cur (bottom_up t) n = bot t n) by (intros n Hn; apply cur_full; auto; intros c Hc; apply Bu; apply Hc).
    assert (KA : forall n j, In n K -> In j K -> A n j = adj t (bot t n) j).
    { intros n j Hn Hj. apply InK in Hn, Hj. rewrite HA by tauto. rewrite Cf; tauto. }
    assert (KT : forall n, In n K -> activec ts n = active X n /\ (active X n = true -> merged X n (nthc ts n))).
    { intros n Hn. apply InK in Hn. destruct Hn as [Hn Hu]. specialize (HT n Hn). destruct (ucd (bottom_up t) n) eqn:E.
      - assert (M : merged X n (nthc ts n)) by (apply HT; tauto). split; auto. apply ucd_spec in E. destruct E as (c & Ec & _).
        rewrite (ok_internal X r O n Hn (one_int X r O n c Hn Ec)). unfold activec, ft_storage, np_size. apply negb_true_iff, Nat.eqb_neq. apply M.
      - rewrite HT by tauto. split; [unfold active, activec; rewrite HT by tauto; auto|]. intros Ha. apply (merged_core X r O); auto. intros c Ec.
        assert (ucd (bottom_up t) n = true) by (apply ucd_spec; exists c; split; auto; apply Bu; apply (uc_edge t n c Hn Ec)). congruence. }
    assert (Hact : forall n, In n K -> activec ts n = active X n) by (intros n Hn; apply KT; auto).
    assert (Bn : forall n, node t n -> node t (bot t n)) by (intros n Hn; apply (bot_end t r V n Hn)).
    assert (HDk : forall k, (k < length (d2i t))%nat -> In (nth k d 0%nat) K /\ bot t (nth k d 0%nat) = nth k (d2i t) 0%nat).
    { intros k Hk. specialize (HD k Hk). cbv zeta in HD. destruct HD as (D1 & D2 & D3 & _). split; [|exact D3]. apply InK. split; [exact D1|]. intros U. apply D2. split; auto. }
    assert (Hr : In r K).
    { apply InK. split; [apply T|]. intros (p & Hp & E). apply (rt_no_edge t r T p). apply uc_edge; auto. }
    assert (Hd : NoDup d).
    { apply (NoDup_nth d 0%nat). intros i j Hi Hj E. rewrite HLd in Hi, Hj. apply (proj1 (NoDup_nth (d2i t) 0%nat) (NoDup_d2i t r V)); auto.
      rewrite <- (proj2 (HDk i Hi)), <- (proj2 (HDk j Hj)). congruence. }
    assert (Ld : forall n, In n d <-> In n K /\ is_leaf t (bot t n) = true).
    { intros n. split.
      - intros Hn. apply (In_nth d n 0%nat) in Hn. destruct Hn as (k & Hk & <-). rewrite HLd in Hk. destruct (HDk k Hk) as [Q1 Q2]. split; auto. rewrite Q2. apply d2i_leaf; auto.
      - intros [Hn Hl]. destruct (leaf_index t _ Hl) as [Q1 Q2]. destruct (HDk _ Q1) as [Q3 Q4]. assert (E : n = nth (index_of (bot t n) (d2i t)) d 0%nat).
        { apply InK in Hn, Q3. apply (bot_inj t r V); try tauto. rewrite Q4, Q2. auto. }
        rewrite E. apply nth_In. lia. }
    assert (Ix : forall n, In n d -> index_of n d = index_of (bot t n) (d2i t)).
    { intros n Hn. destruct (index_of_nth d n Hn) as [Q1 Q2]. assert (Q1' := Q1). rewrite HLd in Q1'. destruct (HDk _ Q1') as [_ Q4]. rewrite Q2 in Q4. rewrite Q4. rewrite index_of_NoDup; auto. apply (NoDup_d2i t r V). }
    pose (ch := fun n => children t (bot t n)).
    assert (Hch : forall n, In n K -> filter (A n) K = ch n).
    { intros n Hn. assert (Hnn : node t n) by (apply InK; auto). rewrite (filter_ext_in _ (adj t (bot t n))) by (intros j Hj; apply KA; auto).
      unfold ch. pose proof (child_bot_not_uniq t r V n) as NU. unfold children in *. unfold K.
      assert (G : forall l, incl l (nodes t) -> filter (adj t (bot t n)) (filter (fun m => negb (inb m (unique_children t))) l) = filter (adj t (bot t n)) l); [|apply G, incl_refl].
      induction l as [|a l IH]; intros Hl; auto. assert (Hl' : incl l (nodes t)) by (intros x Hx; apply Hl; simpl; auto). cbn [filter]. destruct (adj t (bot t n) a) eqn:E.
      - assert (Hna : ~ uniq t a) by (apply NU; auto; apply filter_In; split; auto; apply Hl; simpl; auto).
        replace (inb a (unique_children t)) with false by (symmetry; apply inb_false; rewrite uniq_spec; auto). cbn [negb filter]. rewrite E, IH; auto.
      - destruct (inb a (unique_children t)); cbn [negb filter]; rewrite ?E; auto. }
    assert (AE : forall p c, In p K -> In c K -> A p c = true -> edge t (bot t p) c).
    { intros p c Hp Hc Ha. rewrite KA in Ha by auto. apply InK in Hp, Hc. split; [apply Bn; apply Hp|]. split; [apply Hc|auto]. }
    assert (Hroot : forall p, In p K -> A p r = false).
    { intros p Hp. destruct (A p r) eqn:E; auto. destruct (rt_no_edge t r T (bot t p)). apply AE; auto. }
    assert (Hpar : forall c, In c K -> c <> r -> exists p, In p K /\ A p c = true /\ (level t p < level t c)%nat /\ forall q, In q K -> A q c = true -> q = p).
    { intros c Hc Hne. pose proof Hc as Hc'. apply InK in Hc. destruct Hc as [Hc Hu]. destruct (rt_has_parent t r T c Hc Hne) as (p0 & Hp0).
      destruct (top_exists t r V p0 (proj1 Hp0)) as (q & Q1 & Q2 & Q3 & Q4). destruct (onchain_bot t r V q p0 Q1 Q3) as [_ Eb].
      assert (Ep : bot t p0 = p0).
      { apply bot_self. intros x Ex. apply Hu. exists p0. split; [apply Hp0|]. assert (In c (children t p0)) by (apply in_children; auto; apply Hp0). rewrite Ex in H. destruct H as [<-|[]]. auto. }
      assert (Hq : In q K) by (apply InK; auto).
      exists q. split; auto. split; [rewrite KA by auto; rewrite Eb, Ep; apply Hp0|]. split; [rewrite (level_edge t r T p0 c Hp0); lia|].
      intros q' Hq' Ha'. pose proof (AE q' c Hq' Hc' Ha') as E'. assert (E2 : bot t q' = p0) by (apply (rt_uniq t r T (bot t q') p0 c); auto). apply InK in Hq'. apply (bot_inj t r V); try tauto. congruence. }
    assert (Hdl : forall n, In n d <-> In n K /\ forall c, In c K -> A n c = false).
    { intros n. rewrite Ld. split; intros [Hn Hl]; (split; [auto|]).
      - intros c Hc. destruct (A n c) eqn:E; auto. apply (leaf_iff t r V) in Hl. destruct Hl as [_ Hl]. destruct (Hl c). apply AE; auto.
      - assert (Hnn : node t n) by (apply InK; auto). apply (leaf_iff t r V). split; [auto|]. intros c Hc. assert (Hck : In c K).
        { apply InK. split; [apply Hc|]. apply (child_bot_not_uniq t r V n); auto. apply in_children; auto. }
        specialize (Hl c Hck). rewrite KA in Hl by auto. destruct Hc as (_ & _ & Hc). congruence. }
    assert (Lf : forall n, In n K -> inb n d = is_leaf t (bot t n)).
    { intros n Hn. destruct (is_leaf t (bot t n)) eqn:E; [apply inb_spec, Ld; auto|]. apply inb_false. intros Q. apply Ld in Q. destruct Q. congruence. }
    assert (Hint0 : forall n, In n K -> is_leaf t (bot t n) = false -> active X n = true).
    { intros n Hn El. assert (Hnn : node t n) by (apply InK; auto). apply (ok_internal X r O n Hnn). destruct (is_leaf t n) eqn:E; auto. rewrite bot_self in El; [congruence|]. intros c Ec. rewrite (one_int X r O n c Hnn Ec) in E. discriminate. }
    assert (Hin0 : forall n, In n K -> active X n = false -> is_leaf t n = true /\ bot t n = n).
    { intros n Hn Ha. assert (Hnn : node t n) by (apply InK; auto). assert (E : is_leaf t n = true). { destruct (is_leaf t n) eqn:E; auto. rewrite (ok_internal X r O n Hnn E) in Ha. discriminate. }
      split; auto. apply bot_self. intros c Ec. rewrite (one_int X r O n c Hnn Ec) in E. discriminate. }
    assert (Hint : forall n, In n K -> ~ In n d -> activec ts n = true).
    { intros n Hn Hnd. rewrite Hact by auto. apply Hint0; auto. rewrite <- Lf by auto. apply inb_false; auto. }
    pose (dsz := fun n => tb_size X (bot t n)).
    assert (Hshape : forall n, In n K -> activec ts n = true -> shape (nthc ts n) = (if inb n d then [dsz n] else map (csize X) (ch n)) ++ exts X n).
    { intros n Hn Ha. rewrite Hact in Ha by auto. rewrite Lf by auto. destruct (proj2 (KT n Hn) Ha) as [Q _]. rewrite Q. reflexivity. }
    assert (Hext : forall n, In n K -> n <> r -> activec ts n = true -> exts X n = [csize X n]).
    { intros n Hn Hne Ha. rewrite Hact in Ha by auto. unfold csize. rewrite Ha. apply (ok_exts_rank X r O); auto. apply InK; auto. }
    assert (Hextr : (length (exts X r) <= 1)%nat) by apply (ok_exts_root X r O).
    assert (Hina : forall n, In n K -> activec ts n = false -> csize X n = dsz n).
    { intros n Hn Ha. rewrite Hact in Ha by auto. unfold dsz. rewrite (proj2 (Hin0 n Hn Ha)). unfold csize. rewrite Ha. auto. }
    assert (Esh : map dsz d = tb_shape X).
    { apply nth_ext' with (d := 0%nat); [unfold tb_shape; rewrite !map_length; auto|]. intros k Hk. rewrite map_length, HLd in Hk. rewrite map_nth_in with (da := 0%nat) by lia. unfold dsz. rewrite (proj2 (HDk k Hk)).
      unfold tb_shape. rewrite map_nth_in with (da := 0%nat) by auto. auto. }
    assert (Hra : activec ts r = true) by (rewrite Hact by auto; apply (ok_root X r O)).
    exists (S (index_of r K)). split; [|split; [|split; [|split]]].
    - apply (rs_ok K d A NK r (level t) Hr Hroot Hpar Hd Hdl ts ch (csize X) dsz (exts X)); auto.
    - rewrite <- Esh. apply (rs_shape K d A NK r (level t) Hr Hroot Hpar Hd Hdl ts ch (csize X) dsz (exts X)); auto.
    - apply (rs_exts K d A NK r Hdl ts ch (csize X) dsz (exts X)); auto.
    - intros is e His He. apply (rs_tval K d A NK r (level t) Hr Hroot Hpar Hd Hdl ts ch (csize X) dsz (exts X)) with (G := tval X); auto.
      + intros n is' e' Hn Ha Hi' He'. assert (Hk : In n K) by (apply Hdl in Hn; apply Hn). pose proof (proj1 (Ld n) Hn) as [_ Hl]. rewrite Hact in Ha by auto. destruct (proj2 (KT n Hk) Ha) as (_ & _ & Q).
        rewrite Q by (try rewrite Esh in Hi'; auto). rewrite Hl, Ix by auto. auto.
      + intros n is' k Hn Ha Hi' Hk'. assert (Hk : In n K) by (apply Hdl in Hn; apply Hn). rewrite Hact in Ha by auto. destruct (Hin0 n Hk Ha) as [El Eb]. rewrite (tval_inactive X r V n is') by auto. rewrite Ix, Eb by auto.
        cbn [list_eqb]. rewrite andb_true_r. auto.
      + intros n is' e' Hn Hnd Hi' He'. rewrite Esh in Hi'. assert (El : is_leaf t (bot t n) = false) by (rewrite <- Lf by auto; apply inb_false; auto).
        destruct (proj2 (KT n Hn) (Hint0 n Hn El)) as (_ & _ & Q). rewrite Q, El by auto. auto.
      + rewrite Esh. auto.
      + rewrite Hra. auto.
    - intros i Hi. change (ttree Z) with (dt_restrict K d A) in *. pose proof (rs_pos_id K d A NK i Hi) as Ei. pose proof (rs_id_in K d A i Hi) as Hin. rewrite <- Ei. rewrite rs_children by auto. rewrite map_length, Hch by auto.
      unfold ch. apply InK in Hin. destruct Hin as [Hin _]. destruct (bot_end t r V _ Hin) as (_ & _ & B3). intros Q. destruct (children t (bot t (nth (i - 1) K 0%nat))) as [|c [|c' l]] eqn:E; try discriminate. apply (B3 c). auto.
  Qed.
  Theorem ruc_ok : arity t <> 0%nat -> exists Z r', tb_remove_unique X = Some Z /\ tb_ok Z r' /\ tb_shape Z = tb_shape X /\ exts Z r' = exts X r /\
      (forall is e, valid (tb_shape X) is -> valid (exts X r) e -> tval Z r' is e = tval X r is e) /\
      (forall n, node (ttree Z) n -> length (children (ttree Z) n) <> 1%nat).
  Proof.
    intros Ha. destruct ruc_run as ([[ts A] d] & E & Inv). destruct (ruc_restrict ts A d Inv) as (r' & Q). cbv zeta in Q.
    unfold tb_remove_unique. destruct (Nat.eqb_spec (arity t) 0); [contradiction|]. rewrite E. eexists. exists r'. split; [|exact Q]. apply (tb_make_ok _ _ r'). apply Q.
  Qed.
End Ruc2.
