(** C63: admissible tree-based ranks (is_admissible_rank), make_ranks_admissible and the selection of the nodes whose rank is increased. *)
From Coq Require Import List Arith Lia Bool Reals Lra ZArith Permutation.
From Verif.Base Require Import ListAux CRing Index RealAux.
From Verif.Model Require Import Numpy FullTensor DimensionTree TreeBased RankAdapt.
From Verif.Spec Require Import TensorSpec TreeSpec TreeTensorSpec RankSpec.
From Verif.Proofs Require Import DimTreeP DimTreeP2 TreeTensorP15 RankP1 RankP2 RankP3 RankP4 RankP5 RankP6.
From Verif.Props Require Import P06_TreeBased P23_TreeGrad P24_FuncGrad.
Import ListNotations.

(** * C63 *)
(** is_admissible_rank never raises and decides whether the ranks are admissible; for tensors without outputs at the root (or with one), whose inactive
    leaves come in the order of their dimensions *)
Theorem c63_admissible_partial : forall {K} {CR : CRing K} (X : tbt K) r, tb_ok X r -> forall v, length v = nbn (ttree X) ->
  exts X r = [] \/ exts X r = [1] -> inactive_sorted X ->
  exists b, tb_is_admissible X v = Some b /\ (b = true <-> admissible X r v).
Proof. exact @admissible_spec. Qed.
Print Assumptions c63_admissible_partial.
(** the condition is necessary: the ranks of a tensor whose cores have full rank along each of their axes are admissible *)
Theorem c63_necessary : forall (X : tbt R) r, tb_ok X r -> full_rank_cores X r -> admissible X r (tb_ranks X).
Proof. exact ranks_admissible. Qed.
Print Assumptions c63_necessary.
(** make_ranks_admissible: whatever the shuffles, the returned rank is admissible and takes at each node the rank asked for (limited to the size of the
    dimension at the leaves) or the current one, with as few nodes left behind as possible; d is the list of the nodes where the rank changes.
    If no such rank is admissible, the rank asked for is returned. *)
Theorem c63_make_ranks_partial : forall {K} {CR : CRing K} (X : tbt K) r rank sh, tb_ok X r -> exts X r = [] \/ exts X r = [1] -> inactive_sorted X ->
  (forall i l, Permutation (sh i l) l) ->
  exists v d, make_ranks X sh rank = Some (v, d) /\ length v = nbn (ttree X) /\
    ((exists w, between X rank w /\ admissible X r w) ->
       between X rank v /\ admissible X r v /\ d = filter (fun n => negb (rk v n =? tb_rank X n)) (nodes (ttree X)) /\
       forall w, between X rank w -> admissible X r w -> refused X rank v <= refused X rank w) /\
    ((forall w, between X rank w -> ~ admissible X r w) -> v = map (wanted X rank) (nodes (ttree X)) /\ d = []).
Proof. exact @make_ranks_spec. Qed.
Print Assumptions c63_make_ranks_partial.
(** so it is always admissible when the cores have full rank *)
Theorem c63_make_ranks_full : forall (X : tbt R) r rank sh, tb_ok X r -> exts X r = [] \/ exts X r = [1] -> inactive_sorted X ->
  (forall i l, Permutation (sh i l) l) -> full_rank_cores X r ->
  exists v d, make_ranks X sh rank = Some (v, d) /\ length v = nbn (ttree X) /\ between X rank v /\ admissible X r v /\
    d = filter (fun n => negb (rk v n =? tb_rank X n)) (nodes (ttree X)) /\ forall w, between X rank w -> admissible X r w -> refused X rank v <= refused X rank w.
Proof. exact make_ranks_full. Qed.
Print Assumptions c63_make_ranks_full.
(** the selection of the nodes E whose rank is increased by one.  The new rank is admissible (or unchanged, E being empty); only nodes that are not
    marked and have a singular value are taken; if any, all those whose value is at least theta times the largest; with a node, those of larger
    or equal value.  As few as possible: if increasing the nodes of value at least y gives an admissible rank, y being one of the values at most theta times the largest
    and no smaller value being within 1% of y, then E is not empty and contains no other node. *)
Theorem c63_selection_partial : forall {K} {CR : CRing K} (X : tbt K) r theta sv, tb_ok X r -> exts X r = [] \/ exts X r = [1] -> inactive_sorted X ->
  sval sv r = None -> (forall n x, sval sv n = Some x -> 0 < x)%R -> (0 < theta <= 1)%R ->
  exists v E, new_rank_sel X theta sv = Some (v, E) /\ NoDup E /\ increased X E v /\ (E = [] \/ admissible X r v) /\
    (forall n, In n E -> exists x, candidate X r sv n x) /\
    (E <> [] -> forall n x, candidate X r sv n x -> (forall m y, candidate X r sv m y -> theta * y <= x)%R -> In n E) /\
    (forall m n y x, In m E -> candidate X r sv m y -> candidate X r sv n x -> (y <= x)%R -> In n E) /\
    (forall m y k z, candidate X r sv m y -> candidate X r sv k z -> (y <= theta * z)%R ->
       (forall n x, candidate X r sv n x -> (x < y)%R -> (x + x / 100 < y)%R) ->
       (forall F w, (forall n, In n F <-> exists x, candidate X r sv n x /\ (y <= x)%R) -> increased X F w -> admissible X r w) ->
       E <> [] /\ forall n, In n E -> exists x, candidate X r sv n x /\ (y <= x)%R).
Proof. exact @new_rank_spec. Qed.
Print Assumptions c63_selection_partial.
(** the nodes left aside cannot be increased: an admissible rank that is not larger at the leaves without singular value is not larger at any marked node *)
Theorem c63_marked : forall {K} {CR : CRing K} (X : tbt K) r sv, tb_ok X r -> forall v n, admissible X r v ->
  (forall l, node (ttree X) l -> is_leaf (ttree X) l = true -> active X l = true -> sval sv l = None -> l <> r -> rk v l <= tb_rank X l) ->
  node (ttree X) n -> n <> r -> stuck X r sv n -> rk v n <= tb_rank X n.
Proof. exact @stuck_bound. Qed.
Print Assumptions c63_marked.
(** the second loop (lines 542-553), meant to mark more nodes, never marks any *)
Theorem c63_second_loop : forall {K} {CR : CRing K} (X : tbt K) marks, nrs_mark2 X marks = marks.
Proof. exact @mark2_same. Qed.
Print Assumptions c63_second_loop.
(** as a consequence: no rank is increased although there are nodes of positive singular value whose increase gives an admissible rank *)
Definition exR1 : tbt Z := TB (dt_balanced 4 [0;1;2;3])
  [ex_core [1;1] 3; ex_core [1;1;1] 5; ex_core [1;1;1] 2; ex_core [2;1] 3; ex_core [2;1] 1; ex_core [2;1] 4; ex_core [2;1] 1].
Lemma exR1_ok : tb_ok exR1 1.
Proof. apply tb_okb_ok; [exact ex_tree|vm_compute; reflexivity]. Qed.
Definition exR1_sv : list (option R) := [None; Some 1%R; Some 1%R; Some (1 / 2)%R; Some (1 / 2)%R; None; None].
Lemma exR1_stuck : stuck exR1 1 exR1_sv 3.
Proof.
  apply stuck_node; [cbv; lia|reflexivity| |reflexivity]. intros c Hc. apply (proj2 (in_children (ttree exR1) 3 c ltac:(cbv; lia))) in Hc. change (In c [6; 7]) in Hc.
  destruct Hc as [<- | [<- | []]]; (apply stuck_leaf; [cbv; lia|reflexivity|reflexivity]).
Qed.
Lemma exR1_cand n : n = 2 \/ n = 4 \/ n = 5 -> ~ stuck exR1 1 exR1_sv n.
Proof.
  assert (L : forall m, m = 4 \/ m = 5 -> ~ stuck exR1 1 exR1_sv m).
  { intros m Hm C. inversion C as [E|? ? ? E|? ? E ? ?]; [lia| |]; destruct Hm as [Hm | Hm]; subst; cbv in E; discriminate. }
  intros [-> | H]; [|apply L; auto]. intros C. inversion C as [E|? ? E ?|? ? E HC ?]; try discriminate.
  apply (L 4 (or_introl eq_refl)). apply HC. apply in_children; [cbv; lia|]. left. reflexivity.
Qed.
Theorem c63_selection_refuted : exists (X : tbt Z) sv n x w, tb_ok X 1 /\ exts X 1 = [] /\ inactive_sorted X /\ sval sv 1 = None /\
  (forall n x, sval sv n = Some x -> 0 < x)%R /\
  candidate X 1 sv n x /\ (exists m, candidate X 1 sv m x /\ increased X [n; m] w) /\ admissible X 1 w /\ new_rank_sel X (4 / 5) sv = Some (tb_ranks X, []).
Proof.
  exists exR1, exR1_sv, 4, (1 / 2)%R, [1;1;1;2;2;1;1].
  assert (P : forall n x, sval exR1_sv n = Some x -> (0 < x)%R).
  { intros n x. unfold sval. destruct (n - 1) as [|[|[|[|[|[|[|k]]]]]]]; cbn; intros H; try discriminate; try (injection H as <-; lra). destruct k; discriminate. }
  assert (IS : inactive_sorted exR1) by (apply sorted_all_active; reflexivity).
  split; [exact exR1_ok|]. split; [reflexivity|]. split; auto. split; [reflexivity|]. split; auto.
  split; [split; [cbv; lia|split; [apply exR1_cand; auto|reflexivity]]|]. split; [|split; [apply admb_ok; reflexivity|]].
  - exists 5. split; [split; [cbv; lia|split; [apply exR1_cand; auto|reflexivity]]|]. split; [reflexivity|]. intros n Hn. unfold node in Hn. change (nbn (ttree exR1)) with 7 in Hn.
    do 8 (destruct n as [|n]; [try lia; (split; intros H; [cbn in H; try lia; reflexivity|try reflexivity; exfalso; apply H; cbn; auto])|]). lia.
  - destruct (new_rank_spec exR1 1 (4 / 5)%R exR1_sv exR1_ok (or_introl eq_refl) IS eq_refl P) as (v & E & HE & ND & HI & HA & HC & HM & _); [lra|]. destruct E as [|e E].
    + rewrite HE. f_equal. f_equal. apply nth_ext' with (d := 0); [rewrite (proj1 HI); reflexivity|]. intros k Hk. rewrite (proj1 HI) in Hk. assert (Hn : node (ttree exR1) (S k)) by (unfold node; lia).
      pose proof (proj2 (proj2 HI (S k) Hn) (fun x => x)) as H1. pose proof (ranks_nth exR1 (S k) Hn) as H2. unfold rk in H1, H2. replace (S k - 1) with k in H1, H2 by lia. rewrite H1, H2. reflexivity.
    + exfalso. destruct HA as [C|HA]; [discriminate|].
      assert (B : forall m y, candidate exR1 1 exR1_sv m y -> (y <= 1)%R).
      { intros m y (_ & _ & H). revert H. unfold sval. destruct (m - 1) as [|[|[|[|[|[|[|k]]]]]]]; cbn; intros H; try discriminate; try (injection H as <-; lra). destruct k; discriminate. }
      assert (H2 : In 2 (e :: E)). { apply (HM ltac:(discriminate) 2 1%R); [split; [cbv; lia|split; [apply exR1_cand; auto|reflexivity]]|]. intros m y Hm. specialize (B m y Hm). lra. }
      assert (H3 : ~ In 3 (e :: E)). { intros C. destruct (HC 3 C) as (x & _ & S3 & _). apply S3. exact exR1_stuck. }
      pose proof (proj1 (proj2 HI 2 ltac:(cbv; lia)) H2) as R2. pose proof (proj2 (proj2 HI 3 ltac:(cbv; lia)) H3) as R3.
      destruct HA as (_ & _ & _ & A4). specialize (A4 1 2 (proj1 (in_children (ttree exR1) 1 2 ltac:(cbv; lia)) (or_introl eq_refl)) eq_refl).
      change (axis_size exR1 1 v 2) with (rk v 2) in A4. change (axis_size exR1 1 v 1) with 1 in A4. change (filter (fun c' => negb (c' =? 2)) (children (ttree exR1) 1)) with [3] in A4. cbn [map prodn fold_right] in A4. change (axis_size exR1 1 v 3) with (rk v 3) in A4.
      rewrite R2, R3 in A4. cbv in A4. lia.
Qed.
Print Assumptions c63_selection_refuted.
(** with inactive leaves in another order than their dimensions (the default tensor train), is_admissible_rank takes the size of one dimension for another:
    it refuses admissible ranks *)
Theorem c63_inactive_refuted : exists (X : tbt Z) v, tb_ok X 1 /\ exts X 1 = [] /\ length v = nbn (ttree X) /\ admissible X 1 v /\ tb_is_admissible X v = Some false.
Proof. exists exTT, [1;3;0;2;0;2;0]. split; [exact exTT_ok|]. split; [reflexivity|]. split; [reflexivity|]. split; [apply admb_ok; reflexivity|vm_compute; reflexivity]. Qed.
Print Assumptions c63_inactive_refuted.
(** with outputs at the root, their number is taken to be 1: the ranks of a tensor may be refused by its own is_admissible_rank although admissible *)
Definition exR3 : tbt Z := TB (dt_balanced 4 [0;1;2;3])
  [ex_core [3;2;3] 3; ex_core [2;2;3] 5; ex_core [2;2;2] 2; ex_core [2;2] 3; ex_core [2;2] 1; ex_core [2;2] 4; ex_core [2;2] 1].
Theorem c63_outputs_refuted : exists X : tbt Z, tb_ok X 1 /\ inactive_sorted X /\ exts X 1 = [3] /\ admissible X 1 (tb_ranks X) /\ tb_is_admissible X (tb_ranks X) = Some false.
Proof. exists exR3. split; [apply tb_okb_ok; [exact ex_tree|vm_compute; reflexivity]|]. split; [apply sorted_all_active; reflexivity|]. split; [reflexivity|]. split; [apply admb_ok; reflexivity|vm_compute; reflexivity]. Qed.
Print Assumptions c63_outputs_refuted.

(** the hypotheses are met: a balanced tree with seven active nodes; a rank asked for that is not admissible; a selection *)
Example c63_ex : tb_ok exR1 1 /\ exts exR1 1 = [] /\ inactive_sorted exR1 /\ between exR1 [1;2;1;2;2;3;3] [1;1;1;2;2;1;1] /\ admissible exR1 1 [1;1;1;2;2;1;1] /\
  ~ admissible exR1 1 (map (wanted exR1 [1;2;1;2;2;3;3]) (nodes (ttree exR1))) /\ make_ranks exR1 (fun _ l => l) [1;2;1;2;2;3;3] = Some ([1;1;1;2;2;2;2], [4;5;6;7]).
Proof.
  split; [exact exR1_ok|]. split; [reflexivity|]. split; [apply sorted_all_active; reflexivity|]. split; [|split; [apply admb_ok; reflexivity|split; [|vm_compute; reflexivity]]].
  - split; [reflexivity|]. intros n Hn. unfold node in Hn. change (nbn (ttree exR1)) with 7 in Hn. do 8 (destruct n as [|n]; [try lia; cbv; auto|]). lia.
  - rewrite <- admb_ok. vm_compute. discriminate.
Qed.
(** inactive leaves in the order of their dimensions *)
Example c63_ex_inactive : tb_ok exG 1 /\ exts exG 1 = [] /\ inactive_sorted exG /\ active exG 5 = false /\ admissible exG 1 [1;2;2;2;0;2;2] /\ tb_is_admissible exG [1;2;2;2;0;2;2] = Some true.
Proof.
  split; [exact exG_ok|]. split; [reflexivity|]. split; [|split; [reflexivity|split; [apply admb_ok; reflexivity|vm_compute; reflexivity]]].
  right. intros n m Hn Hm Ha Hb. unfold node in *. change (nbn (ttree exG)) with 7 in *. do 8 (destruct n as [|n]; [try lia; try discriminate Ha; do 8 (destruct m as [|m]; [try lia; try discriminate Hb; reflexivity|]); lia|]). lia.
Qed.
(** cores of full rank *)
Definition exR2 : tbt R := let I k := ND [k; 2] (fun is => if nth 0 is 0 =? nth 1 is 0 then 1%R else 0%R) in TB (dt_trivial 2) [I 2; I 3; I 2].
Lemma eye_slices k d : d < 2 -> 2 <= k -> (d = 0 -> k = 2) -> independent_slices (ND [k; 2] (fun is => if nth 0 is 0 =? nth 1 is 0 then 1%R else 0%R)) d.
Proof.
  intros Hd Hk HE x H j Hj. assert (E : nth d [k; 2] 0 = 2) by (destruct d as [|[|d]]; cbn; try lia; rewrite HE; auto). change (j < nth d [k; 2] 0) in Hj. rewrite E in Hj.
  specialize (H [j; j]). change (valid [k; 2] [j; j] -> rsum (nth d [k; 2] 0) (fun j0 => Rmult (if nth 0 (upd d j0 [j; j]) 0 =? nth 1 (upd d j0 [j; j]) 0 then 1%R else 0%R) (x j0)) = 0%R) in H. rewrite E in H.
  assert (V : valid [k; 2] [j; j]) by (apply NumpyP.valid_intro; [auto|]; intros i Hi; cbn in Hi; destruct i as [|[|i]]; cbn; lia). specialize (H V). rewrite !rsum_S_R in H. cbn [rsum] in H.
  destruct d as [|[|d]]; [| |lia]; destruct j as [|[|j]]; try lia; cbn in H; rcbn; try lra.
Qed.
Example c63_ex_full : tb_ok exR2 1 /\ full_rank_cores exR2 1 /\ exts exR2 1 = [] /\ inactive_sorted exR2 /\ tb_shape exR2 = [3; 2] /\ tb_ranks exR2 = [1; 2; 2].
Proof.
  split; [apply tb_okb_ok; [apply dt_trivial_ok; lia|vm_compute; reflexivity]|]. split; [|split; [reflexivity|split; [apply sorted_all_active; reflexivity|split; reflexivity]]].
  intros n Hn _. split.
  - intros NE. unfold node in Hn. change (nbn (ttree exR2)) with 3 in Hn. destruct n as [|[|[|[|n]]]]; try lia; [cbv in NE; congruence| |]; apply eye_slices; cbn; lia.
  - intros c He _. assert (n = 1). { destruct He as (_ & _ & He). unfold node in Hn. cbn in He. apply andb_true_iff in He. apply Nat.eqb_eq. apply He. } subst n.
    apply (proj2 (in_children (ttree exR2) 1 c Hn)) in He. change (In c [2; 3]) in He. destruct He as [<- | [<- | []]]; apply eye_slices; cbn; lia.
Qed.
