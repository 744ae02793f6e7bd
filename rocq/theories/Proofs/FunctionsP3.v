(** Proofs about tensor-product grids, evaluation on grids and tensor-product quadrature. *)
From Coq Require Import List Arith Bool ZArith Lia Sorted Permutation.
From Verif.Base Require Import ListAux CRing Index.
From Verif.Model Require Import Sorting MultiIndices Numpy FullTensor Diagonal Canonical Sparse Functions.
From Verif.Spec Require Import MultiIndicesSpec TensorSpec FunctionSpec.
From Verif.Proofs Require Import NumpyP CanonicalP MIMoreP FunctionsP.
Import ListNotations.

Lemma py_index_nat n i : i < n -> py_index n (Z.of_nat i) = Some i.
Proof.
  intros H. unfold py_index. replace (0 <=? Z.of_nat i)%Z with true by (symmetry; apply Z.leb_le; lia).
  replace (Z.of_nat i <? Z.of_nat n)%Z with true by (symmetry; apply Z.ltb_lt; lia). simpl. rewrite Nat2Z.id. auto.
Qed.
Section GridP.
  Context {A : Type}.
  Lemma grid_point_concat : forall (G : list (list (list A))) is, length is = length G ->
    grid_point G is = concat (map (fun k => nth (nth k is 0) (nth k G []) []) (seq 0 (length G))).
  Proof.
    induction G as [|g G IH]; intros [|i is] L; simpl in *; try lia; auto. f_equal. rewrite IH by lia.
    f_equal. rewrite <- seq_shift, map_map. auto.
  Qed.
  Lemma g_row_ok (G : list (list (list A))) is : valid (g_shape G) is -> g_row G (map Z.of_nat is) = Some (grid_point G is).
  Proof.
    intros V. pose proof (valid_length _ _ V) as L. unfold g_shape in L. rewrite map_length in L.
    unfold g_row. rewrite (omap_some _ (fun k => nth (nth k is 0) (nth k G []) [])).
    - simpl. rewrite <- grid_point_concat; auto.
    - intros k Hk. apply in_seq in Hk.
      assert (E1 : nth_error (map Z.of_nat is) k = Some (Z.of_nat (nth k is 0))).
      { rewrite (nth_error_nth' _ 0%Z) by (rewrite map_length; lia). rewrite (map_nth_in _ _ _ 0) by lia. auto. }
      rewrite E1, (nth_error_nth' G []) by lia.
      assert (Hi : nth k is 0 < length (nth k G [])).
      { pose proof (Forall2_nth lt is (g_shape G) k 0 0 V ltac:(lia)) as H. unfold g_shape in H. rewrite (map_nth_in _ _ _ []) in H by lia. auto. }
      rewrite py_index_nat by auto. apply nth_error_nth'; auto.
  Qed.
  Lemma g_mi_ok (G : list (list (list A))) : Forall (fun g => g <> []) G ->
    g_multi_indices G = Some (MI (length G) (map (map Z.of_nat) (boxF (g_shape G)))).
  Proof.
    intros H. unfold g_multi_indices. rewrite bounded_by_is_ind2sub.
    - unfold ind2sub. rewrite (proj2 (forallb_forall _ _)).
      + rewrite boxF_ind2sub, map_map. unfold g_shape at 1. rewrite map_length. auto.
      + intros k Hk. apply in_seq in Hk. apply Nat.ltb_lt. lia.
    - unfold g_shape. apply Forall_map. eapply Forall_impl; [|exact H]. intros [|] Hg; simpl; [congruence|lia].
  Qed.
  Theorem g_array_ok (G : list (list (list A))) : G <> [] -> Forall (fun g => g <> []) G ->
    g_array G = Some (map (grid_point G) (boxF (g_shape G))).
  Proof.
    intros Hn H. unfold g_array. rewrite g_mi_ok by auto. unfold g_array_at. destruct G as [|g G]; [congruence|].
    cbn [mi_rows]. set (GG := g :: G) in *.
    assert (E : forall l, (forall is, In is l -> valid (g_shape GG) is) -> omap (g_row GG) (map (map Z.of_nat) l) = Some (map (grid_point GG) l)).
    { induction l as [|is l IH]; intros Hl; simpl; auto. rewrite g_row_ok by (apply Hl; simpl; auto). rewrite IH by (intros; apply Hl; simpl; auto). auto. }
    apply E. intros is. apply in_boxF.
  Qed.
  (** empty grid: raises *)
  Lemma g_array_empty (G : list (list (list A))) : In [] G -> g_array G = None.
  Proof.
    intros H. unfold g_array, g_multi_indices.
    destruct (bounded_by (map (fun n => Z.of_nat n - 1)%Z (g_shape G)) 0) eqn:E; auto. exfalso.
    assert (Forall (fun x => (0 <= x)%Z) (map (fun n => Z.of_nat n - 1)%Z (g_shape G))) as F.
    { apply MultiIndicesP.bounded_by_some. eauto. }
    rewrite Forall_forall in F. specialize (F (-1)%Z). assert (In (-1)%Z (map (fun n => Z.of_nat n - 1)%Z (g_shape G))).
    { apply in_map_iff. exists 0. split; auto. apply in_map_iff. exists []. auto. }
    apply F in H0. lia.
  Qed.
  Lemma g_array_at_ok (G : list (list (list A))) ind l : G <> [] -> mi_rows ind = map (map Z.of_nat) l -> Forall (valid (g_shape G)) l ->
    g_array_at G ind = Some (map (grid_point G) l).
  Proof.
    intros Hn Hr HF. unfold g_array_at. rewrite Hr. destruct G as [|g G]; [congruence|]. clear Hr Hn. set (GG := g :: G) in *.
    induction HF as [|is l H1 H2 IH]; simpl; auto. rewrite g_row_ok by auto. rewrite IH. auto.
  Qed.
  Lemma sg_array_ok (G : list (list (list A))) ind l : G <> [] -> mi_dim ind = length G -> mi_rows ind = map (map Z.of_nat) l -> Forall (valid (g_shape G)) l ->
    sg_array G ind = Some (map (grid_point G) l).
  Proof.
    intros Hn Hd Hr HF. unfold sg_array. rewrite Hd, Nat.leb_refl. pose proof (g_array_at_ok G ind l Hn Hr HF) as H. unfold g_array_at in H.
    destruct G; [congruence|auto].
  Qed.
End GridP.

Section EvalP.
  Context {R : Type} {CR : CRing R} {A : Type}.
  Add Ring RrF : rth.
  Local Open Scope cr_scope.
  Lemma reshapeF_same (T : nd R) s : shape T = s -> returns (np_reshapeF T s) s (get T).
  Proof.
    intros <-. unfold np_reshapeF. rewrite Nat.eqb_refl. eexists; split; [reflexivity|]. split; auto.
    intros is V. simpl. rewrite ind2subF_sub2indF; auto.
  Qed.
  Lemma returns_bind (o : option (nd R)) s f (k : nd R -> option (nd R)) s' f' :
    returns o s f -> (forall T, tensor_is T s f -> returns (k T) s' f') -> returns (bind o k) s' f'.
  Proof. intros [T [-> HT]] H. simpl. auto. Qed.
  Lemma reshapeF_returns (T : nd R) s f : shape T = s -> (forall is, valid s is -> get T is = f is) -> returns (np_reshapeF T s) s f.
  Proof.
    intros Hs H. destruct (reshapeF_same T s Hs) as [T' [-> [S1 G1]]]. exists T'. split; auto. split; auto. intros is V. rewrite G1; auto.
  Qed.
  Lemma eval_array_reshape os (f : list A -> list R) (G : list (list (list A))) :
    returns (np_reshapeF (eval_array os f (map (grid_point G) (boxF (g_shape G)))) (g_shape G ++ os)) (g_shape G ++ os)
      (fun ks => nth (sub2indC os (skipn (length G) ks)) (f (grid_point G (firstn (length G) ks))) r0).
  Proof.
    unfold np_reshapeF. unfold eval_array at 1. cbn [shape]. rewrite map_length, boxF_length, prodn_app. cbn [prodn]. rewrite Nat.eqb_refl.
    eexists; split; [reflexivity|]. split; [auto|]. intros ks V. cbn [get shape eval_array].
    unfold valid in V. apply Forall2_app_inv_r in V. destruct V as [is [js [V1 [V2 ->]]]].
    assert (L : length G = length is) by (apply Forall2_length' in V1; rewrite V1; unfold g_shape; rewrite map_length; auto).
    rewrite L, firstn_app, firstn_all, Nat.sub_diag, skipn_app, skipn_all, Nat.sub_diag. simpl firstn. rewrite app_nil_r. cbn [skipn app].
    rewrite sub2indF_app by auto. rewrite map_length, boxF_length. cbn [ind2subF].
    pose proof (sub2indF_lt _ _ V1) as Hlt.
    replace ((sub2indF (g_shape G) is + prodn (g_shape G) * sub2indF os js) mod prodn (g_shape G))%nat with (sub2indF (g_shape G) is)
      by (rewrite Nat.mul_comm, Nat.mod_add, Nat.mod_small by lia; auto).
    replace ((sub2indF (g_shape G) is + prodn (g_shape G) * sub2indF os js) / prodn (g_shape G))%nat with (sub2indF os js)
      by (rewrite Nat.mul_comm, Nat.div_add, Nat.div_small by lia; auto).
    rewrite ind2subF_sub2indF by auto. cbn [tl hd].
    rewrite (map_nth_in _ _ _ []) by (rewrite boxF_length; auto). rewrite nth_boxF by auto. rewrite ind2subF_sub2indF by auto. auto.
  Qed.
  Lemma ones_repeat os : forallb (fun n => n =? 1)%nat os = true -> os = repeat 1%nat (length os).
  Proof. induction os as [|n os IH]; simpl; intros H; auto. apply andb_true_iff in H. destruct H as [H1 H2]. apply Nat.eqb_eq in H1. subst. f_equal. auto. Qed.
  Lemma ind2subF_ones m k : ind2subF (repeat 1%nat m) k = repeat 0%nat m.
  Proof. revert k; induction m as [|m IH]; intros k; simpl; auto. rewrite IH. auto. Qed.
  Lemma sub2indC_zeros m : forall os, sub2indC os (repeat 0%nat m) = 0%nat.
  Proof.
    intros os. unfold sub2indC.
    assert (RR : rev (repeat 0%nat m) = repeat 0%nat m).
    { induction m as [|m IH]; auto. simpl. rewrite IH. clear. induction m; simpl; auto. f_equal. auto. }
    rewrite RR. clear. revert m; induction (rev os) as [|n l IH]; intros [|m]; simpl; auto. rewrite IH. lia.
  Qed.
  Lemma eval_array_reshape1 os (f : list A -> list R) (G : list (list (list A))) : forallb (fun n => n =? 1)%nat os = true ->
    returns (np_reshapeF (eval_array os f (map (grid_point G) (boxF (g_shape G)))) (g_shape G)) (g_shape G)
      (fun is => nth 0 (f (grid_point G is)) r0).
  Proof.
    intros Ho. pose proof (ones_repeat os Ho) as Er.
    assert (P1 : prodn os = 1%nat) by (rewrite Er; clear; induction (length os); simpl; auto; lia).
    unfold np_reshapeF. unfold eval_array at 1. cbn [shape]. rewrite map_length, boxF_length. cbn [prodn]. rewrite P1, Nat.mul_1_r, Nat.eqb_refl.
    eexists; split; [reflexivity|]. split; [auto|]. intros is V. cbn [get shape eval_array].
    rewrite map_length, boxF_length. cbn [ind2subF tl hd]. pose proof (sub2indF_lt _ _ V) as Hlt.
    rewrite Nat.mod_small by auto. rewrite Er. rewrite ind2subF_ones, sub2indC_zeros.
    rewrite (map_nth_in _ _ _ []) by (rewrite boxF_length; auto). rewrite nth_boxF by auto. rewrite ind2subF_sub2indF by auto. auto.
  Qed.
  Theorem eval_full_grid_scalar os (f : list A -> list R) dim (G : list (list (list A))) : G <> [] -> Forall (fun g => g <> []) G ->
    forallb (fun n => n =? 1)%nat os = true ->
    returns (eval_on_full_grid os f dim G) (g_shape G) (fun is => nth 0 (f (grid_point G is)) r0).
  Proof.
    intros Hn HG Ho. unfold eval_on_full_grid. rewrite g_array_ok by auto. cbn [bind]. rewrite Ho.
    destruct (1 <? dim)%nat; [|apply eval_array_reshape1; auto].
    eapply returns_bind; [apply eval_array_reshape1; auto|]. intros T [S1 G1]. apply reshapeF_returns; auto.
  Qed.
  Theorem eval_full_grid_array os (f : list A -> list R) dim (G : list (list (list A))) : G <> [] -> Forall (fun g => g <> []) G ->
    forallb (fun n => n =? 1)%nat os = false ->
    returns (eval_on_full_grid os f dim G) (g_shape G ++ os)
      (fun ks => nth (sub2indC os (skipn (length G) ks)) (f (grid_point G (firstn (length G) ks))) r0).
  Proof.
    intros Hn HG Ho. unfold eval_on_full_grid. rewrite g_array_ok by auto. cbn [bind]. rewrite Ho.
    eapply returns_bind; [apply eval_array_reshape; auto|]. intros T [S1 G1]. apply reshapeF_returns; auto.
  Qed.
  (** weights *)
  Theorem weights_ok (W : list (list R)) : W <> [] ->
    weights_on_grid W = Some (map (fun is => lprod (combine W is) (fun p => nth (snd p) (fst p) r0)) (boxF (map (@length R) W))).
  Proof.
    intros Hn. unfold weights_on_grid.
    destruct (cp_full_spec (CP [r1] (map col_of W))) as [T [E [S1 G1]]].
    { split; [destruct W; simpl; congruence|]. cbn. apply Forall_map. apply Forall_forall. intros w Hw. exists (length w). reflexivity. }
    rewrite E. simpl. f_equal. unfold ravelF, np_size.
    assert (S2 : shape T = map (@length R) W).
    { rewrite S1. unfold cp_dims. cbn. rewrite map_map. auto. }
    rewrite boxF_ind2sub, map_map, S2. apply map_ext_in. intros k Hk. apply in_seq in Hk.
    assert (V : valid (map (@length R) W) (ind2subF (map (@length R) W) k)) by (apply ind2subF_valid; lia).
    rewrite <- S2 in V at 1. rewrite S1 in V. rewrite (G1 _ V). unfold cp_val. cbn [cp_core cp_space length rsum nth].
    assert (EL : forall (W : list (list R)) is, lprod (combine (map col_of W) is) (fun p => get (fst p) [snd p; 0%nat]) = lprod (combine W is) (fun p => nth (snd p) (fst p) r0)).
    { clear. induction W as [|w W IH]; intros [|i is]; simpl; auto. rewrite IH. auto. }
    rewrite EL. ring.
  Qed.
End EvalP.
Section QuadP.
  Context {R : Type} {CR : CRing R} {A : Type}.
  Add Ring RrF2 : rth.
  Local Open Scope cr_scope.
  Theorem tp_integrate_ok (G : list (list (list A))) (W : list (list R)) f : G <> [] -> Forall (fun g => g <> []) G ->
    map (@length R) W = g_shape G ->
    tp_integrate G W f = Some (bsum (g_shape G) (fun is => f (grid_point G is) * lprod (combine W is) (fun p => nth (snd p) (fst p) r0))).
  Proof.
    intros Hn HG HW. unfold tp_integrate.
    assert (HL : length W = length G) by (rewrite <- (map_length (@length R)), HW; unfold g_shape; apply map_length).
    rewrite HL, Nat.eqb_refl, g_array_ok by auto. cbn [bind]. rewrite weights_ok by (destruct W, G; simpl in *; congruence).
    cbn [bind]. unfold ir_integrate. rewrite HW, !map_length, Nat.eqb_refl. f_equal.
    rewrite bsum_linear, boxF_length. apply rsum_ext. intros k Hk.
    rewrite (map_nth_in _ _ _ []) by (rewrite boxF_length; auto). rewrite (map_nth_in _ _ _ []) by (rewrite boxF_length; auto).
    rewrite nth_boxF by auto. auto.
  Qed.
  Lemma lprod_combine_nth : forall (W : list (list R)) is, length is = length W ->
    lprod (combine W is) (fun p => nth (snd p) (fst p) r0) = lprod (seq 0 (length W)) (fun k => nth (nth k is 0%nat) (nth k W []) r0).
  Proof.
    induction W as [|w W IH]; intros [|i is] L; simpl in *; try lia; auto. rewrite IH by lia. rewrite <- seq_shift, lprod_map. auto.
  Qed.
  Lemma lprod_combine_seq (g : nat -> nat -> R) : forall is a,
    lprod (combine (seq a (length is)) is) (fun p => g (fst p) (snd p)) = lprod (seq 0 (length is)) (fun k => g (a + k)%nat (nth k is 0%nat)).
  Proof.
    induction is as [|i is IH]; intros a; simpl; auto. rewrite IH, Nat.add_0_r. f_equal. rewrite <- (seq_shift (length is) 0), lprod_map.
    apply lprod_ext. intros k _. rewrite Nat.add_succ_r. auto.
  Qed.
  Theorem tp_integrate_products (G : list (list (list A))) (W : list (list R)) (f : list A -> R)
      (m : nat) (c : nat -> R) (phi : nat -> nat -> list A -> R) : G <> [] -> Forall (fun g => g <> []) G ->
    map (@length R) W = g_shape G ->
    (forall is, valid (g_shape G) is -> f (grid_point G is) = rsum m (fun j => c j * lprod (seq 0 (length G)) (fun k => phi j k (nth (nth k is 0%nat) (nth k G []) [])))) ->
    tp_integrate G W f = Some (rsum m (fun j => c j * lprod (seq 0 (length G)) (fun k =>
      rsum (length (nth k G [])) (fun i => phi j k (nth i (nth k G []) []) * nth i (nth k W []) r0)))).
  Proof.
    intros Hn HG HW Hf. rewrite tp_integrate_ok by auto. f_equal.
    assert (HL : length W = length G) by (rewrite <- (map_length (@length R)), HW; unfold g_shape; apply map_length).
    assert (E : bsum (g_shape G) (fun is => f (grid_point G is) * lprod (combine W is) (fun p => nth (snd p) (fst p) r0)) =
      bsum (g_shape G) (fun is => rsum m (fun j => c j * lprod (seq 0 (length (g_shape G))) (fun k => phi j k (nth (nth k is 0%nat) (nth k G []) []) * nth (nth k is 0%nat) (nth k W []) r0)))).
    { apply bsum_ext. intros is V. rewrite Hf by auto.
      assert (L : length is = length G) by (apply Forall2_length' in V; rewrite V; unfold g_shape; apply map_length).
      rewrite lprod_combine_nth by congruence. rewrite <- rsum_scal_r. apply rsum_ext. intros j Hj.
      unfold g_shape. rewrite map_length, HL, lprod_mul. ring. }
    rewrite E. rewrite bsum_rsum_exchange. apply rsum_ext. intros j Hj. rewrite bsum_scal_l. f_equal.
    set (g := fun k i => phi j k (nth i (nth k G []) []) * nth i (nth k W []) r0).
    transitivity (bsum (g_shape G) (fun js => lprod (combine (seq 0 (length (g_shape G))) js) (fun p => g (fst p) (snd p)))).
    { apply bsum_ext. intros is V. apply Forall2_length' in V. rewrite <- V, lprod_combine_seq. auto. }
    rewrite bsum_prod. rewrite (lprod_combine_seq (fun k n => rsum n (g k))).
    unfold g_shape. rewrite map_length. apply lprod_ext. intros k Hk. apply in_seq in Hk. rewrite (map_nth_in _ _ _ []) by lia. auto.
  Qed.
End QuadP.
Section PartialP.
  Context {A B : Type}.
  Theorem pe_fun_ok (dim : nat) (not_alpha alpha : list nat) (f : list A -> B) (xn xa : list (list A)) :
    NoDup not_alpha -> Forall (fun k => k < dim) not_alpha ->
    StronglySorted lt alpha -> (forall k, In k alpha <-> k < dim /\ ~ In k not_alpha) ->
    xa <> [] -> xn <> [] -> Forall (fun p => length p = length alpha) xa -> Forall (fun p => length p = length not_alpha) xn ->
    exists ps, pe_fun dim not_alpha f xn xa = Some (map f ps) /\ length ps = length xa * length xn /\
      forall i j, i < length xa -> j < length xn ->
        length (nth (i + length xa * j) ps []) = dim /\
        (forall k, k < length alpha -> nth_error (nth (i + length xa * j) ps []) (nth k alpha 0) = nth_error (nth i xa []) k) /\
        (forall k, k < length not_alpha -> nth_error (nth (i + length xa * j) ps []) (nth k not_alpha 0) = nth_error (nth j xn []) k).
  Proof.
    intros Nd Hlt Sa Ha Ea En La Ln. unfold pe_fun.
    assert (Ec : compl dim not_alpha = alpha).
    { apply sorted_same; auto; [apply sorted_filter_seq|]. intros k. rewrite Ha. apply in_compl. }
    rewrite Ec. rewrite g_array_ok by (try congruence; repeat constructor; auto).
    set (l := alpha ++ not_alpha).
    assert (Sd : NoDup alpha).
    { clear - Sa. induction Sa as [|a l H1 IH H2]; constructor; auto. intros H. rewrite Forall_forall in H2. specialize (H2 _ H). lia. }
    assert (NL : NoDup l).
    { apply NoDup_app; auto. intros x H1 H2. apply Ha in H1. tauto. }
    assert (HIn : forall x, x < dim <-> In x l).
    { intros x. unfold l. rewrite in_app_iff, Ha. split.
      - intros Hx. destruct (in_dec Nat.eq_dec x not_alpha); auto.
      - intros [[H _]|H]; auto. rewrite Forall_forall in Hlt; auto. }
    assert (HLl : length l = dim).
    { assert (Permutation l (seq 0 dim)) as P.
      { apply NoDup_Permutation; auto; [apply seq_NoDup|]. intros x. rewrite <- HIn, in_seq. lia. }
      apply Permutation_length in P. rewrite seq_length in P. auto. }
    set (ind := map (fun x => index_of x l) (seq 0 dim)).
    assert (G : forall ij, In ij (boxF (g_shape [xa; xn])) -> exists q, omap (nth_error (grid_point [xa; xn] ij)) ind = Some q /\
       length q = dim /\ forall x, x < dim -> nth_error q x = nth_error (grid_point [xa; xn] ij) (index_of x l)).
    { intros ij Hij. apply in_boxF in Hij. destruct ij as [|i [|j [|]]]; try (apply Forall2_length' in Hij; discriminate Hij).
      pose proof (Forall2_nth _ _ _ 0 0 0 Hij ltac:(cbn; lia)) as Hi. pose proof (Forall2_nth _ _ _ 1 0 0 Hij ltac:(cbn; lia)) as Hj. cbn in Hi, Hj.
      cbn [grid_point]. rewrite app_nil_r.
      destruct (omap_all (nth_error (nth i xa [] ++ nth j xn [])) ind) as [q [Eq Fq]].
      { intros y Hy. unfold ind in Hy. apply in_map_iff in Hy. destruct Hy as [x [<- Hx]]. apply in_seq in Hx.
        assert (index_of x l < length l) by (apply index_of_nth; apply HIn; lia).
        destruct (nth_error (nth i xa [] ++ nth j xn []) (index_of x l)) eqn:E; eauto. exfalso. apply nth_error_None in E.
        rewrite app_length in E. unfold l in H. rewrite app_length in H. rewrite Forall_forall in La, Ln.
        rewrite (La (nth i xa [])), (Ln (nth j xn [])) in E by (apply nth_In; auto). unfold l in E. lia. }
      exists q. split; auto. pose proof (Forall2_length' _ _ _ Fq) as Lq. unfold ind in Lq. rewrite map_length, seq_length in Lq. split; auto.
      intros x Hx. destruct q as [|a0 q0] eqn:Qe; [simpl in Lq; lia|]. rewrite <- Qe in *.
      pose proof (Forall2_nth _ ind q x 0 a0 Fq) as H. unfold ind in H. rewrite map_length, seq_length in H. specialize (H Hx).
      rewrite nth_map_seq in H by auto. rewrite (nth_error_nth' q a0) by lia. rewrite <- H. auto. }
    destruct (omap_all (fun p => omap (nth_error p) ind) (map (grid_point [xa; xn]) (boxF (g_shape [xa; xn])))) as [ps [Ep Fp]].
    { intros p Hp. apply in_map_iff in Hp. destruct Hp as [ij [<- Hij]]. destruct (G ij Hij) as [q [E _]]. eauto. }
    rewrite Ep. exists ps. split; auto.
    pose proof (Forall2_length' _ _ _ Fp) as Lp. rewrite map_length, boxF_length in Lp. cbn [g_shape map prodn] in Lp. rewrite Nat.mul_1_r in Lp.
    split; auto. intros i j Hi Hj.
    assert (V : valid (g_shape [xa; xn]) [i; j]) by (cbn; repeat constructor; auto).
    assert (Hk : i + length xa * j < length xa * length xn) by nia.
    pose proof (Forall2_nth _ _ _ (i + length xa * j) [] [] Fp) as H. rewrite map_length, boxF_length in H. cbn [g_shape map prodn] in H. rewrite Nat.mul_1_r in H.
    specialize (H Hk). rewrite (map_nth_in _ _ _ []) in H by (rewrite boxF_length; cbn; lia).
    change [length xa; length xn] with (g_shape [xa; xn]) in H. rewrite nth_boxF in H by (cbn; lia).
    assert (EI : ind2subF (g_shape [xa; xn]) (i + length xa * j) = [i; j]).
    { rewrite <- (ind2subF_sub2indF (g_shape [xa; xn]) [i; j]) by auto. f_equal. cbn. lia. }
    rewrite EI in H. destruct (G [i; j]) as [q [Eq [Lq Nq]]]; [apply in_boxF; auto|]. rewrite H in Eq. injection Eq as <-.
    split; auto. cbn [grid_point] in Nq. rewrite app_nil_r in Nq. rewrite Forall_forall in La, Ln. split; intros k Hk'.
    - assert (nth k alpha 0 < dim) by (apply Ha, nth_In; auto). rewrite Nq by auto.
      assert (E : index_of (nth k alpha 0) l = k).
      { replace (nth k alpha 0) with (nth k l 0) by (unfold l; apply app_nth1; auto). apply index_of_NoDup; auto. unfold l; rewrite app_length; lia. }
      rewrite E. apply nth_error_app1. rewrite La by (apply nth_In; auto). auto.
    - assert (nth k not_alpha 0 < dim) by (rewrite Forall_forall in Hlt; apply Hlt, nth_In; auto). rewrite Nq by auto.
      assert (E : index_of (nth k not_alpha 0) l = length alpha + k).
      { replace (nth k not_alpha 0) with (nth (length alpha + k) l 0) by (unfold l; rewrite app_nth2 by lia; f_equal; lia). apply index_of_NoDup; auto. unfold l; rewrite app_length; lia. }
      rewrite E. rewrite nth_error_app2 by (rewrite La by (apply nth_In; auto); lia). rewrite La by (apply nth_In; auto). f_equal. lia.
  Qed.
End PartialP.
Section SparseGridP.
  Context {R : Type} {CR : CRing R} {A : Type}.
  Lemma eval_sparse_grid_ok (f : list A -> R) (G : list (list (list A))) ind l : G <> [] -> mi_dim ind = length G ->
    mi_rows ind = map (map Z.of_nat) l -> Forall (valid (g_shape G)) l -> NoDup l ->
    exists s, eval_on_sparse_grid f G ind = Some s /\ sp_shape s = g_shape G /\ sp_ok (sp_rows s) (sp_data s) (sp_shape s) /\
      (forall is, In is l -> sp_val (sp_rows s) (sp_data s) is = f (grid_point G is)) /\
      (forall is, ~ In is l -> sp_val (sp_rows s) (sp_data s) is = r0).
  Proof.
    intros Hn Hd Hr HF ND. unfold eval_on_sparse_grid. rewrite (sg_array_ok G ind l) by auto. cbn [bind]. unfold sp_make.
    rewrite Hr, !map_length, Nat.eqb_refl. eexists; split; [reflexivity|]. cbn [sp_shape sp_rows sp_data sp_ind].
    unfold sp_rows. cbn [sp_ind]. rewrite Hr. split; auto.
    assert (INJ : forall a b : list nat, map Z.of_nat a = map Z.of_nat b -> a = b).
    { induction a as [|x a IH]; intros [|y b] E; simpl in E; try discriminate; auto. injection E as E1 E2. apply Nat2Z.inj in E1. f_equal; auto. }
    assert (N0 : forall j, j < length l -> nth j (map (map Z.of_nat) l) [] = map Z.of_nat (nth j l [])) by (intros; apply map_nth_in; auto).
    assert (N1 : forall j, j < length l -> nth j (map f (map (grid_point G) l)) r0 = f (grid_point G (nth j l []))).
    { intros j Hj. rewrite map_map. apply (map_nth_in (fun x => f (grid_point G x))); auto. }
    split; [|split].
    - split; [rewrite !map_length; auto|]. split; [apply FinFun.Injective_map_NoDup; auto; exact INJ|].
      apply Forall_map. eapply Forall_impl; [|exact HF]. intros is V. exists is; auto.
    - intros is Hi. apply (In_nth _ _ []) in Hi. destruct Hi as [j [Hj E]]. unfold sp_val. rewrite map_length.
      rewrite (rsum_single _ j) by (auto; intros i Hi Hne; destruct (list_eq_dec _ _ _) as [C|]; auto; rewrite N0 in C by auto; apply INJ in C;
        exfalso; apply Hne; apply (proj1 (NoDup_nth l []) ND); auto; congruence).
      rewrite N0 by auto. rewrite E. destruct (list_eq_dec _ _ _); [|congruence]. rewrite N1 by auto. rewrite E. auto.
    - intros is Hi. unfold sp_val. rewrite map_length. apply rsum_zero. intros j Hj. destruct (list_eq_dec _ _ _) as [C|]; auto.
      rewrite N0 in C by auto. apply INJ in C. exfalso. apply Hi. rewrite <- C. apply nth_In; auto.
  Qed.
End SparseGridP.
