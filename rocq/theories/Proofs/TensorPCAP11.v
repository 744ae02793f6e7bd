(** the statements of the properties of the principal component analysis in terms of the full tensors; hopca. *)
From Coq Require Import List Arith Lia Bool Reals Permutation Lra.
From Verif.Base Require Import ListAux CRing Index RealAux LinAlg.
From Verif.Model Require Import Sorting Numpy FullTensor Diagonal Canonical DimensionTree TreeBased Truncator HSVD HsvdTree Functions Measures Learning DensityL2 MagicIndices AltMin TensorPCA.
From Verif.Spec Require Import TensorSpec TreeSpec TreeTensorSpec TruncatorSpec LearningSpec FunctionSpec MagicSpec PCASpec.
From Verif.Proofs Require AltMinP4.
From Verif.Proofs Require Import LearningP2 NumpyP FullTensorP FunctionsP FunctionsP3 DimTreeP DimTreeP2 TreeTensorP TreeTensorP4 TreeTensorP2 HsvdP2 HsvdTreeP4 MagicP OrthNodeP4 TensorPCAP1 TensorPCAP2 TensorPCAP3 TensorPCAP4 TensorPCAP5 TensorPCAP6 TensorPCAP7 TensorPCAP8 TensorPCAP9 TensorPCAP10.
From Verif.Model Require Import Learning.
Import ListNotations.
Local Open Scope R_scope.

Definition draws_ok (shp : list nat) (rnd : nat -> sampler) : Prop :=
  (forall n na N, length (rnd n na N) = N) /\ (forall n na N, Forall (fun k => (k < length shp)%nat) na -> Forall (valid (sel 0%nat shp na)) (rnd n na N)).
Definition choice_ok (choice : nat -> nat -> nat -> list nat) : Prop :=
  forall n m k, (k <= m)%nat -> length (choice n m k) = k /\ forall i, In i (choice n m k) -> (i < m)%nat.

Theorem pca_interpolation svd L factor adaptive f shp tol mr sub rnd choice t r oact X st : svd_contract svd -> lapack_ok L -> dim_tree t r -> length shp = length (d2i t) -> (2 <= length shp)%nat ->
  (forall n na N, length (rnd n na N) = N) -> (forall n m k, (k <= m)%nat -> length (choice n m k) = k /\ forall i, In i (choice n m k) -> (i < m)%nat) ->
  tree_based_approximation svd L factor adaptive f shp tol mr sub rnd choice t oact = Some (X, st) ->
  ttree X = t /\ tb_ok X r /\ exists A, tb_full X = Some A /\ shape A = shp /\ (forall is, valid shp is -> In (sel 0%nat is (dims t r)) (nthg st r) -> get A is = f is) /\
    nthg st r = map (grid_point (map (nthg st) (children t r))) (boxF (shape (core X r))) /\
    (forall n, node t n -> n <> r -> Forall (valid (sel 0%nat shp (dims t n))) (nthg st n) /\ (active X n = true -> length (nthg st n) = tb_rank X n)) /\ ps_n st = length (ps_pts st).
Proof.
  intros SV HL T HD H2 RN CH H. destruct (tree_interpolates svd L factor adaptive f shp tol mr sub rnd choice t r oact X st SV HL T HD RN CH H) as (E1 & E2 & E3 & E4 & E5 & E6 & E7 & E8).
  split; [auto|]. split; [auto|]. assert (HO : (2 <= tb_order X)%nat) by (unfold tb_order; rewrite E1, <- HD; auto).
  destruct (tb_full_ok X r E2 HO) as (A & HA & HS & HG). exists A. split; [auto|]. rewrite E3, E4, app_nil_r in HS. split; [auto|]. split; [|auto].
  intros is V HI. destruct (full_inv X r A E2 HO HA) as [_ HV]. rewrite <- (E5 is); auto; [|apply valid_length; auto].
  rewrite <- (HV is []); [rewrite app_nil_r; auto|rewrite E3; auto|rewrite E4; constructor].
Qed.
Theorem pca_exact svd L factor adaptive f shp tol mr rnd choice t r oact X st : svd_contract svd -> lapack_ok L -> dim_tree t r -> length shp = length (d2i t) -> (2 <= length shp)%nat ->
  (forall n na N, length (rnd n na N) = N) -> (forall n na N, Forall (fun k => (k < length shp)%nat) na -> Forall (valid (sel 0%nat shp na)) (rnd n na N)) -> (forall n m k, (k <= m)%nat -> length (choice n m k) = k /\ forall i, In i (choice n m k) -> (i < m)%nat) ->
  tree_based_approximation svd L factor adaptive f shp tol mr EIM rnd choice t oact = Some (X, st) ->
  (forall n, node t n -> n <> r -> active X n = true -> exact_node f shp factor adaptive tol mr (rnd n) n (dims t n) (prodn (heads X n))) ->
  returns (tb_full X) shp f.
Proof.
  intros SV HL T HD H2 RN RV CH H HX. destruct (tree_interpolates svd L factor adaptive f shp tol mr EIM rnd choice t r oact X st SV HL T HD RN CH H) as (E1 & E2 & E3 & E4 & _).
  assert (HO : (2 <= tb_order X)%nat) by (unfold tb_order; rewrite E1, <- HD; auto). apply (full_returns X r); auto; [rewrite E3, E4, app_nil_r; auto|].
  rewrite E3, E4. intros is e V Ve. assert (Ee : e = []) by (inversion Ve; auto). rewrite Ee, app_nil_r. apply (tree_exact svd L factor adaptive f shp tol mr rnd choice t r oact X st); auto.
Qed.

(** the higher-order principal component analysis *)
Lemma omap_nth {A B} (g : A -> option B) : forall l q, omap g l = Some q -> forall k da db, (k < length l)%nat -> g (nth k l da) = Some (nth k q db).
Proof.
  induction l as [|a l IH]; intros q H k da db Hk; cbn in *; [lia|]. destruct (g a) eqn:E; [|discriminate]. destruct (omap g l) eqn:E2; [|discriminate]. injection H as <-.
  destruct k; cbn; [auto|]. apply IH; auto. lia.
Qed.
Theorem hopca_spec svd L factor adaptive f shp tol mr rnd l : svd_contract svd -> lapack_ok L -> (forall n na N, length (rnd n na N) = N) -> (forall n na N, Forall (fun k => (k < length shp)%nat) na -> Forall (valid (sel 0%nat shp na)) (rnd n na N)) ->
  hopca svd L factor adaptive f shp tol mr rnd = Some l -> length l = length shp /\ forall a, (a < length shp)%nat -> let p := nth a l (PO (MX 0 0 (fun _ _ => 0)) [] 0 [] []) in
    mrows (po_pc p) = nth a shp 0%nat /\ (1 <= mcols (po_pc p) <= nth a shp 0%nat)%nat /\ cols_orth (po_pc p) /\ po_n p = length (po_pts p) /\
    (exact_node f shp factor adaptive tol mr (rnd a) (S a) [a] (nth a shp 0%nat) -> forall is, valid shp is -> exists b : nat -> R, forall i, (i < nth a shp 0%nat)%nat ->
       f (TensorSpec.put [a] [i] is) = rsum (mcols (po_pc p)) (fun k => ment (po_pc p) i k * b k)).
Proof.
  intros SV HL RN RV H. unfold hopca in H. destruct (expand_param (length shp) tol) as [tol'|] eqn:E1; [|discriminate]. cbn [bind] in H. destruct (expand_param (length shp) mr) as [mr'|] eqn:E2; [|discriminate]. cbn [bind] in H.
  split; [rewrite (omap_length _ _ _ H), seq_length; auto|]. intros a Ha p. assert (EP := omap_nth _ _ _ H a 0%nat (PO (MX 0 0 (fun _ _ => 0)) [] 0 [] [])). rewrite seq_length in EP. specialize (EP Ha). rewrite seq_nth in EP by auto. cbn [Nat.add] in EP. fold p in EP.
  set (m := nth a shp 0%nat) in *. set (g := map (fun i => [i]) (seq 0 m)) in *. assert (Lg : length g = m) by (unfold g; rewrite map_length, seq_length; auto).
  destruct (alpha_pc_ok svd SV L HL factor adaptive f shp [a] _ (eye_mx m) g (rnd a) p Lg (RN a) EP) as (_ & P1 & P2 & P3). cbn [eye_mx mrows] in P1, P2.
  split; [auto|]. split; [auto|]. split; [exact (alpha_pc_orth svd SV L factor adaptive f shp _ _ _ _ _ _ EP)|]. split; [auto|].
  intros (x & X1 & X2 & X3) is HV. assert (X1' := omin_least _ _ _ X1). rewrite <- (expand_nth _ _ _ (S a) E1), <- (expand_nth _ _ _ (S a) E2) in X1' by lia. replace (S a - 1)%nat with a in X1' by lia. rewrite X1' in EP.
  assert (DN : NoDup [a]) by (constructor; [intros []|constructor]). assert (DB : Forall (fun k => (k < length shp)%nat) [a]) by (constructor; [lia|constructor]).
  assert (HG : Forall (valid (sel 0%nat shp [a])) g).
  { apply Forall_forall. intros y Hy. apply in_map_iff in Hy. destruct Hy as (i & <- & Hi). apply in_seq in Hi. cbn. constructor; [fold m; lia|constructor]. }
  assert (EY : forall (M : nat -> R) i, (i < m)%nat -> rsum m (fun j => ment (eye_mx m) i j * M j) = M i).
  { intros M i Hi. rewrite (rsum_ext_R' m _ (fun j => if (j =? i)%nat then M j else 0)).
    - rewrite PolyP5.rsum_pick. apply Nat.ltb_lt in Hi. rewrite Hi. reflexivity.
    - intros j Hj. unfold eye_mx. cbn [ment]. rewrite (Nat.eqb_sym i j). destruct (j =? i)%nat; ring. }
  destruct (pc_fact svd SV L HL factor adaptive f shp [a] x (eye_mx m) g (rnd a) p Lg (RN a) DN DB HG (RV a)) with (is := is) (c := fun i => f (TensorSpec.put [a] [i] is)) as [b Hb]; auto.
  - unfold lt1. destruct (Rlt_dec x 1); [|reflexivity]. destruct X2 as [[_ X2]|[X2 _]]; [auto|lra].
  - destruct X2 as [[X2 _]|[X2 X2']]; [left; auto|right]. split; [auto|]. apply X2', floor_spec. lra.
  - intros N HN. apply X3. apply nsamp_ok in HN. cbn [eye_mx mcols] in HN. rewrite HN. apply nsamp_draws.
  - intros i Hi. cbn [eye_mx mrows mcols] in Hi |- *. rewrite EY by auto. unfold g. rewrite (map_nth_in _ _ _ 0%nat) by (rewrite seq_length; auto). rewrite seq_nth by auto. reflexivity.
  - exists b. exact Hb.
Qed.

(** a tolerance less than one makes the maximal ranks irrelevant *)
Lemma omin_small a b x : a = Some x -> x < 1 -> (forall y, b = Some y -> 1 <= y) -> omin a b = Some x.
Proof. intros -> H HB. destruct b as [y|]; cbn; auto. specialize (HB y eq_refl). rewrite Rmin_left by lra. reflexivity. Qed.
Lemma local_small act x : x < 1 -> exists y, local_tol act [Some x] = [Some y] /\ y < 1.
Proof.
  intros H. cbn. destruct (Rlt_dec x 1); [|lra]. eexists. split; [reflexivity|]. set (k := (count_occ bool_dec act true - 1)%nat). destruct k as [|k].
  - cbn [INR]. rewrite sqrt_0. unfold Rdiv. rewrite Rinv_0. lra.
  - assert (HK : 1 <= INR (S k)) by (apply (le_INR 1); lia). assert (HS : 1 <= sqrt (INR (S k))) by (rewrite <- sqrt_1; apply sqrt_le_1; lra).
    apply (Rmult_lt_reg_r (sqrt (INR (S k)))); [lra|]. unfold Rdiv. rewrite Rmult_assoc, Rinv_l by lra. lra.
Qed.
Lemma nth_repeat_lt (n k : nat) (x d : option R) : (k < n)%nat -> nth k (repeat x n) d = x.
Proof. intros H. rewrite (nth_indep _ d x) by (rewrite repeat_length; auto). apply nth_repeat. Qed.
Lemma ofold_ext {A B} (g h : A -> B -> option A) : forall l s, (forall b a, In b l -> g a b = h a b) -> ofold g l s = ofold h l s.
Proof. induction l as [|b l IH]; intros s H; cbn; [reflexivity|]. rewrite (H b s) by (left; auto). destruct (h s b); [|reflexivity]. apply IH. intros b' a' Hb. apply H. right; auto. Qed.
Theorem max_rank_ignored svd L factor adaptive f shp x mr sub rnd choice t r oact : dim_tree t r -> length shp = length (d2i t) -> x < 1 -> length mr = 1%nat \/ length mr = nbn t -> (forall y, In (Some y) mr -> 1 <= y) ->
  tree_based_approximation svd L factor adaptive f shp [Some x] mr sub rnd choice t oact = tree_based_approximation svd L factor adaptive f shp [Some x] [None] sub rnd choice t oact.
Proof.
  intros T HD Hx HM H1. unfold tree_based_approximation. cbv zeta. set (act := match oact with None => _ | Some a => a end). destruct (local_small act x Hx) as (y & EY & Hy). rewrite EY.
  destruct (expand_ok (nbn t) mr HM) as [mr' E2]. rewrite E2. cbn [expand_param bind].
  assert (HO : forall n, node t n -> omin (nth (n - 1) (repeat (Some y) (nbn t)) None) (nth (n - 1) mr' None) = omin (nth (n - 1) (repeat (Some y) (nbn t)) None) (nth (n - 1) (repeat None (nbn t)) None)).
  { intros n Hn. unfold node in Hn. rewrite !nth_repeat_lt by lia. rewrite (omin_small (Some y) _ y eq_refl Hy); [reflexivity|]. rewrite (expand_nth _ _ _ n E2) by lia. intros z Hz. apply H1.
    unfold node_param in Hz. destruct mr as [|u [|v mr]]; [destruct (n - 1)%nat; discriminate|left; auto|]. destruct (Nat.lt_ge_cases (n - 1) (length (u :: v :: mr))) as [Hlt|Hge]; [|rewrite nth_overflow in Hz by auto; discriminate]. rewrite <- Hz. apply nth_In. auto. }
  set (st0 := PS _ _ _ _ _).
  rewrite (ofold_ext _ (leaf_step svd L factor adaptive f shp t act (repeat (Some y) (nbn t)) (repeat None (nbn t)) sub rnd choice) (seq 0 (length shp)) st0).
  - destruct (ofold _ (seq 0 (length shp)) st0) as [s1|]; [|reflexivity]. cbn [bind]. rewrite inner_filter.
    rewrite (ofold_ext _ (inner_step svd L factor adaptive f shp t (repeat (Some y) (nbn t)) (repeat None (nbn t)) rnd) _ s1); [reflexivity|].
    intros n s Hn. apply filter_In in Hn. destruct Hn as [Hn _]. apply (in_hsvd_nodes t r (proj1 T)) in Hn. unfold inner_step. rewrite HO by tauto. reflexivity.
  - intros nu s Hnu. apply in_seq in Hnu. unfold leaf_step. rewrite HO; [reflexivity|]. apply (d2i_node t r T). lia.
Qed.

(** draws that run through the whole grid, for the examples *)
Definition all_draws (s : list nat) (n : nat) : sampler := fun na N => map (fun j => ind2subF (sel 0%nat s na) (j mod prodn (sel 0%nat s na))) (seq 0 N).
Lemma all_draws_length s n na N : length (all_draws s n na N) = N.
Proof. unfold all_draws. rewrite map_length, seq_length. reflexivity. Qed.
Lemma all_draws_valid s n na N : Forall (fun m => (1 <= m)%nat) s -> Forall (fun k => (k < length s)%nat) na -> Forall (valid (sel 0%nat s na)) (all_draws s n na N).
Proof.
  intros HP HN. apply Forall_forall. intros q Hq. apply in_map_iff in Hq. destruct Hq as (j & <- & _). apply ind2subF_valid. apply Nat.mod_upper_bound.
  assert (0 < prodn (sel 0%nat s na))%nat; [|lia]. apply prodn_pos, Forall_forall. intros m Hm. unfold sel in Hm. apply in_map_iff in Hm. destruct Hm as (k & <- & Hk). rewrite Forall_forall in HP, HN. apply HP, nth_In, HN; auto.
Qed.
Lemma all_draws_span f s D n N : (prodn (sel 0%nat s (other_dims (length s) D)) <= N)%nat -> fibres_span f s D (all_draws s n (other_dims (length s) D) N).
Proof.
  intros HN is V. set (O := other_dims (length s) D) in *. assert (HO : Forall (fun k => (k < length s)%nat) O).
  { apply Forall_forall. intros k Hk. apply filter_In in Hk. destruct Hk as [Hk _]. apply in_seq in Hk. lia. }
  assert (ND : NoDup O) by (apply NoDup_filter, seq_NoDup). assert (VO : valid (sel 0%nat s O) (sel 0%nat is O)) by (apply sel_valid; auto). assert (HL := sub2indF_lt _ _ VO).
  set (k := sub2indF (sel 0%nat s O) (sel 0%nat is O)) in *. exists (fun j => if (j =? k)%nat then 1 else 0). intros p Vp. rewrite all_draws_length.
  rewrite (rsum_ext_R' _ _ (fun j => if (j =? k)%nat then f (TensorSpec.put D p (TensorSpec.put O (nth j (all_draws s n O N) []) is)) else 0)) by (intros; destruct (_ =? k)%nat; ring).
  rewrite PolyP5.rsum_pick. assert (Hk : (k < N)%nat) by lia. assert (Hk' := proj2 (Nat.ltb_lt k N) Hk). rewrite Hk'. unfold all_draws. rewrite (map_nth_in _ _ _ 0%nat) by (rewrite seq_length; auto). rewrite seq_nth by auto. cbn [Nat.add].
  rewrite Nat.mod_small by auto. unfold k. rewrite ind2subF_sub2indF by auto. rewrite put_sel; auto. rewrite (valid_length _ _ V). auto.
Qed.
