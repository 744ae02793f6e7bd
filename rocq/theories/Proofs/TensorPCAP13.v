(** the Tucker and tensor-train formats of the tensor principal component analysis. *)
From Coq Require Import List Arith Lia Bool Reals Permutation Lra.
From Verif.Base Require Import ListAux CRing Index RealAux LinAlg.
From Verif.Model Require Import Sorting Numpy FullTensor Diagonal Canonical DimensionTree TreeBased Truncator HSVD Functions Measures Learning DensityL2 MagicIndices AltMin TensorPCA.
From Verif.Spec Require Import TensorSpec TreeSpec TreeTensorSpec TruncatorSpec LearningSpec FunctionSpec MagicSpec PCASpec.
From Verif.Proofs Require Import NumpyP DimTreeP DimTreeP2 TreeTensorP TreeTensorP15 TreeCreateP4 TensorPCAP3 TensorPCAP4 TensorPCAP9 TensorPCAP10 TensorPCAP11 TensorPCAP12.
Import ListNotations.
Local Open Scope R_scope.

Lemma spread_fold (l : list (option R)) : forall (ns : list nat) a k, NoDup ns -> length l = length ns -> (forall n, In n ns -> (1 <= n <= length a)%nat) -> (k < length ns)%nat ->
  nth (nth k ns 0 - 1)%nat (fold_left (fun a p => ListAux.upd (fst p - 1)%nat (snd p) a) (combine ns l) a) None = nth k l None.
Proof.
  assert (HO : forall (l : list (option R)) ns a n, ~ In n ns -> (1 <= n)%nat -> (forall m, In m ns -> (1 <= m)%nat) ->
    nth (n - 1)%nat (fold_left (fun a p => ListAux.upd (fst p - 1)%nat (snd p) a) (combine ns l) a) None = nth (n - 1)%nat a None).
  { clear. intros l ns. revert l. induction ns as [|m ns IH]; intros l a n Hn H1 HM; [reflexivity|]. destruct l as [|x l]; [reflexivity|]. cbn [combine fold_left fst snd].
    rewrite IH; [|intros H; apply Hn; right; auto|auto|intros; apply HM; right; auto]. assert (Hm := HM m (or_introl eq_refl)). apply ListAux.nth_upd_neq. intros E. apply Hn. left. lia. }
  induction l as [|x l IH]; intros ns a k ND HL HB Hk; [destruct ns; cbn in *; lia|]. destruct ns as [|n ns]; [cbn in HL; lia|]. cbn [combine fold_left fst snd]. inversion ND as [|? ? N1 N2]; subst.
  assert (Hn := HB n (or_introl eq_refl)). destruct k as [|k]; cbn [nth].
  - rewrite HO; [apply ListAux.nth_upd_eq; lia|auto|lia|]. intros m Hm. apply HB. right; auto.
  - apply IH; [auto|cbn in HL; lia| |cbn in Hk; lia]. intros m Hm. rewrite upd_length. apply HB. right; auto.
Qed.
Lemma spread_length (l : list (option R)) : forall (ns : list nat) a, length (fold_left (fun a p => ListAux.upd (fst p - 1)%nat (snd p) a) (combine ns l) a) = length a.
Proof. induction l as [|x l IH]; intros ns a; destruct ns as [|n ns]; try reflexivity. cbn [combine fold_left]. rewrite IH, upd_length. reflexivity. Qed.
Lemma spread_nth N ns l l' k : spread_param N ns l = Some l' -> NoDup ns -> (forall n, In n ns -> (1 <= n <= N)%nat) -> (2 <= N)%nat -> (k < length ns)%nat -> node_param l' (nth k ns 0%nat) = node_param l (S k).
Proof.
  intros H ND HB HN Hk. unfold spread_param in H. assert (HC : (exists x, l = [x] /\ l' = l) \/ (length l = length ns /\ (length l <> 1)%nat /\ l' = fold_left (fun a p => ListAux.upd (fst p - 1)%nat (snd p) a) (combine ns l) (repeat (Some 0) N))).
  { destruct l as [|x [|y l]]; [right|left|right].
    - destruct (Nat.eqb_spec (length (@nil (option R))) (length ns)) as [E|E]; [|discriminate]. injection H as <-. split; [auto|]. split; [cbn; lia|reflexivity].
    - injection H as <-. eauto.
    - destruct (Nat.eqb_spec (length (x :: y :: l)) (length ns)) as [E|E]; [|discriminate]. injection H as <-. split; [auto|]. split; [cbn; lia|reflexivity]. }
  destruct HC as [(x & -> & ->)|(HL & H1 & ->)]; [reflexivity|].
  assert (LL := spread_length l ns (repeat (Some 0) N)). rewrite repeat_length in LL. assert (EN := spread_fold l ns (repeat (Some 0) N) k ND HL). rewrite repeat_length in EN. specialize (EN HB Hk).
  set (q := fold_left _ _ _) in *. unfold node_param at 1. destruct q as [|u [|v q]]; [cbn in LL; lia|cbn in LL; lia|]. rewrite EN. unfold node_param. replace (S k - 1)%nat with k by lia. destruct l as [|a [|b l]]; [reflexivity|exfalso; apply H1; reflexivity|reflexivity].
Qed.
Lemma exact_node_ext f s factor adaptive tol mr tol' mr' rnd n n' D m : node_param tol n = node_param tol' n' -> node_param mr n = node_param mr' n' ->
  exact_node f s factor adaptive tol mr rnd n D m -> exact_node f s factor adaptive tol' mr' rnd n' D m.
Proof. intros E1 E2. unfold exact_node. rewrite E1, E2. auto. Qed.

Section Formats.
  Variable svd : nd R -> nd R * list R * nd R.
  Hypothesis SV : svd_contract svd.
  Variable L : lapack.
  Hypothesis HL : lapack_ok L.
  Variables (factor : nat) (adaptive : bool) (f : list nat -> R) (shp : list nat) (tol mr : list (option R)) (rnd : nat -> sampler) (choice : nat -> nat -> nat -> list nat).
  Hypothesis H2 : (2 <= length shp)%nat.
  Hypothesis RN : forall n na N, length (rnd n na N) = N.
  Hypothesis RV : forall n na N, Forall (fun k => (k < length shp)%nat) na -> Forall (valid (sel 0%nat shp na)) (rnd n na N).
  Hypothesis CH : forall n m k, (k <= m)%nat -> length (choice n m k) = k /\ forall i, In i (choice n m k) -> (i < m)%nat.

  Theorem pca_tucker X st : tucker_approximation svd L factor adaptive f shp tol mr EIM rnd choice = Some (X, st) ->
    (forall a, (a < length shp)%nat -> exact_node f shp factor adaptive tol mr (rnd (a + 2)%nat) (S a) [a] (nth a shp 0%nat)) ->
    ttree X = dt_trivial (length shp) /\ returns (tb_full X) shp f.
  Proof.
    intros H HX. unfold tucker_approximation in H. cbv zeta in H. set (d := length shp) in *. destruct (spread_param (d + 1) (d2i (dt_trivial d)) tol) as [tol'|] eqn:E1; [|discriminate]. cbn [bind] in H.
    destruct (spread_param (d + 1) (d2i (dt_trivial d)) mr) as [mr'|] eqn:E2; [|discriminate]. cbn [bind] in H.
    assert (T : dim_tree (dt_trivial d) 1) by (apply dt_trivial_ok; lia). assert (ED : length shp = length (d2i (dt_trivial d))) by (cbn; rewrite seq_length; reflexivity).
    destruct (tree_interpolates svd L factor adaptive f shp tol' mr' EIM rnd choice _ 1 None X st SV HL T ED RN CH H) as (ET & OX & ES & _).
    split; [exact ET|]. apply (pca_exact svd L factor adaptive f shp tol' mr' rnd choice _ 1 None X st SV HL T ED H2 RN RV CH H).
    intros n Hn Hr HA. assert (Hn' : (2 <= n <= d + 1)%nat) by (unfold node in Hn; cbn [nbn dt_trivial] in Hn; lia). set (a := (n - 2)%nat). assert (Ha : (a < d)%nat) by (unfold a; lia).
    assert (En : nth a (d2i (dt_trivial d)) 0%nat = n) by (cbn [d2i dt_trivial]; rewrite seq_nth by auto; unfold a; lia).
    assert (Hl : is_leaf (dt_trivial d) n = true) by (rewrite <- En; apply d2i_leaf; rewrite <- ED; exact Ha).
    assert (EDm : dims (dt_trivial d) n = [a]) by (rewrite <- En; apply (dims_of_leaf (dt_trivial d) 1 T); rewrite <- ED; exact Ha).
    assert (ND : NoDup (d2i (dt_trivial d))) by (cbn [d2i dt_trivial]; apply seq_NoDup). assert (HB : forall m, In m (d2i (dt_trivial d)) -> (1 <= m <= d + 1)%nat) by (intros m Hm; cbn [d2i dt_trivial] in Hm; apply in_seq in Hm; lia).
    assert (P1 := spread_nth _ _ _ _ a E1 ND HB ltac:(lia) ltac:(rewrite <- ED; exact Ha)). assert (P2 := spread_nth _ _ _ _ a E2 ND HB ltac:(lia) ltac:(rewrite <- ED; exact Ha)). rewrite En in P1, P2.
    assert (EH : prodn (heads X n) = nth a shp 0%nat).
    { rewrite (heads_leaf X 1 OX n) by (rewrite ?ET; auto). rewrite <- ES. unfold tb_shape. rewrite ET, (map_nth_in _ _ _ 0%nat) by (rewrite <- ED; exact Ha). rewrite En. unfold tb_size. rewrite HA. cbn [prodn fold_right]. lia. }
    rewrite EDm, EH. specialize (HX a Ha). replace (a + 2)%nat with n in HX by (unfold a; lia). eapply exact_node_ext; [| |exact HX]; auto.
  Qed.
  (** the spine of the linear tree *)
  Lemma lin_dims d : (2 <= d)%nat -> forall j, (j < d)%nat -> dims (dt_linear d (seq 0 d)) (sp d j) = seq 0 (S j).
  Proof.
    intros Hd. assert (T := lin_V d Hd). assert (LD := lin_d2i_length d Hd). induction j as [|j IH]; intros Hj.
    - assert (E : sp d 0 = nth 0 (d2i (dt_linear d (seq 0 d))) 0%nat) by (rewrite lin_d2i by lia; unfold sp, lf; destruct (Nat.eqb_spec 0 (d - 1)); cbn [Nat.eqb]; lia).
      rewrite E. apply (dims_of_leaf _ 1 T). rewrite LD. lia.
    - assert (EC := lin_children d Hd (S j) ltac:(lia)). replace (S j - 1)%nat with j in EC by lia.
      assert (Hl : is_leaf (dt_linear d (seq 0 d)) (sp d (S j)) = false).
      { destruct (is_leaf _ (sp d (S j))) eqn:El; auto. rewrite (proj1 (leaf_children _ 1 T _ (sp_node d Hd (S j) Hj)) El) in EC. discriminate. }
      rewrite (dims_internal _ 1 T) by (auto; apply sp_node; auto). rewrite EC. cbn [flat_map map concat]. rewrite IH by lia.
      assert (E : lf d (S j) = nth (S j) (d2i (dt_linear d (seq 0 d))) 0%nat) by (rewrite lin_d2i by lia; reflexivity). rewrite E, (dims_of_leaf _ 1 T) by (rewrite LD; lia).
      cbn [app]. replace (S (S j)) with (S j + 1)%nat by lia. rewrite seq_app. reflexivity.
  Qed.
  Lemma off_fold : forall (l : list nat) (a : list bool) n, (1 <= n <= length a)%nat -> (forall m, In m l -> (1 <= m)%nat) ->
    nth (n - 1) (fold_left (fun a n => ListAux.upd (n - 1)%nat false a) l a) false = if existsb (Nat.eqb n) l then false else nth (n - 1) a false.
  Proof.
    induction l as [|m l IH]; intros a n Hn HM; [reflexivity|]. cbn [fold_left existsb]. assert (Hm := HM m (or_introl eq_refl)). rewrite IH; [|rewrite upd_length; auto|intros; apply HM; right; auto].
    destruct (existsb (Nat.eqb n) l); [rewrite orb_true_r; reflexivity|]. rewrite orb_false_r. destruct (Nat.eqb_spec n m) as [->|Hne]; [apply ListAux.nth_upd_eq; lia|apply ListAux.nth_upd_neq; lia].
  Qed.
  Lemma filter_even (p : nat -> bool) : forall m, p 1%nat = true -> (forall i, (1 <= i <= m)%nat -> p (2 * i)%nat = true /\ p (2 * i + 1)%nat = false) ->
    filter p (seq 1 (2 * m + 1)) = 1%nat :: map (fun i => (2 * i)%nat) (seq 1 m).
  Proof.
    induction m as [|m IH]; intros H1 HI; [cbn; rewrite H1; reflexivity|]. replace (2 * S m + 1)%nat with ((2 * m + 1) + 2)%nat by lia. rewrite seq_app, filter_app, IH; [|auto|intros; apply HI; lia].
    destruct (HI (S m) ltac:(lia)) as [A B]. replace (1 + (2 * m + 1))%nat with (2 * S m)%nat by lia. cbn [seq filter]. rewrite A. replace (S (2 * S m)) with (2 * S m + 1)%nat by lia. rewrite B.
    change (seq 1 (S m)) with (1%nat :: seq 2 m). change (1%nat :: seq 2 m) with (seq 1 (S m)). rewrite (seq_S m 1), map_app. reflexivity.
  Qed.
  Lemma tt_rep d : (2 <= d)%nat -> let t := dt_linear d (seq 0 d) in let act := fold_left (fun a n => ListAux.upd (n - 1)%nat false a) (tl (d2i t)) (repeat true (nbn t)) in
    rev (tl (filter (fun n => nth (n - 1) act false) (nodes t))) = rev (map (fun i => (2 * i)%nat) (seq 1 (d - 1))) /\ (forall j, (1 <= j < d)%nat -> nth (lf d j - 1) act false = false).
  Proof.
    intros Hd t act. assert (LD := lin_d2i_length d Hd). fold t in LD.
    assert (HD : forall n, In n (tl (d2i t)) <-> exists j, (1 <= j < d)%nat /\ n = lf d j).
    { intros n. destruct (d2i t) as [|x l] eqn:E; [cbn in LD; lia|]. cbn [tl]. cbn in LD. assert (EL : forall j, (j < length l)%nat -> nth j l 0%nat = lf d (S j)).
      { intros j Hj. assert (E2 := lin_d2i d Hd (S j) ltac:(lia)). fold t in E2. rewrite E in E2. exact E2. }
      split; [intros Hn; destruct (In_nth l n 0%nat Hn) as (j & Hj & <-); exists (S j); rewrite EL by auto; split; [lia|reflexivity]|].
      intros (j & Hj & ->). destruct j as [|j]; [lia|]. rewrite <- (EL j) by lia. apply nth_In. lia. }
    assert (HA : forall n, (1 <= n <= 2 * d - 1)%nat -> nth (n - 1) act false = negb (existsb (Nat.eqb n) (tl (d2i t)))).
    { intros n Hn. unfold act. assert (EN : nbn t = (2 * d - 1)%nat) by reflexivity. rewrite off_fold.
      - rewrite EN. destruct (existsb _ _); [reflexivity|]. cbn [negb]. rewrite (nth_indep _ false true) by (rewrite repeat_length; lia). apply nth_repeat.
      - rewrite repeat_length, EN. exact Hn.
      - intros m Hm. apply HD in Hm. destruct Hm as (j & Hj & ->). unfold lf. destruct (j =? 0)%nat; lia. }
    assert (HT : forall n, (1 <= n <= 2 * d - 1)%nat -> (exists j, (1 <= j < d)%nat /\ n = lf d j) -> nth (n - 1) act false = false).
    { intros n Hn HJ. rewrite HA by auto. apply negb_false_iff. apply existsb_exists. exists n. split; [apply HD; exact HJ|apply Nat.eqb_refl]. }
    split.
    - f_equal. unfold nodes. change (nbn t) with (2 * d - 1)%nat. replace (2 * d - 1)%nat with (2 * (d - 1) + 1)%nat by lia. rewrite filter_even; [reflexivity| |].
      + rewrite HA by lia. apply negb_true_iff. destruct (existsb _ _) eqn:E; auto. apply existsb_exists in E. destruct E as (x & Hx & E). apply Nat.eqb_eq in E. subst x. apply HD in Hx. destruct Hx as (j & Hj & E). unfold lf in E. destruct (Nat.eqb_spec j 0); lia.
      + intros i Hi. split.
        * rewrite HA by lia. apply negb_true_iff. destruct (existsb _ _) eqn:E; auto. apply existsb_exists in E. destruct E as (x & Hx & E). apply Nat.eqb_eq in E. subst x. apply HD in Hx. destruct Hx as (j & Hj & E). unfold lf in E. destruct (Nat.eqb_spec j 0); lia.
        * apply HT; [lia|]. exists (d - i)%nat. split; [lia|]. unfold lf. destruct (Nat.eqb_spec (d - i) 0); lia.
    - intros j Hj. apply HT; [unfold lf; destruct (Nat.eqb_spec j 0); lia|eauto].
  Qed.
  Theorem pca_tt X st : tt_approximation svd L factor adaptive f shp tol mr EIM rnd choice = Some (X, st) -> let d := length shp in
    (forall k, (k < d - 1)%nat -> exact_node f shp factor adaptive tol mr (rnd (2 * (d - 1 - k))%nat) (S k) (seq 0 (S k)) (prodn (heads X (2 * (d - 1 - k))%nat))) ->
    ttree X = dt_linear d (seq 0 d) /\ (forall j, (1 <= j < d)%nat -> active X (nth j (d2i (dt_linear d (seq 0 d))) 0%nat) = false) /\ returns (tb_full X) shp f.
  Proof.
    intros H d HX. unfold tt_approximation in H. cbv zeta in H. fold d in H. fold d in H2. destruct (tt_rep d H2) as [ER HN]. cbv zeta in ER, HN. set (t := dt_linear d (seq 0 d)) in *.
    set (act := fold_left _ (tl (d2i t)) (repeat true (nbn t))) in *. rewrite ER in H. set (ns := rev (map (fun i => (2 * i)%nat) (seq 1 (d - 1)))) in *.
    destruct (spread_param (nbn t) ns tol) as [tol'|] eqn:E1; [|discriminate]. cbn [bind] in H. destruct (spread_param (nbn t) ns mr) as [mr'|] eqn:E2; [|discriminate]. cbn [bind] in H.
    assert (T : dim_tree t 1) by (apply lin_V; auto). assert (ED : length shp = length (d2i t)) by (symmetry; apply lin_d2i_length; auto).
    destruct (tree_interpolates svd L factor adaptive f shp tol' mr' EIM rnd choice t 1 (Some act) X st SV HL T ED RN CH H) as (ET & OX & ES & _).
    assert (HI : forall j, (1 <= j < d)%nat -> active X (lf d j) = false).
    { destruct (tree_inv _ _ _ _ _ _ _ _ _ _ _ _ _ _ _ H) as (act0 & tol2 & mr2 & s1 & s2 & F1 & F2 & EA & F3 & F4 & F5 & EX & HA). subst act0.
      destruct (run_state svd SV L HL factor adaptive f shp t 1 T ED act tol2 mr2 EIM rnd choice RN CH _ s1 s2 st eq_refl F3 F4 F5) as (_ & _ & G & _ & _).
      intros j Hj. rewrite EX. rewrite (act_leaf shp t 1 T ED act st G); [apply HN; auto| |unfold lf; destruct (Nat.eqb_spec j 0); lia].
      assert (E := lin_d2i d H2 j ltac:(lia)). fold t in E. rewrite <- E. apply d2i_leaf. rewrite <- ED. fold d. lia. }
    split; [exact ET|]. split; [intros j Hj; assert (E := lin_d2i d H2 j ltac:(lia)); fold t in E; rewrite E; auto|].
    apply (pca_exact svd L factor adaptive f shp tol' mr' rnd choice t 1 (Some act) X st SV HL T ED H2 RN RV CH H).
    intros n Hn Hr HA. destruct (lin_cases d H2 n Hn) as [(j & Hj & En)|(j & Hj & En)]; [|rewrite En, HI in HA by auto; discriminate].
    assert (Hj' : (j < d - 1)%nat) by (unfold sp in En; destruct (Nat.eqb_spec j (d - 1)); [congruence|lia]).
    assert (En' : n = (2 * (d - 1 - j))%nat) by (unfold sp in En; destruct (Nat.eqb_spec j (d - 1)); lia).
    assert (EK : nth j ns 0%nat = n).
    { unfold ns. rewrite rev_nth by (rewrite map_length, seq_length; lia). rewrite map_length, seq_length, (map_nth_in _ _ _ 0%nat) by (rewrite seq_length; lia). rewrite seq_nth by lia. lia. }
    assert (LN : length ns = (d - 1)%nat) by (unfold ns; rewrite rev_length, map_length, seq_length; reflexivity).
    assert (ND : NoDup ns) by (unfold ns; apply NoDup_rev, FinFun.Injective_map_NoDup; [intros x y Hxy; lia|apply seq_NoDup]).
    assert (HB : forall m, In m ns -> (1 <= m <= nbn t)%nat).
    { intros m Hm. unfold ns in Hm. apply in_rev in Hm. apply in_map_iff in Hm. destruct Hm as (i & <- & Hi). apply in_seq in Hi. change (nbn t) with (2 * d - 1)%nat. lia. }
    assert (HNB : (2 <= nbn t)%nat) by (change (nbn t) with (2 * d - 1)%nat; lia).
    assert (P1 := spread_nth _ _ _ _ j E1 ND HB HNB ltac:(lia)). assert (P2 := spread_nth _ _ _ _ j E2 ND HB HNB ltac:(lia)). rewrite EK in P1, P2.
    assert (EDm := lin_dims d H2 j Hj). rewrite <- En in EDm. fold t in EDm. rewrite EDm. specialize (HX j Hj'). rewrite <- En' in HX. eapply exact_node_ext; [| |exact HX]; auto.
  Qed.
End Formats.

Theorem tt_all_draws svd L factor f shp choice : svd_contract svd -> lapack_ok L -> (2 <= length shp)%nat -> Forall (fun m => (1 <= m)%nat) shp ->
  (prodn shp <= factor)%nat -> (forall n m k, (k <= m)%nat -> length (choice n m k) = k /\ forall i, In i (choice n m k) -> (i < m)%nat) ->
  exists X st, tt_approximation svd L factor false f shp [Some 0] [None] EIM (all_draws shp) choice = Some (X, st) /\ returns (tb_full X) shp f.
Proof.
  intros SV HL H2 HP HF CH. assert (RN := fun n na N => all_draws_length shp n na N). assert (RV := fun n na N => all_draws_valid shp n na N HP). set (d := length shp) in *.
  assert (HF1 : (1 <= factor)%nat) by (assert (0 < prodn shp)%nat by (apply prodn_pos; eapply Forall_impl; [|exact HP]; cbn; intros; lia); lia).
  assert (T : dim_tree (dt_linear d (seq 0 d)) 1) by (apply lin_V; auto). assert (ED : length shp = length (d2i (dt_linear d (seq 0 d)))) by (symmetry; apply lin_d2i_length; auto).
  set (act := fold_left (fun a n => ListAux.upd (n - 1)%nat false a) (tl (d2i (dt_linear d (seq 0 d)))) (repeat true (nbn (dt_linear d (seq 0 d))))).
  destruct (tree_succeeds svd L factor false f shp [Some 0] [None] (all_draws shp) choice _ 1 (Some act) SV HL T ED H2 HP HF1 RN RV CH) as (X & st & E); [left; reflexivity|left; reflexivity|intros; left; discriminate|].
  exists X, st. split; [exact E|].
  apply (pca_exact svd L factor false f shp [Some 0] [None] (all_draws shp) choice _ 1 (Some act) X st SV HL T ED H2 RN RV CH E).
  intros n Hn Hr HA. exists 0. split; [split; [left; reflexivity|split; [intros y Hy; injection Hy as <-; lra|intros y Hy; discriminate]]|].
  split; [left; split; [lra|reflexivity]|]. intros N [HN _]. specialize (HN ltac:(lra)). rewrite HN. apply all_draws_span.
  assert (HM := pca_heads svd L factor false f shp [Some 0] [None] EIM (all_draws shp) choice _ 1 (Some act) X st SV HL T ED RN CH E HP n Hn Hr HA).
  assert (HB := prodn_other shp (dims (dt_linear d (seq 0 d)) n) HP). nia.
Qed.
Theorem tucker_all_draws svd L factor f shp choice : svd_contract svd -> lapack_ok L -> (2 <= length shp)%nat -> Forall (fun m => (1 <= m)%nat) shp ->
  (prodn shp <= factor)%nat -> (forall n m k, (k <= m)%nat -> length (choice n m k) = k /\ forall i, In i (choice n m k) -> (i < m)%nat) ->
  exists X st, tucker_approximation svd L factor false f shp [Some 0] [None] EIM (all_draws shp) choice = Some (X, st) /\ returns (tb_full X) shp f.
Proof.
  intros SV HL H2 HP HF CH. apply (pca_all_draws svd L factor f shp choice (dt_trivial (length shp)) 1); auto; [apply dt_trivial_ok; lia|]. cbn. rewrite seq_length. reflexivity.
Qed.
