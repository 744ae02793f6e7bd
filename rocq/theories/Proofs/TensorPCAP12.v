(** bounds on the ranks computed by the tensor principal component analysis. *)
From Coq Require Import List Arith Lia Bool Reals Permutation Lra.
From Verif.Base Require Import ListAux CRing Index RealAux LinAlg.
From Verif.Model Require Import Sorting Numpy FullTensor Diagonal Canonical DimensionTree TreeBased Truncator HSVD Functions Measures Learning DensityL2 MagicIndices AltMin TensorPCA.
From Verif.Spec Require Import TensorSpec TreeSpec TreeTensorSpec TruncatorSpec LearningSpec FunctionSpec MagicSpec PCASpec.
From Verif.Proofs Require Import NumpyP DimTreeP TreeTensorP TreeTensorP15 HsvdP2 TensorPCAP1 TensorPCAP2 TensorPCAP3 TensorPCAP4 TensorPCAP5 TensorPCAP7 TensorPCAP9 TensorPCAP10 TensorPCAP11.
From Verif.Model Require Import Learning.
Import ListNotations.
Local Open Scope R_scope.

Section PcRank.
  Variable svd : nd R -> nd R * list R * nd R.
  Hypothesis SV : svd_contract svd.
  Variable L : lapack.
  Variables (factor : nat) (adaptive : bool) (f : list nat -> R) (shp : list nat).

  Lemma pc_rank A m n x r : shape A = [m; n] -> principal_components svd A (Some x) = Some r -> 1 <= x -> (mcols (fst r) <= floor_nat x)%nat.
  Proof.
    intros HS H Hx. destruct (pc_some svd SV A m n (Some x) r HS H) as (k & E & _ & _ & E2 & _). rewrite E2. destruct (Rlt_dec (INR m) x) as [H1|H1].
    - destruct (floor_spec x ltac:(lra)) as [F1 F2]. assert (INR m < INR (floor_nat x + 1)) by (rewrite plus_INR; cbn [INR]; lra). apply INR_lt in H0. lia.
    - unfold pc_par in E. destruct (Rlt_dec (INR m) x); [lra|]. unfold pc_trunc in E. destruct (Rlt_dec x 1); [lra|]. unfold trunc_rank in E. cbn [max_rank thresholding_parameter min_opt] in E.
      injection E as E. lia.
  Qed.
  Lemma alpha_rank alpha x B I rnd r : alpha_pc svd L factor adaptive f shp alpha (Some x) B I rnd = Some r -> 1 <= x -> (mcols (po_pc r) <= floor_nat x)%nat.
  Proof.
    intros H Hx. unfold alpha_pc in H. destruct (pca_samples factor (Some x) B) as [N|]; [|discriminate]. cbn [bind] in H.
    assert (HL : lt1 (Some x) = false) by (unfold lt1; destruct (Rlt_dec x 1); [lra|reflexivity]). rewrite HL in H. cbn [andb] in H.
    destruct (g_array _) as [g|]; [|discriminate]. cbn [bind] in H. destruct (TensorPCA.columns _ g) as [q|]; [|discriminate]. cbn [bind] in H.
    destruct (np_reshapeF _ _) as [A|]; [|discriminate]. cbn [bind] in H. destruct (solve_mat L B (to_mx A)) as [X|]; [|discriminate]. cbn [bind] in H.
    destruct (principal_components svd (nd_of X) (Some x)) as [c|] eqn:EC; [|discriminate]. cbn [bind] in H. injection H as <-. cbn [po_pc].
    exact (pc_rank (nd_of X) (mrows X) (mcols X) x c eq_refl EC Hx).
  Qed.

  Variables (t : dtree) (r : nat).
  Hypothesis T : dim_tree t r.
  Hypothesis HD : length shp = length (d2i t).
  Variables (act : list bool) (tol mr : list (option R)) (sub : subsampling) (rnd : nat -> sampler) (choice : nat -> nat -> nat -> list nat).
  Let V : rooted_tree t r := proj1 T.
  Notation lstep := (leaf_step svd L factor adaptive f shp t act tol mr sub rnd choice).
  Notation istep := (inner_step svd L factor adaptive f shp t tol mr rnd).

  Definition rk (st : pca_state) (n : nat) : Prop := (is_leaf t n = true -> nth (n - 1) act false = true) ->
    forall x, omin (nth (n - 1) tol None) (nth (n - 1) mr None) = Some x -> 1 <= x -> (mcols (nthb st n) <= floor_nat x)%nat.
  Definition nb (st : pca_state) : Prop := length (ps_basis st) = nbn t.
  Definition stepok (st : pca_state) (n : nat) (st' : pca_state) : Prop := nb st' /\ rk st' n /\ forall m, node t m -> m <> n -> nthb st' m = nthb st m.

  Lemma upd_ok st n B C g k q : nb st -> node t n -> rk (PS C (ListAux.upd (n - 1)%nat B (ps_basis st)) g k q) n -> stepok st n (PS C (ListAux.upd (n - 1)%nat B (ps_basis st)) g k q).
  Proof.
    intros HN Hn HR. unfold stepok, nb. cbn [ps_basis]. rewrite upd_length. split; [exact HN|]. split; [exact HR|]. intros m Hm Hmn. unfold nthb. cbn [ps_basis]. unfold node in *. apply ListAux.nth_upd_neq. lia.
  Qed.
  Lemma nthb_upd st n B C g k q : nb st -> node t n -> nthb (PS C (ListAux.upd (n - 1)%nat B (ps_basis st)) g k q) n = B.
  Proof. intros HN Hn. unfold nthb. cbn [ps_basis]. unfold node, nb in *. apply ListAux.nth_upd_eq. lia. Qed.
  Lemma lstep_ok st nu st' : nb st -> (nu < length (d2i t))%nat -> lstep st nu = Some st' -> stepok st (nth nu (d2i t) 0%nat) st'.
  Proof.
    intros HN Hnu H. set (n := nth nu (d2i t) 0%nat). assert (Hn : node t n) by exact (d2i_node t r T nu Hnu). assert (Hl : is_leaf t n = true) by (apply d2i_leaf; auto).
    unfold leaf_step in H. fold n in H. destruct (nth (n - 1) act false) eqn:EA.
    - destruct (alpha_pc _ _ _ _ _ _ _ _ _ _ _) as [p|] eqn:EP; [|discriminate]. cbn [bind] in H. destruct (np_reshapeF _ _) as [C|]; [|discriminate]. cbn [bind] in H.
      set (B' := matmul _ (po_pc p)) in *. destruct (match sub with EIM => _ | Random => _ end) as [Is|]; [|discriminate]. cbn [bind] in H. injection H as <-. unfold TensorPCA.put.
      apply upd_ok; auto. intros _ x HX Hx. rewrite nthb_upd by auto. cbn [MagicIndices.take_rows mcols]. unfold B'. cbn [matmul mcols]. rewrite HX in EP. exact (alpha_rank _ _ _ _ _ _ EP Hx).
    - injection H as <-. apply upd_ok; auto. intros H. specialize (H Hl). congruence.
  Qed.
  Lemma istep_ok st n st' : nb st -> node t n -> istep st n = Some st' -> stepok st n st'.
  Proof.
    intros HN Hn H. unfold inner_step in H. destruct (tensor_product_bases _) as [B|]; [|discriminate]. cbn [bind] in H. destruct (g_array _) as [g|]; [|discriminate]. cbn [bind] in H.
    destruct (alpha_pc _ _ _ _ _ _ _ _ _ _ _) as [p|] eqn:EP; [|discriminate]. cbn [bind] in H. destruct (np_reshapeF _ _) as [C|]; [|discriminate]. cbn [bind] in H.
    set (B' := matmul _ (po_pc p)) in *. destruct (magic_indices L B' None LeftRight) as [IJ|]; [|discriminate]. cbn [bind] in H. injection H as <-. unfold TensorPCA.put.
    apply upd_ok; auto. intros _ x HX Hx. rewrite nthb_upd by auto. cbn [MagicIndices.take_rows mcols]. unfold B'. cbn [matmul mcols]. rewrite HX in EP. exact (alpha_rank _ _ _ _ _ _ EP Hx).
  Qed.
  Lemma rk_keep st n st' m : stepok st n st' -> node t m -> rk st m -> rk st' m.
  Proof. intros (S1 & S2 & S3) Hm R. destruct (Nat.eq_dec m n) as [->|Hmn]; [exact S2|]. unfold rk. rewrite S3 by auto. exact R. Qed.
  Lemma fold_rk (step : pca_state -> nat -> option pca_state) (key : nat -> nat) : forall l, (forall k, In k l -> node t (key k)) -> (forall st k st', In k l -> nb st -> step st k = Some st' -> stepok st (key k) st') ->
    forall st st', nb st -> ofold step l st = Some st' -> nb st' /\ (forall k, In k l -> rk st' (key k)) /\ (forall m, node t m -> rk st m -> rk st' m).
  Proof.
    induction l as [|k l IH]; intros HK HS st st' HN H; cbn in H.
    - injection H as <-. split; [auto|]. split; [intros k []|auto].
    - destruct (step st k) as [s1|] eqn:E; [|discriminate]. assert (S1 := HS st k s1 (or_introl eq_refl) HN E).
      destruct (IH (fun k' H' => HK k' (or_intror H')) (fun a b c H' => HS a b c (or_intror H')) s1 st' (proj1 S1) H) as (A1 & A2 & A3).
      split; [auto|]. split.
      + intros k' [<-|Hk']; [|auto]. apply A3; [apply HK; left; auto|apply S1].
      + intros m Hm R. apply A3; auto. exact (rk_keep _ _ _ _ S1 Hm R).
  Qed.
  Lemma run_rk st0 s1 s2 st : nb st0 -> ofold lstep (seq 0 (length shp)) st0 = Some s1 -> ofold istep (inner_nodes t) s1 = Some s2 -> root_step L f shp t s2 = Some st ->
    forall n, node t n -> n <> r -> rk st n.
  Proof.
    intros N0 E1 E2 E3 n Hn Hr.
    destruct (fold_rk lstep (fun nu => nth nu (d2i t) 0%nat) (seq 0 (length shp))) with (st := st0) (st' := s1) as (A1 & A2 & A3); auto.
    { intros nu Hnu. apply in_seq in Hnu. apply (d2i_node t r T). lia. } { intros a nu b Hnu. apply in_seq in Hnu. intros. apply lstep_ok; auto. lia. }
    rewrite inner_filter in E2. set (inn := filter (fun n => negb (is_leaf t n)) (hsvd_nodes t)) in *.
    assert (NI : forall k, In k inn -> node t k) by (intros k Hk; apply filter_In in Hk; destruct Hk as [Hk _]; apply (in_hsvd_nodes t r V) in Hk; tauto).
    destruct (fold_rk istep (fun k => k) inn) with (st := s1) (st' := s2) as (B1 & B2 & B3); auto. { intros a k b Hk. intros. apply istep_ok; auto. }
    assert (R2 : rk s2 n).
    { destruct (is_leaf t n) eqn:Hl.
      - apply B3; auto. destruct (leaf_index t n Hl) as [H1 H2]. rewrite <- H2. apply A2, in_seq. rewrite HD. lia.
      - apply B2, filter_In. rewrite Hl. split; [|auto]. apply (in_hsvd_nodes t r V). auto. }
    unfold root_step in E3. destruct (tensor_product_bases _) as [B|]; [|discriminate]. cbn [bind] in E3. destruct (g_array _) as [g|]; [|discriminate]. cbn [bind] in E3.
    destruct (TensorPCA.columns _ g) as [q|]; [|discriminate]. cbn [bind] in E3. destruct (negb _); [discriminate|]. destruct (l_solve L B _) as [x|]; [|discriminate]. cbn [bind] in E3.
    destruct (np_reshapeF _ _) as [C|]; [|discriminate]. cbn [bind] in E3. injection E3 as <-. exact R2.
  Qed.
End PcRank.

Theorem pca_ranks svd L factor adaptive f shp tol mr sub rnd choice t r oact X st : svd_contract svd -> lapack_ok L -> dim_tree t r -> length shp = length (d2i t) ->
  (forall n na N, length (rnd n na N) = N) -> (forall n m k, (k <= m)%nat -> length (choice n m k) = k /\ forall i, In i (choice n m k) -> (i < m)%nat) ->
  tree_based_approximation svd L factor adaptive f shp tol mr sub rnd choice t oact = Some (X, st) ->
  forall n, node t n -> n <> r -> active X n = true -> (1 <= tb_rank X n)%nat /\ forall x, least_of (node_param tol n) (node_param mr n) x -> 1 <= x -> INR (tb_rank X n) <= x.
Proof.
  intros SV HL T HD RN CH H n Hn Hr Ha. assert (HI := tree_interpolates svd L factor adaptive f shp tol mr sub rnd choice t r oact X st SV HL T HD RN CH H). destruct HI as (_ & _ & _ & _ & _ & _ & HG & _).
  destruct (HG n Hn Hr) as [_ HK]. specialize (HK Ha).
  destruct (tree_inv _ _ _ _ _ _ _ _ _ _ _ _ _ _ _ H) as (act & tol' & mr' & s1 & s2 & E1 & E2 & EA & E3 & E4 & E5 & EX & HA).
  destruct (run_state svd SV L HL factor adaptive f shp t r T HD act tol' mr' sub rnd choice RN CH _ s1 s2 st eq_refl E3 E4 E5) as (Hl & HLn & G & RD & HN).
  assert (AL := fun Hlf => act_leaf shp t r T HD act st G n Hlf Hr). rewrite <- EX in AL.
  destruct (G n Hn Hr) as (G1 & G2 & _ & G4). assert (ER : tb_rank X n = mcols (nthb st n)) by lia. rewrite ER. split.
  - destruct (is_leaf t n) eqn:El; [|apply G4]. unfold leafdata in G4. rewrite <- (AL eq_refl), Ha in G4. apply G4.
  - intros x HX Hx. destruct (local_least act tol mr n x HX) as (x' & Y1 & Y2 & Y3); [tauto|]. assert (Ex : x' = x) by (apply Y3; lra). subst x'.
    destruct (floor_spec x ltac:(lra)) as [F1 _]. apply Rle_trans with (INR (floor_nat x)); [|exact F1]. apply le_INR.
    refine (run_rk svd SV L factor adaptive f shp t r T HD act tol' mr' sub rnd choice (PS _ _ _ _ _) s1 s2 st _ E3 E4 E5 n Hn Hr _ x _ Hx).
    + unfold nb. cbn [ps_basis]. apply repeat_length.
    + intros Hlf. rewrite <- (AL Hlf). exact Ha.
    + unfold node in Hn. rewrite (expand_nth _ _ _ n E1), (expand_nth _ _ _ n E2) by lia. apply omin_least; auto.
Qed.

(** the numbers of unknown coefficients are positive *)
Theorem pca_heads svd L factor adaptive f shp tol mr sub rnd choice t r oact X st : svd_contract svd -> lapack_ok L -> dim_tree t r -> length shp = length (d2i t) ->
  (forall n na N, length (rnd n na N) = N) -> (forall n m k, (k <= m)%nat -> length (choice n m k) = k /\ forall i, In i (choice n m k) -> (i < m)%nat) ->
  tree_based_approximation svd L factor adaptive f shp tol mr sub rnd choice t oact = Some (X, st) -> Forall (fun m => (1 <= m)%nat) shp ->
  forall n, node t n -> n <> r -> active X n = true -> (1 <= prodn (heads X n))%nat.
Proof.
  intros SV HL T HD RN CH H HP n Hn Hr Ha. assert (HR := pca_ranks svd L factor adaptive f shp tol mr sub rnd choice t r oact X st SV HL T HD RN CH H).
  destruct (tree_interpolates svd L factor adaptive f shp tol mr sub rnd choice t r oact X st SV HL T HD RN CH H) as (ET & OX & ES & _).
  assert (HS : forall m, is_leaf t m = true -> (1 <= tb_size X m)%nat).
  { intros m Hm. assert (E : nth (index_of m (d2i t)) (tb_shape X) 0%nat = tb_size X m) by (rewrite <- ET in Hm |- *; eapply tb_shape_leaf; eauto). rewrite <- E, ES. destruct (leaf_index t m Hm) as [H1 _]. rewrite Forall_forall in HP. apply HP, nth_In. lia. }
  assert (0 < prodn (heads X n))%nat; [|lia]. apply prodn_pos. destruct (is_leaf t n) eqn:El.
  - rewrite (heads_leaf X r OX n) by (rewrite ?ET; auto). constructor; [|constructor]. specialize (HS n El). unfold tb_size in HS. rewrite Ha in HS. lia.
  - rewrite (heads_internal X r OX n) by (rewrite ?ET; auto). rewrite ET. apply Forall_forall. intros x Hx. apply in_map_iff in Hx. destruct Hx as (c & <- & Hc). apply in_children in Hc; auto.
    destruct (child_ne_root t r T n c Hc) as [c1 c2]. rewrite (csize_rank X r c OX) by (rewrite ?ET; auto). destruct (active X c) eqn:Ec; [destruct (HR c c1 c2 Ec); lia|].
    destruct (is_leaf t c) eqn:El2; [specialize (HS c El2); lia|]. exfalso. assert (active X c = true); [|congruence]. destruct OX as (_ & _ & _ & OX). rewrite ET in OX. apply (OX c c1). auto.
Qed.

(** all the draws: the call reproduces f *)
Lemma prodn_other s D : Forall (fun m => (1 <= m)%nat) s -> (prodn (sel 0%nat s (other_dims (length s) D)) <= prodn s)%nat.
Proof.
  intros HP. unfold other_dims. assert (HF : forall l, (forall k, In k l -> (k < length s)%nat) -> (prodn (sel 0%nat s (filter (fun k => negb (existsb (Nat.eqb k) D)) l)) <= prodn (sel 0%nat s l))%nat).
  { induction l as [|k l IH]; intros Hl; cbn [filter]; [cbn; lia|]. assert (IH' := IH (fun x Hx => Hl x (or_intror Hx))). assert (1 <= nth k s 0)%nat by (rewrite Forall_forall in HP; apply HP, nth_In, Hl; left; auto).
    destruct (negb _); unfold sel in *; cbn [map]; cbn [prodn fold_right] in *; nia. }
  specialize (HF (seq 0 (length s))). assert (ES : sel 0%nat s (seq 0 (length s)) = s) by (apply sel_seq).
  rewrite ES in HF. apply HF. intros k Hk. apply in_seq in Hk. lia.
Qed.
Theorem pca_all_draws svd L factor f shp choice t r : svd_contract svd -> lapack_ok L -> dim_tree t r -> length shp = length (d2i t) -> (2 <= length shp)%nat -> Forall (fun m => (1 <= m)%nat) shp ->
  (prodn shp <= factor)%nat -> (forall n m k, (k <= m)%nat -> length (choice n m k) = k /\ forall i, In i (choice n m k) -> (i < m)%nat) ->
  exists X st, tree_based_approximation svd L factor false f shp [Some 0] [None] EIM (all_draws shp) choice t None = Some (X, st) /\ returns (tb_full X) shp f.
Proof.
  intros SV HL T HD H2 HP HF CH. assert (RN := fun n na N => all_draws_length shp n na N). assert (RV := fun n na N => all_draws_valid shp n na N HP).
  assert (HF1 : (1 <= factor)%nat) by (assert (0 < prodn shp)%nat by (apply prodn_pos; eapply Forall_impl; [|exact HP]; cbn; intros; lia); lia).
  destruct (tree_succeeds svd L factor false f shp [Some 0] [None] (all_draws shp) choice t r None SV HL T HD H2 HP HF1 RN RV CH) as (X & st & E); [left; reflexivity|left; reflexivity|intros; left; discriminate|].
  exists X, st. split; [exact E|]. apply (pca_exact svd L factor false f shp [Some 0] [None] (all_draws shp) choice t r None X st SV HL T HD H2 RN RV CH E).
  intros n Hn Hr HA. exists 0. split; [split; [left; reflexivity|split; [intros y Hy; injection Hy as <-; lra|intros y Hy; discriminate]]|].
  split; [left; split; [lra|reflexivity]|]. intros N [HN _]. specialize (HN ltac:(lra)). rewrite HN. apply all_draws_span.
  assert (HM := pca_heads svd L factor false f shp [Some 0] [None] EIM (all_draws shp) choice t r None X st SV HL T HD RN CH E HP n Hn Hr HA).
  assert (HB := prodn_other shp (dims t n) HP). nia.
Qed.
