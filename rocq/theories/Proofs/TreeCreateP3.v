(** Tree-based tensors: the constructor create, tensors of zeros and ones. *)
From Coq Require Import List Arith Lia Bool ZArith Ring Permutation.
From Verif.Base Require Import ListAux CRing Index.
From Verif.Model Require Import Sorting Numpy FullTensor DimensionTree TreeBased TreeReduce TreeCreate.
From Verif.Spec Require Import TensorSpec TreeSpec TreeTensorSpec.
From Verif.Proofs Require Import NumpyP FullTensorP FullTensorP2 FullTensorP3 FullTensorP4 DimTreeP DimTreeP2 DimTreeP3 TreeTensorP TreeTensorP2 TreeTensorP3 TreeTensorP4 TreeTensorP5 TreeTensorP6 TreeTensorP7 TreeTensorP8 TreeTensorP9 TreeTensorP15.
Import ListNotations.

Lemma mask_nth (d s : list nat) n : NoDup d -> length s = length d -> In n d ->
  map snd (filter (fun p => fst p =? n) (combine d s)) = [nth (index_of n d) s 0].
Proof.
  revert s. induction d as [|x d IH]; intros s HND L Hin; [destruct Hin|]. destruct s as [|y s]; cbn in L; [lia|].
  inversion HND as [|x' d' Hx HND' E]; subst x' d'. cbn [combine filter fst]. destruct (Nat.eqb_spec x n) as [->|Hne].
  - cbn [map snd index_of]. rewrite Nat.eqb_refl. cbn [nth]. f_equal.
    destruct (filter (fun p => fst p =? n) (combine d s)) as [|p l] eqn:E; auto. exfalso.
    assert (Hp : In p (filter (fun p => fst p =? n) (combine d s))) by (rewrite E; left; auto).
    apply filter_In in Hp. destruct Hp as [Hp Hq]. destruct p as [u v]. cbn in Hq. apply Nat.eqb_eq in Hq. subst u. apply in_combine_l in Hp. auto.
  - destruct Hin as [->|Hin]; [contradiction|]. rewrite (IH s HND') by (auto; lia). cbn [index_of].
    destruct (Nat.eqb_spec x n); [contradiction|]. auto.
Qed.

Section Count.
  Context {R : Type} {CR : CRing R}.
  Add Ring Rrcnt : rth.
  Local Open Scope cr_scope.
  (** a natural number in the ring *)
  Lemma count_mul (a b : nat) : rsum (a * b) (fun _ => r1) = rsum a (fun _ => r1) * rsum b (fun _ => r1) :> R.
  Proof.
    induction a as [|a IH]; [cbn; ring|]. change (S a * b)%nat with (b + a * b)%nat. rewrite rsum_add, IH. cbn [rsum]. ring.
  Qed.
  Lemma bsum_lprod (s : nat -> nat) (v : nat -> nat -> R) cs :
    bsum (map s cs) (fun ks => lprod (combine cs ks) (fun p => v (fst p) (snd p))) = lprod cs (fun c => rsum (s c) (v c)).
  Proof.
    induction cs as [|c cs IH]; cbn [map bsum combine lprod]; auto.
    rewrite <- IH. rewrite <- rsum_scal_r. apply rsum_ext. intros k Hk. cbn [fst snd]. rewrite <- bsum_scal_l. apply bsum_ext. auto.
  Qed.
End Count.

  Lemma root_internal t r (V : dim_tree t r) : (2 <= length (d2i t))%nat -> is_leaf t r = false.
  Proof.
    intros H2. pose proof (proj1 V) as T. destruct (is_leaf t r) eqn:El; auto. exfalso. pose proof (proj1 (leaf_iff t r V r) El) as [Hn Hc].
    assert (Hall : forall n, node t n -> n = r).
    { intros n Hn'. destruct (proj2 (proj2 (proj2 T)) n Hn') as [k Hk]. clear Hn'. induction Hk as [|p c k Hp IH He]; auto. subst p. exfalso. exact (Hc c He). }
    assert (Hnth : forall k, (k < length (d2i t))%nat -> nth k (d2i t) 0%nat = r).
    { intros k Hk. apply Hall. apply (leaf_node t r V). apply inb_spec. apply nth_In. auto. }
    assert (0%nat = 1%nat); [|discriminate].
    apply (proj1 (NoDup_nth (d2i t) 0%nat) (NoDup_d2i t r V)); try lia. rewrite !Hnth; auto; lia.
  Qed.

Section Create.
  Context {R : Type} {CR : CRing R}.
  Add Ring Rrcre : rth.
  Local Open Scope cr_scope.
  Variables (gen : list nat -> nd R) (t : dtree) (r : nat) (ranks sizes : list nat) (act : list bool).
  Hypothesis HG : forall s, shape (gen s) = s.
  Hypothesis V : dim_tree t r.
  Hypothesis H2 : (2 <= length (d2i t))%nat.
  Hypothesis LR : length ranks = nbn t.
  Hypothesis LS : length sizes = length (d2i t).
  Hypothesis LC : length act = nbn t.
  Local Notation rk := (fun n => nth (n - 1) ranks 0%nat).
  Local Notation ac := (fun n => nth (n - 1) act false).
  Local Notation m := (fun n => nth (index_of n (d2i t)) sizes 0%nat).
  Hypothesis HR : forall n, node t n -> ac n = true -> (1 <= rk n)%nat.
  Hypothesis HS : Forall (fun s => (1 <= s)%nat) sizes.
  Hypothesis HI : forall n, node t n -> is_leaf t n = false -> ac n = true.
  Let T : rooted_tree t r := proj1 V.
  Definition csz (n : nat) : nat := if ac n then rk n else m n.
  Definition cext : list nat := if (1 <? rk r)%nat then [rk r] else [].

  Lemma mask_leaf n : is_leaf t n = true -> map snd (filter (fun p => (fst p =? n)%nat) (combine (d2i t) sizes)) = [m n].
  Proof. intros Hl. apply mask_nth; [apply (NoDup_d2i t r V)|auto|apply inb_spec; auto]. Qed.
  Lemma m_pos n : is_leaf t n = true -> (1 <= m n)%nat.
  Proof. intros Hl. destruct (leaf_index t n Hl) as [L1 L2]. apply (proj1 (Forall_nth' _ sizes 0%nat) HS). rewrite LS. exact L1. Qed.
  Lemma csz_pos n : node t n -> (1 <= csz n)%nat.
  Proof.
    intros Hn. unfold csz. destruct (ac n) eqn:Ha; [apply HR; auto|]. apply m_pos. destruct (is_leaf t n) eqn:El; auto. rewrite (HI n Hn El) in Ha. discriminate.
  Qed.
  Lemma create_shape_internal n : node t n -> is_leaf t n = false ->
    create_shape t ranks sizes act n = Some (Some (map csz (children t n) ++ (if (n =? r)%nat then cext else [csz n]))).
  Proof.
    intros Hn El. unfold create_shape. rewrite (HI n Hn El), El. cbn [negb andb].
    rewrite (omap_some _ (fun c => [csz c])).
    - cbn [bind]. f_equal. f_equal. f_equal.
      + clear. induction (children t n); cbn; auto. rewrite IHl. auto.
      + rewrite (root_eq t r T). unfold cext, csz. destruct (Nat.eqb_spec n r) as [->|Hne]; cbn [negb orb]; auto. rewrite (HI n Hn El). auto.
    - intros c Hc. apply in_children' in Hc. destruct Hc as [Hc _]. unfold csz. destruct (ac c) eqn:Ha; auto.
      destruct (is_leaf t c) eqn:Elc; [rewrite (mask_leaf c Elc); auto|]. rewrite (HI c Hc Elc) in Ha. discriminate.
  Qed.
  Lemma create_shape_leaf n : is_leaf t n = true -> create_shape t ranks sizes act n = Some (if ac n then Some [m n; rk n] else None).
  Proof.
    intros El. unfold create_shape. rewrite El. cbn [negb]. rewrite andb_false_r. destruct (ac n); auto. rewrite (mask_leaf n El). auto.
  Qed.
  Theorem create_ok : exists Z, tb_create gen t ranks sizes act = Some Z /\ tb_ok Z r /\ ttree Z = t /\ tb_shape Z = sizes /\ exts Z r = cext /\
    (forall n, node t n -> active Z n = ac n) /\ (forall n, node t n -> tb_rank Z n = if ac n then rk n else 0%nat) /\
    (forall n, node t n -> ac n = true -> core Z n = gen (shape (core Z n))) /\
    (forall n, node t n -> is_leaf t n = false -> heads Z n = map csz (children t n)).
  Proof.
    set (f := fun n => let* s := create_shape t ranks sizes act n in Some (match s with Some s => gen s | None => no_core end)).
    destruct (omap_nodes f t) as (l & Hl & HL & HC).
    { intros n Hn. unfold f. destruct (is_leaf t n) eqn:El.
      - rewrite (create_shape_leaf n El). cbn [bind]. eauto.
      - rewrite (create_shape_internal n Hn El). cbn [bind]. eauto. }
    set (Z := TB t l).
    assert (CI : forall n, node t n -> is_leaf t n = false -> core Z n = gen (map csz (children t n) ++ (if (n =? r)%nat then cext else [csz n]))).
    { intros n Hn El. specialize (HC n Hn). unfold f in HC. rewrite (create_shape_internal n Hn El) in HC. cbn [bind] in HC. injection HC as HC. auto. }
    assert (CL : forall n, is_leaf t n = true -> core Z n = if ac n then gen [m n; rk n] else no_core).
    { intros n El. specialize (HC n (leaf_node t r V n El)). unfold f in HC. rewrite (create_shape_leaf n El) in HC. cbn [bind] in HC. injection HC as HC.
      unfold core, Z. cbn [cores]. rewrite <- HC. destruct (ac n); auto. }
    assert (ACT : forall n, node t n -> active Z n = ac n).
    { intros n Hn. destruct (is_leaf t n) eqn:El.
      - destruct (ac n) eqn:Ha.
        + apply active_prod. rewrite (CL n El), Ha, HG. cbn. pose proof (m_pos n El). pose proof (HR n Hn Ha). cbv beta in *. nia.
        + unfold active, activec. fold (core Z n). rewrite (CL n El), Ha. reflexivity.
      - rewrite (HI n Hn El). apply active_prod. rewrite (CI n Hn El), HG. intros E. apply prodn_zero in E. apply in_app_iff in E. destruct E as [E|E].
        + apply in_map_iff in E. destruct E as (c & E & Hc). apply in_children' in Hc. pose proof (csz_pos c (proj1 Hc)). lia.
        + destruct (Nat.eqb_spec n r) as [->|Hne].
          * unfold cext in E. destruct (Nat.ltb_spec 1 (rk r)); cbn in E; [|tauto]. destruct E as [E|[]]. lia.
          * destruct E as [E|[]]. pose proof (csz_pos n Hn). lia. }
    assert (P1 : length (cores Z) = nbn (ttree Z)) by exact HL.
    assert (P3 : (length cext <= 1)%nat) by (unfold cext; destruct (1 <? rk r)%nat; cbn; lia).
    assert (P5 : forall n, node (ttree Z) n -> is_leaf (ttree Z) n = false ->
      shape (core Z n) = map csz (children (ttree Z) n) ++ (if n =? r then cext else [csz n]) /\ active Z n = true).
    { intros n Hn El. cbn [ttree Z] in *. rewrite (CI n Hn El), HG, (ACT n Hn), (HI n Hn El). auto. }
    assert (P6 : forall n, is_leaf (ttree Z) n = true -> active Z n = true -> shape (core Z n) = [m n; csz n]).
    { intros n El Ha. cbn [ttree Z] in *. rewrite (ACT n (leaf_node t r V n El)) in Ha. rewrite (CL n El), Ha, HG. unfold csz. rewrite Ha. auto. }
    assert (P7 : forall n, is_leaf (ttree Z) n = true -> active Z n = false -> csz n = m n).
    { intros n El Ha. cbn [ttree Z] in *. rewrite (ACT n (leaf_node t r V n El)) in Ha. unfold csz. rewrite Ha. auto. }
    assert (Hr : node (ttree Z) r) by (exact (proj1 T)).
    pose proof (build_ok Z r csz m cext V P1 (root_internal t r V H2) P3 P5 P6) as OZ.
    exists Z. split; [|split; [|split; [|split; [|split; [|split; [|split; [|split]]]]]]].
    - unfold tb_create. rewrite LR, LS, LC, !Nat.eqb_refl. cbn [andb]. fold f. rewrite Hl. cbn [bind]. apply (tb_make_ok l t r). exact OZ.
    - exact OZ.
    - reflexivity.
    - rewrite (build_shape Z r csz m cext V P1 (root_internal t r V H2) P3 P5 P6 P7). cbn [ttree Z].
      apply nth_ext' with (d := 0%nat); [rewrite map_length; auto|]. rewrite map_length. intros k Hk. rewrite map_nth_in with (da := 0%nat) by auto.
      rewrite (index_of_NoDup (d2i t) k (NoDup_d2i t r V) Hk). auto.
    - rewrite (build_exts Z r csz cext P5 r Hr (root_internal t r V H2)), Nat.eqb_refl. auto.
    - exact ACT.
    - intros n Hn. destruct (Nat.eq_dec n r) as [->|Hne].
      + unfold tb_rank. cbn [ttree Z]. rewrite (root_internal t r V H2). rewrite (parent_root t r T). cbn [Nat.eqb negb orb].
        unfold ndim. destruct (P5 r Hr (root_internal t r V H2)) as [S5 _]. cbn [ttree Z] in S5. rewrite S5, Nat.eqb_refl, app_length, map_length.
        rewrite (HI r Hn (root_internal t r V H2)). pose proof (HR r Hn (HI r Hn (root_internal t r V H2))) as Hp. unfold cext. destruct (Nat.ltb_spec 1 (rk r)); cbn [length].
        * rewrite Nat.eqb_refl. apply last_last.
        * replace (length (children t r) + 0 =? length (children t r) + 1)%nat with false by (symmetry; apply Nat.eqb_neq; lia). cbv beta in *. lia.
      + rewrite <- (ACT n Hn). destruct (active Z n) eqn:Ha.
        * pose proof (csize_rank Z r n OZ Hn Hne) as E. rewrite Ha in E. rewrite <- E.
          rewrite (build_csize Z r csz m cext V P1 (root_internal t r V H2) P3 P5 P6 n Hn Hne). unfold csz. rewrite <- (ACT n Hn), Ha. auto.
        * unfold tb_rank. cbn [ttree Z]. destruct (is_leaf t n) eqn:El; [rewrite Ha; auto|]. rewrite (ACT n Hn), (HI n Hn El) in Ha. discriminate.
    - intros n Hn Ha. destruct (is_leaf t n) eqn:El; [rewrite (CL n El), Ha, HG; auto|rewrite (CI n Hn El), HG; auto].
    - intros n Hn El. apply (build_heads Z r csz cext P5 n Hn El).
  Qed.
End Create.

Section OnesZeros.
  Context {R : Type} {CR : CRing R}.
  Add Ring Rroz : rth.
  Local Open Scope cr_scope.
  Variables (t : dtree) (r : nat) (ranks sizes : list nat) (act : list bool).
  Hypothesis V : dim_tree t r.
  Hypothesis H2 : (2 <= length (d2i t))%nat.
  Hypothesis LR : length ranks = nbn t.
  Hypothesis LS : length sizes = length (d2i t).
  Hypothesis LC : length act = nbn t.
  Local Notation rk := (fun n => nth (n - 1) ranks 0%nat).
  Local Notation ac := (fun n => nth (n - 1) act false).
  Hypothesis HR : forall n, node t n -> ac n = true -> (1 <= rk n)%nat.
  Hypothesis HS : Forall (fun s => (1 <= s)%nat) sizes.
  Hypothesis HI : forall n, node t n -> is_leaf t n = false -> ac n = true.
  Let T : rooted_tree t r := proj1 V.

  Theorem zeros_val : exists Z, tb_create (fun s => ND s (fun _ => r0)) t ranks sizes act = Some Z /\ tb_ok Z r /\ ttree Z = t /\
    returns (tb_full Z) (sizes ++ cext r ranks) (fun _ => r0 : R).
  Proof.
    destruct (create_ok (fun s => ND s (fun _ => r0)) t r ranks sizes act (fun s => eq_refl) V H2 LR LS LC HR HS HI) as (Z & E & OZ & TZ & SZ & EZ & AZ & RZ & CZ & HZ).
    exists Z. split; auto. split; auto. split; auto. apply (full_returns Z r); auto.
    - unfold tb_order. rewrite TZ. auto.
    - rewrite SZ, EZ. auto.
    - intros is e Hi He. assert (Hr : node t r) by apply T. pose proof (root_internal t r V H2) as Hl.
      rewrite (tval_internal Z r (proj1 OZ)) by (rewrite TZ; auto). apply bsum_zero. intros ks Hk. rewrite (CZ r Hr (HI r Hr Hl)). cbn [get]. ring.
  Qed.

  Section Ones.
    Variable Z : tbt R.
    Hypothesis OZ : tb_ok Z r.
    Hypothesis TZ : ttree Z = t.
    Hypothesis SZ : tb_shape Z = sizes.
    Hypothesis AZ : forall n, node t n -> active Z n = ac n.
    Hypothesis CZ : forall n, node t n -> ac n = true -> core Z n = np_ones (shape (core Z n)).
    Hypothesis HZ : forall n, node t n -> is_leaf t n = false -> heads Z n = map (csz t ranks sizes act) (children t n).
    Lemma ones_tval fuel : forall n, node t n -> (nbn t <= fuel + level t n)%nat -> ac n = true -> forall is e, valid sizes is ->
      tval Z n is e = rsum (prodn (map rk (filter ac (desc_loop t fuel n)))) (fun _ => r1).
    Proof.
      induction fuel as [|f IH]; intros n Hn Hf Ha is e Hi; [pose proof (level_lt t r T n Hn); lia|].
      assert (VZ : dim_tree (ttree Z) r) by (rewrite TZ; exact V).
      destruct (is_leaf t n) eqn:El.
      - rewrite (tval_leaf Z r VZ) by (rewrite ?TZ; auto; rewrite AZ; auto). rewrite (CZ n Hn Ha). cbn [get np_ones desc_loop].
        replace (children t n) with (@nil nat); [cbn; ring|]. symmetry. destruct (children t n) as [|c l] eqn:Ec; auto. exfalso.
        assert (Hc : In c (children t n)) by (rewrite Ec; left; auto). apply in_children in Hc; auto. apply (proj2 (proj1 (leaf_iff t r V n) El) c Hc).
      - rewrite (tval_internal Z r VZ) by (rewrite ?TZ; auto). rewrite (HZ n Hn El), TZ, (CZ n Hn Ha). cbn [get np_ones].
        transitivity (lprod (children t n) (fun c => rsum (csz t ranks sizes act c) (fun k => tval Z c is [k]))).
        { rewrite <- (bsum_lprod (csz t ranks sizes act) (fun c k => tval Z c is [k])). apply bsum_ext. intros ks _. ring. }
        cbn [desc_loop].
        assert (G : forall cs, Forall (edge t n) cs -> lprod cs (fun c => rsum (csz t ranks sizes act c) (fun k => tval Z c is [k])) =
           rsum (prodn (map rk (filter ac (flat_map (fun c => c :: desc_loop t f c) cs)))) (fun _ => r1)).
        { induction 1 as [|c cs Hc Hcs IHc]; [cbn; ring|]. cbn [lprod flat_map]. rewrite IHc.
          rewrite filter_app, map_app, prodn_app, count_mul. f_equal. cbn [filter].
          assert (Hnc : node t c) by apply Hc. unfold csz. destruct (nth (c - 1) act false) eqn:Eac.
          - cbn [map prodn]. rewrite count_mul. rewrite <- rsum_scal_r. apply rsum_ext. intros k Hk.
            rewrite (IH c Hnc) by (auto; rewrite (level_edge t r T _ _ Hc); lia). ring.
          - assert (Elc : is_leaf t c = true) by (destruct (is_leaf t c) eqn:E; auto; rewrite (HI c Hnc E) in Eac; discriminate).
            assert (Ed : desc_loop t f c = []).
            { destruct f; [reflexivity|]. cbn [desc_loop]. destruct (children t c) as [|x l] eqn:Ec; auto. exfalso.
              assert (Hx : In x (children t c)) by (rewrite Ec; left; auto). apply in_children in Hx; auto. apply (proj2 (proj1 (leaf_iff t r V c) Elc) x Hx). }
            rewrite Ed. cbn [filter map prodn rsum].
            set (i := nth (index_of c (d2i t)) is 0%nat).
            assert (Hlt : (i < nth (index_of c (d2i t)) sizes 0)%nat).
            { unfold i. apply (valid_nth _ _ _ Hi). rewrite LS. apply (leaf_index t c Elc). }
            rewrite (rsum_ext _ _ (fun k => if Nat.eqb k i then r1 else r0)).
            + rewrite (rsum_delta _ i (fun _ => r1) Hlt). cbn. ring.
            + intros k Hk. rewrite (tval_inactive Z r VZ) by (rewrite ?TZ; auto; rewrite AZ; auto). rewrite TZ. cbn [list_eqb]. rewrite andb_true_r. auto. }
        apply G. apply Forall_forall. intros c Hc. apply in_children; auto.
    Qed.
  End Ones.
  Theorem ones_val : exists Z, tb_create np_ones t ranks sizes act = Some Z /\ tb_ok Z r /\ ttree Z = t /\
    returns (tb_full Z) (sizes ++ cext r ranks) (fun _ => rsum (prodn (map rk (filter (fun n => ac n && negb (n =? r)) (nodes t)))) (fun _ => r1) : R).
  Proof.
    destruct (create_ok np_ones t r ranks sizes act (fun s => eq_refl) V H2 LR LS LC HR HS HI) as (Z & E & OZ & TZ & SZ & EZ & AZ & RZ & CZ & HZ).
    exists Z. split; auto. split; auto. split; auto. apply (full_returns Z r); auto.
    - unfold tb_order. rewrite TZ. auto.
    - rewrite SZ, EZ. auto.
    - intros is e Hi He. assert (Hr : node t r) by apply T. pose proof (root_internal t r V H2) as Hl. rewrite SZ in Hi.
      rewrite (ones_tval Z TZ AZ CZ HZ (nbn t) r Hr ltac:(lia) (HI r Hr Hl) is e Hi).
      replace (prodn (map rk (filter (fun n => ac n && negb (n =? r)) (nodes t)))) with (prodn (map rk (filter ac (desc_loop t (nbn t) r)))); auto.
      destruct (desc_loop_spec t r T (nbn t) r Hr ltac:(lia)) as [ND1 IN1].
      assert (P : Permutation (filter ac (desc_loop t (nbn t) r)) (filter (fun n => ac n && negb (n =? r)) (nodes t))).
      { apply NoDup_Permutation; [apply NoDup_filter; auto|apply NoDup_filter; apply NoDup_nodes|].
        intros n. rewrite !filter_In, IN1, in_nodes, andb_true_iff, negb_true_iff, Nat.eqb_neq. split.
        - intros ((Hne & Hb) & Ha). split; auto. apply (below_node t r n Hr Hb).
        - intros (Hn & Ha & Hne). split; auto. split; auto. apply (proj2 (proj2 (proj2 T)) n Hn). }
      clear - P. induction P; cbn [map prodn]; auto; try congruence; lia.
  Qed.
End OnesZeros.
