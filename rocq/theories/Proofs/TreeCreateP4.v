(** Tree-based tensors: tensor trains. *)
From Coq Require Import List Arith Lia Bool ZArith Ring Permutation.
From Verif.Base Require Import ListAux CRing Index.
From Verif.Model Require Import Sorting Numpy FullTensor DimensionTree TreeBased TreeReduce TreeCreate.
From Verif.Spec Require Import TensorSpec TreeSpec TreeTensorSpec TrainSpec.
From Verif.Proofs Require Import NumpyP FullTensorP FullTensorP2 FullTensorP3 FullTensorP4 DimTreeP DimTreeP2 DimTreeP3 DimTreeP5 TreeTensorP TreeTensorP2 TreeTensorP3 TreeTensorP4 TreeTensorP5 TreeTensorP6 TreeTensorP7 TreeTensorP8 TreeTensorP9 TreeTensorP15.
Import ListNotations.

Lemma filter_none {A} (f : A -> bool) l : (forall x, In x l -> f x = false) -> filter f l = [].
Proof. induction l as [|x l IH]; intros H; cbn; auto. rewrite (H x (or_introl eq_refl)). apply IH. intros y Hy. apply H. right. auto. Qed.

Section Linear.
  Variable d : nat.
  Hypothesis Hd : 2 <= d.
  Local Notation t := (dt_linear d (seq 0 d)).
  Lemma lin_V : dim_tree t 1.
  Proof. apply dt_linear_ok; auto. apply Permutation_refl. Qed.
  (** the spine and the leaves *)
  Definition sp (j : nat) : nat := if j =? d - 1 then 1 else 2 * d - 2 - 2 * j.
  Definition lf (j : nat) : nat := if j =? 0 then 2 * d - 2 else 2 * (d - j) + 1.
  Lemma lin_d2i_length : length (d2i t) = d.
  Proof. apply (linear_shape d (seq 0 d) Hd). apply Permutation_refl. Qed.
  Lemma lin_d2i j : j < d -> nth j (d2i t) 0 = lf j.
  Proof.
    intros Hj. set (v := (2 * d - 2) :: map (fun k => 2 * k + 1) (rev (seq 1 (d - 1)))).
    assert (Lv : length v = d) by (unfold v; cbn [length]; rewrite map_length, rev_length, seq_length; lia).
    assert (Hp : is_perm (length v) (seq 0 d)) by (rewrite Lv; apply Permutation_refl).
    pose proof (scatter_nth (seq 0 d) v j Hp ltac:(lia)) as E. rewrite seq_nth in E by lia. cbn [plus] in E.
    cbn [d2i dt_linear]. fold v. rewrite E. unfold lf, v. destruct j as [|j]; auto. cbn [nth Nat.eqb].
    rewrite map_nth_in with (da := 0) by (rewrite rev_length, seq_length; lia).
    rewrite rev_nth by (rewrite seq_length; lia). rewrite seq_length, seq_nth by lia. lia.
  Qed.
  Lemma lin_node n : node t n <-> 1 <= n <= 2 * d - 1.
  Proof. unfold node. cbn [nbn dt_linear]. lia. Qed.
  Lemma sp_node j : j < d -> node t (sp j).
  Proof. intros Hj. apply lin_node. unfold sp. destruct (Nat.eqb_spec j (d - 1)); lia. Qed.
  Lemma sp_inj i j : i < d -> j < d -> sp i = sp j -> i = j.
  Proof. intros Hi Hj. unfold sp. destruct (Nat.eqb_spec i (d - 1)), (Nat.eqb_spec j (d - 1)); lia. Qed.
  Lemma sp_lf i j : i < d -> 1 <= j < d -> sp i <> lf j.
  Proof. intros Hi Hj. unfold sp, lf. destruct (Nat.eqb_spec i (d - 1)), (Nat.eqb_spec j 0); lia. Qed.
  Lemma lin_cases n : node t n -> (exists j, j < d /\ n = sp j) \/ (exists j, 1 <= j < d /\ n = lf j).
  Proof.
    intros Hn. apply (proj1 (lin_node n)) in Hn. destruct (even_cases n) as (k & [[Hk _]|[Hk _]]).
    - left. exists (d - 1 - k). split; [lia|]. unfold sp. destruct (Nat.eqb_spec (d - 1 - k) (d - 1)); lia.
    - destruct (Nat.eq_dec k 0) as [->|Hk0].
      + left. exists (d - 1). split; [lia|]. unfold sp. rewrite Nat.eqb_refl. lia.
      + right. exists (d - k). split; [lia|]. unfold lf. destruct (Nat.eqb_spec (d - k) 0); lia.
  Qed.
  Lemma lin_edge j c : 1 <= j < d -> (edge t (sp j) c <-> c = sp (j - 1) \/ c = lf j).
  Proof.
    intros Hj. assert (Ej : sp (j - 1) = 2 * d - 2 * j) by (unfold sp; destruct (Nat.eqb_spec (j - 1) (d - 1)); lia).
    assert (El : lf j = 2 * d - 2 * j + 1) by (unfold lf; destruct (Nat.eqb_spec j 0); lia). rewrite Ej, El. split.
    - intros (H1 & H2 & H3). apply lin_adj in H3; auto. apply (proj1 (lin_node c)) in H2. destruct H3 as [H3 H4]. unfold sp, lin_par in H4.
      destruct (Nat.eqb_spec j (d - 1)), (Nat.leb_spec c 3), (even_cases c) as (k & [[Hk Ek]|[Hk Ek]]); rewrite ?Ek in H4; lia.
    - intros Hc. assert (Hnc : node t c) by (apply lin_node; lia). split; [apply sp_node; lia|]. split; auto.
      apply lin_adj; auto; [apply sp_node; lia|]. split; [lia|]. unfold sp, lin_par.
      destruct (Nat.eqb_spec j (d - 1)), (Nat.leb_spec c 3), (even_cases c) as (k & [[Hk Ek]|[Hk Ek]]); rewrite ?Ek; lia.
  Qed.
  Lemma lin_parent j : S j < d -> parent t (sp j) = sp (S j).
  Proof. intros Hj. apply (parent_edge t 1 (proj1 lin_V)). apply lin_edge; [lia|]. left. f_equal. lia. Qed.
  Lemma lin_children j : 1 <= j < d -> children t (sp j) = [sp (j - 1); lf j].
  Proof.
    intros Hj. assert (Ej : sp (j - 1) = 2 * d - 2 * j) by (unfold sp; destruct (Nat.eqb_spec (j - 1) (d - 1)); lia).
    assert (El : lf j = 2 * d - 2 * j + 1) by (unfold lf; destruct (Nat.eqb_spec j 0); lia).
    assert (Hs : node t (sp j)) by (apply sp_node; lia).
    assert (HA : forall c, node t c -> adj t (sp j) c = true <-> c = 2 * d - 2 * j \/ c = 2 * d - 2 * j + 1).
    { intros c Hc. pose proof (lin_edge j c Hj) as HE. rewrite Ej, El in HE. rewrite <- HE. unfold edge. tauto. }
    unfold children, nodes. cbn [nbn dt_linear].
    replace (2 * d - 1) with ((2 * d - 2 * j - 1) + (2 + (2 * j - 2))) by lia. rewrite !seq_app, !filter_app.
    rewrite (filter_none _ (seq 1 (2 * d - 2 * j - 1))).
    2:{ intros x Hx. apply in_seq in Hx. destruct (adj t (sp j) x) eqn:E; auto. apply HA in E; [lia|apply lin_node; lia]. }
    rewrite (filter_none _ (seq (1 + (2 * d - 2 * j - 1) + 2) (2 * j - 2))).
    2:{ intros x Hx. apply in_seq in Hx. destruct (adj t (sp j) x) eqn:E; auto. apply HA in E; [lia|apply lin_node; lia]. }
    replace (1 + (2 * d - 2 * j - 1)) with (2 * d - 2 * j) by lia. cbn [seq filter app].
    rewrite (proj2 (HA (2 * d - 2 * j) ltac:(apply lin_node; lia))) by auto.
    rewrite (proj2 (HA (S (2 * d - 2 * j)) ltac:(apply lin_node; lia))) by lia. rewrite app_nil_r, Ej, El. f_equal. f_equal. lia.
  Qed.
  Lemma lin_leaf n : is_leaf t n = true <-> exists j, j < d /\ n = lf j.
  Proof.
    unfold is_leaf. rewrite inb_spec. split.
    - intros Hi. apply In_nth with (d := 0) in Hi. destruct Hi as (j & Hj & E). rewrite lin_d2i_length in Hj. exists j. rewrite <- (lin_d2i j Hj). auto.
    - intros (j & Hj & ->). rewrite <- (lin_d2i j Hj). apply nth_In. rewrite lin_d2i_length. auto.
  Qed.
  Lemma lf0 : lf 0 = sp 0.
  Proof. unfold lf, sp. rewrite Nat.eqb_refl. destruct (Nat.eqb_spec 0 (d - 1)); lia. Qed.
  Lemma lin_internal j : 1 <= j < d -> is_leaf t (sp j) = false.
  Proof.
    intros Hj. destruct (is_leaf t (sp j)) eqn:E; auto. apply lin_leaf in E. destruct E as (i & Hi & E). destruct i as [|i].
    - rewrite lf0 in E. apply sp_inj in E; lia.
    - exfalso. revert E. apply sp_lf; lia.
  Qed.
  Lemma lf_inj i j : i < d -> j < d -> lf i = lf j -> i = j.
  Proof. intros Hi Hj. unfold lf. destruct (Nat.eqb_spec i 0), (Nat.eqb_spec j 0); lia. Qed.
  Lemma lin_index j : j < d -> index_of (lf j) (d2i t) = j.
  Proof. intros Hj. rewrite <- (lin_d2i j Hj). apply index_of_NoDup; [apply (NoDup_d2i t 1 lin_V)|rewrite lin_d2i_length; auto]. Qed.
  Lemma lin_tl n : In n (tl (d2i t)) <-> exists j, 1 <= j < d /\ n = lf j.
  Proof.
    pose proof lin_d2i_length as L. split.
    - intros Hi. apply In_nth with (d := 0) in Hi. destruct Hi as (j & Hj & E). exists (S j).
      destruct (d2i t) as [|a l] eqn:Ed; cbn in L, Hj; [lia|]. split; [lia|]. rewrite <- lin_d2i by lia. rewrite Ed. cbn. auto.
    - intros (j & Hj & ->). rewrite <- lin_d2i by lia. destruct (d2i t) as [|a l] eqn:Ed; cbn in L; [lia|]. destruct j as [|j]; [lia|]. cbn. apply nth_In. lia.
  Qed.
End Linear.

Section Train.
  Context {R : Type} {CR : CRing R}.
  Add Ring Rrtt : rth.
  Local Open Scope cr_scope.
  Variable cs : list (nd R).
  Local Notation d := (length cs).
  Hypothesis Hd : (2 <= d)%nat.
  Local Notation t := (dt_linear d (seq 0 d)).
  Local Notation A := (fun j => nth j cs no_core).

  Lemma nthc_setc_eq (l : list (nd R)) n B : (1 <= n <= length l)%nat -> nthc (setc n B l) n = B.
  Proof. intros H. unfold nthc, setc. apply nth_upd_eq. lia. Qed.
  Lemma nthc_setc_neq (l : list (nd R)) n p B : (1 <= n)%nat -> (1 <= p)%nat -> p <> n -> nthc (setc n B l) p = nthc l p.
  Proof. intros H1 H3 H. unfold nthc, setc. apply nth_upd_neq. lia. Qed.
  Lemma tt_fill_spec : forall l i L, (i + length l = d)%nat -> length L = (2 * d - 1)%nat ->
    length (tt_fill t (sp d i) l L) = (2 * d - 1)%nat /\
    (forall j, (j < length l)%nat -> nthc (tt_fill t (sp d i) l L) (sp d (i + j)) = nth j l no_core) /\
    (forall n, (1 <= n)%nat -> (forall j, (i <= j < d)%nat -> n <> sp d j) -> nthc (tt_fill t (sp d i) l L) n = nthc L n).
  Proof.
    induction l as [|B l IH]; intros i L Hl HL; [cbn; split; auto; split; auto; intros; lia|].
    cbn [tt_fill length] in *.
    assert (Hi : (i < d)%nat) by lia. pose proof (proj1 (lin_node d Hd (sp d i)) (sp_node d Hd i Hi)) as Hn.
    assert (HL' : length (setc (sp d i) B L) = (2 * d - 1)%nat) by (unfold setc; rewrite upd_length; auto).
    destruct l as [|B' l].
    - cbn [tt_fill]. split; [exact HL'|]. split.
      + intros [|j] Hj; cbn in Hj; [|lia]. rewrite Nat.add_0_r. cbn [nth]. apply nthc_setc_eq. lia.
      + intros n H1 Hne. apply nthc_setc_neq; [lia|lia|apply Hne; lia].
    - rewrite (lin_parent d Hd i) by (cbn in Hl; lia). destruct (IH (S i) (setc (sp d i) B L) ltac:(cbn in *; lia) HL') as (I1 & I2 & I3). split; auto. split.
      + intros [|j] Hj.
        * rewrite Nat.add_0_r. cbn [nth]. rewrite I3; [apply nthc_setc_eq; lia|lia|]. intros j Hj' E. apply sp_inj in E; lia.
        * replace (i + S j)%nat with (S i + j)%nat by lia. cbn [nth]. apply I2. cbn in *. lia.
      + intros n H1 Hne. rewrite I3; auto; [apply nthc_setc_neq; [lia|lia|apply Hne; lia]|]. intros j Hj. apply Hne. lia.
  Qed.
  Definition tt_cores : list (nd R) :=
    fold_left (fun l n => setc n no_core l) (tl (d2i t)) (tt_fill t (nth 0 (d2i t) 0%nat) cs (repeat no_core (nbn t))).
  Lemma fold_clear : forall ns L n, Forall (fun m => (1 <= m)%nat) ns -> (1 <= n)%nat ->
    length (fold_left (fun l n => setc n no_core l) ns L) = length L /\
    ((In n ns -> nthc L n = no_core \/ True) -> True) /\
    (~ In n ns -> nthc (fold_left (fun l n => setc n no_core l) ns L) n = nthc L n) /\
    (In n ns \/ nthc L n = no_core -> nthc (fold_left (fun l n => setc n no_core l) ns L) n = no_core :> nd R).
  Proof.
    induction ns as [|m ns IH]; intros L n HF Hn; cbn [fold_left].
    - split; auto. split; auto. split; auto. intros [[]|]; auto.
    - inversion HF as [|m' ns' Hm HF' E]; subst m' ns'. destruct (IH (setc m no_core L) n HF' Hn) as (I1 & _ & I2 & I3).
      split; [rewrite I1; unfold setc; apply upd_length|]. split; auto. split.
      + intros Hni. rewrite I2 by (intros H; apply Hni; right; auto). apply nthc_setc_neq; auto. intros ->. apply Hni. left. auto.
      + intros H. apply I3. destruct (Nat.eq_dec n m) as [->|Hne].
        * right. unfold nthc, setc. destruct (Nat.lt_ge_cases (m - 1) (length L)) as [Hlt|Hge]; [apply nth_upd_eq; auto|].
          apply nth_overflow. rewrite upd_length. auto.
        * destruct H as [[H|H]|H]; [congruence|left; auto|]. right. rewrite nthc_setc_neq; auto.
  Qed.
  Lemma tt_cores_spec : length tt_cores = (2 * d - 1)%nat /\ (forall j, (j < d)%nat -> nthc tt_cores (sp d j) = A j) /\
    (forall j, (1 <= j < d)%nat -> nthc tt_cores (lf d j) = no_core).
  Proof.
    unfold tt_cores. rewrite (lin_d2i d Hd 0) by lia. rewrite (lf0 d Hd).
    destruct (tt_fill_spec cs 0 (repeat no_core (nbn t)) eq_refl) as (I1 & I2 & I3); [rewrite repeat_length; auto|].
    assert (HF : Forall (fun m => (1 <= m)%nat) (tl (d2i t))).
    { apply Forall_forall. intros n Hn. apply lin_tl in Hn; auto. destruct Hn as (j & Hj & ->). unfold lf. destruct (Nat.eqb_spec j 0); lia. }
    split; [|split].
    - destruct (fold_clear (tl (d2i t)) (tt_fill t (sp d 0) cs (repeat no_core (nbn t))) 1 HF ltac:(lia)) as (F1 & _). rewrite F1. auto.
    - intros j Hj. pose proof (proj1 (lin_node d Hd _) (sp_node d Hd j Hj)) as Hn.
      destruct (fold_clear (tl (d2i t)) (tt_fill t (sp d 0) cs (repeat no_core (nbn t))) (sp d j) HF ltac:(lia)) as (_ & _ & F2 & _).
      rewrite F2; [apply (I2 j Hj)|]. intros H. apply lin_tl in H; auto. destruct H as (i & Hi & E). revert E. apply sp_lf; auto.
    - intros j Hj. assert (H1 : (1 <= lf d j)%nat) by (unfold lf; destruct (Nat.eqb_spec j 0); lia).
      destruct (fold_clear (tl (d2i t)) (tt_fill t (sp d 0) cs (repeat no_core (nbn t))) (lf d j) HF H1) as (_ & _ & _ & F3).
      apply F3. left. apply lin_tl; auto. exists j. auto.
  Qed.

  Variables (n k : nat -> nat) (ext : list nat).
  Hypothesis HS : train_shapes d A n k ext.
  Hypothesis Hext : (length ext <= 1)%nat.
  Hypothesis HP : forall j, (j < d)%nat -> prodn (shape (A j)) <> 0%nat.
  Local Notation Z := (TB t tt_cores).
  (** sizes: rank of the spine nodes, size of the leaves *)
  Definition ttsz (c : nat) : nat := if is_leaf t c && negb (c =? lf d 0)%nat then n (index_of c (d2i t)) else k (d - 1 - c / 2)%nat.
  Lemma ttsz_sp j : (j < d - 1)%nat -> ttsz (sp d j) = k j.
  Proof.
    intros Hj. unfold ttsz. assert (E : is_leaf t (sp d j) && negb (sp d j =? lf d 0)%nat = false).
    { destruct j as [|j]; [rewrite <- lf0 by auto; rewrite Nat.eqb_refl, andb_false_r; auto|rewrite lin_internal by (auto; lia); auto]. }
    rewrite E. f_equal. unfold sp. destruct (Nat.eqb_spec j (d - 1)); [lia|].
    replace (2 * d - 2 - 2 * j)%nat with ((d - 1 - j) * 2)%nat by lia. rewrite Nat.div_mul by lia. lia.
  Qed.
  Lemma ttsz_lf j : (1 <= j < d)%nat -> ttsz (lf d j) = n j.
  Proof.
    intros Hj. unfold ttsz. assert (E : is_leaf t (lf d j) = true) by (apply lin_leaf; auto; exists j; split; [lia|auto]). rewrite E.
    destruct (Nat.eqb_spec (lf d j) (lf d 0)) as [E'|_]; [apply lf_inj in E'; lia|]. cbn [negb andb]. rewrite lin_index by (auto; lia). auto.
  Qed.
  Lemma tt_core j : (j < d)%nat -> core Z (sp d j) = A j.
  Proof. intros Hj. apply tt_cores_spec. auto. Qed.
  Lemma tt_active j : (j < d)%nat -> active Z (sp d j) = true.
  Proof. intros Hj. apply active_prod. rewrite (tt_core j Hj). apply HP. auto. Qed.
  Lemma tt_inactive j : (1 <= j < d)%nat -> active Z (lf d j) = false.
  Proof. intros Hj. unfold active, activec. cbn [cores]. rewrite (proj2 (proj2 tt_cores_spec) j Hj). reflexivity. Qed.
  Lemma sp_root : sp d (d - 1) = 1%nat.
  Proof. unfold sp. rewrite Nat.eqb_refl. auto. Qed.
  Theorem tt_ok : tb_make tt_cores t = Some Z /\ tb_ok Z 1 /\ tb_shape Z = map n (seq 0 d) /\ exts Z 1 = ext /\
    (forall j, (1 <= j < d)%nat -> heads Z (sp d j) = [k (j - 1)%nat; n j]).
  Proof.
    pose proof (lin_V d Hd) as V. destruct HS as (S0 & S1 & S2).
    assert (P1 : length (cores Z) = nbn (ttree Z)) by (cbn [cores ttree]; rewrite (proj1 tt_cores_spec); reflexivity).
    assert (P2 : is_leaf (ttree Z) 1 = false) by (cbn [ttree]; rewrite <- sp_root; apply lin_internal; auto; lia).
    assert (INT : forall m, node t m -> is_leaf t m = false -> exists j, (1 <= j < d)%nat /\ m = sp d j).
    { intros m Hm El. destruct (lin_cases d Hd m Hm) as [(j & Hj & ->)|(j & Hj & ->)].
      - exists j. split; auto. destruct j; [|lia]. exfalso. rewrite <- lf0 in El by auto.
        assert (E : is_leaf t (lf d 0) = true) by (apply lin_leaf; auto; exists 0%nat; split; [lia|auto]). congruence.
      - exfalso. assert (E : is_leaf t (lf d j) = true) by (apply lin_leaf; auto; exists j; split; [lia|auto]). congruence. }
    assert (P5 : forall m, node (ttree Z) m -> is_leaf (ttree Z) m = false ->
      shape (core Z m) = map ttsz (children (ttree Z) m) ++ (if m =? 1 then ext else [ttsz m]) /\ active Z m = true).
    { intros m Hm El. cbn [ttree] in *. destruct (INT m Hm El) as (j & Hj & ->). split; [|apply tt_active; lia].
      rewrite (tt_core j) by lia. rewrite (lin_children d Hd j Hj). cbn [map]. rewrite ttsz_sp by lia. rewrite ttsz_lf by auto.
      destruct (Nat.eq_dec j (d - 1)) as [->|Hne].
      - rewrite sp_root. cbn [Nat.eqb]. rewrite S2. replace (d - 1 - 1)%nat with (d - 2)%nat by lia. auto.
      - destruct (Nat.eqb_spec (sp d j) 1) as [E|_]; [rewrite <- sp_root in E; apply sp_inj in E; lia|].
        rewrite S1 by lia. rewrite ttsz_sp by lia. auto. }
    assert (P6 : forall m, is_leaf (ttree Z) m = true -> active Z m = true -> shape (core Z m) = [n (index_of m (d2i t)); ttsz m]).
    { intros m El Ha. cbn [ttree] in *. apply lin_leaf in El; auto. destruct El as (j & Hj & ->). destruct j as [|j]; [|rewrite tt_inactive in Ha by lia; discriminate].
      rewrite lin_index by auto. rewrite (lf0 d Hd), tt_core, ttsz_sp by lia. auto. }
    assert (P7 : forall m, is_leaf (ttree Z) m = true -> active Z m = false -> ttsz m = n (index_of m (d2i t))).
    { intros m El Ha. cbn [ttree] in *. apply lin_leaf in El; auto. destruct El as (j & Hj & ->). destruct j as [|j]; [rewrite (lf0 d Hd), tt_active in Ha by lia; discriminate|].
      rewrite lin_index, ttsz_lf by (auto; lia). auto. }
    assert (OZ : tb_ok Z 1) by exact (build_ok Z 1 ttsz (fun m => n (index_of m (d2i t))) ext V P1 P2 Hext P5 P6).
    split; [apply (tb_make_ok tt_cores t 1); exact OZ|]. split; [exact OZ|]. split; [|split].
    - rewrite (build_shape Z 1 ttsz (fun m => n (index_of m (d2i t))) ext V P1 P2 Hext P5 P6 P7). cbn [ttree].
      apply nth_ext' with (d := 0%nat); [rewrite !map_length, seq_length; apply lin_d2i_length; auto|]. rewrite map_length. rewrite (lin_d2i_length d Hd). intros j Hj.
      rewrite map_nth_in with (da := 0%nat) by (rewrite lin_d2i_length; auto). rewrite (lin_d2i d Hd j Hj), (lin_index d Hd j Hj), nth_map_seq by auto. auto.
    - rewrite (build_exts Z 1 ttsz ext P5 1) by (auto; exact (proj1 (proj1 V))). auto.
    - intros j Hj. rewrite (build_heads Z 1 ttsz ext P5 (sp d j) (sp_node d Hd j ltac:(lia)) (lin_internal d Hd j Hj)).
      cbn [ttree]. rewrite (lin_children d Hd j Hj). cbn [map]. rewrite ttsz_sp, ttsz_lf by lia. auto.
  Qed.
  Lemma tt_tval j : (j < d)%nat -> forall is e, valid (map n (seq 0 d)) is -> tval Z (sp d j) is e = train_prod A k is j e.
  Proof.
    pose proof (lin_V d Hd) as V. destruct tt_ok as (_ & OZ & SZ & EZ & HZ).
    induction j as [|j IH]; intros Hj is e Hi; cbn [train_prod].
    - rewrite (tval_leaf Z 1 V).
      + rewrite (tt_core 0) by lia. cbn [ttree]. rewrite <- (lf0 d Hd), (lin_index d Hd 0) by lia. auto.
      + cbn [ttree]. rewrite <- (lf0 d Hd). apply lin_leaf; auto. exists 0%nat. split; [lia|auto].
      + apply tt_active. lia.
    - rewrite (tval_internal Z 1 V (sp d (S j)) is e (sp_node d Hd (S j) Hj) (lin_internal d Hd (S j) ltac:(lia))).
      cbn [ttree]. rewrite (HZ (S j)) by lia. rewrite (lin_children d Hd (S j)) by lia. rewrite (tt_core (S j)) by auto.
      replace (S j - 1)%nat with j by lia. cbn [bsum]. apply rsum_ext. intros a Ha.
      set (i := nth (S j) is 0%nat).
      assert (Hlt : (i < n (S j))%nat).
      { unfold i. pose proof (valid_nth _ _ (S j) Hi) as Hv. rewrite map_length, seq_length in Hv. specialize (Hv Hj). rewrite nth_map_seq in Hv by auto. auto. }
      rewrite (rsum_ext _ _ (fun b => if Nat.eqb b i then train_prod A k is j [a] * get (nth (S j) cs no_core) (a :: b :: e) else r0)).
      + rewrite (rsum_delta _ i (fun b => train_prod A k is j [a] * get (nth (S j) cs no_core) (a :: b :: e)) Hlt). auto.
      + intros b Hb. cbn [combine lprod fst snd app]. rewrite (IH ltac:(lia) is [a] Hi).
        rewrite (tval_inactive Z 1 V); [|cbn [ttree]; apply lin_leaf; auto; exists (S j); split; [lia|auto]|apply tt_inactive; lia].
        cbn [ttree]. rewrite (lin_index d Hd (S j)) by lia. fold i. cbn [list_eqb]. rewrite andb_true_r. destruct (b =? i); ring.
  Qed.
  Theorem tt_full : exists W, tb_tensor_train cs None = Some W /\ tb_ok W 1 /\ ttree W = t /\
    returns (tb_full W) (map n (seq 0 d) ++ ext) (fun is => train_prod A k (firstn d is) (d - 1) (skipn d is)).
  Proof.
    destruct tt_ok as (EM & OZ & SZ & EZ & HZ). exists Z. split; [exact EM|]. split; auto. split; auto. apply (full_returns Z 1); auto.
    - unfold tb_order. cbn [ttree]. rewrite lin_d2i_length; auto.
    - rewrite SZ, EZ. auto.
    - intros is e Hi He. rewrite SZ in Hi. assert (Li : length is = d) by (rewrite (valid_length _ _ Hi), map_length, seq_length; auto).
      rewrite <- (tt_tval (d - 1)) by (auto; try lia; rewrite <- Li, firstn_app, firstn_all, Nat.sub_diag, firstn_O, app_nil_r; auto; rewrite Li; auto).
      rewrite sp_root. rewrite <- Li, firstn_app, skipn_app, firstn_all, skipn_all, Nat.sub_diag, firstn_O, skipn_O, app_nil_r. auto.
  Qed.
End Train.
