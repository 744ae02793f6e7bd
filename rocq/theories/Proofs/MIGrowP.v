(** The layer-by-layer enrichment loops of MultiIndices. *)
From Coq Require Import List Arith ZArith Lia Bool Permutation Sorted.
From Verif.Base Require Import ListAux Index.
From Verif.Model Require Import Sorting MultiIndices.
From Verif.Proofs Require Import SortingP MultiIndicesP.
Import ListNotations.

Lemma zsum_bump k c r : k < length r -> zsum (bump k c r) = (zsum r + c)%Z.
Proof.
  unfold bump. revert k; induction r as [|x r IH]; intros [|k] Hk; simpl in *; try lia.
  rewrite IH by lia. lia.
Qed.

Lemma nonneg_bump k r : k < length r -> nonneg r -> nonneg (bump k 1 r).
Proof.
  intros Hk H. apply Forall_nth' with (d := 0%Z). rewrite bump_length. intros n Hn.
  rewrite nth_bump by auto. unfold nonneg in H. rewrite (Forall_nth' _ _ 0%Z) in H. specialize (H n Hn). simpl in H.
  destruct (n =? k)%nat; lia.
Qed.

Lemma nonneg_bump_inv k r : k < length r -> nonneg (bump k (-1) r) -> nonneg r.
Proof.
  intros Hk H. assert (r = bump k 1 (bump k (-1) r)) as ->.
  { rewrite bump_bump by auto. simpl. rewrite bump_0; auto. }
  apply nonneg_bump; auto. rewrite bump_length; auto.
Qed.

Lemma zsum_nonneg r : nonneg r -> (0 <= zsum r)%Z.
Proof. induction 1; simpl; lia. Qed.

Lemma zsum_repeat0 d : zsum (repeat 0%Z d) = 0%Z.
Proof. induction d; simpl; auto. Qed.

Lemma nonneg_zero_iff r : nonneg r -> (zsum r = 0%Z <-> r = repeat 0%Z (length r)).
Proof.
  intros H. split; intros E.
  - induction H as [|x r Hx H IH]; simpl in *; auto. pose proof (zsum_nonneg r H). f_equal; [lia|apply IH; lia].
  - rewrite E. apply zsum_repeat0.
Qed.

Lemma pred_exists r : nonneg r -> (0 < zsum r)%Z -> exists k, k < length r /\ nonneg (bump k (-1) r).
Proof.
  intros H Hs. induction H as [|x r Hx H IH]; simpl in *; [lia|].
  destruct (Z.eq_dec x 0) as [->|E].
  - destruct IH as [k [Hk Hn]]; [lia|]. exists (S k). split; [lia|]. unfold bump in *. simpl. constructor; auto; lia.
  - exists 0. split; [lia|]. unfold bump; simpl. constructor; auto; lia.
Qed.

(** set of rows reached: [Q] restricted to total degree <= n *)
Definition layer (d : nat) (Q : row -> Prop) (n : Z) (r : row) : Prop :=
  length r = d /\ nonneg r /\ Q r /\ (zsum r <= n)%Z.


Definition down_pred (Q : row -> Prop) : Prop :=
  forall r k, k < length r -> nonneg (bump k (-1) r) -> Q r -> Q (bump k (-1) r).

Section Layers.
  Variable d : nat.
  Hypothesis Hd : 0 < d.
  Variable Q : row -> Prop.
  Hypothesis Q0 : Q (repeat 0%Z d).
  Hypothesis Qdown : down_pred Q.

  Lemma layer_wf I n : is_set I d (layer d Q n) -> mi_wf I.
  Proof.
    intros [H1 [_ H2]]. apply Forall_forall. intros r Hr. apply H2 in Hr. rewrite H1. apply Hr.
  Qed.
  Lemma layer_nonempty I n : (0 <= n)%Z -> is_set I d (layer d Q n) -> mi_rows I <> [].
  Proof.
    intros Hn [_ [_ H]] E. assert (In (repeat 0%Z d) (mi_rows I)) as Hi; [|rewrite E in Hi; contradiction].
    apply H. unfold layer. rewrite repeat_length, zsum_repeat0. repeat split; auto.
    apply Forall_forall. intros x Hx. apply repeat_spec in Hx; lia.
  Qed.

  Lemma zero_is_layer : is_set (zero_mi d) d (layer d Q 0).
  Proof.
    split; [auto|]. split; [repeat constructor; simpl; tauto|].
    intros r. simpl. split.
    - intros [<-|[]]. unfold layer. rewrite repeat_length, zsum_repeat0. repeat split; auto; try lia.
      apply Forall_forall. intros x Hx. apply repeat_spec in Hx; lia.
    - intros [Hl [Hn [_ Hs]]]. left. pose proof (zsum_nonneg r Hn).
      rewrite (proj1 (nonneg_zero_iff r Hn)) by lia. congruence.
  Qed.

  (** the margin elements satisfying Q are exactly the next layer *)
  Lemma margin_layer I n r : (0 <= n)%Z -> is_set I d (layer d Q n) ->
    ((In r (mi_rows (get_margin I)) /\ Q r) <-> layer d Q (n + 1) r /\ zsum r = (n + 1)%Z).
  Proof.
    intros Hn H. pose proof (layer_wf I n H) as Hw. pose proof (layer_nonempty I n Hn H) as Hne.
    destruct H as [HD [HN HR]]. rewrite get_margin_rows by (auto; rewrite HD; auto). rewrite HD.
    split.
    - intros [[Hl [Hni [k [Hk Hb]]]] Hq]. apply HR in Hb. destruct Hb as [_ [Hbn [_ Hbs]]].
      rewrite zsum_bump in Hbs by lia. assert (nonneg r) by (eapply nonneg_bump_inv; eauto; lia).
      assert (~ (zsum r <= n)%Z). { intros Hs. apply Hni, HR. repeat split; auto. }
      unfold layer. repeat split; auto; lia.
    - intros [[Hl [Hnn [Hq Hs]]] Hz]. split; auto. split; auto. split.
      + intros Hi. apply HR in Hi. destruct Hi as [_ [_ [_ ?]]]. lia.
      + destruct (pred_exists r Hnn) as [k [Hk Hp]]; [lia|]. exists k. split; [lia|].
        apply HR. unfold layer. rewrite bump_length, zsum_bump by auto. split; [auto|split; [auto|split; [|lia]]].
        apply Qdown; auto.
  Qed.

  Lemma add_layer I M n : (0 <= n)%Z -> is_set I d (layer d Q n) ->
    (forall r, In r (mi_rows M) <-> In r (mi_rows (get_margin I)) /\ Q r) ->
    is_set (add_indices I M) d (layer d Q (n + 1)).
  Proof.
    intros Hn H HM. pose proof (layer_nonempty I n Hn H) as Hne.
    split; [rewrite add_indices_dim; auto; apply H|]. split; [apply add_indices_NoDup|].
    intros r. rewrite add_indices_rows by auto. rewrite HM, (margin_layer I n) by auto.
    destruct H as [HD [HN HR]]. rewrite HR. unfold layer. split.
    - intros [?|?]; [|tauto]. intuition lia.
    - intros [Hl [Hnn [Hq Hs]]]. destruct (Z.le_gt_cases (zsum r) n); [left|right]; repeat split; auto; lia.
  Qed.

  (** no margin element satisfies Q: the set is complete *)
  Lemma layer_complete I n : (0 <= n)%Z -> is_set I d (layer d Q n) ->
    (forall r, In r (mi_rows (get_margin I)) -> ~ Q r) ->
    is_set I d (fun r => length r = d /\ nonneg r /\ Q r).
  Proof.
    intros Hn H HM. split; [apply H|]. split; [apply H|]. intros r. split.
    - intros Hr. apply H in Hr. destruct Hr; tauto.
    - intros [Hl [Hnn Hq]].
      remember (Z.to_nat (zsum r)) as m eqn:Em. revert r Hl Hnn Hq Em.
      induction m as [|m IH]; intros r Hl Hnn Hq Em.
      + apply H. unfold layer. repeat split; auto. lia.
      + destruct (pred_exists r Hnn) as [k [Hk Hp]]; [lia|].
        assert (In (bump k (-1) r) (mi_rows I)) as Hi.
        { apply IH; auto; rewrite ?bump_length, ?zsum_bump; auto; lia. }
        destruct (rmem r (mi_rows I)) eqn:E; [apply rmem_spec; auto|]. apply rmem_false in E.
        exfalso. apply (HM r); auto. apply get_margin_rows.
        * eapply layer_wf; eauto.
        * destruct H as [-> _]; auto.
        * eapply layer_nonempty; eauto.
        * destruct H as [-> _]. repeat split; auto. exists k; split; auto; lia.
  Qed.
End Layers.

(** ** p = 1 *)
Lemma margin_iter_spec d m I n : 0 < d -> (0 <= n)%Z -> is_set I d (layer d (fun _ => True) n) ->
  is_set (margin_iter m I) d (layer d (fun _ => True) (n + Z.of_nat m)).
Proof.
  intros Hd. revert I n. induction m as [|m IH]; intros I n Hn H; simpl margin_iter.
  - rewrite Nat2Z.inj_0, Z.add_0_r; auto.
  - replace (n + Z.of_nat (S m))%Z with ((n + 1) + Z.of_nat m)%Z by lia.
    apply IH; [lia|]. apply add_layer; auto; [unfold down_pred; auto|]. intros; tauto.
Qed.

(** ** generic loop *)
Section Loop.
  Variable argsort : list Z -> list nat.
  Hypothesis argsort_spec : argsort_ok argsort.

  Lemma sel_argsort_in {A} (key : A -> Z) (k : list A) (dflt x : A) :
    In x (sel dflt k (argsort (map key k))) <-> In x k.
  Proof.
    destruct (argsort_spec (map key k)) as [P _]. rewrite map_length in P.
    pose proof (sel_perm_rows dflt k _ P) as P2. split; apply Permutation_in; auto. symmetry; auto.
  Qed.

  Lemma nonzero_le_in n b k : In k (nonzero_le n b) <-> k < length n /\ (nth k n 0 <= b)%Z.
  Proof. unfold nonzero_le. rewrite filter_In, in_seq. split; intros [? ?]; split; lia. Qed.

  Lemma keep_sorted (M : mi) (key : row -> Z) (b : Z) :
    exists M', keep_indices M (sel 0 (nonzero_le (map key (mi_rows M)) b)
                 (argsort (map (fun i => nth i (map key (mi_rows M)) 0%Z) (nonzero_le (map key (mi_rows M)) b)))) = Some M' /\
      mi_dim M' = mi_dim M /\
      forall r, In r (mi_rows M') <-> In r (mi_rows M) /\ (key r <= b)%Z.
  Proof.
    set (k := nonzero_le (map key (mi_rows M)) b).
    set (j := argsort _). unfold keep_indices.
    assert (Hin : forall x, In x (sel 0 k j) <-> In x k) by (intros; apply sel_argsort_in).
    assert (Hk : forall x, In x k <-> x < length (mi_rows M) /\ (key (nth x (mi_rows M) []) <= b)%Z).
    { intros x. unfold k. rewrite nonzero_le_in, map_length. split; intros [Hx Hb]; split; auto.
      - rewrite map_nth_in with (da := []) in Hb; auto.
      - rewrite map_nth_in with (da := []); auto. }
    assert (forallb (fun i => i <? length (mi_rows M)) (sel 0 k j) = true) as ->.
    { apply forallb_forall. intros x Hx. apply Hin, Hk in Hx. apply Nat.ltb_lt; tauto. }
    eexists; split; [reflexivity|]. simpl. split; auto. intros r. unfold sel at 1. rewrite in_map_iff. split.
    - intros [x [<- Hx]]. apply Hin, Hk in Hx. split; [apply nth_In|]; tauto.
    - intros [Hr Hb]. apply (In_nth _ _ []) in Hr. destruct Hr as [x [Hx <-]]. exists x. split; auto.
      apply Hin, Hk; auto.
  Qed.

  Variable key : row -> Z.
  Variable b : Z.
  Let Q r := (key r <= b)%Z.

  Lemma grow_pass_cases stop I :
    (stop (nonzero_le (map key (mi_rows (get_margin I))) b) = true /\ grow_pass argsort key b stop I = Some (I, false)) \/
    (exists M, grow_pass argsort key b stop I = Some (add_indices I M, true) /\
       forall r, In r (mi_rows M) <-> In r (mi_rows (get_margin I)) /\ Q r).
  Proof.
    unfold grow_pass. set (M := get_margin I).
    destruct (stop _) eqn:E; [left; auto|right].
    destruct (keep_sorted M key b) as [M' [HM [HD HR]]]. rewrite HM. exists M'; split; auto.
  Qed.

  Variable d : nat.
  Hypothesis Hd : 0 < d.
  Hypothesis Q0 : Q (repeat 0%Z d).
  Hypothesis Qdown : down_pred Q.

  (** whatever the stopping test: the result is a layer of Q *)
  Lemma grow_loop_sound stop fuel I n J : (0 <= n)%Z -> is_set I d (layer d Q n) ->
    grow_loop argsort fuel key b stop I = Some J ->
    exists n', (n <= n')%Z /\ is_set J d (layer d Q n') /\
      stop (nonzero_le (map key (mi_rows (get_margin J))) b) = true.
  Proof.
    revert I n. induction fuel as [|fuel IH]; intros I n Hn H E; simpl in E; [discriminate|].
    destruct (grow_pass_cases stop I) as [[Hs Hp]|[M [Hp HM]]]; rewrite Hp in E.
    - inversion E; subst. exists n; split; [lia|auto].
    - destruct (IH (add_indices I M) (n + 1)%Z) as [n' [? [? ?]]]; auto; [lia| |exists n'; split; auto; lia].
      apply add_layer; auto.
  Qed.

  Lemma grow_loop_terminates stop fuel I n B : (0 <= n)%Z -> is_set I d (layer d Q n) ->
    stop [] = true ->
    (forall r, length r = d -> nonneg r -> Q r -> (zsum r <= B)%Z) ->
    (B - n + 2 <= Z.of_nat fuel)%Z -> 1 <= fuel ->
    exists J, grow_loop argsort fuel key b stop I = Some J.
  Proof.
    intros Hn H Hstop HB Hf Hf1. revert I n Hn H Hf. induction fuel as [|fuel IH]; intros I n Hn H Hf; [lia|].
    simpl. destruct (grow_pass_cases stop I) as [[Hs Hp]|[M [Hp HM]]]; rewrite Hp; [eauto|].
    destruct (Z.le_gt_cases B n) as [Hle|Hgt].
    - (* no margin element can satisfy Q *)
      exfalso.
      assert (nonzero_le (map key (mi_rows (get_margin I))) b = []) as E.
      { destruct (nonzero_le _ b) as [|x l] eqn:E; auto.
        assert (In x (nonzero_le (map key (mi_rows (get_margin I))) b)) as Hx by (rewrite E; simpl; auto).
        apply nonzero_le_in in Hx. rewrite map_length in Hx. destruct Hx as [Hx Hk].
        rewrite map_nth_in with (da := []) in Hk by auto.
        assert (layer d Q (n + 1) (nth x (mi_rows (get_margin I)) []) /\ zsum (nth x (mi_rows (get_margin I)) []) = (n + 1)%Z) as [Hl Hz].
        { apply (margin_layer d Hd Q Q0 Qdown I n); auto. split; auto. apply nth_In; auto. }
        destruct Hl as [L1 [L2 [L3 L4]]]. apply HB in L3; auto. lia. }
      unfold grow_pass in Hp. rewrite E, Hstop in Hp. inversion Hp.
    - destruct fuel as [|fuel]; [lia|].
      apply (IH ltac:(lia) (add_indices I M) (n + 1)%Z); [lia| |lia]. apply add_layer; auto.
  Qed.

  Lemma stop_empty_none J :
    stop_empty (nonzero_le (map key (mi_rows (get_margin J))) b) = true ->
    forall r, In r (mi_rows (get_margin J)) -> ~ Q r.
  Proof.
    unfold stop_empty. intros H r Hr Hq. apply Nat.eqb_eq in H. apply length_zero_iff_nil in H.
    apply (In_nth _ _ []) in Hr. destruct Hr as [x [Hx E]].
    assert (In x (nonzero_le (map key (mi_rows (get_margin J))) b)) as Hi.
    { apply nonzero_le_in. rewrite map_length. split; auto. rewrite map_nth_in with (da := []) by auto. rewrite E; auto. }
    rewrite H in Hi. contradiction.
  Qed.
End Loop.

(** ** hyperbolic cross *)
Lemma row_prod1_pos r : nonneg r -> (1 <= row_prod1 r)%Z.
Proof. unfold row_prod1. induction 1; simpl in *; [lia|nia]. Qed.

Lemma row_prod1_mono r s : nonneg s -> Forall2 Z.le s r -> (row_prod1 s <= row_prod1 r)%Z.
Proof.
  intros Hn H. induction H as [|x y s r Hxy H IH]; [simpl; lia|].
  inversion Hn; subst. unfold row_prod1 in *. simpl in *.
  specialize (IH H3). pose proof (row_prod1_pos s H3). unfold row_prod1 in *. nia.
Qed.

Lemma bump_le k r : k < length r -> Forall2 Z.le (bump k (-1) r) r.
Proof.
  intros Hk. apply Forall2_of_nth with (da := 0%Z) (db := 0%Z); [apply bump_length|].
  intros m Hm. rewrite nth_bump by auto. destruct (m =? k)%nat; lia.
Qed.

Lemma row_prod1_sum r : nonneg r -> (zsum r + 1 <= row_prod1 r)%Z.
Proof.
  unfold row_prod1. induction 1 as [|x r Hx H IH]; simpl in *; [lia|].
  pose proof (zsum_nonneg r H). nia.
Qed.

Lemma row_prod1_zero d : row_prod1 (repeat 0%Z d) = 1%Z.
Proof. unfold row_prod1. induction d as [|d IH]; auto. cbn [repeat map fold_right]. rewrite IH. reflexivity. Qed.

Lemma down_pred_mono (key : row -> Z) b :
  (forall r s, nonneg s -> Forall2 Z.le s r -> (key s <= key r)%Z) -> down_pred (fun r => (key r <= b)%Z).
Proof.
  intros H r k Hk Hn Hq. specialize (H r (bump k (-1) r) Hn (bump_le k r Hk)). lia.
Qed.

Lemma hyperbolic_sound argsort fuel d p J : argsort_ok argsort -> 0 < d ->
  hyperbolic_cross_set argsort fuel d p = Some J ->
  is_set J d (fun r => length r = d /\ nonneg r /\ (row_prod1 r <= Z.of_nat p + 1)%Z).
Proof.
  intros Ha Hd E. unfold hyperbolic_cross_set in E.
  pose proof (down_pred_mono row_prod1 (Z.of_nat p + 1) row_prod1_mono) as Hdown.
  assert (Q0 : (row_prod1 (repeat 0%Z d) <= Z.of_nat p + 1)%Z) by (rewrite row_prod1_zero; lia).
  destruct (grow_loop_sound argsort Ha row_prod1 (Z.of_nat p + 1) d Hd Q0 Hdown stop_empty fuel (zero_mi d) 0 J) as [n [Hn [HS Hst]]]; auto.
  - lia.
  - apply zero_is_layer; auto.
  - apply (layer_complete d Hd _ Q0 Hdown J n); auto.
    apply stop_empty_none; auto.
Qed.

Lemma hyperbolic_terminates argsort fuel d p : argsort_ok argsort -> 0 < d -> p + 2 <= fuel ->
  exists J, hyperbolic_cross_set argsort fuel d p = Some J.
Proof.
  intros Ha Hd Hf. unfold hyperbolic_cross_set.
  pose proof (down_pred_mono row_prod1 (Z.of_nat p + 1) row_prod1_mono) as Hdown.
  assert (Q0 : (row_prod1 (repeat 0%Z d) <= Z.of_nat p + 1)%Z) by (rewrite row_prod1_zero; lia).
  apply (grow_loop_terminates argsort Ha row_prod1 (Z.of_nat p + 1) d Hd Q0 Hdown stop_empty fuel (zero_mi d) 0 (Z.of_nat p)); auto.
  - lia.
  - apply zero_is_layer; auto.
  - intros r Hl Hn Hq. pose proof (row_prod1_sum r Hn). lia.
  - lia.
  - lia.
Qed.

(** ** general p *)
Lemma pow_sum_mono p r s : nonneg s -> Forall2 Z.le s r -> (row_norm_pow (PNat p) s <= row_norm_pow (PNat p) r)%Z.
Proof.
  intros Hn H. induction H as [|x y s r Hxy H IH]; [simpl; lia|].
  inversion Hn; subst. simpl in *. specialize (IH H3).
  pose proof (Z.pow_le_mono_l x y (Z.of_nat p)). lia.
Qed.
Lemma pow_sum_zero p d : row_norm_pow (PNat (S p)) (repeat 0%Z d) = 0%Z.
Proof. unfold row_norm_pow. induction d as [|d IH]; auto. cbn [repeat map zsum fold_right] in *. unfold zsum in IH. rewrite IH, Z.pow_0_l; lia. Qed.

Lemma pow_ge x p : (0 <= x)%Z -> (x <= x ^ Z.of_nat (S p))%Z.
Proof.
  intros Hx. destruct (Z.eq_dec x 0) as [->|E]; [rewrite Z.pow_0_l; lia|].
  rewrite Nat2Z.inj_succ, Z.pow_succ_r by lia. pose proof (Z.pow_pos_nonneg x (Z.of_nat p)). nia.
Qed.
Lemma pow_sum_ge p r : nonneg r -> (zsum r <= row_norm_pow (PNat (S p)) r)%Z.
Proof.
  induction 1 as [|x r Hx H IH]; [simpl; lia|]. cbn [zsum fold_right row_norm_pow map] in *.
  fold (zsum r) in *. unfold zsum in *. pose proof (pow_ge x p Hx). lia.
Qed.

(** the result of [with_bounded_norm] for p >= 2: only indices within the bound, down-closed *)
Lemma wbn_sound argsort fuel d p m J : argsort_ok argsort -> 0 < d ->
  with_bounded_norm argsort fuel d (PNat (S (S p))) m = Some J ->
  exists n, (0 <= n)%Z /\
  is_set J d (layer d (fun r => (row_norm_pow (PNat (S (S p))) r <= Z.of_nat m ^ Z.of_nat (S (S p)))%Z) n).
Proof.
  intros Ha Hd E. cbn [with_bounded_norm] in E.
  set (key := row_norm_pow (PNat (S (S p)))) in *. set (b := bound_pow (PNat (S (S p))) (Z.of_nat m)) in *.
  assert (Hdown : down_pred (fun r => (key r <= b)%Z)) by (apply down_pred_mono; apply pow_sum_mono).
  assert (Q0 : (key (repeat 0%Z d) <= b)%Z).
  { unfold key. rewrite pow_sum_zero. unfold b. cbn [bound_pow]. apply Z.pow_nonneg. lia. }
  destruct (grow_loop_sound argsort Ha key b d Hd Q0 Hdown stop_all_not fuel (zero_mi d) 0 J) as [n [Hn [HS _]]]; auto.
  - lia.
  - apply zero_is_layer; auto.
  - exists n; split; auto.
Qed.

(** ** weighted norm *)
Lemma zmax_ge l x : In x l -> (x <= zmax l)%Z.
Proof.
  destruct l as [|a l]; simpl; [contradiction|]. intros H.
  assert (G : forall l a, (a <= fold_left Z.max l a)%Z /\ forall y, In y l -> (y <= fold_left Z.max l a)%Z).
  { clear. induction l as [|c l IH]; intros a; simpl; [split; [lia|contradiction]|].
    destruct (IH (Z.max a c)) as [H1 H2]. split; [lia|]. intros y [<-|Hy]; [lia|auto]. }
  destruct (G l a). destruct H as [<-|H]; auto.
Qed.
Lemma zmax_in l : l <> [] -> In (zmax l) l.
Proof.
  destruct l as [|a l]; [congruence|]. intros _. simpl.
  revert a; induction l as [|c l IH]; intros a; simpl; auto.
  destruct (IH (Z.max a c)) as [E|H]; [|auto]. rewrite <- E.
  destruct (Z.max_spec a c) as [[_ ->]|[_ ->]]; auto.
Qed.

Lemma wbn_1_exact argsort fuel d m J : 0 < d ->
  with_bounded_norm argsort fuel d (PNat 1) m = Some J ->
  is_set J d (fun r => length r = d /\ nonneg r /\ (zsum r <= Z.of_nat m)%Z).
Proof.
  intros Hd E. simpl in E. inversion E; subst; clear E.
  pose proof (margin_iter_spec d m (zero_mi d) 0 Hd ltac:(lia) (zero_is_layer d Hd _ Logic.I)) as H.
  destruct H as [H1 [H2 H3]]. split; auto. split; auto. intros r. rewrite H3. unfold layer. rewrite Z.add_0_l. tauto.
Qed.

Lemma layer_down_closed d Q n J : down_pred Q -> is_set J d (layer d Q n) -> down_closed (mi_rows J).
Proof.
  intros Hq [HD [HN HR]]. apply (down_closed_step _ d).
  - apply Forall_forall. intros r Hr. apply HR in Hr. apply Hr.
  - intros r k Hr Hk Hb. apply HR in Hr. apply HR. destruct Hr as [Hl [Hn [HQ Hs]]].
    unfold layer. rewrite bump_length, zsum_bump by lia. repeat split; auto; [|lia]. apply Hq; auto; lia.
  - apply Forall_forall. intros r Hr. apply HR in Hr. apply Hr.
Qed.

Lemma layer_zero d (Q : row -> Prop) n : Q (repeat 0%Z d) -> (0 <= n)%Z -> layer d Q n (repeat 0%Z d).
Proof.
  intros H Hn. unfold layer. rewrite repeat_length, zsum_repeat0. repeat split; auto.
  apply Forall_forall. intros x Hx. apply repeat_spec in Hx; lia.
Qed.

Lemma wbn_p_partial argsort fuel d p m J : argsort_ok argsort -> 0 < d ->
  with_bounded_norm argsort fuel d (PNat (S (S p))) m = Some J ->
  mi_dim J = d /\ NoDup (mi_rows J) /\ In (repeat 0%Z d) (mi_rows J) /\ down_closed (mi_rows J) /\
  forall r, In r (mi_rows J) ->
    length r = d /\ nonneg r /\ (row_norm_pow (PNat (S (S p))) r <= Z.of_nat m ^ Z.of_nat (S (S p)))%Z.
Proof.
  intros Ha Hd E. apply wbn_sound in E; auto. destruct E as [n [Hn H]].
  assert (Hdn : down_closed (mi_rows J)).
  { eapply layer_down_closed; eauto. apply down_pred_mono, pow_sum_mono. }
  destruct H as [HD [HN HR]]. repeat split; auto.
  - apply HR, layer_zero; auto. rewrite pow_sum_zero. apply Z.pow_nonneg; lia.
  - apply HR in H. apply H.
  - apply HR in H. apply H.
  - apply HR in H. apply H.
Qed.

Lemma wbn_p_refuted :
  exists d m J, 0 < d /\ (forall fuel, 1 <= fuel -> with_bounded_norm argsort_stable fuel d (PNat 2) m = Some J) /\
    ~ is_set J d (fun r => length r = d /\ nonneg r /\ (row_norm_pow (PNat 2) r <= Z.of_nat m ^ 2)%Z).
Proof.
  exists 1, 3, (MI 1 [[0%Z]]). split; [lia|]. split.
  - intros [|fuel] Hf; [lia|]. reflexivity.
  - intros [_ [_ H]]. specialize (H [1%Z]). destruct H as [_ H].
    destruct H as [E|[]]; [|discriminate]. repeat split; [repeat constructor; lia|vm_compute; discriminate].
Qed.
