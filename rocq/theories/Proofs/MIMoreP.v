(** Sorting, projections, weighted norms, envelopes, index conversion. *)
From Coq Require Import List Arith ZArith Lia Bool Permutation Sorted.
From Verif.Base Require Import ListAux Index.
From Verif.Model Require Import Sorting MultiIndices Utils.
From Verif.Proofs Require Import SortingP MultiIndicesP MIGrowP.
Import ListNotations.

(** * sort *)
Section SortP.
  Variable argsort : list Z -> list nat.
  Hypothesis argsort_spec : argsort_ok argsort.

  Lemma key_nth (k : nat) rows i : i < length rows ->
    nth i (map (fun r => nth k r 0%Z) rows) 0%Z = nth k (nth i rows []) 0%Z.
  Proof. intros H. rewrite map_nth_in with (da := []); auto. Qed.

  Lemma stable_pass rows k (done : list nat) :
    StronglySorted (lex_le done) rows ->
    StronglySorted (lex_le (k :: done)) (sel [] rows (argsort_stable (map (fun r => nth k r 0%Z) rows))).
  Proof.
    intros Hs. set (key := map _ rows). destruct argsort_stable_is_stable as [Hok Hst].
    destruct (Hok key) as [P S]. assert (Hlen : length key = length rows) by apply map_length.
    pose proof (is_perm_length _ _ P) as Hpl.
    apply StronglySorted_of_nth with (d := []). rewrite sel_length, Hpl, Hlen. intros i j Hij Hj.
    rewrite !sel_nth by lia.
    assert (Hi' : nth i (argsort_stable key) 0 < length rows) by (rewrite <- Hlen; apply is_perm_nth; [auto|lia]).
    assert (Hj' : nth j (argsort_stable key) 0 < length rows) by (rewrite <- Hlen; apply is_perm_nth; [auto|lia]).
    specialize (S i j Hij ltac:(lia)). specialize (Hst key i j Hij ltac:(lia)).
    pose proof (key_nth k rows _ Hi') as Ki. pose proof (key_nth k rows _ Hj') as Kj. fold key in Ki, Kj.
    rewrite Ki, Kj in S, Hst.
    simpl. destruct (Z.eq_dec (nth k (nth (nth i (argsort_stable key) 0) rows []) 0%Z) (nth k (nth (nth j (argsort_stable key) 0) rows []) 0%Z)) as [E|E].
    - right. split; auto. apply StronglySorted_nth; auto.
    - left. lia.
  Qed.

  Lemma first_pass rows k :
    StronglySorted (lex_le [k]) (sel [] rows (argsort (map (fun r => nth k r 0%Z) rows))).
  Proof.
    set (key := map _ rows). destruct (argsort_spec key) as [P S].
    assert (Hlen : length key = length rows) by apply map_length.
    pose proof (is_perm_length _ _ P) as Hpl.
    apply StronglySorted_of_nth with (d := []). rewrite sel_length, Hpl, Hlen. intros i j Hij Hj.
    rewrite !sel_nth by lia.
    assert (Hi' : nth i (argsort key) 0 < length rows) by (rewrite <- Hlen; apply is_perm_nth; [auto|lia]).
    assert (Hj' : nth j (argsort key) 0 < length rows) by (rewrite <- Hlen; apply is_perm_nth; [auto|lia]).
    specialize (S i j Hij ltac:(lia)). unfold key in S. rewrite !key_nth in S by auto. fold key in S. simpl. lia.
  Qed.

  Lemma pass_perm cols desc rows k : Permutation (sort_pass argsort cols desc rows k) rows.
  Proof.
    unfold sort_pass. set (key := map _ rows). assert (Hlen : length key = length rows) by apply map_length.
    set (ind := if k =? last cols 0 then argsort key else argsort_stable key).
    assert (P : is_perm (length rows) ind).
    { unfold ind. rewrite <- Hlen. destruct (k =? last cols 0); [apply argsort_spec|apply argsort_stable_perm]. }
    apply sel_perm_rows. destruct desc; auto. unfold is_perm in *. rewrite <- P. symmetry; apply Permutation_rev.
  Qed.

  Lemma sort_fold_perm cols desc ks rows : Permutation (fold_left (sort_pass argsort cols desc) ks rows) rows.
  Proof. revert rows; induction ks as [|k ks IH]; intros rows; simpl; auto. rewrite IH. apply pass_perm. Qed.

  (** loop over the remaining columns [rest] (least significant first), [done] already sorted *)
  Lemma sort_fold_sorted cols ks done rows :
    ~ In (last cols 0) ks -> StronglySorted (lex_le done) rows ->
    StronglySorted (lex_le (rev ks ++ done)) (fold_left (sort_pass argsort cols false) ks rows).
  Proof.
    revert done rows; induction ks as [|k ks IH]; intros done rows Hn Hs; simpl; auto.
    rewrite <- app_assoc. simpl. apply IH; [simpl in Hn; tauto|].
    unfold sort_pass. destruct (Nat.eqb_spec k (last cols 0)) as [->|E]; [simpl in Hn; tauto|].
    apply stable_pass; auto.
  Qed.

  Lemma mi_sort_asc I cols : NoDup cols ->
    StronglySorted (lex_le cols) (mi_rows (mi_sort argsort I (Some cols) false)).
  Proof.
    intros Hn. simpl. destruct cols as [|c0 cs] eqn:Ec.
    - simpl. apply StronglySorted_of_nth with (d := []). intros; exact Logic.I.
    - rewrite <- Ec in *. destruct (exists_last (l := cols)) as [init [k E]]; [congruence|].
      clear Ec c0 cs. subst cols. rewrite rev_app_distr. simpl.
      assert (Hl : last (init ++ [k]) 0 = k) by apply last_last.
      replace (init ++ [k]) with (rev (rev init) ++ [k]) at 1 by (rewrite rev_involutive; auto).
      apply sort_fold_sorted.
      + rewrite Hl. rewrite <- in_rev. apply NoDup_remove_2 in Hn. rewrite app_nil_r in Hn; auto.
      + unfold sort_pass. rewrite Hl, Nat.eqb_refl. apply first_pass.
  Qed.

  Lemma mi_sort_perm I cols desc : Permutation (mi_rows (mi_sort argsort I cols desc)) (mi_rows I).
  Proof. apply sort_fold_perm. Qed.

  Lemma sort_key_sorted (key : row -> Z) rows :
    StronglySorted (fun r s => (key r <= key s)%Z) (sel [] rows (argsort (map key rows))).
  Proof.
    destruct (argsort_spec (map key rows)) as [P S].
    pose proof (is_perm_length _ _ P) as Hpl. rewrite map_length in *.
    apply StronglySorted_of_nth with (d := []). rewrite sel_length, Hpl. intros i j Hij Hj.
    rewrite !sel_nth by lia. specialize (S i j Hij Hj).
    rewrite !map_nth_in with (da := []) in S; auto; apply is_perm_nth; auto; lia.
  Qed.
  Lemma StronglySorted_rev {A} (R : A -> A -> Prop) l :
    StronglySorted R l -> StronglySorted (fun a b => R b a) (rev l).
  Proof.
    induction 1 as [|a l Hs IH Hf]; simpl; [constructor|].
    revert IH. generalize (fun x => in_rev l x). intros Hin.
    assert (Hf' : Forall (fun b => R a b) (rev l)).
    { rewrite Forall_forall in *. intros x Hx. apply Hf. apply in_rev; auto. }
    clear - Hf'. induction (rev l) as [|b m IHm]; simpl; intros Hs; [repeat constructor|].
    inversion Hs; subst. inversion Hf'; subst. constructor; [auto|].
    apply Forall_app; split; auto.
  Qed.
  Lemma sel_rev {A} (d : A) l ks : sel d l (rev ks) = rev (sel d l ks).
  Proof. unfold sel. apply map_rev. Qed.

  Lemma sort_by_norm_asc I p :
    Permutation (mi_rows (sort_by_norm argsort I p false)) (mi_rows I) /\
    StronglySorted (fun r s => (row_norm_pow p r <= row_norm_pow p s)%Z) (mi_rows (sort_by_norm argsort I p false)).
  Proof.
    simpl. split; [|apply sort_key_sorted]. apply sel_perm_rows.
    rewrite <- (map_length (row_norm_pow p)). apply argsort_spec.
  Qed.
  Lemma sort_by_norm_desc I p :
    Permutation (mi_rows (sort_by_norm argsort I p true)) (mi_rows I) /\
    StronglySorted (fun r s => (row_norm_pow p s <= row_norm_pow p r)%Z) (mi_rows (sort_by_norm argsort I p true)).
  Proof.
    simpl. rewrite sel_rev. split.
    - rewrite <- Permutation_rev. apply sort_by_norm_asc.
    - apply StronglySorted_rev, sort_key_sorted.
  Qed.
  Lemma sort_by_wnorm_asc I p w :
    Permutation (mi_rows (sort_by_weighted_norm argsort I p w false)) (mi_rows I) /\
    StronglySorted (fun r s => (row_wnorm_pow p w r <= row_wnorm_pow p w s)%Z) (mi_rows (sort_by_weighted_norm argsort I p w false)).
  Proof.
    simpl. split; [|apply sort_key_sorted]. apply sel_perm_rows.
    rewrite <- (map_length (row_wnorm_pow p w)). apply argsort_spec.
  Qed.
  Lemma sort_by_wnorm_desc I p w :
    Permutation (mi_rows (sort_by_weighted_norm argsort I p w true)) (mi_rows I) /\
    StronglySorted (fun r s => (row_wnorm_pow p w s <= row_wnorm_pow p w r)%Z) (mi_rows (sort_by_weighted_norm argsort I p w true)).
  Proof.
    simpl. rewrite sel_rev. split.
    - rewrite <- Permutation_rev. apply sort_by_wnorm_asc.
    - apply StronglySorted_rev, sort_key_sorted.
  Qed.
End SortP.

(** * index conversion *)
Lemma row_in_shape_spec shape r : row_in_shape shape r = true <-> in_shape shape r.
Proof.
  unfold row_in_shape, in_shape. split.
  - intros H. apply andb_true_iff in H. destruct H as [Hl H]. apply Nat.eqb_eq in Hl.
    revert r Hl H. induction shape as [|n shape IH]; intros [|x r] Hl H; simpl in *; try lia; constructor.
    + apply andb_true_iff in H. destruct H as [H _]. lia.
    + apply andb_true_iff in H. apply IH; [lia|apply H].
  - intros H. rewrite (Forall2_length' _ _ _ H), Nat.eqb_refl. simpl.
    induction H as [|x n r shape Hx H IH]; simpl; auto. rewrite IH. lia.
Qed.

Lemma in_shape_valid shape r : in_shape shape r -> valid shape (map Z.to_nat r) /\ map Z.of_nat (map Z.to_nat r) = r.
Proof.
  induction 1 as [|x n r shape Hx H IH]; simpl; [split; [constructor|auto]|].
  destruct IH as [H1 H2]. split; [constructor; [lia|auto]|]. rewrite H2. f_equal; lia.
Qed.
Lemma valid_in_shape shape is : valid shape is -> in_shape shape (map Z.of_nat is).
Proof. induction 1; simpl; constructor; auto; lia. Qed.
Lemma map_to_of_nat is : map Z.to_nat (map Z.of_nat is) = is.
Proof. induction is; simpl; auto. rewrite Nat2Z.id. f_equal; auto. Qed.

Lemma sub2ind_some I shape : (exists l, sub2ind I shape = Some l) <-> Forall (in_shape shape) (mi_rows I).
Proof.
  unfold sub2ind. destruct (forallb _ _) eqn:E.
  - split; eauto. intros _. rewrite forallb_forall in E. apply Forall_forall. intros r Hr. apply row_in_shape_spec; auto.
  - split; [intros [l H]; discriminate|]. intros H.
    assert (forallb (row_in_shape shape) (mi_rows I) = true); [|congruence].
    apply forallb_forall. intros r Hr. apply row_in_shape_spec. rewrite Forall_forall in H; auto.
Qed.

Lemma ind2sub_sub2ind I shape l : mi_dim I = length shape -> sub2ind I shape = Some l -> ind2sub shape l = Some I.
Proof.
  intros Hd H. assert (Hf : Forall (in_shape shape) (mi_rows I)) by (apply sub2ind_some; eauto).
  unfold sub2ind in H. destruct (forallb _ (mi_rows I)); [|discriminate]. inversion H; subst; clear H.
  unfold ind2sub. rewrite Forall_forall in Hf.
  assert (forallb (fun k => k <? prodn shape) (map (fun r => sub2indF shape (map Z.to_nat r)) (mi_rows I)) = true) as ->.
  { apply forallb_forall. intros k Hk. apply in_map_iff in Hk. destruct Hk as [r [<- Hr]]. apply Nat.ltb_lt.
    apply sub2indF_lt, in_shape_valid; auto. }
  rewrite map_map. destruct I as [di rows]. simpl in *. subst di. do 2 f_equal.
  rewrite <- (map_id rows) at 2. apply map_ext_in. intros r Hr.
  destruct (in_shape_valid shape r (Hf r Hr)) as [H1 H2]. rewrite ind2subF_sub2indF; auto.
Qed.

Lemma sub2ind_ind2sub shape l I : ind2sub shape l = Some I ->
  mi_dim I = length shape /\ sub2ind I shape = Some l.
Proof.
  unfold ind2sub. destruct (forallb _ l) eqn:E; [|discriminate]. intros H; inversion H; subst; clear H. simpl. split; auto.
  rewrite forallb_forall in E. unfold sub2ind. simpl.
  assert (forallb (row_in_shape shape) (map (fun k => map Z.of_nat (ind2subF shape k)) l) = true) as ->.
  { apply forallb_forall. intros r Hr. apply in_map_iff in Hr. destruct Hr as [k [<- Hk]]. apply row_in_shape_spec.
    apply valid_in_shape, ind2subF_valid. apply Nat.ltb_lt; auto. }
  f_equal. rewrite map_map. rewrite <- (map_id l) at 2. apply map_ext_in. intros k Hk.
  rewrite map_to_of_nat. apply sub2indF_ind2subF. apply Nat.ltb_lt; auto.
Qed.

Lemma ind2sub_some shape l : (exists I, ind2sub shape l = Some I) <-> Forall (fun k => k < prodn shape) l.
Proof.
  unfold ind2sub. rewrite Forall_forall. destruct (forallb _ l) eqn:E.
  - rewrite forallb_forall in E. split; eauto. intros _ k Hk. apply Nat.ltb_lt; auto.
  - split; [intros [I H]; discriminate|]. intros H.
    assert (forallb (fun k => k <? prodn shape) l = true); [|congruence].
    apply forallb_forall. intros k Hk. apply Nat.ltb_lt; auto.
Qed.

Lemma bounded_by_is_ind2sub shape : Forall (fun n => 0 < n) shape ->
  bounded_by (map (fun n => Z.of_nat n - 1)%Z shape) 0 = ind2sub shape (seq 0 (prodn shape)).
Proof.
  intros Hp. rewrite bounded_by_eq.
  assert (forallb (fun x => (0 <=? x)%Z) (map (fun n => Z.of_nat n - 1)%Z shape) = true) as ->.
  { apply forallb_forall. intros x Hx. apply in_map_iff in Hx. destruct Hx as [n [<- Hn]].
    rewrite Forall_forall in Hp. apply Hp in Hn. lia. }
  unfold ind2sub.
  assert (forallb (fun k => k <? prodn shape) (seq 0 (prodn shape)) = true) as ->.
  { apply forallb_forall. intros k Hk. apply in_seq in Hk. apply Nat.ltb_lt; lia. }
  rewrite map_length, map_map. do 2 f_equal.
  assert (map (fun x => Z.to_nat (Z.of_nat x - 1 + 1 - 0)) shape = shape) as ->.
  { rewrite <- (map_id shape) at 2. apply map_ext. intros; lia. }
  rewrite boxF_ind2sub, map_map. apply map_ext. intros k. apply map_ext. intros; lia.
Qed.

(** * projections *)
Lemma keep_dims_spec I dims J : mi_rows I <> [] -> keep_dims I dims = Some J ->
  mi_dim J = length dims /\ NoDup (mi_rows J) /\
  forall r, In r (mi_rows J) <-> exists s, In s (mi_rows I) /\ r = sel 0%Z s dims.
Proof.
  intros Hn. unfold keep_dims. destruct (forallb _ dims); [|discriminate]. intros H; inversion H; subst; clear H.
  rewrite mi_of_rows_rows.
  - simpl. split; auto. split; [apply rdedup_NoDup|]. intros r. rewrite rdedup_in, in_map_iff. split.
    + intros [s [<- Hs]]; eauto.
    + intros [s [Hs ->]]; eauto.
  - apply dedup_nonempty. intros E. apply map_eq_nil in E; auto.
Qed.
Lemma remove_dims_spec I dims : mi_rows I <> [] ->
  let keep := filter (fun k => negb (nmem k dims)) (seq 0 (mi_dim I)) in
  mi_dim (remove_dims I dims) = length keep /\ NoDup (mi_rows (remove_dims I dims)) /\
  forall r, In r (mi_rows (remove_dims I dims)) <-> exists s, In s (mi_rows I) /\ r = sel 0%Z s keep.
Proof.
  intros Hn keep. unfold remove_dims. fold keep. rewrite mi_of_rows_rows.
  - simpl. split; auto. split; [apply rdedup_NoDup|]. intros r. rewrite rdedup_in, in_map_iff. split.
    + intros [s [<- Hs]]; eauto.
    + intros [s [Hs ->]]; eauto.
  - apply dedup_nonempty. intros E. apply map_eq_nil in E; auto.
Qed.

(** * with_bounded_weighted_norm *)
Lemma zsum_ge l x : Forall (fun y => (0 <= y)%Z) l -> In x l -> (x <= zsum l)%Z.
Proof.
  induction 1 as [|y l Hy H IH]; simpl; [contradiction|]. intros [->|Hx].
  - assert (0 <= zsum l)%Z by (apply zsum_nonneg; auto). unfold zsum in *. lia.
  - apply IH in Hx. unfold zsum in *. lia.
Qed.

Lemma row_norm_bound p m l x : (0 <= m)%Z -> match p with PNat O => False | _ => True end ->
  Forall (fun y => (0 <= y)%Z) l -> (row_norm_pow p l <= bound_pow p m)%Z -> In x l -> (x <= m)%Z.
Proof.
  intros Hm Hp Hn Hb Hx. destruct p as [|[|p]]; [|contradiction|].
  - simpl in Hb. pose proof (zmax_ge l x Hx). lia.
  - cbn [row_norm_pow bound_pow] in Hb.
    assert ((x ^ Z.of_nat (S p)) <= zsum (map (fun x => x ^ Z.of_nat (S p)) l))%Z.
    { apply zsum_ge; [|apply in_map_iff; eauto]. apply Forall_forall. intros y Hy. apply in_map_iff in Hy.
      destruct Hy as [z [<- Hz]]. apply Z.pow_nonneg. rewrite Forall_forall in Hn; auto. }
    destruct (Z.le_gt_cases x m); auto. 
    assert (m ^ Z.of_nat (S p) < x ^ Z.of_nat (S p))%Z by (apply Z.pow_lt_mono_l; lia). lia.
Qed.

Lemma row_weight_in w r : length r = length w -> forall k, k < length w ->
  In (nth k r 0 * nth k w 0)%Z (row_weight w r).
Proof.
  unfold row_weight. revert w; induction r as [|x r IH]; intros [|y w] Hl k Hk; simpl in *; try lia.
  destruct k as [|k]; [left; auto|right]. apply IH; lia.
Qed.

Lemma wbwn_spec argsort d p m w : argsort_ok argsort -> length w = d -> (0 <= m)%Z ->
  Forall (fun x => (0 < x)%Z) w -> match p with PNat O => False | _ => True end ->
  exists J, with_bounded_weighted_norm argsort d p m w = Some J /\
    is_set J d (fun r => length r = d /\ nonneg r /\ (row_wnorm_pow p w r <= bound_pow p m)%Z) /\
    StronglySorted (fun r s => (row_wnorm_pow p w r <= row_wnorm_pow p w s)%Z) (mi_rows J).
Proof.
  intros Ha Hd Hm Hw Hp. unfold with_bounded_weighted_norm. rewrite <- Hd, Nat.eqb_refl. cbn [negb].
  assert (E : product_set (map (fun x => Vec (arangeZ 0 (m / x + 1))) w) None = bounded_by (map (fun x => m / x)%Z w) 0).
  { unfold bounded_by. rewrite map_map. reflexivity. }
  rewrite E.
  assert (exists I, bounded_by (map (fun x => m / x)%Z w) 0 = Some I) as [B HB].
  { apply bounded_by_some. apply Forall_forall. intros y Hy. apply in_map_iff in Hy. destruct Hy as [x [<- Hx]].
    rewrite Forall_forall in Hw. apply Hw in Hx. apply Z.div_pos; lia. }
  rewrite HB. destruct (bounded_by_spec _ _ _ HB) as [HBd [HBn HBr]]. rewrite map_length in HBd.
  destruct (keep_sorted argsort Ha B (row_wnorm_pow p w) (bound_pow p m)) as [J [HJ [HJd HJr]]].
  cbv zeta. rewrite HJ. exists J. split; auto.
  set (key := row_wnorm_pow p w) in *. set (b := bound_pow p m) in *.
  set (n' := map key (mi_rows B)) in *. set (k' := nonzero_le n' b) in *.
  assert (Pj : Permutation (sel 0 k' (argsort (map (fun i => nth i n' 0%Z) k'))) k').
  { apply sel_perm_rows. rewrite <- (map_length (fun i => nth i n' 0%Z)). apply Ha. }
  unfold keep_indices in HJ. destruct (forallb _ _); [|discriminate]. inversion HJ; subst J; clear HJ. simpl in *.
  assert (Hk' : forall x, In x k' -> x < length (mi_rows B)).
  { intros x Hx. unfold k' in Hx. apply nonzero_le_in in Hx. unfold n' in Hx. rewrite map_length in Hx. tauto. }
  split; [split|].
  - rewrite HBd; auto.
  - split.
    + unfold sel. apply NoDup_map_inj.
      * intros x y Hx Hy Exy. apply (Permutation_in _ Pj), Hk' in Hx. apply (Permutation_in _ Pj), Hk' in Hy.
        apply (proj1 (NoDup_nth _ []) HBn); auto.
      * apply (Permutation_NoDup (Permutation_sym Pj)). apply NoDup_filter, seq_NoDup.
    + intros r. simpl. rewrite HJr, HBr. rewrite in_box_0. split.
      * intros [[H1 H2] H3]. repeat split; auto. apply Forall2_length' in H2. rewrite map_length in H2; auto.
      * intros [H1 [H2 H3]]. repeat split; auto.
        apply Forall2_of_nth with (da := 0%Z) (db := 0%Z); [rewrite map_length; auto|].
        intros i Hi. rewrite map_nth_in with (da := 0%Z) by lia.
        assert (Hwi : (0 < nth i w 0)%Z) by (rewrite (Forall_nth' _ _ 0%Z) in Hw; apply Hw; lia).
        apply Z.div_le_lower_bound; auto. rewrite Z.mul_comm.
        apply (row_norm_bound p m (row_weight w r)); auto.
        -- apply Forall_forall. intros y Hy. unfold row_weight in Hy. apply in_map_iff in Hy. destruct Hy as [[u v] [<- Huv]]. simpl.
           pose proof (in_combine_l _ _ _ _ Huv) as Hu. pose proof (in_combine_r _ _ _ _ Huv) as Hv.
           unfold nonneg in H2. rewrite Forall_forall in H2, Hw. apply H2 in Hu. apply Hw in Hv. nia.
        -- apply row_weight_in; lia.
  - apply StronglySorted_of_nth with (d := []). rewrite !sel_length. intros a c Hac Hc.
    pose proof (Ha (map (fun i => nth i n' 0%Z) k')) as [Pp Sp]. rewrite map_length in *.
    pose proof (is_perm_length _ _ Pp) as Pl. rewrite Pl in Hc.
    rewrite !sel_nth by (rewrite ?sel_length; lia).
    specialize (Sp a c Hac Hc).
    assert (H1 : nth a (argsort (map (fun i => nth i n' 0%Z) k')) 0 < length k') by (apply is_perm_nth; auto; lia).
    assert (H2 : nth c (argsort (map (fun i => nth i n' 0%Z) k')) 0 < length k') by (apply is_perm_nth; auto; lia).
    rewrite !map_nth_in with (da := 0) in Sp by auto.
    assert (Hkey : forall x, In x k' -> nth x n' 0%Z = key (nth x (mi_rows B) [])).
    { intros x Hx. unfold n'. rewrite map_nth_in with (da := []); auto. }
    rewrite !Hkey in Sp by (apply nth_In; auto). exact Sp.
Qed.

(** * envelope *)
Lemma envelope_spec I u env : envelope I u = Some env ->
  length env = length u /\
  forall i, i < length u ->
    (exists j, j < length u /\ Forall2 Z.le (nth i (mi_rows I) []) (nth j (mi_rows I) []) /\ nth i env 0%Z = Z.abs (nth j u 0%Z)) /\
    (forall j, j < length u -> Forall2 Z.le (nth i (mi_rows I) []) (nth j (mi_rows I) []) -> (Z.abs (nth j u 0) <= nth i env 0)%Z).
Proof.
  unfold envelope. destruct (Nat.eqb_spec (length u) (length (mi_rows I))) as [El|]; [|discriminate].
  intros H; inversion H; subst; clear H. split; [rewrite map_length, seq_length; auto|]. intros i Hi.
  rewrite nth_map_seq by auto.
  set (l := filter (fun p => row_leb (nth i (mi_rows I) []) (fst p)) (combine (mi_rows I) u)).
  assert (Hin : forall j, j < length u -> Forall2 Z.le (nth i (mi_rows I) []) (nth j (mi_rows I) []) -> In (nth j (mi_rows I) [], nth j u 0%Z) l).
  { intros j Hj Hle. apply filter_In. split; [|apply row_leb_spec; auto].
    rewrite <- combine_nth by auto. apply nth_In. rewrite combine_length. lia. }
  assert (Hrefl : forall r : row, Forall2 Z.le r r) by (induction r; constructor; auto; lia).
  split.
  - assert (Hne : map (fun p => Z.abs (snd p)) l <> []).
    { pose proof (Hin i Hi (Hrefl _)) as Hx. intros E. apply map_eq_nil in E. rewrite E in Hx; contradiction. }
    apply zmax_in in Hne. apply in_map_iff in Hne. destruct Hne as [[r x] [E Hx]]. simpl in E.
    apply filter_In in Hx. destruct Hx as [Hx Hle]. simpl in Hle. apply row_leb_spec in Hle.
    apply (In_nth _ _ ([], 0%Z)) in Hx. destruct Hx as [j [Hj Ej]]. rewrite combine_length in Hj.
    rewrite combine_nth in Ej by auto. inversion Ej; subst. exists j. repeat split; auto; lia.
  - intros j Hj Hle. apply zmax_ge. apply in_map_iff. exists (nth j (mi_rows I) [], nth j u 0%Z). split; auto.
Qed.

(** * low order interactions and weighted hyperbolic crosses *)
Lemma remove_positions_filter (M : mi) (p : row) :
  mi_rows (remove_positions M (filter (fun k => negb (row_leb (nth k (mi_rows M) []) p)) (seq 0 (length (mi_rows M)))))
  = sel [] (mi_rows M) (filter (fun k => row_leb (nth k (mi_rows M) []) p) (seq 0 (length (mi_rows M)))).
Proof.
  simpl. f_equal. apply filter_ext_in. intros k Hk.
  destruct (row_leb (nth k (mi_rows M) []) p) eqn:E.
  - apply negb_nmem. rewrite filter_In. rewrite E. simpl. intros [_ ?]; discriminate.
  - apply negb_false_iff, nmem_spec. apply filter_In. rewrite E; auto.
Qed.

Lemma sel_filter_in (l : list row) f r :
  In r (sel [] l (filter (fun k => f (nth k l [])) (seq 0 (length l)))) <-> In r l /\ f r = true.
Proof.
  unfold sel. rewrite in_map_iff. split.
  - intros [k [<- Hk]]. apply filter_In in Hk. destruct Hk as [Hk Hf]. apply in_seq in Hk. split; auto. apply nth_In; lia.
  - intros [Hr Hf]. apply (In_nth _ _ []) in Hr. destruct Hr as [k [Hk <-]]. exists k; split; auto.
    apply filter_In; split; auto. apply in_seq; lia.
Qed.

Definition low_order_set (p : row) (m : nat) (r : row) : Prop :=
  Forall2 Z.le r p /\ (row_order r <= Z.of_nat m)%Z.

Lemma low_order_pass_cases argsort p m I : argsort_ok argsort ->
  low_order_pass argsort p m I = Some (I, false) \/
  (exists M, low_order_pass argsort p m I = Some (add_indices I M, true) /\
     forall r, In r (mi_rows M) <-> In r (mi_rows (get_margin I)) /\ low_order_set p m r).
Proof.
  intros Ha. unfold low_order_pass. set (M := get_margin I).
  set (rem := filter _ (seq 0 (length (mi_rows M)))).
  pose proof (remove_positions_filter M p) as HM1. fold rem in HM1.
  set (M1 := remove_positions M rem) in *.
  destruct (stop_all_not _); [left; auto|right].
  destruct (keep_sorted argsort Ha M1 row_order (Z.of_nat m)) as [M' [HM [_ HR]]]. rewrite HM. exists M'; split; auto.
  intros r. rewrite HR. rewrite HM1. rewrite (sel_filter_in (mi_rows M) (fun r => row_leb r p)).
  rewrite row_leb_spec. unfold low_order_set. tauto.
Qed.

Lemma row_order_mono r s : nonneg s -> Forall2 Z.le s r -> (row_order s <= row_order r)%Z.
Proof.
  intros Hn H. induction H as [|x y s r Hxy H IH]; [lia|]. inversion Hn; subst. specialize (IH H3).
  unfold row_order in *. simpl. destruct (Z.eqb_spec x 0), (Z.eqb_spec y 0); simpl; lia.
Qed.

Lemma low_order_down p m : down_pred (low_order_set p m).
Proof.
  intros r k Hk Hn [H1 H2]. split.
  - pose proof (bump_le k r Hk) as Hb. clear - Hb H1. revert p H1.
    induction Hb; intros q Hq; inversion Hq; subst; constructor; auto; lia.
  - pose proof (row_order_mono r (bump k (-1) r) Hn (bump_le k r Hk)). lia.
Qed.

Lemma low_order_sound argsort fuel d p m J : argsort_ok argsort -> 0 < d ->
  length p = d -> nonneg p ->
  low_order_interactions argsort fuel d p m = Some J ->
  exists n, (0 <= n)%Z /\ is_set J d (layer d (low_order_set p m) n).
Proof.
  intros Ha Hd Hl Hp. unfold low_order_interactions.
  assert (Q0 : low_order_set p m (repeat 0%Z d)).
  { split.
    - subst d. clear Hd. induction Hp; simpl; constructor; auto.
    - unfold row_order. assert (filter (fun x => negb (x =? 0)%Z) (repeat 0%Z d) = []) as ->; [|simpl; lia].
      apply filter_none. intros x Hx. apply repeat_spec in Hx; subst; auto. }
  assert (G : forall fuel I n J, (0 <= n)%Z -> is_set I d (layer d (low_order_set p m) n) ->
     low_order_loop argsort fuel p m I = Some J -> exists n, (0 <= n)%Z /\ is_set J d (layer d (low_order_set p m) n)).
  { clear J. induction fuel0 as [|f IH]; intros I n J Hn HI E; simpl in E; [discriminate|].
    destruct (low_order_pass_cases argsort p m I Ha) as [Hp'|[M [Hp' HM]]]; rewrite Hp' in E.
    - inversion E; subst; eauto.
    - apply (IH (add_indices I M) (n + 1)%Z J); [lia| |exact E]. apply add_layer; auto. apply low_order_down. }
  intros E. apply (G fuel (zero_mi d) 0%Z); auto; [lia|]. apply zero_is_layer; auto.
Qed.

Lemma row_prod1_w_pos w r : nonneg r -> Forall (fun x => (0 <= x)%Z) w -> (1 <= row_prod1_w w r)%Z.
Proof.
  intros H. revert w. unfold row_prod1_w. induction H as [|x r Hx H IH]; intros w Hw; simpl; [lia|].
  destruct w as [|y w]; simpl; [lia|]. inversion Hw; subst. specialize (IH w H3).
  pose proof (Z.pow_pos_nonneg (x + 1) y). nia.
Qed.
Lemma row_prod1_w_mono w r s : Forall (fun x => (0 <= x)%Z) w -> nonneg s -> Forall2 Z.le s r -> (row_prod1_w w s <= row_prod1_w w r)%Z.
Proof.
  intros Hw Hn H. revert w Hw. induction H as [|x y s r Hxy H IH]; intros w Hw; [lia|].
  destruct w as [|z w]; [unfold row_prod1_w; simpl; lia|].
  inversion Hn; subst. inversion Hw; subst. specialize (IH H3 w H5).
  pose proof (row_prod1_w_pos w s H3 H5). unfold row_prod1_w in *. simpl in *.
  pose proof (Z.pow_le_mono_l (x + 1) (y + 1) z). pose proof (Z.pow_pos_nonneg (x + 1) z). nia.
Qed.
Lemma row_prod1_w_zero w d : Forall (fun x => (0 <= x)%Z) w -> row_prod1_w w (repeat 0%Z d) = 1%Z.
Proof.
  unfold row_prod1_w. revert w. induction d as [|d IH]; intros w Hw; auto. destruct w as [|x w]; auto.
  inversion Hw; subst. cbn [repeat combine map fold_right fst snd]. rewrite IH by auto. rewrite Z.add_0_l, Z.pow_1_l; lia.
Qed.

Lemma whyper_sound argsort fuel d p w J : argsort_ok argsort -> 0 < d ->
  Forall (fun x => (0 <= x)%Z) w ->
  weighted_hyperbolic_cross_set argsort fuel d p w = Some J ->
  exists n, (0 <= n)%Z /\ is_set J d (layer d (fun r => (row_prod1_w w r <= Z.of_nat p + 1)%Z) n).
Proof.
  intros Ha Hd Hw E. unfold weighted_hyperbolic_cross_set in E.
  assert (Hdown : down_pred (fun r => (row_prod1_w w r <= Z.of_nat p + 1)%Z)).
  { apply down_pred_mono. intros; apply row_prod1_w_mono; auto. }
  assert (Q0 : (row_prod1_w w (repeat 0%Z d) <= Z.of_nat p + 1)%Z) by (rewrite row_prod1_w_zero; auto; lia).
  destruct (grow_loop_sound argsort Ha (row_prod1_w w) (Z.of_nat p + 1) d Hd Q0 Hdown stop_all_not fuel (zero_mi d) 0 J) as [n [Hn [HS _]]]; auto.
  - lia.
  - apply zero_is_layer; auto.
  - exists n; split; auto.
Qed.

(** * utils *)
Lemma valid_repeat b d is : valid (repeat b d) is <-> length is = d /\ Forall (fun x => x < b) is.
Proof.
  unfold valid. revert is; induction d as [|d IH]; intros is; simpl.
  - split; [intros H; inversion H; auto|intros [H _]; destruct is; [constructor|discriminate]].
  - split.
    + intros H; inversion H; subst. apply IH in H4. destruct H4. simpl; split; auto.
    + intros [H1 H2]. destruct is as [|i is]; [discriminate|]. inversion H2; subst. constructor; auto. apply IH; auto.
Qed.

Lemma rev_repeat {A} (b : A) d : rev (repeat b d) = repeat b d.
Proof.
  induction d as [|d IH]; auto. simpl. rewrite IH. clear. induction d; simpl; auto. f_equal; auto.
Qed.

Lemma integer2baseb_spec i b d l : integer2baseb i b d = Some l ->
  length l = d /\ Forall (fun x => x < b) l /\ baseb2integer l b = Some i.
Proof.
  unfold integer2baseb. destruct (Nat.ltb_spec i (b ^ d)); [|discriminate]. intros H0; inversion H0; subst; clear H0.
  rewrite <- prodn_repeat in H. pose proof (ind2subF_valid _ _ H) as Hv. apply valid_repeat in Hv. destruct Hv as [Hl Hf].
  rewrite rev_length. split; auto. assert (Hf' : Forall (fun x => x < b) (rev (ind2subF (repeat b d) i))).
  { apply Forall_rev; auto. }
  split; auto. unfold baseb2integer.
  assert (forallb (fun x => x <? b) (rev (ind2subF (repeat b d) i)) = true) as ->.
  { apply forallb_forall. intros x Hx. rewrite Forall_forall in Hf'. apply Nat.ltb_lt; auto. }
  rewrite rev_length, Hl, rev_involutive, sub2indF_ind2subF; auto.
Qed.

Lemma baseb2integer_spec l b i : baseb2integer l b = Some i ->
  i < b ^ length l /\ integer2baseb i b (length l) = Some l.
Proof.
  unfold baseb2integer. destruct (forallb _ l) eqn:E; [|discriminate]. intros H; inversion H; subst; clear H.
  rewrite forallb_forall in E.
  assert (Hv : valid (repeat b (length l)) (rev l)).
  { apply valid_repeat. rewrite rev_length. split; auto. apply Forall_rev, Forall_forall. intros x Hx. apply Nat.ltb_lt; auto. }
  pose proof (sub2indF_lt _ _ Hv) as Hlt. rewrite prodn_repeat in Hlt. split; auto.
  unfold integer2baseb. destruct (Nat.ltb_spec (sub2indF (repeat b (length l)) (rev l)) (b ^ length l)); [|lia].
  rewrite ind2subF_sub2indF, rev_involutive; auto.
Qed.

Lemma baseb2integer_value l b i : baseb2integer l b = Some i -> i = digits_value b l.
Proof.
  unfold baseb2integer. destruct (forallb _ l); [|discriminate]. intros H; inversion H; subst; clear H.
  unfold digits_value. rewrite <- fold_left_rev_right. rewrite <- rev_length. generalize (rev l). clear.
  induction l as [|x l IH]; simpl; auto. rewrite IH. lia.
Qed.

(** * order of enumeration *)
Lemma bounded_by_full m m0 : Forall (fun x => (m0 <= x)%Z) m ->
  exists B, bounded_by m m0 = Some B /\ is_set B (length m) (in_box m0 m) /\
    length (mi_rows B) = prodn (map (fun x => Z.to_nat (x - m0 + 1)) m) /\
    forall k j, k < length (mi_rows B) -> j < length m ->
      nth j (nth k (mi_rows B) []) 0%Z =
      (m0 + Z.of_nat ((k / prodn (map (fun x => Z.to_nat (x - m0 + 1)) (firstn j m)))
                      mod Z.to_nat (nth j m 0 - m0 + 1)))%Z.
Proof.
  intros H. pose proof H as H0. apply bounded_by_some in H. destruct H as [B HB]. exists B. split; auto.
  split; [destruct (bounded_by_spec _ _ _ HB) as [? [? ?]]; split; auto|].
  rewrite bounded_by_eq in HB. destruct (forallb _ m); [|discriminate]. inversion HB; subst; clear HB. cbn [mi_rows].
  assert (E : map (fun x => Z.to_nat (x + 1 - m0)) m = map (fun x => Z.to_nat (x - m0 + 1)) m) by (apply map_ext; intros; lia).
  rewrite E. rewrite map_length, boxF_length. split; auto. intros k j Hk Hj.
  rewrite map_nth_in with (da := []) by (rewrite boxF_length; auto). rewrite nth_boxF by auto.
  rewrite map_nth_in with (da := 0) by (rewrite ind2subF_length, map_length; auto).
  rewrite nth_ind2subF by (rewrite map_length; auto). rewrite firstn_map.
  rewrite map_nth_in with (da := 0%Z) by auto. reflexivity.
Qed.

Lemma product_set_full L :
  (Forall (fun f => factor_rows f <> []) L ->
   exists B, product_set L None = Some B /\ mi_dim B = sumn (map factor_dim L) /\
    length (mi_rows B) = prodn (map (fun f => length (factor_rows f)) L) /\
    (forall r, In r (mi_rows B) <-> exists rs, Forall2 (fun x f => In x (factor_rows f)) rs L /\ r = concat rs) /\
    (Forall (fun f => NoDup (factor_rows f) /\ Forall (fun r => length r = factor_dim f) (factor_rows f)) L -> NoDup (mi_rows B)) /\
    (forall k, k < length (mi_rows B) ->
       nth k (mi_rows B) [] =
       concat (map (fun j => nth ((k / prodn (map (fun f => length (factor_rows f)) (firstn j L)))
                                  mod length (factor_rows (nth j L (Vec [])))) (factor_rows (nth j L (Vec []))) [])
                   (seq 0 (length L))))) /\
  ((exists f, In f L /\ factor_rows f = []) -> product_set L None = None).
Proof.
  rewrite product_set_eq. set (N := map (fun f => length (factor_rows f)) L).
  assert (EN : N = map (@length row) (map factor_rows L)) by (unfold N; rewrite map_map; auto).
  split.
  - intros H.
    assert (P : prodn N <> 0).
    { intros E. apply prodn_zero in E. unfold N in E. apply in_map_iff in E. destruct E as [f [E Hf]].
      rewrite Forall_forall in H. apply H in Hf. apply length_zero_iff_nil in E; auto. }
    apply Nat.eqb_neq in P. rewrite P. eexists; split; [reflexivity|]. cbn [mi_dim mi_rows].
    split; auto. assert (Hlen : length (prod_rows (map factor_rows L)) = prodn N).
    { unfold prod_rows. rewrite map_length, seq_length, <- EN; auto. }
    split; auto. split; [|split].
    + intros r. rewrite in_prod_rows. split; intros [rs [Hrs ->]]; exists rs; split; auto.
      * clear -Hrs. remember (map factor_rows L) as M eqn:E. revert L E. induction Hrs; intros [|f L] E; inversion E; subst; constructor; auto.
      * clear -Hrs. induction Hrs; simpl; constructor; auto.
    + intros Hn. apply prod_rows_NoDup with (ds := map factor_dim L). clear - Hn.
      induction Hn as [|f L Hf H IH]; simpl; constructor; auto.
    + intros k Hk. rewrite Hlen in Hk. unfold prod_rows. rewrite <- EN. rewrite nth_map_seq by auto.
      unfold prod_row. f_equal.
      assert (Hc : length (combine (map factor_rows L) (ind2subF N k)) = length L).
      { rewrite combine_length, map_length, ind2subF_length. unfold N. rewrite map_length. lia. }
      apply nth_ext' with (d := []); rewrite !map_length, ?seq_length; auto. intros j Hj. rewrite Hc in Hj.
      rewrite nth_map_seq by auto.
      rewrite map_nth_in with (da := ([], 0)) by lia. rewrite combine_nth by (rewrite map_length, ind2subF_length; unfold N; rewrite map_length; auto).
      cbn [fst snd]. rewrite nth_ind2subF by (unfold N; rewrite map_length; auto).
      unfold N. rewrite firstn_map. rewrite (map_nth_in _ L j (Vec []) 0) by auto.
      rewrite (map_nth_in factor_rows L j (Vec []) []) by auto. reflexivity.
  - intros [f [Hf E]]. assert (prodn N = 0) as ->; auto. apply prodn_zero. unfold N. apply in_map_iff. exists f. rewrite E. auto.
Qed.

Lemma low_order_refuted :
  exists J, (forall fuel, 1 <= fuel -> low_order_interactions argsort_stable fuel 2 [3; 0]%Z 1 = Some J) /\
    ~ is_set J 2 (fun r => length r = 2 /\ nonneg r /\ Forall2 Z.le r [3; 0]%Z /\ (row_order r <= 1)%Z).
Proof.
  exists (MI 2 [[0;0]%Z]). split.
  - intros [|fuel] Hf; [lia|]. reflexivity.
  - intros [_ [_ H]]. specialize (H [1;0]%Z). destruct H as [_ H].
    destruct H as [E|[]]; [|discriminate]. repeat split; try (repeat constructor; lia). vm_compute; discriminate.
Qed.
Lemma whyper_refuted :
  exists J, (forall fuel, 1 <= fuel -> weighted_hyperbolic_cross_set argsort_stable fuel 2 2 [1; 5]%Z = Some J) /\
    ~ is_set J 2 (fun r => length r = 2 /\ nonneg r /\ (row_prod1_w [1; 5]%Z r <= 3)%Z).
Proof.
  exists (MI 2 [[0;0]%Z]). split.
  - intros [|fuel] Hf; [lia|]. reflexivity.
  - intros [_ [_ H]]. specialize (H [1;0]%Z). destruct H as [_ H].
    destruct H as [E|[]]; [|discriminate]. repeat split; try (repeat constructor; lia). vm_compute; discriminate.
Qed.
Lemma low_order_partial argsort fuel d p m J : argsort_ok argsort -> 0 < d ->
  length p = d -> nonneg p -> low_order_interactions argsort fuel d p m = Some J ->
  mi_dim J = d /\ NoDup (mi_rows J) /\ In (repeat 0%Z d) (mi_rows J) /\ down_closed (mi_rows J) /\
  forall r, In r (mi_rows J) -> nonneg r /\ Forall2 Z.le r p /\ (row_order r <= Z.of_nat m)%Z.
Proof.
  intros Ha Hd Hl Hp E. apply low_order_sound in E; auto. destruct E as [n [Hn H]].
  assert (Hdn : down_closed (mi_rows J)) by (eapply layer_down_closed; eauto; apply low_order_down).
  destruct H as [HD [HN HR]]. split; auto. split; auto. split; [|split; auto].
  - apply HR, layer_zero; auto. split.
    + subst d. clear - Hp. induction Hp; simpl; constructor; auto.
    + unfold row_order. assert (filter (fun x => negb (x =? 0)%Z) (repeat 0%Z d) = []) as ->; [|simpl; lia].
      apply filter_none. intros x Hx. apply repeat_spec in Hx; subst; auto.
  - intros r Hr. apply HR in Hr. destruct Hr as [_ [? [[? ?] _]]]; auto.
Qed.
Lemma whyper_partial argsort fuel d p w J : argsort_ok argsort -> 0 < d ->
  Forall (fun x => (0 <= x)%Z) w -> weighted_hyperbolic_cross_set argsort fuel d p w = Some J ->
  mi_dim J = d /\ NoDup (mi_rows J) /\ In (repeat 0%Z d) (mi_rows J) /\ down_closed (mi_rows J) /\
  forall r, In r (mi_rows J) -> length r = d /\ nonneg r /\ (row_prod1_w w r <= Z.of_nat p + 1)%Z.
Proof.
  intros Ha Hd Hw E. apply whyper_sound in E; auto. destruct E as [n [Hn H]].
  assert (Hdn : down_closed (mi_rows J)).
  { eapply layer_down_closed; eauto. apply down_pred_mono. intros; apply row_prod1_w_mono; auto. }
  destruct H as [HD [HN HR]]. split; auto. split; auto. split; [|split; auto].
  - apply HR, layer_zero; auto. rewrite row_prod1_w_zero; auto; lia.
  - intros r Hr. apply HR in Hr. destruct Hr as [? [? [? _]]]; auto.
Qed.

Lemma add_set I J : mi_rows I <> [] ->
  is_set (add_indices I J) (mi_dim I) (fun r => In r (mi_rows I) \/ In r (mi_rows J)).
Proof.
  intros H. split; [apply add_indices_dim; auto|]. split; [apply add_indices_NoDup|].
  intros r; apply add_indices_rows; auto.
Qed.
Lemma remove_set I J :
  mi_dim (remove_indices I J) = mi_dim I /\
  (NoDup (mi_rows I) -> NoDup (mi_rows (remove_indices I J))) /\
  forall r, In r (mi_rows (remove_indices I J)) <-> In r (mi_rows I) /\ ~ In r (mi_rows J).
Proof. split; auto. split; [intros; apply NoDup_filter; auto|]. intros; apply remove_indices_rows. Qed.

Lemma remove_positions_spec I ks :
  mi_rows (remove_positions I ks) =
  map snd (filter (fun p => negb (existsb (Nat.eqb (fst p)) ks)) (combine (seq 0 (length (mi_rows I))) (mi_rows I))).
Proof.
  unfold remove_positions, nmem, sel. cbn [mi_rows].
  assert (G : forall l s (g : nat -> row), (forall k, k < length l -> g (s + k) = nth k l []) ->
     map g (filter (fun k => negb (existsb (Nat.eqb k) ks)) (seq s (length l))) =
     map snd (filter (fun p => negb (existsb (Nat.eqb (fst p)) ks)) (combine (seq s (length l)) l))).
  { induction l as [|x l IH]; intros s g Hg; simpl; auto.
    assert (IH' := IH (S s) g). destruct (negb _); simpl; rewrite IH'; auto.
    - f_equal. rewrite <- (Nat.add_0_r s). apply (Hg 0); simpl; lia.
    - intros k Hk. replace (S s + k) with (s + S k) by lia. apply (Hg (S k)); simpl; lia.
    - intros k Hk. replace (S s + k) with (s + S k) by lia. apply (Hg (S k)); simpl; lia. }
  apply G. auto.
Qed.

Lemma intersect_set I J K kI kJ :
  intersect_indices I J = (K, kI, kJ) ->
  mi_dim K = mi_dim I /\
  (forall r, In r (mi_rows K) <-> In r (mi_rows I) /\ In r (mi_rows J)) /\
  (NoDup (mi_rows I) -> NoDup (mi_rows J) -> NoDup (mi_rows K)) /\
  length kI = length (mi_rows K) /\ length kJ = length (mi_rows K) /\
  forall n, n < length (mi_rows K) ->
    nth n kI 0 < length (mi_rows I) /\ nth n kJ 0 < length (mi_rows J) /\
    nth (nth n kI 0) (mi_rows I) [] = nth n (mi_rows K) [] /\ nth (nth n kJ 0) (mi_rows J) [] = nth n (mi_rows K) [].
Proof.
  intros E. pose proof (intersect_rows I J) as HR. pose proof (intersect_NoDup I J) as HN. rewrite E in HR, HN. simpl in HR, HN.
  unfold intersect_indices in E. inversion E; subst; clear E. cbn [mi_dim mi_rows] in *.
  rewrite sel_length, !map_length. repeat split; auto; intros; try (apply HR; auto; fail).
  1-4: assert (Hp : In (nth n (eq_pairs I J) (0, 0)) (eq_pairs I J)) by (apply nth_In; auto);
       destruct (nth n (eq_pairs I J) (0, 0)) as [j i] eqn:Ep; apply eq_pairs_in in Hp; destruct Hp as [Hj [Hi He]];
       rewrite ?sel_nth by (rewrite map_length; auto); rewrite ?map_nth_in with (da := (0, 0)) by auto; rewrite ?Ep; simpl; auto.
Qed.

Lemma adaptive_closed d I : 0 < d -> adaptive d I ->
  mi_dim I = d /\ NoDup (mi_rows I) /\ down_closed (mi_rows I) /\ is_downward_closed I 0 = Some true.
Proof.
  intros Hd H. apply adaptive_inv in H; auto. destruct H as [H1 [H2 [H3 [H4 [H5 H6]]]]].
  repeat split; auto. destruct (is_downward_closed_spec I H5) as [b [Hb Hiff]].
  rewrite Hb. f_equal. apply Hiff; auto.
Qed.

Lemma sort_asc argsort I cols : argsort_ok argsort -> NoDup cols ->
  Permutation (mi_rows (mi_sort argsort I (Some cols) false)) (mi_rows I) /\
  StronglySorted (lex_le cols) (mi_rows (mi_sort argsort I (Some cols) false)).
Proof. intros Ha Hn. split; [apply mi_sort_perm; auto|apply mi_sort_asc; auto]. Qed.
Lemma sort_asc_default argsort I : argsort_ok argsort ->
  Permutation (mi_rows (mi_sort argsort I None false)) (mi_rows I) /\
  StronglySorted (lex_le (rev (seq 0 (mi_dim I)))) (mi_rows (mi_sort argsort I None false)).
Proof.
  intros Ha. split; [apply mi_sort_perm; auto|].
  apply (mi_sort_asc argsort Ha I (rev (seq 0 (mi_dim I)))). apply NoDup_rev, seq_NoDup.
Qed.
Lemma sort_desc_perm argsort I cols : argsort_ok argsort ->
  Permutation (mi_rows (mi_sort argsort I cols true)) (mi_rows I).
Proof. intros; apply mi_sort_perm; auto. Qed.
Lemma sort_desc_refuted :
  exists I, mi_wf I /\ ~ StronglySorted (fun r s => lex_le (rev (seq 0 (mi_dim I))) s r)
                         (mi_rows (mi_sort argsort_stable I None true)).
Proof.
  exists (MI 2 [[1;0];[0;1];[1;1];[0;0]]%Z). split; [repeat constructor|].
  intros H. vm_compute in H. inversion H as [|? ? _ Hf]; subst. inversion Hf as [|? ? H1 _]; subst.
  destruct H1 as [H1|[_ [H1|[H1 _]]]]; discriminate.
Qed.
Lemma sort_by_norm_both argsort I p : argsort_ok argsort ->
  (Permutation (mi_rows (sort_by_norm argsort I p false)) (mi_rows I) /\
   StronglySorted (fun r s => (row_norm_pow p r <= row_norm_pow p s)%Z) (mi_rows (sort_by_norm argsort I p false))) /\
  (Permutation (mi_rows (sort_by_norm argsort I p true)) (mi_rows I) /\
   StronglySorted (fun r s => (row_norm_pow p s <= row_norm_pow p r)%Z) (mi_rows (sort_by_norm argsort I p true))).
Proof. intros Ha. split; [apply sort_by_norm_asc|apply sort_by_norm_desc]; auto. Qed.
Lemma sort_by_wnorm_both argsort I p w : argsort_ok argsort ->
  (Permutation (mi_rows (sort_by_weighted_norm argsort I p w false)) (mi_rows I) /\
   StronglySorted (fun r s => (row_wnorm_pow p w r <= row_wnorm_pow p w s)%Z) (mi_rows (sort_by_weighted_norm argsort I p w false))) /\
  (Permutation (mi_rows (sort_by_weighted_norm argsort I p w true)) (mi_rows I) /\
   StronglySorted (fun r s => (row_wnorm_pow p w s <= row_wnorm_pow p w r)%Z) (mi_rows (sort_by_weighted_norm argsort I p w true))).
Proof. intros Ha. split; [apply sort_by_wnorm_asc|apply sort_by_wnorm_desc]; auto. Qed.

Lemma integer2baseb_full i b d :
  (i < b ^ d -> exists l, integer2baseb i b d = Some l) /\
  (forall l, integer2baseb i b d = Some l ->
     length l = d /\ Forall (fun x => x < b) l /\ digits_value b l = i /\ baseb2integer l b = Some i).
Proof.
  split.
  - intros H. unfold integer2baseb. apply Nat.ltb_lt in H. rewrite H. eauto.
  - intros l H. apply integer2baseb_spec in H. destruct H as [H1 [H2 H3]]. repeat split; auto.
    symmetry; apply baseb2integer_value; auto.
Qed.
Lemma baseb2integer_full l b :
  (Forall (fun x => x < b) l -> exists i, baseb2integer l b = Some i) /\
  (forall i, baseb2integer l b = Some i ->
     i = digits_value b l /\ i < b ^ length l /\ integer2baseb i b (length l) = Some l).
Proof.
  split.
  - intros H. unfold baseb2integer. rewrite Forall_forall in H.
    assert (forallb (fun x => x <? b) l = true) as ->; [|eauto]. apply forallb_forall. intros x Hx. apply Nat.ltb_lt; auto.
  - intros i H. split; [apply baseb2integer_value; auto|apply baseb2integer_spec; auto].
Qed.

Lemma digits_needed_ok b n : 2 <= b -> forall fuel d, n < b ^ (fuel + d) -> n < b ^ digits_needed fuel d b n.
Proof.
  intros Hb. induction fuel as [|fuel IH]; intros d H; simpl; auto.
  destruct (Nat.ltb_spec n (b ^ d)); auto. apply IH. rewrite Nat.add_succ_r; auto.
Qed.
Lemma integer2baseb_default_ok is b : 2 <= b ->
  exists ls, integer2baseb_default is b = Some ls /\ Forall2 (fun i l => baseb2integer l b = Some i) is ls.
Proof.
  intros Hb. unfold integer2baseb_default. set (m := fold_right Nat.max 0 is).
  set (d := digits_needed (S m) 0 b m).
  assert (Hm : m < b ^ d).
  { apply digits_needed_ok; auto. rewrite Nat.add_0_r. apply Nat.lt_trans with (S m); [lia|].
    apply Nat.pow_gt_lin_r; lia. }
  assert (Hle : forall i, In i is -> i <= m).
  { unfold m. clear. induction is as [|j is IH]; simpl; [contradiction|]. intros i [->|Hi]; [lia|]. apply IH in Hi; lia. }
  clearbody m d. induction is as [|i is IH]; simpl.
  - exists []; split; auto.
  - destruct IH as [ls [E H]]; [intros; apply Hle; simpl; auto|].
    destruct (integer2baseb_full i b d) as [H1 H2].
    destruct H1 as [l Hl]; [pose proof (Hle i (or_introl eq_refl)); lia|].
    rewrite Hl, E. exists (l :: ls). split; auto. constructor; auto. apply H2; auto.
Qed.

Lemma fast_setdiff_spec a b x : In x (fast_setdiff a b) <-> In x a /\ ~ In x b.
Proof. unfold fast_setdiff. rewrite filter_In. fold (nmem x b). rewrite negb_nmem. tauto. Qed.

Lemma insert_nat_perm x l : Permutation (insert_nat x l) (x :: l).
Proof. induction l as [|y l IH]; simpl; auto. destruct (x <=? y); auto. rewrite IH. constructor. Qed.
Lemma sort_nat_perm l : Permutation (sort_nat l) l.
Proof. induction l as [|x l IH]; simpl; auto. rewrite insert_nat_perm, IH; auto. Qed.
Lemma insert_nat_sorted x l : StronglySorted le l -> StronglySorted le (insert_nat x l).
Proof.
  induction 1 as [|y l Hs IH Hf]; simpl; [repeat constructor|].
  destruct (Nat.leb_spec x y).
  - constructor; [constructor; auto|]. constructor; auto. eapply Forall_impl; [|exact Hf]. simpl; intros; lia.
  - constructor; auto. apply Forall_forall. intros z Hz. apply (Permutation_in _ (insert_nat_perm x l)) in Hz.
    destruct Hz as [<-|Hz]; [lia|]. rewrite Forall_forall in Hf; auto.
Qed.
Lemma sort_nat_sorted l : StronglySorted le (sort_nat l).
Proof. induction l as [|x l IH]; simpl; [constructor|]. apply insert_nat_sorted; auto. Qed.

Lemma adj_dups_spec l x : StronglySorted le l -> (In x (adj_dups l) <-> 2 <= count_occ Nat.eq_dec l x).
Proof.
  induction 1 as [|a l Hs IH Hf]; [simpl; split; [contradiction|lia]|].
  destruct l as [|b l].
  - simpl. split; [contradiction|]. destruct (Nat.eq_dec a x); lia.
  - cbn [adj_dups]. cbn [count_occ] in *. destruct (Nat.eqb_spec a b) as [->|E].
    + simpl In. rewrite IH. destruct (Nat.eq_dec b x); [split; intros; lia|]. split; [intros [?|?]; [congruence|auto]|auto].
    + rewrite IH. destruct (Nat.eq_dec a x) as [->|]; [|tauto].
      assert (count_occ Nat.eq_dec (b :: l) x = 0) as Hc.
      { apply count_occ_not_In. intros Hi. 
        inversion Hs as [|? ? Hs' Hf']; subst. inversion Hf as [|? ? Hxb Hf2]; subst.
        destruct Hi as [Hi|Hi]; [congruence|]. rewrite Forall_forall in Hf'. apply Hf' in Hi. lia. }
      cbn [count_occ] in Hc. split; intros; lia.
Qed.
Lemma fast_intersect_spec a b : NoDup a -> NoDup b ->
  forall x, In x (fast_intersect a b) <-> In x a /\ In x b.
Proof.
  intros Ha Hb x. unfold fast_intersect. rewrite adj_dups_spec by apply sort_nat_sorted.
  rewrite (Permutation_count_occ Nat.eq_dec) in Ha || idtac.
  assert (count_occ Nat.eq_dec (sort_nat (a ++ b)) x = count_occ Nat.eq_dec a x + count_occ Nat.eq_dec b x) as ->.
  { rewrite <- count_occ_app. apply Permutation_count_occ, sort_nat_perm. }
  rewrite (NoDup_count_occ Nat.eq_dec) in Ha, Hb. specialize (Ha x). specialize (Hb x).
  rewrite !(count_occ_In Nat.eq_dec). lia.
Qed.

(** * bridges from the model's helpers to the specification vocabulary *)
Lemma row_prod1_eq r : row_prod1 r = prod_succ r.
Proof. induction r as [|x r IH]; auto. unfold row_prod1 in *. simpl. rewrite IH; auto. Qed.
Lemma row_prod1_w_eq w r : row_prod1_w w r = prod_succ_w w r.
Proof.
  revert w. induction r as [|x r IH]; intros [|y w]; auto. unfold row_prod1_w in *. simpl. rewrite IH; auto.
Qed.
Lemma zsum_eq r : zsum r = sum_entries r.
Proof. induction r as [|x r IH]; simpl; congruence. Qed.
Lemma sum_pow_eq p r : row_norm_pow (PNat p) r = sum_pow p r.
Proof. induction r as [|x r IH]; auto. simpl in *. rewrite IH; auto. Qed.
Lemma row_weight_eq w r : row_weight w r = weigh w r.
Proof. unfold row_weight. revert w. induction r as [|x r IH]; intros [|y w]; simpl; auto. f_equal; apply IH. Qed.
Lemma row_order_eq r : row_order r = Z.of_nat (nb_nonzero r).
Proof.
  unfold row_order. f_equal. induction r as [|x r IH]; auto. simpl. destruct (Z.eqb x 0); simpl; rewrite IH; auto.
Qed.
Lemma norm_le_eq p r m : (0 <= m)%Z -> ((row_norm_pow p r <= bound_pow p m)%Z <-> norm_le p r m).
Proof.
  intros Hm. destruct p as [|p]; [|rewrite sum_pow_eq; reflexivity]. simpl. rewrite Forall_forall. split.
  - intros H x Hx. pose proof (zmax_ge r x Hx). lia.
  - intros H. destruct r as [|x r]; [simpl; lia|]. apply H. apply zmax_in. congruence.
Qed.
Lemma norm_ord_eq p r s : (row_norm_pow p r <= row_norm_pow p s)%Z -> norm_ord p r s.
Proof.
  unfold norm_ord. destruct p as [|p].
  - intros H v w [Hv _] [Hw Hwm]. rewrite Forall_forall in Hwm.
    assert (E : s <> []) by (intros ->; contradiction).
    apply zmax_in in E. apply Hwm in E. apply zmax_ge in Hv. simpl in H. lia.
  - intros H v w -> ->. rewrite !sum_pow_eq in H. auto.
Qed.
Lemma StronglySorted_impl {A} (R S : A -> A -> Prop) l : (forall a b, R a b -> S a b) -> StronglySorted R l -> StronglySorted S l.
Proof.
  intros H; induction 1 as [|a l Hs IH Hf]; constructor; auto. eapply Forall_impl; [|exact Hf]. auto.
Qed.

Lemma is_set_ext I d P Q : (forall r, P r <-> Q r) -> is_set I d P -> is_set I d Q.
Proof. intros H [H1 [H2 H3]]. split; auto. split; auto. intros r. rewrite H3. auto. Qed.

Lemma s_wbn_1 argsort fuel d m : 0 < d ->
  exists J, with_bounded_norm argsort fuel d (PNat 1) m = Some J /\
  is_set J d (fun r => length r = d /\ nonneg r /\ (sum_entries r <= Z.of_nat m)%Z).
Proof.
  intros Hd. eexists. split; [reflexivity|].
  eapply is_set_ext; [|apply (wbn_1_exact argsort fuel d m _ Hd eq_refl)]. intros r; simpl. rewrite zsum_eq; tauto.
Qed.
Lemma s_hyper argsort fuel d p : argsort_ok argsort -> 0 < d -> p + 2 <= fuel ->
  exists J, hyperbolic_cross_set argsort fuel d p = Some J /\
  is_set J d (fun r => length r = d /\ nonneg r /\ (prod_succ r <= Z.of_nat p + 1)%Z).
Proof.
  intros Ha Hd Hf. destruct (hyperbolic_terminates argsort fuel d p Ha Hd Hf) as [J HJ]. exists J; split; auto.
  apply hyperbolic_sound in HJ; auto. eapply is_set_ext; [|exact HJ]. intros r; simpl. rewrite row_prod1_eq; tauto.
Qed.
Lemma s_wbwn argsort d p m w : argsort_ok argsort -> length w = d -> (0 <= m)%Z ->
  Forall (fun x => (0 < x)%Z) w -> match p with PNat O => False | _ => True end ->
  exists J, with_bounded_weighted_norm argsort d p m w = Some J /\
    is_set J d (fun r => length r = d /\ nonneg r /\ norm_le p (weigh w r) m) /\
    StronglySorted (fun r s => norm_ord p (weigh w r) (weigh w s)) (mi_rows J).
Proof.
  intros Ha Hd Hm Hw Hp. destruct (wbwn_spec argsort d p m w Ha Hd Hm Hw Hp) as [J [H1 [H2 H3]]].
  exists J; split; auto. split.
  - eapply is_set_ext; [|exact H2]. intros r; simpl. unfold row_wnorm_pow. rewrite row_weight_eq, norm_le_eq by auto. tauto.
  - eapply StronglySorted_impl; [|exact H3]. intros a b Hab. unfold row_wnorm_pow in Hab. rewrite !row_weight_eq in Hab.
    apply norm_ord_eq; auto.
Qed.
Lemma s_wbn_p_refuted :
  exists d m J, 0 < d /\ (forall fuel, 1 <= fuel -> with_bounded_norm argsort_stable fuel d (PNat 2) m = Some J) /\
    ~ is_set J d (fun r => length r = d /\ nonneg r /\ norm_le (PNat 2) r (Z.of_nat m)).
Proof.
  destruct wbn_p_refuted as [d [m [J [H1 [H2 H3]]]]]. exists d, m, J. split; auto. split; auto.
  intros H. apply H3. eapply is_set_ext; [|exact H]. intros r; simpl. rewrite <- sum_pow_eq. reflexivity.
Qed.
Lemma s_wbn_p_partial argsort fuel d p m J : argsort_ok argsort -> 0 < d -> 2 <= p ->
  with_bounded_norm argsort fuel d (PNat p) m = Some J ->
  mi_dim J = d /\ NoDup (mi_rows J) /\ In (repeat 0%Z d) (mi_rows J) /\ down_closed (mi_rows J) /\
  forall r, In r (mi_rows J) -> length r = d /\ nonneg r /\ norm_le (PNat p) r (Z.of_nat m).
Proof.
  intros Ha Hd Hp E. destruct p as [|[|p]]; try lia. apply wbn_p_partial in E; auto.
  destruct E as [H1 [H2 [H3 [H4 H5]]]]. repeat split; auto; intros; try (apply H5; auto; fail).
  apply (norm_le_eq (PNat (S (S p)))); [lia|]. apply H5; auto.
Qed.
Lemma s_low_refuted :
  exists J, (forall fuel, 1 <= fuel -> low_order_interactions argsort_stable fuel 2 [3; 0]%Z 1 = Some J) /\
    ~ is_set J 2 (fun r => length r = 2 /\ nonneg r /\ Forall2 Z.le r [3; 0]%Z /\ nb_nonzero r <= 1).
Proof.
  destruct low_order_refuted as [J [H2 H3]]. exists J. split; auto.
  intros H. apply H3. eapply is_set_ext; [|exact H]. intros r; simpl. rewrite row_order_eq. intuition lia.
Qed.
Lemma s_low_partial argsort fuel d p m J : argsort_ok argsort -> 0 < d ->
  length p = d -> nonneg p -> low_order_interactions argsort fuel d p m = Some J ->
  mi_dim J = d /\ NoDup (mi_rows J) /\ In (repeat 0%Z d) (mi_rows J) /\ down_closed (mi_rows J) /\
  forall r, In r (mi_rows J) -> nonneg r /\ Forall2 Z.le r p /\ nb_nonzero r <= m.
Proof.
  intros Ha Hd Hl Hp E. apply low_order_partial in E; auto. destruct E as [H1 [H2 [H3 [H4 H5]]]].
  split; auto. split; auto. split; auto. split; auto. intros r Hr. apply H5 in Hr. rewrite row_order_eq in Hr.
  destruct Hr as [? [? ?]]. repeat split; auto; lia.
Qed.
Lemma s_whyper_refuted :
  exists J, (forall fuel, 1 <= fuel -> weighted_hyperbolic_cross_set argsort_stable fuel 2 2 [1; 5]%Z = Some J) /\
    ~ is_set J 2 (fun r => length r = 2 /\ nonneg r /\ (prod_succ_w [1; 5]%Z r <= 3)%Z).
Proof.
  destruct whyper_refuted as [J [H2 H3]]. exists J. split; auto.
  intros H. apply H3. eapply is_set_ext; [|exact H]. intros r; simpl. rewrite row_prod1_w_eq. reflexivity.
Qed.
Lemma s_whyper_partial argsort fuel d p w J : argsort_ok argsort -> 0 < d ->
  Forall (fun x => (0 <= x)%Z) w -> weighted_hyperbolic_cross_set argsort fuel d p w = Some J ->
  mi_dim J = d /\ NoDup (mi_rows J) /\ In (repeat 0%Z d) (mi_rows J) /\ down_closed (mi_rows J) /\
  forall r, In r (mi_rows J) -> length r = d /\ nonneg r /\ (prod_succ_w w r <= Z.of_nat p + 1)%Z.
Proof.
  intros Ha Hd Hw E. apply whyper_partial in E; auto. destruct E as [H1 [H2 [H3 [H4 H5]]]].
  split; auto. split; auto. split; auto. split; auto. intros r Hr. apply H5 in Hr. rewrite row_prod1_w_eq in Hr. auto.
Qed.
Lemma s_sort_by_norm argsort I p : argsort_ok argsort ->
  (Permutation (mi_rows (sort_by_norm argsort I p false)) (mi_rows I) /\
   StronglySorted (norm_ord p) (mi_rows (sort_by_norm argsort I p false))) /\
  (Permutation (mi_rows (sort_by_norm argsort I p true)) (mi_rows I) /\
   StronglySorted (fun r s => norm_ord p s r) (mi_rows (sort_by_norm argsort I p true))).
Proof.
  intros Ha. destruct (sort_by_norm_both argsort I p Ha) as [[H1 H2] [H3 H4]]. repeat split; auto.
  - eapply StronglySorted_impl; [|exact H2]. intros; apply norm_ord_eq; auto.
  - eapply StronglySorted_impl; [|exact H4]. intros; apply norm_ord_eq; auto.
Qed.
Lemma s_sort_by_wnorm argsort I p w : argsort_ok argsort ->
  (Permutation (mi_rows (sort_by_weighted_norm argsort I p w false)) (mi_rows I) /\
   StronglySorted (fun r s => norm_ord p (weigh w r) (weigh w s)) (mi_rows (sort_by_weighted_norm argsort I p w false))) /\
  (Permutation (mi_rows (sort_by_weighted_norm argsort I p w true)) (mi_rows I) /\
   StronglySorted (fun r s => norm_ord p (weigh w s) (weigh w r)) (mi_rows (sort_by_weighted_norm argsort I p w true))).
Proof.
  intros Ha. destruct (sort_by_wnorm_both argsort I p w Ha) as [[H1 H2] [H3 H4]]. repeat split; auto.
  - eapply StronglySorted_impl; [|exact H2]. unfold row_wnorm_pow. intros a b; rewrite !row_weight_eq. intros; apply norm_ord_eq; auto.
  - eapply StronglySorted_impl; [|exact H4]. unfold row_wnorm_pow. intros a b; rewrite !row_weight_eq. intros; apply norm_ord_eq; auto.
Qed.
Lemma s_product_set (L : list factor) :
  (Forall (fun f => rows_of f <> []) L ->
   exists B, product_set L None = Some B /\ mi_dim B = sumn (map cols_of L) /\
    length (mi_rows B) = prodn (map (fun f => length (rows_of f)) L) /\
    (forall r, In r (mi_rows B) <-> exists rs, Forall2 (fun x f => In x (rows_of f)) rs L /\ r = concat rs) /\
    (Forall (fun f => NoDup (rows_of f) /\ Forall (fun r => length r = cols_of f) (rows_of f)) L -> NoDup (mi_rows B)) /\
    (forall k, k < length (mi_rows B) ->
       nth k (mi_rows B) [] =
       concat (map (fun j => nth ((k / prodn (map (fun f => length (rows_of f)) (firstn j L)))
                                  mod length (rows_of (nth j L (Vec [])))) (rows_of (nth j L (Vec []))) [])
                   (seq 0 (length L))))) /\
  ((exists f, In f L /\ rows_of f = []) -> product_set L None = None).
Proof. exact (product_set_full L). Qed.
(** product_set([l], d) with d > 1: d copies *)
Lemma s_product_set_power l d : 1 < d -> product_set [l] (Some d) = product_set (repeat l d) None.
Proof.
  intros H. unfold product_set at 1. destruct (Nat.ltb_spec 1 d); [|lia].
  unfold product_set. destruct d as [|[|d]]; try lia. reflexivity.
Qed.
