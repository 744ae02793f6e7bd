(** Proofs about SparseTensor: tensor_matrix_product, dot_with_rank_one_metric. *)
From Coq Require Import List Arith Lia Bool ZArith Permutation.
From Verif.Base Require Import ListAux CRing Index.
From Verif.Model Require Import Sorting MultiIndices Numpy FullTensor Diagonal Sparse.
From Verif.Spec Require Import TensorSpec.
From Verif.Proofs Require Import SortingP MultiIndicesP NumpyP FullTensorP FullTensorP2 FullTensorP3 DiagonalP SparseP SparseP2.
Import ListNotations.

Lemma np_unique_nat_spec l : NoDup (np_unique_nat l) /\ forall x, In x (np_unique_nat l) <-> In x l.
Proof.
  induction l as [|a l [H1 H2]]; simpl; [split; [constructor|tauto]|].
  destruct (inb a (np_unique_nat l)) eqn:E.
  - split; auto. intros x. rewrite H2. apply inb_spec, H2 in E. intuition. subst; auto.
  - apply inb_false in E. split.
    + apply NoDup_app; [apply NoDup_filter'; auto|constructor; [|apply NoDup_filter'; auto]|].
      * intros Hc. apply filter_In in Hc as [Hc _]. contradiction.
      * intros x Hx Hy. apply filter_In in Hx as [Hx Hx2]. apply Nat.ltb_lt in Hx2. destruct Hy as [->|Hy]; [lia|].
        apply filter_In in Hy as [_ Hy]. apply Nat.ltb_lt in Hy. lia.
    + intros x. rewrite in_app_iff. simpl. rewrite !filter_In, !Nat.ltb_lt, !H2. split; [tauto|].
      intros [->|Hx]; auto. destruct (lt_eq_lt_dec x a) as [[?|?]|?]; auto.
Qed.

Section Sp3.
  Context {R : Type} {CR : CRing R} {ZT : ZeroTest R}.
  Add Ring Rr : rth.
  Local Open Scope cr_scope.

  (** the value at [is], over the stored entries *)
  Lemma val_nz (x : sp R) is : okv x ->
    sp_val (sp_rows x) (sp_data x) is = lsum (filter (fun p => negb (isz (snd p))) (combine (sp_rows x) (sp_data x))) (fun p => if eqr (fst p) (zrow is) then snd p else r0).
  Proof. intros [L _]. rewrite sp_val_rv, rv_lsum by auto. symmetry. apply lsum_nz. Qed.

  Section Mid.
    Variables (t : sp R) (n0 : nat) (tls : list nat) (M : nd R) (m : nat).
    Hypotheses (Ht : okv t) (Hsh : sp_shape t = n0 :: tls) (HM : shape M = [m; n0]).
    Let nz := filter (fun p => negb (isz (snd p))) (combine (sp_rows t) (sp_data t)).
    Let rest := prodn tls.
    Let lin := fun p : row * R => sub2indF (sp_shape t) (map Z.to_nat (fst p)).
    Let x2 := map (fun k => nth 1 (ind2subF [n0; rest] k) 0%nat) (map lin nz).
    Let x1 := map (fun k => nth 0 (ind2subF [n0; rest] k) 0%nat) (map lin nz).
    Let x2u := np_unique_nat x2.
    Let a := fun i c => lsum (combine (combine x1 x2) (map snd nz)) (fun p =>
                 if snd (fst p) =? nth c x2u 0%nat then get M [i; fst (fst p)] * snd p else r0).
    Let ents := filter (fun ic => negb (isz (a (fst ic) (snd ic))))
                         (concat (map (fun i => map (fun c => (i, c)) (seq 0 (length x2u))) (seq 0 m))).
    Let lins := map (fun ic => sub2indF [m; rest] [fst ic; nth (snd ic) x2u 0%nat]) ents.

    Lemma nz_in p : In p nz -> exists k ks, (k < n0)%nat /\ valid tls ks /\ fst p = zrow (k :: ks) /\ lin p = (k + n0 * sub2indF tls ks)%nat.
    Proof.
      intros Hp. unfold nz in Hp. apply filter_In in Hp as [Hp _]. destruct p as [r b]. apply in_combine_l in Hp. destruct Ht as [_ [_ F]]. rewrite Forall_forall in F.
      destruct (F r Hp) as [is [Hv ->]]. rewrite Hsh in Hv. inversion Hv; subst. exists x, l. repeat split; auto.
      unfold lin. cbn [fst]. fold (nrow (zrow (x :: l))). unfold nrow. fold (zrow (x :: l)). change (map Z.to_nat (zrow (x :: l))) with (nrow (zrow (x :: l))).
      rewrite nrow_zrow, Hsh. auto.
    Qed.
    Lemma two_dig k q : (k < n0)%nat -> (q < rest)%nat -> ind2subF [n0; rest] (k + n0 * q) = [k; q].
    Proof.
      intros H1 H2. assert (V : valid [n0; rest] [k; q]) by (apply Forall2_cons; auto; apply Forall2_cons; auto; apply Forall2_nil).
      rewrite <- (ind2subF_sub2indF [n0; rest] [k; q] V). f_equal. simpl. lia.
    Qed.
    Lemma x2_in q : In q x2u -> (q < rest)%nat.
    Proof.
      intros H. apply (proj2 (np_unique_nat_spec x2)) in H. unfold x2 in H. rewrite map_map in H. apply in_map_iff in H as [p [<- Hp]].
      destruct (nz_in p Hp) as (k & ks & Hk & Hks & _ & ->). rewrite two_dig by (auto; apply sub2indF_lt; auto). simpl. apply sub2indF_lt; auto.
    Qed.
    Lemma a_val i c : a i c = lsum nz (fun p => if (nth 1 (ind2subF [n0; rest] (lin p)) 0 =? nth c x2u 0)%nat
                                           then get M [i; nth 0 (ind2subF [n0; rest] (lin p)) 0%nat] * snd p else r0).
    Proof.
      unfold a, x1, x2. rewrite !map_map. rewrite combine_map2. rewrite combine_map2. rewrite lsum_map. auto.
    Qed.
    Lemma mid_val i ks : (i < m)%nat -> valid tls ks ->
      lsum nz (fun p => if (nth 1 (ind2subF [n0; rest] (lin p)) 0 =? sub2indF tls ks)%nat
                                           then get M [i; nth 0 (ind2subF [n0; rest] (lin p)) 0%nat] * snd p else r0) =
      rsum n0 (fun k => get M [i; k] * sp_val (sp_rows t) (sp_data t) (k :: ks)).
    Proof.
      intros Hi Hks. rewrite (rsum_ext _ _ (fun k => lsum nz (fun p => if eqr (fst p) (zrow (k :: ks)) then get M [i; k] * snd p else r0))).
      2:{ intros k Hk. rewrite val_nz by auto. rewrite <- lsum_scal_l. apply lsum_ext. intros p _. destruct (eqr _ _); ring. }
      rewrite <- lsum_rsum_exchange. apply lsum_ext. intros p Hp. destruct (nz_in p Hp) as (k & ks' & Hk & Hks' & Hr & ->).
      rewrite two_dig by (auto; apply sub2indF_lt; auto). cbn [nth]. rewrite Hr. rewrite (rsum_single _ k); auto.
      - destruct (Nat.eqb_spec (sub2indF tls ks') (sub2indF tls ks)) as [E|E].
        + apply sub2indF_inj in E; auto. subst. rewrite eqr_refl. auto.
        + rewrite eqr_neq; auto. intros E2. apply zrow_inj in E2. injection E2 as ->. contradiction.
      - intros k2 _ Hne. rewrite eqr_neq; auto. intros E2. apply zrow_inj in E2. congruence.
    Qed.
    Lemma ents_in i c : In (i, c) ents -> (i < m)%nat /\ (c < length x2u)%nat.
    Proof.
      unfold ents. rewrite filter_In, in_concat. intros [[l [Hl Hp]] _]. apply in_map_iff in Hl as [i' [<- Hi]]. apply in_map_iff in Hp as [c' [E Hc]].
      injection E as -> ->. apply in_seq in Hi, Hc. lia.
    Qed.
    Lemma NoDup_pairs {A B} (l1 : list A) (l2 : list B) : NoDup l1 -> NoDup l2 -> NoDup (concat (map (fun i => map (fun c => (i, c)) l2) l1)).
    Proof.
      induction 1 as [|x l Hx Hl IH]; intros H2; simpl; [constructor|]. apply NoDup_app; auto.
      - apply NoDup_map_inj; auto. intros c c' _ _ E. injection E; auto.
      - intros [p q] H3 H4. apply in_map_iff in H3 as [c [E _]]. injection E as -> ->. apply in_concat in H4 as [z [Hz Hp]].
        apply in_map_iff in Hz as [y [<- Hy]]. apply in_map_iff in Hp as [c2 [E _]]. injection E as -> ->. contradiction.
    Qed.
    Lemma lin_row i q : (i < m)%nat -> (q < rest)%nat -> ind2subF (m :: tls) (sub2indF [m; rest] [i; q]) = i :: ind2subF tls q.
    Proof.
      intros Hi Hq. pose proof (ind2subF_valid tls q Hq) as V.
      assert (V2 : valid (m :: tls) (i :: ind2subF tls q)) by (apply Forall2_cons; auto).
      rewrite <- (ind2subF_sub2indF _ _ V2). f_equal. simpl. rewrite sub2indF_ind2subF by auto. lia.
    Qed.
    Definition z0rows := map (fun k => map Z.of_nat (ind2subF (m :: tls) k)) lins.
    Definition z0data := map (fun ic => a (fst ic) (snd ic)) ents.
    Lemma lins_lt : Forall (fun k => (k < prodn (m :: tls))%nat) lins.
    Proof.
      apply Forall_forall. intros k Hk. unfold lins in Hk. apply in_map_iff in Hk as [[i c] [<- Hp]]. apply ents_in in Hp as [Hi Hc].
      assert (Hq : (nth c x2u 0 < rest)%nat) by (apply x2_in, nth_In; auto). cbn [fst snd].
      assert (V : valid [m; rest] [i; nth c x2u 0%nat]) by (apply Forall2_cons; auto; apply Forall2_cons; auto; apply Forall2_nil).
      apply sub2indF_lt in V. simpl in V |- *. fold rest. nia.
    Qed.
    Lemma z0_ok : sp_ok z0rows z0data (m :: tls).
    Proof.
      split; [|split].
      - unfold z0rows, z0data, lins. rewrite !map_length. auto.
      - unfold z0rows, lins. rewrite map_map. apply NoDup_map_inj.
        + intros [i c] [i' c'] H1 H2 E. fold (zrow (ind2subF (m :: tls) (sub2indF [m; rest] [fst (i, c); nth (snd (i, c)) x2u 0%nat]))) in E.
          fold (zrow (ind2subF (m :: tls) (sub2indF [m; rest] [fst (i', c'); nth (snd (i', c')) x2u 0%nat]))) in E. apply zrow_inj in E.
          apply ents_in in H1 as [A1 A2], H2 as [B1 B2]. cbn [fst snd] in E.
          assert (C1 : (nth c x2u 0 < rest)%nat) by (apply x2_in, nth_In; auto). assert (C2 : (nth c' x2u 0 < rest)%nat) by (apply x2_in, nth_In; auto).
          rewrite !lin_row in E by auto. injection E as -> E. f_equal.
          apply (proj1 (NoDup_nth x2u 0%nat)); auto; [apply np_unique_nat_spec|].
          rewrite <- (sub2indF_ind2subF tls (nth c x2u 0%nat)), E, sub2indF_ind2subF; auto.
        + unfold ents. apply NoDup_filter', NoDup_pairs; apply seq_NoDup.
      - apply Forall_forall. intros r Hr. unfold z0rows in Hr. apply in_map_iff in Hr as [k [<- Hk]]. eexists; split; [|reflexivity].
        pose proof lins_lt as F. rewrite Forall_forall in F. apply ind2subF_valid; auto.
    Qed.
    Lemma z0_val i ks : (i < m)%nat -> valid tls ks ->
      sp_val z0rows z0data (i :: ks) = rsum n0 (fun k => get M [i; k] * sp_val (sp_rows t) (sp_data t) (k :: ks)).
    Proof.
      intros Hi Hks. rewrite <- mid_val by auto. rewrite sp_val_rv. unfold z0rows, z0data, lins. rewrite map_map, rv_map.
      unfold ents. rewrite lsum_filter.
      set (q := sub2indF tls ks). assert (Hq : (q < rest)%nat) by (apply sub2indF_lt; auto).
      assert (Erow : forall i' c, (i' < m)%nat -> (c < length x2u)%nat ->
         eqr (map Z.of_nat (ind2subF (m :: tls) (sub2indF [m; rest] [i'; nth c x2u 0%nat]))) (zrow (i :: ks)) = (i' =? i) && (nth c x2u 0 =? q)%nat).
      { intros i' c Hi' Hc. assert (Hc2 : (nth c x2u 0 < rest)%nat) by (apply x2_in, nth_In; auto). rewrite lin_row by auto.
        apply eq_true_iff_eq. rewrite eqr_spec, andb_true_iff, !Nat.eqb_eq. fold (zrow (i' :: ind2subF tls (nth c x2u 0%nat))). split.
        - intros E. apply zrow_inj in E. injection E as -> E. split; auto. unfold q. rewrite <- E. rewrite sub2indF_ind2subF; auto.
        - intros [-> E]. rewrite E. unfold q. rewrite ind2subF_sub2indF by auto. auto. }
      rewrite (lsum_ext _ _ (fun ic => if (fst ic =? i) && (nth (snd ic) x2u 0 =? q)%nat then a (fst ic) (snd ic) else r0)).
      2:{ intros [i' c] Hp. cbn [fst snd]. apply in_concat in Hp as [l [Hl Hp]]. apply in_map_iff in Hl as [i2 [<- Hi2]]. apply in_map_iff in Hp as [c2 [E Hc2]].
          injection E as -> ->. apply in_seq in Hi2, Hc2. rewrite Erow by lia. destruct (isz (a i' c)) eqn:E; auto. apply isz_ok in E. cbn [negb]. rewrite E. destruct (_ && _); auto. }
      rewrite lsum_concat, lsum_seq. rewrite (rsum_single _ i); auto.
      2:{ intros i' _ Hne. apply lsum_zero. intros [p c] Hp. apply in_map_iff in Hp as [c' [E _]]. injection E as <- <-. cbn [fst snd]. rewrite (proj2 (Nat.eqb_neq _ _)) by auto. auto. }
      rewrite lsum_map, lsum_seq. cbn [fst snd]. rewrite Nat.eqb_refl. cbn [andb].
      destruct (in_dec Nat.eq_dec q x2u) as [Hin|Hout].
      - apply (In_nth _ _ 0%nat) in Hin as [c [Hc Ec]]. rewrite (rsum_single _ c); auto.
        + rewrite Ec, Nat.eqb_refl, a_val, Ec. auto.
        + intros c' Hc' Hne. rewrite (proj2 (Nat.eqb_neq _ _)); auto. intros E. apply Hne. apply (proj1 (NoDup_nth x2u 0%nat) (proj1 (np_unique_nat_spec x2))); auto. congruence.
      - rewrite rsum_zero.
        + symmetry. apply lsum_zero. intros p Hp. rewrite (proj2 (Nat.eqb_neq _ _)); auto. intros E. apply Hout. rewrite <- E. apply np_unique_nat_spec. unfold x2. rewrite map_map.
          apply (in_map (fun p => nth 1 (ind2subF [n0; rest] (lin p)) 0%nat)). auto.
        + intros c Hc. rewrite (proj2 (Nat.eqb_neq _ _)); auto. intros E. apply Hout. rewrite <- E. apply nth_In; auto.
    Qed.
    Lemma x2u_nil : x2u = [] -> forall is, sp_val (sp_rows t) (sp_data t) is = r0.
    Proof.
      intros H is. assert (nz = []) as E.
      { destruct nz as [|p l] eqn:E; auto. exfalso. assert (In (nth 1 (ind2subF [n0; rest] (lin p)) 0%nat) x2u); [|rewrite H in *; contradiction].
        apply np_unique_nat_spec. unfold x2. simpl. auto. }
      rewrite val_nz by auto. fold nz. rewrite E. auto.
    Qed.
  End Mid.

  Lemma tmp_perm n mu : (mu < n)%nat -> is_perm n (mu :: compl n [mu]).
  Proof. intros H. apply (app_compl_perm n [mu] (NoDup_single mu) (Forall_lt_single n mu H)). Qed.
  Theorem sp_tmp_step_spec (x : sp R) mu M m : okv x -> sp_zd x = false -> (1 < sp_order x)%nat -> (mu < sp_order x)%nat ->
    shape M = [m; nth mu (sp_shape x) 0%nat] ->
    (sp_tmp_step x mu M = None /\ forall is, valid (sp_shape x) is -> sp_val (sp_rows x) (sp_data x) is = r0) \/
    exists z, sp_tmp_step x mu M = Some z /\ okv z /\ sp_zd z = false /\ sp_shape z = upd mu m (sp_shape x) /\
      forall is, valid (upd mu m (sp_shape x)) is ->
        sp_val (sp_rows z) (sp_data z) is = rsum (nth mu (sp_shape x) 0%nat) (fun k => get M [nth mu is 0%nat; k] * sp_val (sp_rows x) (sp_data x) (upd mu k is)).
  Proof.
    intros Hx Hz Ho Hmu HM. pose proof (tmp_perm _ _ Hmu) as Hp. unfold sp_tmp_step. set (perm := mu :: compl (sp_order x) [mu]) in *.
    destruct (sp_transpose_spec x perm Hx Ho Hp) as (t & Et & Ht & Hst & Hzt & Hvt). rewrite Et. cbn [bind]. rewrite Hzt, Hz.
    set (n0 := nth mu (sp_shape x) 0%nat) in *. set (tls := sel 0%nat (sp_shape x) (compl (sp_order x) [mu])) in *.
    assert (Hsh : sp_shape t = n0 :: tls) by (rewrite Hst; reflexivity).
    unfold sub2ind. cbn [mi_rows].
    match goal with |- context [forallb ?f ?l] => assert (E : forallb f l = true) end.
    { apply forallb_forall. intros r Hr. apply in_map_iff in Hr as [[r' b] [<- Hr]]. apply filter_In in Hr as [Hr _]. apply in_combine_l in Hr. 
      pose proof (rows_in_shape t Ht) as F. rewrite forallb_forall in F. apply F. auto. }
    rewrite E. cbn [bind].
    assert (Hn0 : nth 0 (sp_shape t) 0%nat = n0) by (rewrite Hsh; auto). assert (Htl : tl (sp_shape t) = tls) by (rewrite Hsh; auto). rewrite Hn0, Htl.
    set (nz := filter (fun p => negb (isz (snd p))) (combine (sp_rows t) (sp_data t))).
    assert (Hlin : map (fun r => sub2indF (sp_shape t) (map Z.to_nat r)) (map fst nz) = map (fun p => sub2indF (sp_shape t) (map Z.to_nat (fst p))) nz) by apply map_map.
    rewrite !Hlin.
    destruct (np_unique_nat _) as [|q0 qs] eqn:Eu.
    - left. split; auto. intros is Hv. rewrite <- (Hvt is Hv). exact (x2u_nil t n0 tls M m Ht Eu _).
    - right. rewrite <- Eu.
      assert (HM0 : nth 0 (shape M) 0%nat = m) by (rewrite HM; auto). assert (HM1 : nth 1 (shape M) 0%nat = n0) by (rewrite HM; auto).
      assert (HM2 : ndim M = 2%nat) by (unfold ndim; rewrite HM; auto). rewrite HM0, HM1, HM2, !Nat.eqb_refl. cbn [andb negb].
      clear Eu.
    pose proof (z0_ok t n0 tls M m Ht Hsh) as Hok. pose proof (z0_val t n0 tls M m Ht Hsh) as Hval. pose proof (lins_lt t n0 tls M m Ht Hsh) as Hll.
    unfold z0rows, z0data in *.

      unfold ind2sub.
      match goal with |- context [forallb ?f ?l] => assert (E2 : forallb f l = true) by (apply forallb_ltb; exact Hll) end.
      rewrite E2. cbn [bind]. unfold sp_itranspose. rewrite (np_argsort_perm _ _ Hp).
      match goal with |- context [sp_transpose ?y _] => set (z0 := y) end.
      assert (Ho0 : sp_order z0 = sp_order x).
      { unfold z0, sp_order. cbn [sp_shape length]. unfold tls. rewrite sel_length, compl1_len by auto. unfold sp_order in *. lia. }
      pose proof (inv_perm_is_perm _ _ Hp) as Hip.
      destruct (sp_transpose_spec z0 (inv_perm perm)) as (z & Ez & Hz1 & Hz2 & Hz3 & Hz4); [exact Hok|lia|rewrite Ho0; auto|].
      rewrite Ez. exists z. split; auto. split; auto. split; [rewrite Hz3; auto|].
      assert (Hs0 : sp_shape z0 = sel 0%nat (upd mu m (sp_shape x)) perm).
      { unfold z0. cbn [sp_shape]. unfold perm, tls. cbn [sel map]. rewrite nth_upd_eq by auto. f_equal. apply map_ext_in. intros k Hk. apply in_compl in Hk as [_ Hk].
        rewrite nth_upd_neq; auto. intros ->. apply Hk. simpl; auto. }
      split; [rewrite Hz2, Hs0; apply sel_inv_perm with (n := sp_order x); auto; apply upd_length|].
      intros is Hv. pose proof (valid_length _ _ Hv) as Li. rewrite upd_length in Li.
      rewrite <- (sel_inv_perm 0%nat (sp_order x) perm is Hp Li).
      assert (Hfp : Forall (fun k => (k < length (upd mu m (sp_shape x)))%nat) perm) by (rewrite upd_length; apply Forall_forall; intros k Hk; apply (is_perm_in _ _ k Hp); auto).
      rewrite Hz4 by (rewrite Hs0; apply sel_valid; auto).
      rewrite (sel_inv_perm 0%nat (sp_order x) perm is Hp Li).
      unfold perm at 1. cbn [sel map]. fold (sel 0%nat is (compl (sp_order x) [mu])).
      assert (Hmu2 : (nth mu is 0 < m)%nat) by (pose proof (valid_nth _ _ mu Hv) as V; rewrite upd_length, nth_upd_eq in V by auto; auto).
      assert (Hv2 : valid tls (sel 0%nat is (compl (sp_order x) [mu]))).
      { unfold tls. replace (sel 0%nat (sp_shape x) (compl (sp_order x) [mu])) with (sel 0%nat (upd mu m (sp_shape x)) (compl (sp_order x) [mu])).
        - apply sel_valid; auto. rewrite upd_length. apply compl_lt.
        - apply map_ext_in. intros k Hk. apply in_compl in Hk as [_ Hk]. apply nth_upd_neq. intros ->. apply Hk. simpl; auto. }
      etransitivity; [exact (Hval _ _ Hmu2 Hv2)|]. apply rsum_ext. intros k Hk. f_equal.
      assert (Hvk : valid (sp_shape x) (upd mu k is)).
      { replace (sp_shape x) with (upd mu n0 (upd mu m (sp_shape x))) by (rewrite upd_upd; apply upd_same).
        clear - Hv Hk Hmu. apply valid_intro; [rewrite !upd_length; rewrite (valid_length _ _ Hv), upd_length; auto|].
        intros j Hj. rewrite !upd_length in Hj. rewrite !nth_upd. rewrite !upd_length. rewrite (valid_length _ _ Hv), upd_length.
        destruct (Nat.eqb_spec j mu); cbn [andb]; [subst; rewrite (proj2 (Nat.ltb_lt _ _)) by auto; auto|].
        pose proof (valid_nth _ _ j Hv) as V. rewrite upd_length, nth_upd_neq in V by auto. auto. }
      rewrite <- (Hvt _ Hvk). f_equal. unfold perm. cbn [sel map]. rewrite nth_upd_eq by (rewrite Li; auto). f_equal. apply map_ext_in.
      intros j Hj. apply in_compl in Hj as [_ Hj]. rewrite nth_upd_neq; auto. intros ->. apply Hj. simpl; auto.
  Qed.
  Lemma sp_tmp_fold dims : forall (x : sp R) (Ms : list (nd R)) z, okv x -> sp_zd x = false -> (1 < sp_order x)%nat ->
    NoDup dims -> Forall (fun k => (k < sp_order x)%nat) dims -> length Ms = length dims ->
    (forall k, (k < length dims)%nat -> exists m, shape (nth k Ms (scalar r0)) = [m; nth (nth k dims 0%nat) (sp_shape x) 0%nat]) ->
    ofold (fun y p => sp_tmp_step y (fst p) (snd p)) (combine dims Ms) x = Some z ->
    okv z /\ sp_zd z = false /\ sp_shape z = put dims (map (fun M => nth 0 (shape M) 0%nat) Ms) (sp_shape x) /\
    forall is, valid (sp_shape z) is -> sp_val (sp_rows z) (sp_data z) is =
      bsum (sel 0%nat (sp_shape x) dims) (fun js => sp_val (sp_rows x) (sp_data x) (put dims js is) * factors Ms (sel 0%nat is dims) js).
  Proof.
    induction dims as [|d dims IH]; intros T Ms z HT HzT Ho Hn Hf HL HM He.
    - destruct Ms; [|discriminate]. injection He as <-. repeat split; auto; try apply HT. intros is Hv. simpl. ring.
    - destruct Ms as [|M Ms]; [discriminate|]. simpl in HL. inversion Hn as [|? ? Hd Hn']; subst. inversion Hf as [|? ? Hdl Hf']; subst.
      destruct (HM 0%nat) as [m Hm]; [simpl; lia|]. simpl in Hm.
      cbn [combine ofold fst snd] in He. destruct (sp_tmp_step_spec T d M m HT HzT Ho Hdl Hm) as [[E _]|(T1 & E & Ok1 & Z1 & Hs1 & Hg1)]; rewrite E in He; [discriminate|].
      assert (Hnd : sp_order T1 = sp_order T) by (unfold sp_order; rewrite Hs1, upd_length; auto).
      assert (Hnn : forall k, In k dims -> nth k (sp_shape T1) 0%nat = nth k (sp_shape T) 0%nat).
      { intros k Hk. rewrite Hs1, nth_upd_neq; auto. intros ->; contradiction. }
      destruct (IH T1 Ms z Ok1 Z1 ltac:(lia) Hn') as (A1 & A2 & A3 & A4); auto.
      { rewrite Hnd; auto. }
      { intros k Hk. destruct (HM (S k)) as [m' Hm']; [simpl; lia|]. exists m'. simpl in Hm'. rewrite Hnn; auto. apply nth_In; auto. }
      split; auto. split; auto.
      assert (Hsh : put dims (map (fun M0 : nd R => nth 0 (shape M0) 0%nat) Ms) (sp_shape T1) =
                    put (d :: dims) (map (fun M0 : nd R => nth 0 (shape M0) 0%nat) (M :: Ms)) (sp_shape T)).
      { rewrite Hs1, put_upd_comm by auto. cbn [map put]. rewrite Hm. reflexivity. }
      split; [congruence|]. intros is Hv. rewrite A4 by auto. simpl.
      assert (Hsel : sel 0%nat (sp_shape T1) dims = sel 0%nat (sp_shape T) dims) by (unfold sel; apply map_ext_in; auto).
      rewrite Hsel. fold (sel 0%nat (sp_shape T) dims). rewrite <- bsum_rsum_exchange. apply bsum_ext. intros js Hj.
      assert (Hvp : valid (sp_shape T1) (put dims js is)).
      { apply valid_put with (ms := map (fun M0 : nd R => nth 0 (shape M0) 0%nat) Ms); auto.
        - unfold sp_order in *. rewrite Hnd; auto.
        - rewrite map_length. lia.
        - rewrite <- A3. exact Hv.
        - rewrite Hsel. exact Hj. }
      rewrite Hs1 in Hvp. rewrite Hg1 by auto. rewrite <- rsum_scal_r. apply rsum_ext. intros j Hj'.
      rewrite put_nth_out by auto. fold (sel 0%nat is dims). ring.
  Qed.
  Theorem sp_tmp_spec (x : sp R) Ms dims z : okv x -> sp_zd x = false -> (1 < sp_order x)%nat ->
    NoDup dims -> Forall (fun k => (k < sp_order x)%nat) dims ->
    (forall k, (k < length dims)%nat -> exists m, shape (nth k Ms (scalar r0)) = [m; nth (nth k dims 0%nat) (sp_shape x) 0%nat]) ->
    sp_tensor_matrix_product x Ms (Some dims) = Some z ->
    okv z /\ sp_zd z = false /\ sp_shape z = put dims (map (fun M => nth 0 (shape M) 0%nat) Ms) (sp_shape x) /\
    forall is, valid (sp_shape z) is -> sp_val (sp_rows z) (sp_data z) is =
      bsum (sel 0%nat (sp_shape x) dims) (fun js => sp_val (sp_rows x) (sp_data x) (put dims js is) * factors Ms (sel 0%nat is dims) js).
  Proof.
    intros Hx Hz Ho Hn Hf HM He. unfold sp_tensor_matrix_product in He. destruct (negb (length Ms =? length dims)) eqn:E; [discriminate|].
    apply negb_false_iff, Nat.eqb_eq in E. eapply sp_tmp_fold; eauto.
  Qed.
  Theorem sp_tmp_one (x : sp R) M m mu is0 : okv x -> sp_zd x = false -> (1 < sp_order x)%nat -> (mu < sp_order x)%nat ->
    shape M = [m; nth mu (sp_shape x) 0%nat] -> valid (sp_shape x) is0 -> sp_val (sp_rows x) (sp_data x) is0 <> r0 ->
    exists z, sp_tensor_matrix_product x [M] (Some [mu]) = Some z.
  Proof.
    intros Hx Hz Ho Hmu HM Hv Hne. unfold sp_tensor_matrix_product. cbn [length Nat.eqb negb combine ofold fst snd].
    destruct (sp_tmp_step_spec x mu M m Hx Hz Ho Hmu HM) as [[_ H0]|(z & E & _)]; [exfalso; apply Hne; auto|rewrite E; eauto].
  Qed.
  Theorem sp_dot_metric_spec (x y : sp R) Ms v : okv x -> okv y -> sp_zd x = false -> sp_zd y = false -> (1 < sp_order y)%nat -> length Ms = sp_order y ->
    (forall k, (k < sp_order y)%nat -> shape (nth k Ms (scalar r0)) = [nth k (sp_shape x) 0%nat; nth k (sp_shape y) 0%nat]) ->
    sp_order x = sp_order y -> sp_dot_with_rank_one_metric x y Ms = Some v ->
    v = bsum (sp_shape x) (fun is => bsum (sp_shape y) (fun js =>
          sp_val (sp_rows x) (sp_data x) is * factors Ms is js * sp_val (sp_rows y) (sp_data y) js)).
  Proof.
    intros Hx Hy Zx Zy Ho HL HM Hso He. unfold sp_dot_with_rank_one_metric in He. 
    destruct (sp_tensor_matrix_product y Ms None) as [s|] eqn:E; [|discriminate]. cbn [bind] in He.
    change (sp_tensor_matrix_product y Ms None) with (sp_tensor_matrix_product y Ms (Some (seq 0 (sp_order y)))) in E.
    apply sp_tmp_spec in E; auto using seq_NoDup.
    2:{ apply Forall_forall. intros k Hk. apply in_seq in Hk. lia. }
    2:{ intros k Hk. rewrite seq_length in Hk. rewrite seq_nth by auto. eexists. apply HM; auto. }
    destruct E as (A1 & A2 & A3 & A4).
    assert (Es : sp_shape s = sp_shape x).
    { rewrite A3, put_all; auto; [|rewrite map_length; auto]. apply (nth_ext' 0%nat); [rewrite map_length, HL; auto|].
      intros k Hk. rewrite map_length in Hk. rewrite (map_nth_in _ _ _ (scalar r0)) by auto. rewrite HM by lia. auto. }
    rewrite (sp_dot_spec x s) in He by auto. injection He as <-. apply bsum_ext. intros is His.
    rewrite A4 by (rewrite Es; exact His). rewrite <- bsum_scal_l.
    rewrite (sel_seq 0%nat (sp_shape y) : sel 0%nat (sp_shape y) (seq 0 (sp_order y)) = sp_shape y). apply bsum_ext. intros js Hjs.
    apply valid_length in His, Hjs. unfold sp_order in *. rewrite put_all by lia.
    replace (sel 0%nat is (seq 0 (length (sp_shape y)))) with is by (rewrite <- Hso, <- His, sel_seq; auto). ring.
  Qed.
End Sp3.
