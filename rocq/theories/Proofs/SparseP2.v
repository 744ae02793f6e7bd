(** Proofs about SparseTensor: products with vectors and matrices. *)
From Coq Require Import List Arith Lia Bool ZArith Permutation.
From Verif.Base Require Import ListAux CRing Index.
From Verif.Model Require Import Sorting MultiIndices Numpy FullTensor Diagonal Sparse.
From Verif.Spec Require Import TensorSpec.
From Verif.Proofs Require Import SortingP MultiIndicesP NumpyP FullTensorP FullTensorP2 FullTensorP3 DiagonalP SparseP.
Import ListNotations.

(** * removing one position *)
Definition dec1 (d e : nat) : nat := if d <? e then e - 1 else e.
Lemma nth_compl1 n d k : d < n -> k < n - 1 -> nth k (compl n [d]) 0 = if k <? d then k else S k.
Proof.
  intros Hd Hk. rewrite compl_single by auto. destruct (Nat.ltb_spec k d).
  - rewrite app_nth1 by (rewrite seq_length; auto). rewrite seq_nth; auto.
  - rewrite app_nth2; rewrite seq_length; [|lia]. rewrite seq_nth by lia. lia.
Qed.
Lemma nth_compl1_dec n d e : d < n -> e < n -> e <> d -> nth (dec1 d e) (compl n [d]) 0 = e.
Proof.
  intros Hd He Hne. unfold dec1. destruct (Nat.ltb_spec d e); rewrite nth_compl1 by lia.
  - rewrite (proj2 (Nat.ltb_ge _ _)) by lia. lia.
  - rewrite (proj2 (Nat.ltb_lt _ _)) by lia. auto.
Qed.
Lemma compl1_len n d : d < n -> length (compl n [d]) = n - 1.
Proof. intros. pose proof (compl_length n [d] (NoDup_single d) (Forall_lt_single n d H)). simpl in *. lia. Qed.
Lemma dec1_lt n d e : d < n -> e < n -> e <> d -> dec1 d e < n - 1.
Proof. intros. unfold dec1. destruct (Nat.ltb_spec d e); lia. Qed.
Lemma dec1_inj d e e' : e <> d -> e' <> d -> dec1 d e = dec1 d e' -> e = e'.
Proof. unfold dec1. destruct (Nat.ltb_spec d e), (Nat.ltb_spec d e'); lia. Qed.
Section Dec.
  Variables (n d : nat) (dims : list nat).
  Hypotheses (Hnd : NoDup (d :: dims)) (Hf : Forall (fun k => k < n) (d :: dims)).
  Let dims1 := map (dec1 d) dims.
  Let Hd : d < n. Proof. inversion Hf; auto. Qed.
  Let Hdims e : In e dims -> e < n /\ e <> d.
  Proof. inversion Hf; subst. rewrite Forall_forall in H2. intros He. split; auto. intros ->. inversion Hnd; contradiction. Qed.
  Lemma dec_NoDup : NoDup dims1.
  Proof. apply NoDup_map_inj; [intros a b Ha Hb; apply dec1_inj; apply Hdims; auto|inversion Hnd; auto]. Qed.
  Lemma dec_lt : Forall (fun k => k < n - 1) dims1.
  Proof. apply Forall_forall. intros k Hk. apply in_map_iff in Hk as [e [<- He]]. apply dec1_lt; auto; apply Hdims; auto. Qed.
  Lemma sel_compl_dec : sel 0 (compl n [d]) dims1 = dims.
  Proof.
    unfold sel, dims1. rewrite map_map. rewrite <- (map_id dims) at 2. apply map_ext_in. intros e He. apply nth_compl1_dec; auto; apply Hdims; auto.
  Qed.
  Lemma filter_map_swap {A B} (P : B -> bool) (f : A -> B) l : filter P (map f l) = map f (filter (fun a => P (f a)) l).
  Proof. induction l; simpl; auto. destruct (P (f a)); simpl; rewrite IHl; auto. Qed.
  Lemma filter_filter {A} (P Q : A -> bool) l : filter P (filter Q l) = filter (fun a => Q a && P a) l.
  Proof. induction l as [|a l IH]; simpl; auto. destruct (Q a); simpl; [destruct (P a); rewrite IH; auto|auto]. Qed.
  Lemma compl_dec : sel 0 (compl n [d]) (compl (n - 1) dims1) = compl n (d :: dims).
  Proof.
    assert (E : compl n (d :: dims) = filter (fun k => negb (inb k dims)) (compl n [d])).
    { unfold compl. rewrite filter_filter. apply filter_ext. intros k. cbn [inb existsb]. rewrite orb_false_r, negb_orb. reflexivity. }
    rewrite E. rewrite <- (sel_seq 0 (compl n [d])) at 2. rewrite compl1_len by auto. unfold sel. rewrite filter_map_swap. f_equal.
    unfold compl at 1. apply filter_ext_in. intros k Hk. apply in_seq in Hk. f_equal. apply eq_true_iff_eq. rewrite !inb_spec. unfold dims1. rewrite in_map_iff. split.
    - intros [e [<- He]]. rewrite nth_compl1_dec; auto; apply Hdims; auto.
    - intros Hi. eexists; split; [|exact Hi]. apply Hdims in Hi as [H1 H2].
      rewrite nth_compl1 in * by lia. unfold dec1. destruct (Nat.ltb_spec k d); [rewrite (proj2 (Nat.ltb_ge _ _)) by lia; auto|].
      rewrite (proj2 (Nat.ltb_lt _ _)) by lia. lia.
  Qed.
  Lemma asm_dec j js is : length js = length dims -> length is = length (compl n (d :: dims)) ->
    asm n [d] [j] (asm (n - 1) dims1 js is) = asm n (d :: dims) (j :: js) is.
  Proof.
    intros Lj Li. symmetry. pose proof sel_compl_dec as S1. pose proof compl_dec as S2. pose proof dec_NoDup as D1. pose proof dec_lt as D2.
    assert (L1 : length dims1 = length dims) by apply map_length.
    assert (L2 : length (compl (n - 1) dims1) = length (compl n (d :: dims))) by (rewrite <- S2, sel_length; auto).
    apply asm_ext; auto.
    - apply asm_length.
    - intros [|m] Hm; cbn [nth length] in *.
      + apply (asm_nth_in n [d] [j] _ 0 (NoDup_single d) (Forall_lt_single n d Hd)). simpl; lia.
      + rewrite <- S1. rewrite sel_nth by lia. rewrite asm_nth_out.
        * apply asm_nth_in; auto. lia.
        * rewrite compl1_len by auto. rewrite Forall_forall in D2. apply D2, nth_In. lia.
    - intros m Hm. rewrite <- S2. rewrite sel_nth by lia. rewrite asm_nth_out.
      + apply asm_nth_out. lia.
      + rewrite compl1_len by auto. pose proof (compl_lt (n - 1) dims1) as C. rewrite Forall_forall in C. apply C, nth_In. lia.
  Qed.
End Dec.

(** * sorted distinct rows *)
Lemma row_ltb_trans a : forall b c, row_ltb a b = true -> row_ltb b c = true -> row_ltb a c = true.
Proof.
  induction a as [|x a IH]; intros [|y b] [|z c] H1 H2; simpl in *; try discriminate; auto.
  rewrite orb_true_iff, andb_true_iff, !Z.ltb_lt, Z.eqb_eq in *. destruct H1 as [H1|[-> H1]], H2 as [H2|[-> H2]]; [left; lia|left; lia|left; lia|right; eauto].
Qed.
Lemma row_ltb_irrefl a : row_ltb a a = false.
Proof. induction a; simpl; auto. rewrite Z.ltb_irrefl, Z.eqb_refl, IHa. auto. Qed.
Lemma row_ltb_total a : forall b, row_eqb a b = false -> row_ltb a b = false -> row_ltb b a = true.
Proof.
  induction a as [|x a IH]; intros [|y b] H1 H2; simpl in *; try discriminate; auto.
  rewrite orb_true_iff, andb_true_iff, Z.ltb_lt, Z.eqb_eq. rewrite orb_false_iff, Z.ltb_ge in H2. destruct H2 as [H2 H3].
  destruct (Z.eq_dec x y) as [->|]; [right; split; auto|left; lia]. rewrite Z.eqb_refl in *. apply IH; auto.
Qed.
Inductive rsorted : list row -> Prop :=
| rs_nil : rsorted []
| rs_cons r l : Forall (fun s => row_ltb r s = true) l -> rsorted l -> rsorted (r :: l).
Lemma rsorted_NoDup l : rsorted l -> NoDup l.
Proof. induction 1; constructor; auto. intros Hc. rewrite Forall_forall in H. apply H in Hc. rewrite row_ltb_irrefl in Hc. discriminate. Qed.
Lemma in_uinsert r l s : In s (uinsert r l) <-> s = r \/ In s l.
Proof.
  induction l as [|q l IH]; simpl; [intuition|]. destruct (row_eqb r q) eqn:E.
  - apply row_eqb_spec in E. subst. simpl. intuition.
  - destruct (row_ltb r q); simpl; [intuition|]. rewrite IH. intuition.
Qed.
Lemma uinsert_sorted r l : rsorted l -> rsorted (uinsert r l).
Proof.
  induction 1 as [|q l Hq Hl IH]; simpl; [repeat constructor|]. destruct (row_eqb r q) eqn:E; [constructor; auto|].
  destruct (row_ltb r q) eqn:E2.
  - constructor; [|constructor; auto]. constructor; auto. eapply Forall_impl; [|exact Hq]. intros s Hs. eapply row_ltb_trans; eauto.
  - constructor; auto. apply Forall_forall. intros s Hs. apply in_uinsert in Hs as [->|Hs]; [apply row_ltb_total; auto|].
    rewrite Forall_forall in Hq; auto.
Qed.
Lemma np_unique_rows_spec l : NoDup (np_unique_rows l) /\ forall r, In r (np_unique_rows l) <-> In r l.
Proof.
  assert (H : rsorted (np_unique_rows l) /\ forall r, In r (np_unique_rows l) <-> In r l).
  { induction l as [|a l [H1 H2]]; simpl; [split; [constructor|tauto]|]. split; [apply uinsert_sorted; auto|].
    intros r. rewrite in_uinsert, H2. intuition. }
  destruct H. split; auto. apply rsorted_NoDup; auto.
Qed.

Section Sp2.
  Context {R : Type} {CR : CRing R} {ZT : ZeroTest R}.
  Add Ring Rr : rth.
  Local Open Scope cr_scope.

  Lemma rv_unique (l : list (row * R)) r :
    rv (np_unique_rows (map fst l)) (bincount (length (np_unique_rows (map fst l))) (map (fun r => pos_of r (np_unique_rows (map fst l))) (map fst l)) (map snd l)) r
    = lsum l (fun p => if eqr (fst p) r then snd p else r0).
  Proof.
    destruct (np_unique_rows_spec (map fst l)) as [Hn Hi]. set (u := np_unique_rows (map fst l)) in *.
    destruct (row_dec r u) as [H|H].
    - apply (In_nth _ _ []) in H as [k [Hk <-]]. rewrite rv_in by auto. unfold bincount. rewrite nth_map_seq by auto.
      rewrite map_map, combine_map2, lsum_map. apply lsum_ext. intros [q a] Hp. cbn [fst snd].
      assert (Hq : In q u) by (apply Hi; apply in_map_iff; exists (q, a); auto). destruct (pos_of_spec q u Hq) as [P1 P2].
      destruct (Nat.eqb_spec (pos_of q u) k) as [<-|Hne].
      + rewrite P2, eqr_refl. auto.
      + rewrite eqr_neq; auto. intros ->. apply Hne. apply (proj1 (NoDup_nth u []) Hn); auto.
    - rewrite rv_out by auto. symmetry. apply lsum_zero. intros [q a] Hp. cbn [fst snd]. rewrite eqr_neq; auto. intros ->. apply H, Hi.
      apply in_map_iff. exists (r, a); auto.
  Qed.
  Lemma lsum_nz (l : list (row * R)) r : lsum (filter (fun p => negb (isz (snd p))) l) (fun p => if eqr (fst p) r then snd p else r0)
    = lsum l (fun p => if eqr (fst p) r then snd p else r0).
  Proof.
    rewrite lsum_filter. apply lsum_ext. intros [q a] _. cbn [fst snd]. destruct (isz a) eqn:E; auto. cbn [negb]. apply isz_ok in E. subst.
    destruct (eqr q r); auto.
  Qed.

  (** state of the loop of tensor_vector_product *)
  Definition stok (s : list nat) (F : list nat -> R) (st : list R * list row * nat) : Prop :=
    let '(data, rows, nc) := st in nc = length s /\ Forall (fun r => exists is, valid s is /\ r = zrow is) rows /\
    NoDup rows /\ (length data = length rows \/ rows = []) /\ forall is, valid s is -> rv rows data (zrow is) = F is.

  Lemma tvp_step_spec s F st v d st' : stok s F st -> (d < length s)%nat -> (1 < length s)%nat -> length v = nth d s 0%nat ->
    tvp_step st v d = Some st' ->
    stok (sel 0%nat s (compl (length s) [d])) (fun is => rsum (nth d s 0%nat) (fun j => F (asm (length s) [d] [j] is) * nth j v r0)) st'.
  Proof.
    destruct st as [[data rows] nc]. intros (Hnc & Hf & Hn & Hlen & HF) Hd Ho Hv Hs. unfold tvp_step in Hs.
    destruct (negb _) eqn:E1 in Hs; [discriminate|]. clear E1.
    destruct (vop rmul data _) as [a|] eqn:Ea in Hs; [|discriminate]. cbn [bind] in Hs.
    set (keep := filter (fun k => negb (k =? d)) (seq 0 nc)) in *.
    assert (Hkeep : keep = compl (length s) [d]).
    { unfold keep, compl. rewrite Hnc. apply filter_ext. intros k. cbn [inb existsb]. rewrite orb_false_r. auto. }
    set (val := fun p : row * R => nth (Z.to_nat (nth d (fst p) 0%Z)) v r0 * snd p).
    set (nz := filter (fun p => negb (isz (snd p))) (combine (map (fun r => sel 0%Z r keep) rows) a)) in *.
    assert (Hval : forall is, lsum nz (fun p => if eqr (fst p) (zrow is) then snd p else r0) =
       lsum (combine rows data) (fun p => if eqr (sel 0%Z (fst p) keep) (zrow is) then val p else r0)).
    { intros is. unfold nz. rewrite lsum_nz. destruct Hlen as [Hlen|Hlen].
      - assert (Ha : a = map (fun p => snd p * nth (Z.to_nat (nth d (fst p) 0%Z)) v r0) (combine rows data)).
        { clear - Ea Hlen. unfold vop in Ea. rewrite map_length, Hlen, Nat.eqb_refl in Ea. injection Ea as <-.
          revert data Hlen. induction rows as [|r rows IH]; intros [|x data] L; try discriminate; simpl; auto. rewrite IH by (simpl in L; lia). auto. }
        rewrite Ha. clear - Hlen. revert data Hlen. induction rows as [|r rows IH]; intros [|x data] L; try discriminate; simpl; auto.
        rewrite IH by (simpl in L; lia). unfold val at 2. cbn [fst snd]. destruct (eqr _ _); ring.
      - subst rows. simpl. auto. }
    assert (Hrows2 : Forall (fun r => exists is, valid (sel 0%nat s keep) is /\ r = zrow is) (map fst nz)).
    { apply Forall_forall. intros r Hr. apply in_map_iff in Hr as [[q b] [<- Hp]]. unfold nz in Hp. apply filter_In in Hp as [Hp _]. apply in_combine_l in Hp.
      apply in_map_iff in Hp as [q' [<- Hq]]. rewrite Forall_forall in Hf. destruct (Hf q' Hq) as [is [Hi ->]]. exists (sel 0%nat is keep). split; [|apply sel_zrow].
      apply sel_valid; auto. rewrite Hkeep. apply compl_lt. }
    assert (Hfin : forall is, valid (sel 0%nat s keep) is -> lsum nz (fun p => if eqr (fst p) (zrow is) then snd p else r0) =
        rsum (nth d s 0%nat) (fun j => F (asm (length s) [d] [j] is) * nth j v r0)).
    { intros is Hi. rewrite Hval. rewrite Hkeep in *.
      assert (Li : length is = length (compl (length s) [d])) by (rewrite (valid_length _ _ Hi), sel_length; auto).
      rewrite (rsum_ext _ _ (fun j => lsum (combine rows data) (fun p => if eqr (fst p) (zrow (asm (length s) [d] [j] is)) then val p else r0))).
      - rewrite <- (lsum_rsum_exchange (combine rows data)). apply lsum_ext. intros [q b] Hp. cbn [fst snd]. apply in_combine_l in Hp. rewrite Forall_forall in Hf.
        destruct (Hf q Hp) as [js [Hj ->]]. rewrite sel_zrow. pose proof (valid_nth _ _ d Hj Hd) as Hjd.
        rewrite (rsum_single _ (nth d js 0%nat)); auto.
        + destruct (eqr (zrow (sel 0%nat js (compl (length s) [d]))) (zrow is)) eqn:E.
          * apply eqr_spec, zrow_inj in E. rewrite <- E. rewrite (asm_upd (length s) d (nth d js 0%nat) js (valid_length _ _ Hj) Hd), upd_same, eqr_refl. auto.
          * rewrite eqr_neq; auto. intros E2. apply zrow_inj in E2. rewrite E2, sel_asm_compl in E by auto. rewrite eqr_refl in E. discriminate.
        + intros i Hi2 Hne. rewrite eqr_neq; auto. intros E2. apply zrow_inj in E2. apply Hne. rewrite E2.
          symmetry. apply (asm_nth_in (length s) [d] [i] is 0 (NoDup_single d) (Forall_lt_single _ _ Hd)). simpl; lia.
      - intros j Hj. rewrite <- HF.
        2:{ apply valid_asm; auto using NoDup_single, Forall_lt_single. apply Forall2_cons; auto. }
        destruct Hlen as [Hlen|Hlen]; [|subst rows; simpl; unfold rv; simpl; ring].
        rewrite rv_lsum by auto. rewrite <- lsum_scal_r. apply lsum_ext. intros [q b] Hp. cbn [fst snd]. unfold val. cbn [fst snd].
        destruct (eqr q _) eqn:E; [|ring]. apply eqr_spec in E. subst q. rewrite nth_zrow, Nat2Z.id.
        pose proof (asm_nth_in (length s) [d] [j] is 0 (NoDup_single d) (Forall_lt_single _ _ Hd) ltac:(simpl; lia)) as E3. cbn [nth] in E3. rewrite E3. ring. }
    assert (Hk1 : length keep = (length s - 1)%nat) by (rewrite Hkeep; apply compl1_len; auto).
    rewrite <- Hkeep. destruct (length (map fst nz) * length keep =? 0) eqn:E0; cbn [negb] in Hs; injection Hs as <-.
    - apply Nat.eqb_eq in E0. assert (nz = []) as Hnil by (destruct nz; auto; simpl in E0; lia).
      rewrite Hnil in *. cbn [map]. repeat split; auto.
      + rewrite sel_length; auto.
      + constructor.
    - destruct (np_unique_rows_spec (map fst nz)) as [Un Ui]. repeat split; auto.
      + rewrite sel_length; auto.
      + apply Forall_forall. intros r Hr. apply Ui in Hr. rewrite Forall_forall in Hrows2. auto.
      + left. unfold bincount. rewrite map_length, seq_length. auto.
      + intros is Hi. rewrite rv_unique. auto.
  Qed.
  Lemma tvp_loop_spec vs : forall dims s F st st', stok s F st -> NoDup dims -> Forall (fun k => (k < length s)%nat) dims ->
    length vs = length dims -> (length dims < length s)%nat ->
    (forall k, (k < length dims)%nat -> length (nth k vs []) = nth (nth k dims 0%nat) s 0%nat) ->
    tvp_loop st vs dims = Some st' ->
    stok (sel 0%nat s (compl (length s) dims))
      (fun is => bsum (sel 0%nat s dims) (fun js => F (asm (length s) dims js is) * lfactors vs js)) st'.
  Proof.
    induction vs as [|v vs IH]; intros [|d dims] s F st st' Hst Hn Hf Hl Hlt Hv Hs; try discriminate.
    - simpl in Hs. injection Hs as <-. rewrite compl_nil, sel_seq. destruct st as [[data rows] nc]. destruct Hst as (A1 & A2 & A3 & A4 & A5).
      repeat split; auto. intros is Hi. rewrite A5 by auto. simpl. rewrite asm_nil by (apply valid_length; auto). unfold lfactors. simpl. ring.
    - simpl in Hs. destruct (tvp_step st v d) as [st1|] eqn:E1; [|discriminate]. cbn [bind] in Hs.
      pose proof (Forall_inv Hf) as Hd. cbn [length] in Hlt.
      apply tvp_step_spec with (s := s) (F := F) in E1; auto; [|lia|apply (Hv 0%nat); simpl; lia].
      set (s1 := sel 0%nat s (compl (length s) [d])) in *.
      assert (L1 : length s1 = (length s - 1)%nat) by (unfold s1; rewrite sel_length; apply compl1_len; auto).
      assert (Hsel : forall ks, Forall (fun k => (k < length s - 1)%nat) ks -> sel 0%nat s1 ks = sel 0%nat s (sel 0%nat (compl (length s) [d]) ks)).
      { intros ks Hk. unfold s1. apply sel_sel. rewrite compl1_len by auto. auto. }
      change (map (fun e => if d <? e then (e - 1)%nat else e) dims) with (map (dec1 d) dims) in Hs.
      pose proof (dec_NoDup (length s) d dims Hn Hf) as D1. pose proof (dec_lt (length s) d dims Hn Hf) as D2.
      pose proof (sel_compl_dec (length s) d dims Hn Hf) as D3. pose proof (compl_dec (length s) d dims Hn Hf) as D4.
      eapply IH in Hs; [|exact E1|auto|rewrite L1; auto|rewrite map_length; simpl in *; lia|rewrite map_length, L1; simpl in *; lia|].
      2:{ intros k Hk. rewrite map_length in Hk. specialize (Hv (S k) ltac:(simpl; lia)). cbn [nth] in Hv. rewrite Hv.
          rewrite <- (sel_nth 0%nat s1) by (rewrite map_length; auto). rewrite Hsel, D3, sel_nth; auto. }
      rewrite L1 in Hs. rewrite !Hsel in Hs by (auto using compl_lt). rewrite D3, D4 in Hs.
      destruct st' as [[data rows] nc]. destruct Hs as (A1 & A2 & A3 & A4 & A5). repeat split; auto.
      intros is Hi. rewrite A5 by auto. simpl. rewrite <- bsum_rsum_exchange. apply bsum_ext. intros js Hj.
      rewrite <- rsum_scal_r. apply rsum_ext. intros j Hj2.
      rewrite asm_dec; auto.
      + unfold lfactors. simpl. ring.
      + apply Forall2_length' in Hj. rewrite sel_length in Hj. auto.
      + apply valid_length in Hi. rewrite sel_length in Hi. auto.
  Qed.
  Theorem sp_tvp_spec (x : sp R) vs dims y : okv x -> NoDup dims -> Forall (fun k => (k < sp_order x)%nat) dims ->
    (length dims < sp_order x)%nat ->
    (forall k, (k < length dims)%nat -> length (nth k vs []) = nth (nth k dims 0%nat) (sp_shape x) 0%nat) ->
    sp_tensor_vector_product x vs (Some dims) = Some y ->
    exists z, y = inr z /\ sp_shape z = sel 0%nat (sp_shape x) (compl (sp_order x) dims) /\
      NoDup (sp_rows z) /\
      forall is, valid (sp_shape z) is ->
        sp_val (sp_rows z) (sp_data z) is = bsum (sel 0%nat (sp_shape x) dims)
          (fun js => sp_val (sp_rows x) (sp_data x) (asm (sp_order x) dims js is) * lfactors vs js).
  Proof.
    intros Hx Hn Hf Hlt Hv Hs. unfold sp_tensor_vector_product in Hs. destruct (negb (length vs =? length dims)) eqn:E0; [discriminate|].
    apply negb_false_iff, Nat.eqb_eq in E0. destruct (_ && _) in Hs; [discriminate|].
    destruct (tvp_loop _ _ _) as [[[data rows] nc]|] eqn:E; [|discriminate]. cbn [bind] in Hs.
    destruct Hx as [Lx [Nx Fx]].
    apply tvp_loop_spec with (s := sp_shape x) (F := fun is => rv (sp_rows x) (sp_data x) (zrow is)) in E; auto.
    2:{ repeat split; auto. }
    fold (sp_order x) in E. pose proof (compl_length _ _ Hn Hf) as Hc. destruct (compl (sp_order x) dims) as [|c cs] eqn:Ec; [simpl in Hc; lia|].
    injection Hs as <-. eexists; split; [reflexivity|]. cbn [sp_shape sp_data sp_ind mi_rows]. unfold sp_rows at 1 2. cbn [sp_ind mi_rows].
    destruct E as (A1 & A2 & A3 & A4 & A5). repeat split; auto. intros is Hi. rewrite sp_val_rv, A5 by auto.
    apply bsum_ext. intros js Hj. rewrite sp_val_rv. auto.
  Qed.
  (** one dimension: always returns *)
  Theorem sp_tvp_one (x : sp R) v d : okv x -> (1 < sp_order x)%nat -> (d < sp_order x)%nat -> length v = nth d (sp_shape x) 0%nat ->
    exists z, sp_tensor_vector_product x [v] (Some [d]) = Some (inr z).
  Proof.
    intros [Lx [Nx Fx]] Ho Hd Hv. unfold sp_tensor_vector_product. cbn [length Nat.eqb negb].
    pose proof (compl1_len (sp_order x) d Hd) as Hc. rewrite Hc, (proj2 (Nat.leb_gt _ _) Ho), andb_false_r.
    cbn [tvp_loop]. unfold tvp_step.
    match goal with |- context [forallb ?f ?l] => assert (E : forallb f l = true) end.
    { apply forallb_forall. intros r Hr. rewrite Forall_forall in Fx. destruct (Fx r Hr) as [is [Hi ->]]. fold (zrow is). rewrite nth_zrow.
      pose proof (valid_nth _ _ d Hi Hd). apply andb_true_iff. split; [apply Z.leb_le; lia|apply Z.ltb_lt; lia]. }
    rewrite E. cbn [negb]. unfold vop. rewrite map_length, Lx, Nat.eqb_refl. cbn [bind].
    destruct (compl (sp_order x) [d]) as [|c cs] eqn:Ec; [simpl in Hc; lia|].
    match goal with |- context [if ?b then Some _ else Some _] => destruct b end; cbn [bind]; eexists; reflexivity.
  Qed.
End Sp2.
