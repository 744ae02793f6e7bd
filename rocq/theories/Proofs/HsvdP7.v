(** Truncator.hsvd of a FullTensor: comparison with every other tensor with the same ranks. *)
From Coq Require Import List Arith Lia Bool Reals Lra.
From Verif.Base Require Import ListAux CRing Index RealAux.
From Verif.Model Require Import Sorting Numpy FullTensor Diagonal Canonical DimensionTree TreeBased Truncator HSVD.
From Verif.Spec Require Import TensorSpec TreeSpec TreeTensorSpec TruncatorSpec.
From Verif.Proofs Require Import NumpyP FullTensorP FullTensorP4 DimTreeP TreeTensorP TreeTensorP3 TreeTensorP4 TreeTensorP14 TreeTensorP17 TruncatorP TruncatorP2 TruncatorP3 TruncatorP4 FunctionalP4 ProjP PolyP5 EinsumP HsvdP HsvdP2 HsvdP3.
Import ListNotations.
Local Open Scope R_scope.

(** the function f depends only on the axes of the nodes in P (and on the last axes if pe) *)
Definition dep (nx : list nat) (h : nat -> nat) (es : list nat) (P : nat -> Prop) (pe : Prop) (f : list nat -> R) : Prop :=
  forall ks ks' e e', valid (map h nx) ks -> valid (map h nx) ks' -> valid es e -> valid es e' ->
    (forall c, In c nx -> P c -> nth (index_of c nx) ks 0%nat = nth (index_of c nx) ks' 0%nat) -> (pe -> e = e') -> f (ks ++ e) = f (ks' ++ e').
Definition rankn (nx : list nat) (h : nat -> nat) (es : list nat) (P : nat -> Prop) (k : nat) (g : list nat -> R) : Prop :=
  exists a b : nat -> list nat -> R, (forall c, dep nx h es P False (a c)) /\ (forall c, dep nx h es (fun x => ~ P x) True (b c)) /\
    forall ks e, valid (map h nx) ks -> valid es e -> g (ks ++ e) = rsum k (fun c => a c (ks ++ e) * b c (ks ++ e)).
Lemma dep_ext nx h h' es P pe f : (forall c, In c nx -> h' c = h c) -> dep nx h es P pe f -> dep nx h' es P pe f.
Proof. intros H D. assert (E : map h' nx = map h nx) by (apply map_ext_in; auto). unfold dep. rewrite E. exact D. Qed.
Lemma rankn_ext nx h h' es P k g : (forall c, In c nx -> h' c = h c) -> rankn nx h es P k g -> rankn nx h' es P k g.
Proof.
  intros H (a & b & D1 & D2 & D3). assert (E : map h' nx = map h nx) by (apply map_ext_in; auto). exists a, b.
  split; [intros c; apply (dep_ext nx h); auto|]. split; [intros c; apply (dep_ext nx h); auto|]. rewrite E. auto.
Qed.
Lemma index_of_lt c l : In c l -> (index_of c l < length l)%nat.
Proof. intros H. apply (index_of_nth l c H). Qed.
Lemma nth_index_of c l : In c l -> nth (index_of c l) l 0%nat = c.
Proof. intros H. apply (index_of_nth l c H). Qed.
Lemma zeros_valid s : Forall (fun n => (0 < n)%nat) s -> valid s (map (fun _ => 0%nat) s).
Proof. induction 1; constructor; auto. Qed.
Lemma valid_snoc_inv s k z : valid (s ++ [k]) z -> exists kc a, z = kc ++ [a] /\ valid s kc /\ (a < k)%nat.
Proof.
  intros H. apply valid_app_inv in H. destruct H as (kc & l & -> & H1 & H2). inversion H2 as [|j ? js ? Hj Hv]; subst. inversion Hv; subst. exists kc, j. auto.
Qed.

Section Step.
  Variables (nx L : list nat) (h h' : nat -> nat) (es : list nat) (k n : nat).
  Hypothesis NDx : NoDup nx.
  Hypothesis NDL : NoDup L.
  Hypothesis HI : incl L nx.
  Hypothesis HPn : Forall (fun x => (0 < x)%nat) (map h nx).
  Notation rep := (map (fun c => index_of c nx) L).
  Notation rest := (filter (fun c => negb (inb c L)) nx).
  Hypothesis Hn : ~ In n rest.
  Hypothesis Hh : map h' (rest ++ [n]) = map h rest ++ [k].
  Variable C : nd R.
  Definition down (f : list nat -> R) (z : list nat) : R :=
    bsum (map h L) (fun ks => get C (ks ++ [nth (length rest) z 0%nat]) * f (asm (length nx) rep ks (firstn (length rest) z) ++ skipn (S (length rest)) z)).
  Definition ks0 : list nat := map (fun _ => 0%nat) (map h L).
  Definition fixd (f : list nat -> R) (z : list nat) : R := f (asm (length nx) rep ks0 (firstn (length rest) z) ++ skipn (S (length rest)) z).
  Lemma down_val f kc a e : valid (map h rest) kc -> down f (kc ++ a :: e) = bsum (map h L) (fun ks => get C (ks ++ [a]) * f (asm (length nx) rep ks kc ++ e)).
  Proof.
    intros Hc. pose proof (valid_length _ _ Hc) as Lc. rewrite map_length in Lc. unfold down.
    rewrite firstn_app, <- Lc, Nat.sub_diag, firstn_O, app_nil_r, firstn_all. rewrite app_nth2, Nat.sub_diag by lia. cbn [nth].
    replace (skipn (S (length kc)) (kc ++ a :: e)) with e; auto. rewrite skipn_app, skipn_all2 by lia. replace (S (length kc) - length kc)%nat with 1%nat by lia. reflexivity.
  Qed.
  Lemma fixd_val f kc a e : valid (map h rest) kc -> fixd f (kc ++ a :: e) = f (asm (length nx) rep ks0 kc ++ e).
  Proof.
    intros Hc. pose proof (valid_length _ _ Hc) as Lc. rewrite map_length in Lc. unfold fixd.
    rewrite firstn_app, <- Lc, Nat.sub_diag, firstn_O, app_nil_r, firstn_all.
    replace (skipn (S (length kc)) (kc ++ a :: e)) with e; auto. rewrite skipn_app, skipn_all2 by lia. replace (S (length kc) - length kc)%nat with 1%nat by lia. reflexivity.
  Qed.
  Lemma ks0_valid : valid (map h L) ks0.
  Proof.
    apply zeros_valid. apply Forall_forall. intros x Hx. apply in_map_iff in Hx. destruct Hx as (c & <- & Hc). rewrite Forall_forall in HPn. apply HPn, in_map, HI. auto.
  Qed.
  Lemma asm_ok ks kc : valid (map h L) ks -> valid (map h rest) kc -> valid (map h nx) (asm (length nx) rep ks kc).
  Proof.
    intros H1 H2. rewrite <- (map_length h nx). apply valid_asm; [apply pos_inj; auto|rewrite map_length; apply pos_lt; auto| |].
    - rewrite (srep nx L h HI). auto.
    - rewrite map_length. rewrite (scomp nx L h NDx HI). auto.
  Qed.
  Lemma asm_L ks kc c : length ks = length L -> In c L -> nth (index_of c nx) (asm (length nx) rep ks kc) 0%nat = nth (index_of c L) ks 0%nat.
  Proof.
    intros Lk Hc. assert (Hx : In c nx) by auto. pose proof (index_of_lt c L Hc) as I1.
    rewrite <- (sel_asm (length nx) rep ks kc) at 2; [|apply pos_inj; auto|apply pos_lt; auto|rewrite map_length; auto].
    unfold sel. rewrite map_map. rewrite (map_nth_in (fun c => nth (index_of c nx) (asm (length nx) rep ks kc) 0%nat) _ _ 0%nat 0%nat) by auto. rewrite nth_index_of by auto. auto.
  Qed.
  Lemma asm_rest ks kc c : length kc = length rest -> In c rest -> nth (index_of c nx) (asm (length nx) rep ks kc) 0%nat = nth (index_of c rest) kc 0%nat.
  Proof.
    intros Lk Hc. assert (Hx : In c nx) by (apply filter_In in Hc; tauto). pose proof (index_of_lt c rest Hc) as I1.
    rewrite <- (sel_asm_compl (length nx) rep ks kc) at 2; [|rewrite (crep nx L NDx HI), map_length; auto].
    rewrite (crep nx L NDx HI). unfold sel. rewrite map_map. rewrite (map_nth_in (fun c => nth (index_of c nx) (asm (length nx) rep ks kc) 0%nat) _ _ 0%nat 0%nat) by auto. rewrite nth_index_of by auto. auto.
  Qed.
  Lemma pos_rest c l x : In c rest -> length l = length rest -> nth (index_of c (rest ++ [n])) (l ++ [x]) 0%nat = nth (index_of c rest) l 0%nat.
  Proof.
    intros Hc Ll. rewrite index_of_app_l by auto. apply app_nth1. rewrite Ll. apply index_of_lt. auto.
  Qed.
  Lemma pos_n l x : length l = length rest -> nth (index_of n (rest ++ [n])) (l ++ [x]) 0%nat = x.
  Proof.
    intros Ll. rewrite index_of_app_r by auto. cbn [index_of]. rewrite Nat.eqb_refl, Nat.add_0_r, <- Ll. rewrite app_nth2, Nat.sub_diag by lia. auto.
  Qed.
  Lemma rest_dec c : In c nx -> In c L \/ In c rest.
  Proof. intros Hc. destruct (in_dec Nat.eq_dec c L); auto. right. apply filter_In. split; auto. apply negb_true_iff, inb_false. auto. Qed.
  Lemma dep_down (P P' : nat -> Prop) pe f : (forall c, In c rest -> P c -> P' c) -> P' n -> dep nx h es P pe f -> dep (rest ++ [n]) h' es P' pe (down f).
  Proof.
    intros HP Pn D ks ks' e e' V1 V2 V3 V4 HK HE. rewrite Hh in V1, V2.
    apply valid_snoc_inv in V1. destruct V1 as (kc & a & -> & V1 & Ha). apply valid_snoc_inv in V2. destruct V2 as (kc' & a' & -> & V2 & Ha').
    pose proof (valid_length _ _ V1) as L1. pose proof (valid_length _ _ V2) as L2. rewrite map_length in L1, L2.
    rewrite <- !app_assoc. cbn [app]. rewrite !down_val by auto.
    assert (E : a = a'). { specialize (HK n ltac:(apply in_or_app; simpl; auto) Pn). rewrite !pos_n in HK by auto. auto. } subst a'.
    apply bsum_ext_R. intros ls Hls. pose proof (valid_length _ _ Hls) as L3. rewrite map_length in L3. f_equal.
    apply D; auto using asm_ok. intros c Hc Hp. destruct (rest_dec c Hc) as [K|K].
    - rewrite !asm_L by auto. auto.
    - rewrite !asm_rest by auto. specialize (HK c ltac:(apply in_or_app; auto) (HP c K Hp)). rewrite !pos_rest in HK by auto. auto.
  Qed.
  Lemma dep_fixd (P P' : nat -> Prop) pe f : (forall c, In c rest -> P c -> P' c) -> dep nx h es P pe f -> dep (rest ++ [n]) h' es P' pe (fixd f).
  Proof.
    intros HP D ks ks' e e' V1 V2 V3 V4 HK HE. rewrite Hh in V1, V2.
    apply valid_snoc_inv in V1. destruct V1 as (kc & a & -> & V1 & Ha). apply valid_snoc_inv in V2. destruct V2 as (kc' & a' & -> & V2 & Ha').
    pose proof (valid_length _ _ V1) as L1. pose proof (valid_length _ _ V2) as L2. rewrite map_length in L1, L2.
    rewrite <- !app_assoc. cbn [app]. rewrite !fixd_val by auto. pose proof ks0_valid as Hls. pose proof (valid_length _ _ Hls) as L3. rewrite map_length in L3.
    apply D; auto using asm_ok. intros c Hc Hp. destruct (rest_dec c Hc) as [K|K].
    - rewrite !asm_L by auto. auto.
    - rewrite !asm_rest by auto. specialize (HK c ltac:(apply in_or_app; auto) (HP c K Hp)). rewrite !pos_rest in HK by auto. auto.
  Qed.
  Lemma fixd_eq (P : nat -> Prop) pe f ks kc a e : (forall c, In c L -> ~ P c) -> dep nx h es P pe f -> valid (map h L) ks -> valid (map h rest) kc -> valid es e ->
    f (asm (length nx) rep ks kc ++ e) = fixd f (kc ++ a :: e).
  Proof.
    intros HP D V1 V2 V3. rewrite fixd_val by auto. pose proof (valid_length _ _ V2) as L2. rewrite map_length in L2. pose proof ks0_valid as V0.
    apply D; auto using asm_ok. intros c Hc Hp. destruct (rest_dec c Hc) as [K|K]; [exfalso; apply (HP c K Hp)|]. rewrite !asm_rest by auto. auto.
  Qed.
  Lemma rankn_down (P : nat -> Prop) q g : (forall c, In c L -> P c <-> P n) -> P n \/ ~ P n -> rankn nx h es P q g -> rankn (rest ++ [n]) h' es P q (down g).
  Proof.
    intros HP [Pn|Pn] (a & b & D1 & D2 & HG).
    - exists (fun c => down (a c)), (fun c => fixd (b c)). split; [intros c; apply (dep_down P); auto|]. split; [intros c; apply (dep_fixd (fun x => ~ P x)); auto|].
      intros z e Vz Ve. rewrite Hh in Vz. apply valid_snoc_inv in Vz. destruct Vz as (kc & x & -> & Vk & Hx). rewrite <- app_assoc. cbn [app].
      rewrite (rsum_ext_R q _ (fun c => bsum (map h L) (fun ks => get C (ks ++ [x]) * (a c (asm (length nx) rep ks kc ++ e) * b c (asm (length nx) rep ks kc ++ e))))).
      2:{ intros c _. rewrite down_val by auto. rewrite <- bsum_scal_r_R. apply bsum_ext_R. intros ks Hk.
          rewrite <- (fixd_eq (fun x => ~ P x) True (b c) ks kc x e) by (auto; intros d Hd K; apply K, HP; auto). ring. }
      rewrite <- bsum_rsum_exchange_R. rewrite down_val by auto. apply bsum_ext_R. intros ks Hk. rewrite HG by auto using asm_ok. rewrite rsum_scal_l_R. auto.
    - exists (fun c => fixd (a c)), (fun c => down (b c)). split; [intros c; apply (dep_fixd P); auto|]. split; [intros c; apply (dep_down (fun x => ~ P x)); auto|].
      intros z e Vz Ve. rewrite Hh in Vz. apply valid_snoc_inv in Vz. destruct Vz as (kc & x & -> & Vk & Hx). rewrite <- app_assoc. cbn [app].
      rewrite (rsum_ext_R q _ (fun c => bsum (map h L) (fun ks => get C (ks ++ [x]) * (a c (asm (length nx) rep ks kc ++ e) * b c (asm (length nx) rep ks kc ++ e))))).
      2:{ intros c _. rewrite down_val by auto. rewrite <- bsum_scal_l_R. apply bsum_ext_R. intros ks Hk.
          rewrite <- (fixd_eq P False (a c) ks kc x e) by (auto; intros d Hd K; apply Pn, (HP d Hd); auto). ring. }
      rewrite <- bsum_rsum_exchange_R. rewrite down_val by auto. apply bsum_ext_R. intros ks Hk. rewrite HG by auto using asm_ok. rewrite rsum_scal_l_R. auto.
  Qed.
  Variables (Y Y' : nd R).
  Hypothesis SY : shape Y = map h nx ++ es.
  Hypothesis SY' : shape Y' = map h rest ++ k :: es.
  Hypothesis HO : forall a b, (a < k)%nat -> (b < k)%nat -> bsum (map h L) (fun ks => get C (ks ++ [a]) * get C (ks ++ [b])) = if (a =? b)%nat then 1 else 0.
  Hypothesis HG : forall kc a e, valid (map h rest) kc -> (a < k)%nat -> valid es e ->
       get Y' (kc ++ a :: e) = bsum (map h L) (fun ks => get C (ks ++ [a]) * get Y (asm (length nx) rep ks kc ++ e)).
  Lemma err_down g : err2 Y' (down g) <= err2 Y g.
  Proof.
    assert (Q : forall f, bsum (shape Y) f = bsum (map h rest) (fun kc => bsum es (fun e => bsum (map h L) (fun ks => f (asm (length nx) rep ks kc ++ e))))).
    { intros f. rewrite SY, bsum_app, (bsum_nx nx L h NDx NDL HI). apply bsum_ext_R. intros kc _. apply bsum_exchange_R. }
    assert (Q' : forall f, bsum (shape Y') f = bsum (map h rest) (fun kc => bsum es (fun e => rsum k (fun a => f (kc ++ a :: e))))).
    { intros f. rewrite SY', bsum_app. apply bsum_ext_R. intros kc _. cbn [bsum]. rewrite bsum_rsum_exchange_R. auto. }
    unfold err2. rewrite Q, Q'. apply bsum_le. intros kc Hc. apply bsum_le. intros e He.
    set (y := fun ks => get Y (asm (length nx) rep ks kc ++ e) - g (asm (length nx) rep ks kc ++ e)).
    set (cf := fun a => bsum (map h L) (fun ks => get C (ks ++ [a]) * y ks)).
    rewrite (rsum_ext_R k _ (fun a => cf a * cf a)).
    - pose proof (pyth_cols (map h L) k (fun ks a => get C (ks ++ [a])) y cf HO) as E. cbv beta in E.
      assert (P1 : 0 <= bsum (map h L) (fun ks => (y ks - rsum k (fun a => get C (ks ++ [a]) * cf a)) * (y ks - rsum k (fun a => get C (ks ++ [a]) * cf a)))) by (apply bsum_nonneg_R; intros; apply Rle_0_sqr).
      assert (Z : rsum k (fun a => (cf a - cf a) * (cf a - cf a)) = 0) by (apply rsum_zero_R; intros; ring).
      change (bsum (map h L) (fun ks => (y ks - rsum k (fun a => get C (ks ++ [a]) * cf a)) * (y ks - rsum k (fun a => get C (ks ++ [a]) * cf a))) =
        bsum (map h L) (fun ks => y ks * y ks) - rsum k (fun a => cf a * cf a) + rsum k (fun a => (cf a - cf a) * (cf a - cf a))) in E.
      change (rsum k (fun a => cf a * cf a) <= bsum (map h L) (fun ks => y ks * y ks)). lra.
    - intros a Ha. unfold cf. rewrite HG, down_val by auto. rewrite <- bsum_minus_R. rewrite (bsum_ext_R (map h L) _ (fun ks => get C (ks ++ [a]) * y ks)) by (intros; unfold y; ring). auto.
  Qed.
  Lemma rankn_rank (P : nat -> Prop) q g : Forall (fun x => (0 < x)%nat) es -> (forall c, In c nx -> P c <-> In c L) -> rankn nx h es P q g -> rank_at_most (shape Y) rep q g.
  Proof.
    intros HPe HP (a & b & D1 & D2 & HGg). set (kc0 := map (fun _ => 0%nat) (map h rest)). set (e0 := map (fun _ => 0%nat) es).
    assert (Vk0 : valid (map h rest) kc0).
    { apply zeros_valid. apply Forall_forall. intros x Hx. apply in_map_iff in Hx. destruct Hx as (c & <- & Hc). rewrite Forall_forall in HPn. apply HPn, in_map. apply filter_In in Hc. tauto. }
    assert (Ve0 : valid es e0) by (apply zeros_valid; auto).
    exists (fun c ks => a c (asm (length nx) rep ks kc0 ++ e0)), (fun c w => b c (asm (length nx) rep ks0 (firstn (length rest) w) ++ skipn (length rest) w)).
    intros z Vz. rewrite SY in Vz. change (filter _ (seq 0 (length (shape Y)))) with (compl (length (shape Y)) rep). rewrite SY, app_length, map_length.
    apply valid_app_inv in Vz. destruct Vz as (z1 & e & -> & V1 & Ve). pose proof (valid_length _ _ V1) as L1. pose proof (valid_length _ _ Ve) as L2. rewrite map_length in L1.
    assert (HF := pos_lt nx L HI). assert (HN := pos_inj nx L NDL HI).
    rewrite compl_ext_seq by auto. rewrite sel_app_ks. rewrite !sel_app_l by (rewrite L1; auto; apply compl_lt).
    replace (seq (length nx) (length es)) with (seq (length z1) (length e)) by (rewrite L1, L2; auto). rewrite sel_app_tail.
    set (ks := sel 0%nat z1 rep). set (kc := sel 0%nat z1 (compl (length nx) rep)).
    assert (Vks : valid (map h L) ks) by (rewrite <- (srep nx L h HI); apply sel_valid; auto; rewrite map_length; auto).
    assert (Vkc : valid (map h rest) kc) by (rewrite <- (scomp nx L h NDx HI); apply sel_valid; auto; rewrite map_length; apply compl_lt).
    assert (Ez : z1 = asm (length nx) rep ks kc) by (symmetry; apply asm_sel; auto).
    pose proof (valid_length _ _ Vkc) as Lc. rewrite map_length in Lc.
    pose proof (valid_length _ _ Vks) as Lk. rewrite map_length in Lk. pose proof (valid_length _ _ Vk0) as Lk0. rewrite map_length in Lk0.
    rewrite firstn_app, skipn_app, <- Lc, Nat.sub_diag, firstn_all, skipn_all, firstn_O, skipn_O, app_nil_r. cbn [app].
    rewrite HGg by auto. apply rsum_ext_R. intros c _. pose proof ks0_valid as V0. f_equal.
    - apply D1; auto using asm_ok; [|tauto]. intros x Hx Px. apply HP in Px; auto. rewrite Ez. rewrite !asm_L by auto. auto.
    - apply D2; auto using asm_ok. intros x Hx Px. destruct (rest_dec x Hx) as [K|K]; [exfalso; apply Px, HP; auto|]. rewrite Ez. rewrite !asm_rest by auto. auto.
  Qed.
End Step.
