(** B-splines, continued: the lists of the model. *)
From Coq Require Import List Arith Lia Reals Lra Bool ZArith.
From Verif.Base Require Import ListAux CRing RealAux.
From Verif.Model Require Import BSplines.
From Verif.Spec Require Import BSplineSpec.
From Verif.Proofs Require Import PolyP PolyP5 BSplinesP.
Import ListNotations.
Local Open Scope R_scope.

(** building a list of layers *)
Lemma layers_spec {A} (F : list A -> nat -> list A) (L0 : list A) d :
  let L := fold_left (fun Bx j => Bx ++ [F (nth (j - 1) Bx []) j]) (seq 1 d) [L0] in
  length L = S d /\ nth 0 L [] = L0 /\ forall j, (1 <= j <= d)%nat -> nth j L [] = F (nth (j - 1) L []) j.
Proof.
  induction d as [|d (I1 & I2 & I3)]; cbn zeta in *; [split; [reflexivity|split; [reflexivity|intros; lia]]|].
  rewrite seq_S, fold_left_app. cbn [fold_left]. set (L := fold_left _ (seq 1 d) [L0]) in *. rewrite app_length, I1. cbn [length]. split; [lia|]. split.
  - rewrite app_nth1 by lia. auto.
  - intros j Hj. destruct (Nat.eq_dec j (S d)) as [->|Hn].
    + rewrite app_nth2 by lia. rewrite I1, Nat.sub_diag. cbn [nth]. rewrite app_nth1 by lia. replace (1 + d)%nat with (S d) by lia. reflexivity.
    + rewrite app_nth1 by lia. rewrite app_nth1 by lia. apply I3. lia.
Qed.
Lemma nth_last {A} (l : list A) d : last l d = nth (length l - 1) l d.
Proof. induction l as [|a l IH]; auto. destruct l as [|b l]; auto. change (last (a :: b :: l) d) with (last (b :: l) d). rewrite IH. cbn [length]. replace (S (S (length l)) - 1)%nat with (S (S (length l) - 1)) by lia. reflexivity. Qed.

Lemma fr_nth (l : list R) : fold_right Rplus 0 l = rsum (length l) (fun i => nth i l 0).
Proof.
  induction l as [|a l IH]; [reflexivity|]. cbn [fold_right length]. rewrite IH.
  clear IH. set (n := length l). assert (K : forall n, a + rsum n (fun i => nth i l 0) = rsum (S n) (fun i => nth i (a :: l) 0)).
  { clear n. induction n as [|n IH]; [cbn; rcbn; ring|]. rewrite rsum_S_R, <- Rplus_assoc, IH, (rsum_S_R (S n)). reflexivity. }
  apply K.
Qed.

Section Bridge.
  Variable t : list R.
  Hypothesis Ht : increasing t.
  Definition ext (i : nat) : R := if (i <? length t)%nat then kn t i else kn t (length t - 1) + INR (i + 1 - length t).
  Lemma ext_in i : (i < length t)%nat -> ext i = kn t i.
  Proof. intros H. unfold ext. destruct (Nat.ltb_spec i (length t)); auto. lia. Qed.
  Lemma ext_inc i : ext i < ext (S i).
  Proof.
    unfold ext. destruct (Nat.ltb_spec i (length t)), (Nat.ltb_spec (S i) (length t)); try lia.
    - apply Ht. auto.
    - replace (length t - 1)%nat with i by lia. replace (S i + 1 - length t)%nat with 1%nat by lia. cbn [INR]. lra.
    - apply Rplus_lt_compat_l. apply lt_INR. lia.
  Qed.
  Lemma kn_lt i j : (i < j < length t)%nat -> kn t i < kn t j.
  Proof. intros H. rewrite <- !ext_in by lia. apply t_lt; [apply ext_inc|lia]. Qed.
  Lemma kn_le i j : (i <= j < length t)%nat -> kn t i <= kn t j.
  Proof. intros H. rewrite <- !ext_in by lia. apply t_le; [apply ext_inc|lia]. Qed.

  Lemma es_layer deg x : forall j, (j <= deg)%nat -> length (nth j (eval_sequence t deg x) []) = (length t - 1)%nat /\
    forall i, (i < length t - 1 - j)%nat -> nth i (nth j (eval_sequence t deg x) []) 0 = B ext j i x.
  Proof.
    unfold eval_sequence. destruct (layers_spec (fun pr j => bs_layer t x pr j) (bs_layer0 t x) deg) as (L1 & L2 & L3). cbn zeta in *.
    set (L := fold_left _ _ _) in *. induction j as [|j IH]; intros Hj.
    - rewrite L2. unfold bs_layer0. rewrite map_length, seq_length. split; auto. intros i Hi. rewrite nth_map_seq by lia. cbn [Nat.add].
      rewrite B_0. unfold b0. rewrite !ext_in by lia. reflexivity.
    - rewrite L3 by lia. unfold bs_layer. rewrite map_length, seq_length. split; auto. intros i Hi. rewrite nth_map_seq by lia. cbn [Nat.add].
      destruct (Nat.ltb_spec i (length t - 1 - S j)); [|lia]. destruct (IH ltac:(lia)) as (_ & IH2). replace (S j - 1)%nat with j by lia.
      rewrite !IH2 by lia. rewrite B_S. rewrite !ext_in by lia. reflexivity.
  Qed.
  Lemma bs_eval_spec deg x : length (bs_eval t deg x) = bs_cardinal t deg /\ forall i, (i < bs_cardinal t deg)%nat -> nth i (bs_eval t deg x) 0 = B ext deg i x.
  Proof.
    unfold bs_eval, bs_cardinal. rewrite nth_last.
    assert (length (eval_sequence t deg x) = S deg) as -> by (unfold eval_sequence; apply (layers_spec (fun pr j => bs_layer t x pr j))).
    replace (S deg - 1)%nat with deg by lia. destruct (es_layer deg x deg (le_n _)) as (E1 & E2). split.
    - rewrite firstn_length, E1. lia.
    - intros i Hi. rewrite nth_firstn_lt' by auto. apply E2. auto.
  Qed.
  Lemma ds_layer deg x n : forall old, (forall j, (j <= deg)%nat -> forall i, (i < length t - 1 - j)%nat -> nth i (nth j old []) 0 = D ext n j i x) ->
    forall j, (j <= deg)%nat -> length (nth j (dbs_step t deg x old (S n)) []) = (length t - 1)%nat /\
    forall i, (i < length t - 1 - j)%nat -> nth i (nth j (dbs_step t deg x old (S n)) []) 0 = D ext (S n) j i x.
  Proof.
    intros old HO. unfold dbs_step. destruct (layers_spec (fun pr j => dbs_layer t x (S n) old pr j) (repeat 0 (length t - 1)) deg) as (L1 & L2 & L3). cbn zeta in *.
    set (L := fold_left _ _ _) in *. induction j as [|j IH]; intros Hj.
    - rewrite L2, repeat_length. split; auto. intros i Hi. cbn [D Nat.eqb]. rewrite nth_repeat. reflexivity.
    - rewrite L3 by lia. unfold dbs_layer. rewrite map_length, seq_length. split; auto. intros i Hi. rewrite nth_map_seq by lia. cbn [Nat.add].
      destruct (Nat.ltb_spec i (length t - 1 - S j)); [|lia]. destruct (IH ltac:(lia)) as (_ & IH2). replace (S j - 1)%nat with j by lia.
      rewrite !IH2 by lia. rewrite !HO by lia. cbn [D]. replace (S n - 1)%nat with n by lia. rewrite !ext_in by lia. reflexivity.
  Qed.
  Lemma bs_deriv_spec deg n x : length (bs_eval_derivative t deg n x) = bs_cardinal t deg /\
    forall i, (i < bs_cardinal t deg)%nat -> nth i (bs_eval_derivative t deg n x) 0 = D ext n deg i x.
  Proof.
    unfold bs_eval_derivative, bs_cardinal.
    assert (K : forall n, let L := fold_left (dbs_step t deg x) (seq 1 n) (eval_sequence t deg x) in length L = S deg /\
      forall j, (j <= deg)%nat -> length (nth j L []) = (length t - 1)%nat /\ forall i, (i < length t - 1 - j)%nat -> nth i (nth j L []) 0 = D ext n j i x).
    { clear n. induction n as [|n (I1 & I2)]; cbn zeta in *.
      - cbn [seq fold_left]. split; [unfold eval_sequence; apply (layers_spec (fun pr j => bs_layer t x pr j))|]. apply es_layer.
      - rewrite seq_S, fold_left_app. cbn [fold_left]. replace (1 + n)%nat with (S n) by lia. split.
        + unfold dbs_step. apply (layers_spec (fun pr j => dbs_layer t x (S n) _ pr j)).
        + apply ds_layer. intros j Hj. apply I2. auto. }
    destruct (K n) as (K1 & K2). cbn zeta in *. rewrite nth_last, K1. replace (S deg - 1)%nat with deg by lia. destruct (K2 deg (le_n _)) as (E1 & E2). split.
    - rewrite firstn_length, E1. lia.
    - intros i Hi. rewrite nth_firstn_lt' by auto. apply E2. auto.
  Qed.

  (** the statements on lists *)
  Lemma bs_support p x i : (i < bs_cardinal t p)%nat ->
    (0 <= nth i (bs_eval t p x) 0) /\ (kn t i < x < kn t (i + p + 1) -> 0 < nth i (bs_eval t p x) 0) /\ (x <= kn t i \/ kn t (i + p + 1) < x -> nth i (bs_eval t p x) 0 = 0).
  Proof.
    intros Hi. destruct (bs_eval_spec p x) as (_ & E). rewrite E by auto. unfold bs_cardinal in Hi. rewrite <- !ext_in by lia. split; [apply B_nonneg, ext_inc|]. split.
    - intros [H1 H2]. apply B_pos; auto. apply ext_inc.
    - intros [H|H]; [apply B_left|apply B_right]; auto; apply ext_inc.
  Qed.
  Lemma bs_unity p x : (p + p + 1 < length t)%nat -> kn t p < x <= kn t (length t - 1 - p) -> fold_right Rplus 0 (bs_eval t p x) = 1.
  Proof.
    intros Hp [H1 H2]. destruct (bs_eval_spec p x) as (E1 & E2).
    rewrite fr_nth. rewrite E1. rewrite (rsum_ext_R _ _ (fun k => B ext p (0 + k) x)).
    - apply unity; [apply ext_inc|cbn [Nat.add]; rewrite ext_in by lia; auto|]. unfold bs_cardinal. cbn [Nat.add]. rewrite ext_in by lia. auto.
    - intros i Hi. rewrite E2 by auto. reflexivity.
  Qed.
  Lemma nder_ext U n : forall f f' g g', (forall x, f x = f' x) -> (forall x, g x = g' x) -> nth_derivative U n f g -> nth_derivative U n f' g'.
  Proof.
    induction n as [|n IH]; cbn [nth_derivative]; intros f f' g g' E1 E2 H.
    - intros x Hx. rewrite <- E1, <- E2. auto.
    - destruct H as (h & H1 & H2). exists h. split; [eapply IH; [exact E1|reflexivity|exact H1]|]. intros x Hx. rewrite <- E2. auto.
  Qed.
  Lemma bs_nder_off p n i : (i < bs_cardinal t p)%nat ->
    nth_derivative (fun x => ~ In x t) n (fun x => nth i (bs_eval t p x) 0) (fun x => nth i (bs_eval_derivative t p n x) 0).
  Proof.
    intros Hi. apply nder_ext with (f := B ext p i) (g := D ext n p i).
    { intros x. symmetry. apply bs_eval_spec. auto. } { intros x. symmetry. apply bs_deriv_spec. auto. }
    induction n as [|n IH]; cbn [nth_derivative]; [reflexivity|]. exists (D ext n p i). split; auto. intros x Hx. apply D_deriv_off; [apply ext_inc|].
    intros l Hl E. apply Hx. unfold bs_cardinal in Hi. rewrite ext_in in E by lia. rewrite E. apply nth_In. lia.
  Qed.
  Lemma bs_nder p n i : (i < bs_cardinal t p)%nat -> (n < p)%nat ->
    nth_derivative (fun _ => True) n (fun x => nth i (bs_eval t p x) 0) (fun x => nth i (bs_eval_derivative t p n x) 0).
  Proof.
    intros Hi Hn. apply nder_ext with (f := B ext p i) (g := D ext n p i).
    { intros x. symmetry. apply bs_eval_spec. auto. } { intros x. symmetry. apply bs_deriv_spec. auto. }
    induction n as [|n IH]; cbn [nth_derivative]; [reflexivity|]. exists (D ext n p i). split; [apply IH; lia|]. intros x Hx. apply D_deriv; [apply ext_inc|auto].
  Qed.
  Lemma bs_cont p n i : (i < bs_cardinal t p)%nat -> (n < p)%nat -> continuity (fun x => nth i (bs_eval_derivative t p n x) 0).
  Proof.
    intros Hi Hn x. apply cont_ext with (f := D ext n p i); [intros y; symmetry; apply bs_deriv_spec; auto|]. apply D_cont; [apply ext_inc|auto].
  Qed.
End Bridge.

(** extra knots *)
Lemma extra_knots_spec t m t' : increasing t -> extra_knots t m = Some t' ->
  length t' = (length t + m + m)%nat /\ increasing t' /\ (forall i, (i < length t)%nat -> kn t' (m + i) = kn t i).
Proof.
  unfold extra_knots. intros Ht. destruct (Nat.ltb_spec (length t) 2) as [|Hn]; [discriminate|]. intros E. injection E as <-.
  set (tl := map _ (seq 0 m)). set (tr := map _ (seq 1 m)).
  assert (Ltl : length tl = m) by (unfold tl; rewrite map_length, seq_length; auto). assert (Ltr : length tr = m) by (unfold tr; rewrite map_length, seq_length; auto).
  assert (N1 : forall i, (i < m)%nat -> kn (tl ++ t ++ tr) i = kn t 0 + (INR i - INR m) * (kn t 1 - kn t 0)).
  { intros i Hi. unfold kn at 1. rewrite app_nth1 by lia. unfold tl. rewrite nth_map_seq by auto. reflexivity. }
  assert (N2 : forall i, (i < length t)%nat -> kn (tl ++ t ++ tr) (m + i) = kn t i).
  { intros i Hi. unfold kn at 1. rewrite app_nth2 by lia. rewrite Ltl. replace (m + i - m)%nat with i by lia. rewrite app_nth1 by lia. reflexivity. }
  assert (N3 : forall i, (i < m)%nat -> kn (tl ++ t ++ tr) (m + length t + i) = kn t (length t - 1) + INR (1 + i) * (kn t (length t - 1) - kn t (length t - 2))).
  { intros i Hi. unfold kn at 1. rewrite app_nth2 by lia. rewrite Ltl, app_nth2 by lia. replace (m + length t + i - m - length t)%nat with i by lia. unfold tr. rewrite <- seq_shift, map_map, nth_map_seq by auto. reflexivity. }
  rewrite !app_length, Ltl, Ltr. split; [lia|]. split; [|exact N2].
  assert (G1 : 0 < kn t 1 - kn t 0) by (pose proof (Ht 0%nat ltac:(lia)); unfold kn; lra).
  assert (G2 : 0 < kn t (length t - 1) - kn t (length t - 2)).
  { pose proof (Ht (length t - 2)%nat ltac:(lia)) as G. replace (S (length t - 2)) with (length t - 1)%nat in G by lia. unfold kn. lra. }
  intros i. rewrite !app_length, Ltl, Ltr. intros Hi. change (kn (tl ++ t ++ tr) i < kn (tl ++ t ++ tr) (S i)).
  destruct (Nat.lt_ge_cases i m) as [H1|H1].
  - rewrite N1 by auto. destruct (Nat.eq_dec (S i) m) as [E|E].
    + rewrite E. replace m with (m + 0)%nat at 2 by lia. rewrite N2 by lia. assert (INR m = INR i + 1) as -> by (rewrite <- E, S_INR; auto).
      set (p := kn t 0) in *. clearbody p. nra.
    + rewrite N1 by lia. rewrite S_INR. nra.
  - destruct (Nat.lt_ge_cases i (m + length t)) as [H2|H2].
    + replace i with (m + (i - m))%nat by lia. rewrite N2 by lia. destruct (Nat.eq_dec (S (i - m)) (length t)) as [E|E].
      * replace (S (m + (i - m))) with (m + length t + 0)%nat by lia. rewrite N3 by lia. replace (i - m)%nat with (length t - 1)%nat by lia. cbn [INR Nat.add]. lra.
      * replace (S (m + (i - m))) with (m + S (i - m))%nat by lia. rewrite N2 by lia. apply Ht. lia.
    + replace i with (m + length t + (i - m - length t))%nat by lia. rewrite N3 by lia. replace (S (m + length t + (i - m - length t))) with (m + length t + (S (i - m - length t)))%nat by lia. rewrite N3 by lia.
      replace (1 + S (i - m - length t))%nat with (S (1 + (i - m - length t))) by lia. rewrite (S_INR (1 + _)). nra.
Qed.
Lemma extra_unity t m t' x : increasing t -> extra_knots t m = Some t' -> kn t 0 < x <= kn t (length t - 1) -> fold_right Rplus 0 (bs_eval t' m x) = 1.
Proof.
  intros Ht E Hx. destruct (extra_knots_spec t m t' Ht E) as (L & Ht' & N). assert (2 <= length t)%nat by (unfold extra_knots in E; destruct (Nat.ltb_spec (length t) 2); [discriminate|auto]).
  apply bs_unity; [auto|lia|]. replace m with (m + 0)%nat at 1 by lia. rewrite N by lia. replace (length t' - 1 - m)%nat with (m + (length t - 1))%nat by lia. rewrite N by lia. auto.
Qed.

(** cardinal and dilated B-splines *)
Lemma cardinal_increasing m : increasing (cardinal_knots m).
Proof.
  intros i Hi. unfold cardinal_knots in *. rewrite map_length, seq_length in Hi. rewrite !nth_map_seq by lia. apply lt_INR. lia.
Qed.
Lemma card_D m k y : D (ext (cardinal_knots m)) k m 0 y = D INR k m 0 y.
Proof.
  rewrite (D_ext _ INR 0 m k 0 0 y); [f_equal; ring|]. intros l Hl. rewrite ext_in by (unfold cardinal_knots; rewrite map_length, seq_length; lia).
  unfold kn, cardinal_knots. rewrite nth_map_seq by lia. cbn [Nat.add]. ring.
Qed.
Lemma card_card m : bs_cardinal (cardinal_knots m) m = 1%nat.
Proof. unfold bs_cardinal, cardinal_knots. rewrite map_length, seq_length. lia. Qed.
Lemma card_deriv m k y : nth 0 (bs_eval_derivative (cardinal_knots m) m k y) 0 = D INR k m 0 y.
Proof. destruct (bs_deriv_spec (cardinal_knots m) m k y) as (_ & E). rewrite E by (rewrite card_card; lia). apply card_D. Qed.
Lemma card_eval m y : nth 0 (bs_eval (cardinal_knots m) m y) 0 = B INR m 0 y.
Proof. destruct (bs_eval_spec (cardinal_knots m) m y) as (_ & E). rewrite E by (rewrite card_card; lia). apply card_D. Qed.
Lemma INR_inc i : INR i < INR (S i). Proof. apply lt_INR. lia. Qed.
Lemma card_shift m k i y : D INR k m i y = D INR k m 0 (y - INR i).
Proof. apply D_ext. intros l _. rewrite plus_INR. cbn [Nat.add]. ring. Qed.
Lemma dil_unity m b l x : (1 <= b)%nat -> 0 < x <= 1 -> fold_right Rplus 0 (dilb_eval m b (dil_indices m b l) x) = Rpower (INR b) (INR l / 2).
Proof.
  intros Hb Hx. unfold dilb_eval, dil_indices. rewrite map_map. rewrite fr_nth, map_length, seq_length.
  assert (P : 0 < INR (b ^ l)) by (apply lt_0_INR; pose proof (Nat.pow_nonzero b l ltac:(lia)); lia).
  rewrite (rsum_ext_R _ _ (fun i => Rpower (INR b) (INR l / 2) * B INR m (0 + i) (x * INR (b ^ l) + INR m))).
  - rewrite rsum_scal_l_R. rewrite unity; [ring|apply INR_inc| |]; cbn [Nat.add]; [|rewrite plus_INR]; nra.
  - intros i Hi. rewrite nth_map_seq by auto. cbn [fst snd Nat.add]. unfold dil_eval. rewrite card_eval. cbn [Nat.add]. unfold B. rewrite (card_shift m 0 i). rewrite minus_IZR, <- !INR_IZR_INZ. rewrite Rmult_comm. f_equal. f_equal. ring.
Qed.
Lemma dil_support m b l j x : (1 <= b)%nat -> let y := x * INR (b ^ l) - IZR j in
  0 <= dil_eval m b l j x /\ (0 < y < INR (m + 1) -> 0 < dil_eval m b l j x) /\ (y <= 0 \/ INR (m + 1) < y -> dil_eval m b l j x = 0).
Proof.
  intros Hb y. unfold dil_eval. rewrite card_eval. fold y. assert (P : 0 < Rpower (INR b) (INR l / 2)) by apply exp_pos. split; [|split].
  - apply Rmult_le_pos; [apply B_nonneg, INR_inc|lra].
  - intros H. apply Rmult_lt_0_compat; auto. apply B_pos; [apply INR_inc|cbn; lra|left; cbn [Nat.add]; lra].
  - intros [H|H]; [rewrite B_left|rewrite B_right]; try ring; try apply INR_inc; cbn; auto.
Qed.
Lemma pow_pos_INR b l : (1 <= b)%nat -> 0 < INR (b ^ l).
Proof. intros Hb. apply lt_0_INR. pose proof (Nat.pow_nonzero b l ltac:(lia)). lia. Qed.
Lemma dil_indices_spec m b l j : (1 <= b)%nat -> (In (l, j) (dil_indices m b l) <-> exists x, 0 < x < 1 /\ dil_eval m b l j x <> 0).
Proof.
  intros Hb. pose proof (pow_pos_INR b l Hb) as P. set (N := (b ^ l)%nat) in *. unfold dil_indices. fold N. rewrite in_map_iff. split.
  - intros (i & E & Hi). apply in_seq in Hi. injection E as <-.
    assert (S1 : forall x, 0 < x * INR N - (INR i - INR m) < INR (m + 1) -> dil_eval m b l (Z.of_nat i - Z.of_nat m) x <> 0).
    { intros x Hx. destruct (dil_support m b l (Z.of_nat i - Z.of_nat m) x Hb) as (_ & H & _). rewrite minus_IZR, <- !INR_IZR_INZ in H. fold N in H. specialize (H Hx). lra. }
    rewrite plus_INR in S1. cbn [INR] in S1.
    destruct (Nat.lt_ge_cases i m) as [C|C].
    + exists (/ (2 * INR N)). assert (1 <= INR N) by (apply (le_INR 1); unfold N in *; pose proof (Nat.pow_nonzero b l ltac:(lia)); lia).
      assert (Q : / (2 * INR N) * INR N = / 2) by (field; lra). split.
      * split; [apply Rinv_0_lt_compat; lra|]. apply Rmult_lt_reg_r with (2 * INR N); [lra|]. rewrite Rinv_l by lra. lra.
      * apply S1. rewrite Q. assert (INR i + 1 <= INR m) by (rewrite <- S_INR; apply le_INR; lia). pose proof (pos_INR i). lra.
    + exists ((INR i - INR m + / 2) / INR N). assert (INR m <= INR i) by (apply le_INR; lia). assert (INR i - INR m + 1 <= INR N).
      { assert (INR (i + 1) <= INR (N + m)) as K by (apply le_INR; lia). rewrite !plus_INR in K. cbn [INR] in K. lra. }
      assert (Q : (INR i - INR m + / 2) / INR N * INR N = INR i - INR m + / 2) by (field; lra). split.
      * split; [apply Rdiv_lt_0_compat; lra|]. apply Rmult_lt_reg_r with (INR N); auto. rewrite Q. lra.
      * apply S1. rewrite Q. pose proof (pos_INR m). lra.
  - intros (x & Hx & H). destruct (dil_support m b l j x Hb) as (_ & _ & K). fold N in K.
    assert (A1 : 0 < x * INR N - IZR j) by (apply Rnot_le_lt; intros A; apply H, K; auto).
    assert (A2 : x * INR N - IZR j <= INR (m + 1)) by (apply Rnot_lt_le; intros A; apply H, K; auto).
    assert (B1 : IZR j < IZR (Z.of_nat N)) by (rewrite <- INR_IZR_INZ; nra). apply lt_IZR in B1.
    assert (B2 : IZR (- Z.of_nat m - 1) < IZR j). { rewrite minus_IZR, opp_IZR, <- INR_IZR_INZ. rewrite plus_INR in A2. cbn [INR] in A2. nra. } apply lt_IZR in B2.
    exists (Z.to_nat (j + Z.of_nat m)). split; [f_equal; lia|]. apply in_seq. lia.
Qed.
Lemma dil_bounded_spec m b L l j : (1 <= b)%nat -> (In (l, j) (dil_indices_bounded m b L) <-> (l <= L)%nat /\ exists x, 0 < x < 1 /\ dil_eval m b l j x <> 0).
Proof.
  intros Hb. rewrite <- (dil_indices_spec m b l j Hb). unfold dil_indices_bounded. rewrite in_flat_map. split.
  - intros (l' & H1 & H2). apply in_seq in H1. assert (l' = l) as ->. { unfold dil_indices in H2. apply in_map_iff in H2. destruct H2 as (i & E & _). injection E. auto. } split; [lia|auto].
  - intros (H1 & H2). exists l. split; auto. apply in_seq. lia.
Qed.
Lemma dil_indices_NoDup m b l : NoDup (dil_indices m b l).
Proof. unfold dil_indices. apply FinFun.Injective_map_NoDup; [|apply seq_NoDup]. intros i i' E. injection E. lia. Qed.
Lemma dil_bounded_NoDup m b L : NoDup (dil_indices_bounded m b L).
Proof.
  unfold dil_indices_bounded. generalize (seq_NoDup (L + 1) 0). induction (seq 0 (L + 1)) as [|l s IH]; intros H; [constructor|].
  cbn [flat_map]. inversion H as [|? ? H1 H2 EE]. apply ListAux.NoDup_app; [apply dil_indices_NoDup|auto|].
  intros p Hp Hq. apply in_flat_map in Hq. destruct Hq as (l' & K1 & K2). unfold dil_indices in Hp, K2. apply in_map_iff in Hp. apply in_map_iff in K2.
  destruct Hp as (a & Ea & _). destruct K2 as (a' & Ea' & _). assert (l = l') by congruence. subst l'. auto.
Qed.
(** chain rule *)
Lemma deriv_aff (f : R -> R) (a c s x g : R) : derivable_pt_lim f (x * a - c) g -> derivable_pt_lim (fun y => f (y * a - c) * s) x (g * a * s).
Proof.
  intros H.
  assert (A : derivable_pt_lim (fun y => y * a - c) x a).
  { apply derivable_pt_lim_ext with (f := minus_fct (mult_real_fct a id) (fct_cte c)); [intros y; unfold minus_fct, mult_real_fct, id, fct_cte; ring|].
    replace a with (a * 1 - 0) at 2 by ring. apply derivable_pt_lim_minus; [apply derivable_pt_lim_scal, derivable_pt_lim_id|apply derivable_pt_lim_const]. }
  apply derivable_pt_lim_ext with (f := mult_real_fct s (comp f (fun y => y * a - c))); [intros y; unfold mult_real_fct, comp; ring|].
  replace (g * a * s) with (s * (g * a)) by ring. apply derivable_pt_lim_scal. apply derivable_pt_lim_comp; auto.
Qed.
Lemma nder_aff (U : R -> Prop) n a c s : forall f g, nth_derivative U n f g -> nth_derivative (fun x => U (x * a - c)) n (fun x => f (x * a - c) * s) (fun x => g (x * a - c) * (a ^ n * s)).
Proof.
  induction n as [|n IH]; cbn [nth_derivative]; intros f g H.
  - intros x Hx. rewrite (H _ Hx). cbn [pow]. ring.
  - destruct H as (h & H1 & H2). exists (fun x => h (x * a - c) * (a ^ n * s)). split; [apply IH; auto|]. intros x Hx.
    replace (g (x * a - c) * (a ^ S n * s)) with (g (x * a - c) * a * (a ^ n * s)) by (cbn [pow]; ring). apply deriv_aff. auto.
Qed.
Lemma nder_weaken (U V : R -> Prop) n : (forall x, V x -> U x) -> forall f g, nth_derivative U n f g -> nth_derivative V n f g.
Proof. intros H. induction n as [|n IH]; cbn [nth_derivative]; intros f g K; [auto|]. destruct K as (h & K1 & K2). exists h. split; auto. Qed.
Lemma dil_scale b l k : (1 <= b)%nat -> Rpower (INR b) (INR l * (INR k + 1 / 2)) = INR (b ^ l) ^ k * Rpower (INR b) (INR l / 2).
Proof.
  intros Hb. assert (P : 0 < INR b) by (apply lt_0_INR; lia). pose proof (pow_pos_INR b l Hb) as P2.
  assert (INR (b ^ l) ^ k = Rpower (INR b) (INR l * INR k)) as ->.
  { rewrite <- Rpower_pow by auto. rewrite pow_INR. rewrite <- (Rpower_pow l) by auto. rewrite Rpower_mult. reflexivity. }
  rewrite <- Rpower_plus. f_equal. field.
Qed.
Lemma dil_nder_off m b l j k : (1 <= b)%nat ->
  nth_derivative (fun x => forall i, (i <= m + 1)%nat -> x * INR (b ^ l) <> IZR j + INR i) k (dil_eval m b l j) (dil_eval_derivative m b k l j).
Proof.
  intros Hb. pose proof (bs_nder_off (cardinal_knots m) (cardinal_increasing m) m k 0) as H. rewrite card_card in H. specialize (H ltac:(lia)).
  apply (nder_aff _ k (INR (b ^ l)) (IZR j) (Rpower (INR b) (INR l / 2))) in H. rewrite <- (dil_scale b l k Hb) in H.
  eapply nder_weaken; [|exact H]. cbn beta. intros x Hx K. unfold cardinal_knots in K. apply in_map_iff in K. destruct K as (i & E & Hi). apply in_seq in Hi. apply (Hx i); [lia|]. lra.
Qed.
Lemma dil_nder m b l j k : (1 <= b)%nat -> (k < m)%nat -> nth_derivative (fun _ => True) k (dil_eval m b l j) (dil_eval_derivative m b k l j).
Proof.
  intros Hb Hk. pose proof (bs_nder (cardinal_knots m) (cardinal_increasing m) m k 0) as H. rewrite card_card in H. specialize (H ltac:(lia) Hk).
  apply (nder_aff _ k (INR (b ^ l)) (IZR j) (Rpower (INR b) (INR l / 2))) in H. rewrite <- (dil_scale b l k Hb) in H. exact H.
Qed.
