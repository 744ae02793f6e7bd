From Coq Require Import List Arith Reals Bool Lia Lra Sorted.
From Verif.Base Require Import ListAux CRing RealAux.
From Verif.Model Require Import Truncator Polynomials Measures.
From Verif.Spec Require Import MeasureSpec.
From Verif.Proofs Require Import PolyP PolyP5.
Import ListNotations.
Local Open Scope R_scope.

Lemma lsum_ext_R {A} (l : list A) (f g : A -> R) : (forall a, In a l -> f a = g a) -> lsum l f = lsum l g.
Proof. exact (lsum_ext l f g). Qed.
Lemma lsum_map_R {A B} (h : A -> B) (l : list A) (f : B -> R) : lsum (map h l) f = lsum l (fun a => f (h a)).
Proof. exact (lsum_map h l f). Qed.

Lemma drv_cdf_eq X x : drv_cdf X x = mass_below (dvals X) (dprobs X) x.
Proof.
  unfold drv_cdf, mass_below. apply lsum_ext_R. intros [v p] _. cbn.
  destruct (Rlt_dec x v), (Rle_dec v x); try lra; auto.
Qed.

(** cumulative sums *)
Lemma np_cumsum_length l : length (np_cumsum l) = length l.
Proof. unfold np_cumsum. rewrite map_length, seq_length. auto. Qed.
Lemma np_cumsum_nth l k : (k < length l)%nat -> nth k (np_cumsum l) 0 = lsum (firstn (S k) l) (fun x => x).
Proof. intros H. unfold np_cumsum. rewrite nth_map_seq by auto. auto. Qed.

Lemma lsum_firstn_mono (l : list R) j k : (forall p, In p l -> 0 <= p) -> (j <= k)%nat ->
  lsum (firstn j l) (fun x => x) <= lsum (firstn k l) (fun x => x).
Proof.
  revert j k. induction l as [|a l IH]; intros [|j] [|k] H Hjk; cbn [firstn]; try lra; try lia.
  - rewrite lsum_cons_R. assert (0 <= lsum (firstn k l) (fun x => x)).
    { apply lsum_nonneg. intros x Hx. apply H. right. revert Hx. clear. revert k; induction l as [|b l IH]; intros [|k] Hx; cbn in *; try tauto.
      destruct Hx; auto. right. apply (IH k); auto. }
    specialize (H a (or_introl eq_refl)). cbn. change (r0 : R) with 0. lra.
  - rewrite !lsum_cons_R. assert (lsum (firstn j l) (fun x => x) <= lsum (firstn k l) (fun x => x)) by (apply IH; [intros; apply H; cbn; auto|lia]). lra.
Qed.

(** first_ge picks exactly the first index *)
Lemma fold_add_firstn_S (b : list nat) k : (k < length b)%nat ->
  fold_right Nat.add 0%nat (firstn (S k) b) = (fold_right Nat.add 0%nat (firstn k b) + nth k b 0)%nat.
Proof.
  revert k. induction b as [|x b IH]; intros k H; [cbn in H; lia|]. destruct k as [|k]; [cbn; lia|].
  cbn [firstn fold_right nth] in *. rewrite IH by (cbn in H; lia). lia.
Qed.
Lemma filter_single (P : nat -> bool) n k : (k < n)%nat -> P k = true -> (forall j, (j < n)%nat -> j <> k -> P j = false) ->
  filter P (seq 0 n) = [k].
Proof.
  intros Hk HP HN. replace n with (k + S (n - S k))%nat by lia. rewrite seq_app, filter_app. cbn [seq Nat.add].
  cbn [filter]. rewrite HP.
  assert (Z : forall s m, (forall j, (s <= j < s + m)%nat -> P j = false) -> filter P (seq s m) = []).
  { clear. intros s m. revert s; induction m as [|m IH]; intros s H; auto. cbn. rewrite H by lia. apply IH. intros. apply H. lia. }
  rewrite (Z 0%nat k), (Z (S k)); auto; intros; apply HN; lia.
Qed.
Lemma filter_none (P : nat -> bool) n : (forall j, (j < n)%nat -> P j = false) -> filter P (seq 0 n) = [].
Proof.
  intros H. enough (Z : forall m s, (forall j, (s <= j < s + m)%nat -> P j = false) -> filter P (seq s m) = []) by (apply Z; intros; apply H; lia).
  clear. intros m; induction m as [|m IH]; intros s H; auto. cbn. rewrite H by lia. apply IH. intros. apply H. lia.
Qed.

Lemma first_ge_some F p k : (k < length F)%nat -> (forall j, (j < k)%nat -> nth j F 0 < p) ->
  (forall j, (k <= j < length F)%nat -> p <= nth j F 0) -> first_ge F p = [k].
Proof.
  intros Hk H1 H2. unfold first_ge. set (b := map _ F).
  assert (Lb : length b = length F) by apply map_length.
  assert (Nb : forall j, (j < length F)%nat -> nth j b 0%nat = if (k <=? j)%nat then 1%nat else 0%nat).
  { intros j Hj. unfold b. rewrite (map_nth_in _ _ _ 0) by auto.
    destruct (Nat.leb_spec k j).
    - pose proof (H2 j ltac:(lia)). destruct (Rle_dec p (nth j F 0)); auto; lra.
    - pose proof (H1 j ltac:(lia)). destruct (Rle_dec p (nth j F 0)); auto; lra. }
  assert (Sb : forall j, (j <= length F)%nat -> fold_right Nat.add 0%nat (firstn j b) = (j - k)%nat).
  { induction j as [|j IH]; intros Hj; auto. rewrite fold_add_firstn_S, IH, Nb by lia. destruct (Nat.leb_spec k j); lia. }
  apply filter_single; auto.
  - rewrite Sb by lia. replace (S k - k)%nat with 1%nat by lia. reflexivity.
  - intros j Hj Hne. rewrite Sb by lia. apply Nat.eqb_neq. lia.
Qed.
Lemma first_ge_none F p : (forall j, (j < length F)%nat -> nth j F 0 < p) -> first_ge F p = [].
Proof.
  intros H. unfold first_ge. set (b := map _ F). assert (Lb : length b = length F) by apply map_length.
  assert (Sb : forall j, (j <= length F)%nat -> fold_right Nat.add 0%nat (firstn j b) = 0%nat).
  { induction j as [|j IH]; intros Hj; auto. rewrite fold_add_firstn_S, IH by lia. unfold b. rewrite (map_nth_in _ _ _ 0) by lia.
    pose proof (H j ltac:(lia)). destruct (Rle_dec p (nth j F 0)); auto; lra. }
  apply filter_none. intros j Hj. rewrite Sb by lia. reflexivity.
Qed.

(** least index with a property *)
Lemma least_nat (P : nat -> Prop) (dec : forall k, {P k} + {~ P k}) n : P n -> exists k, (k <= n)%nat /\ P k /\ forall j, (j < k)%nat -> ~ P j.
Proof.
  intros H. induction n as [n IH] using lt_wf_ind. 
  destruct (le_lt_dec n 0) as [Z|Z].
  - exists n. repeat split; auto. lia.
  - assert (D : {j | (j < n)%nat /\ P j} + {forall j, (j < n)%nat -> ~ P j}).
    { clear - dec. induction n as [|n [ [j [Hj Pj]]|N]].
      - right. lia.
      - left. exists j. split; auto.
      - destruct (dec n) as [Y|Y]; [left; exists n; auto|]. right. intros j Hj. destruct (Nat.eq_dec j n) as [->|]; auto. apply N. lia. }
    destruct D as [[j [Hj Pj]]|N].
    + destruct (IH j Hj Pj) as [k [Hk1 [Hk2 Hk3]]]. exists k. repeat split; auto. lia.
    + exists n. auto.
Qed.

Lemma F2_len {A B} {Q : A -> B -> Prop} {l l'} : Forall2 Q l l' -> length l = length l'.
Proof. induction 1; cbn; auto. Qed.
Section Icdf.
Variable X : DRV.
Hypothesis HL : length (dvals X) = length (dprobs X).
Hypothesis HP : forall p, In p (dprobs X) -> 0 <= p.
Let F := np_cumsum (0 :: dprobs X).
Let C k := lsum (firstn k (dprobs X)) (fun x => x).
Lemma F_nth k : (k <= length (dprobs X))%nat -> nth k F 0 = C k.
Proof. intros H. unfold F. rewrite np_cumsum_nth by (cbn; lia). cbn [firstn]. rewrite lsum_cons_R. unfold C. lra. Qed.
Lemma F_len : length F = S (length (dprobs X)).
Proof. unfold F. apply np_cumsum_length. Qed.

Lemma first_ge_F p : p <= total (dprobs X) -> exists k, first_ge F p = [k] /\ (k <= length (dprobs X))%nat /\ p <= C k /\ (forall j, (j < k)%nat -> C j < p).
Proof.
  intros Hp.
  destruct (least_nat (fun k => p <= C k) (fun k => Rle_dec p (C k)) (length (dprobs X))) as [k [H1 [H2 H3]]].
  { unfold C. rewrite firstn_all. auto. }
  exists k. assert (Hlt : forall j, (j < k)%nat -> C j < p) by (intros j Hj; apply Rnot_le_lt, H3; auto).
  repeat split; auto. apply first_ge_some.
  - rewrite F_len. lia.
  - intros j Hj. rewrite F_nth by lia. auto.
  - intros j Hj. rewrite F_len in Hj. rewrite F_nth by lia. apply Rle_trans with (C k); auto. apply lsum_firstn_mono; auto. lia.
Qed.
Lemma first_ge_F_none p : total (dprobs X) < p -> first_ge F p = [].
Proof.
  intros Hp. apply first_ge_none. intros j Hj. rewrite F_len in Hj. rewrite F_nth by lia.
  apply Rle_lt_trans with (total (dprobs X)); auto. unfold total. change (lsum (dprobs X) (fun x => x)) with (lsum (dprobs X) (fun x : R => x)).
  apply Rle_trans with (lsum (firstn (length (dprobs X)) (dprobs X)) (fun x => x)); [apply lsum_firstn_mono; auto; lia|rewrite firstn_all; lra].
Qed.

Definition idx_of (p : R) (k : nat) : Prop := (k <= length (dprobs X))%nat /\ p <= C k /\ (forall j, (j < k)%nat -> C j < p).

Lemma drv_icdf_idx ps : (forall p, In p ps -> p <= total (dprobs X)) ->
  exists ks, drv_icdf X ps = Some (map (fun k => nth k (MInf :: map Fin (dvals X)) MInf) ks) /\ Forall2 idx_of ps ks.
Proof.
  intros H. assert (K : exists ks, concat (map (first_ge F) ps) = ks /\ Forall2 idx_of ps ks).
  { induction ps as [|p ps IH]; [exists []; split; auto|].
    destruct IH as [ks [E1 E2]]; [intros; apply H; cbn; auto|]. destruct (first_ge_F p (H p (or_introl eq_refl))) as [k [Hk Hk']].
    exists (k :: ks). cbn [map concat]. rewrite Hk, E1. split; auto. }
  destruct K as [ks [E1 E2]]. exists ks. split; auto. unfold drv_icdf. fold F. rewrite E1.
  rewrite <- (F2_len E2), Nat.eqb_refl. auto.
Qed.
Lemma drv_icdf_none ps p : In p ps -> total (dprobs X) < p -> drv_icdf X ps = None.
Proof.
  intros Hin Hp. unfold drv_icdf. fold F.
  assert (B : forall ps, (length (concat (map (first_ge F) ps)) <= length ps)%nat /\
     (In p ps -> (length (concat (map (first_ge F) ps)) < length ps)%nat)).
  { induction ps0 as [|q qs [IH1 IH2]]; [cbn; split; [lia|tauto]|]. cbn [map concat length]. rewrite app_length.
    assert (Lq : (length (first_ge F q) <= 1)%nat).
    { destruct (Rle_lt_dec q (total (dprobs X))) as [Y|Y].
      - destruct (first_ge_F q Y) as [k [-> _]]. cbn. lia.
      - rewrite first_ge_F_none by auto. cbn. lia. }
    split; [lia|]. intros [->|Hq].
    - rewrite first_ge_F_none by auto. cbn [length]. lia.
    - specialize (IH2 Hq). lia. }
  destruct (B ps) as [_ B2]. specialize (B2 Hin). destruct (Nat.eqb_spec (length (concat (map (first_ge F) ps))) (length ps)); [lia|auto].
Qed.

(** sorted values *)
Hypothesis HS : nondecreasing (dvals X).
Lemma cdf_ge k : (1 <= k <= length (dprobs X))%nat -> C k <= drv_cdf X (nth (k - 1) (dvals X) 0).
Proof.
  intros Hk. rewrite drv_cdf_eq. unfold mass_below, C. revert HS HP HL Hk. generalize (dprobs X) as w, (dvals X) as v. clear.
  intros w v. revert w k. induction v as [|x v IH]; intros [|p w] k HS HP HL Hk; cbn in HL, Hk; try lia.
  inversion HS as [|? ? HS' HF]; subst.
  destruct k as [|[|k]]; [lia| |].
  - cbn [Nat.sub nth firstn combine]. rewrite !lsum_cons_R. cbn [fst snd]. destruct (Rle_dec x x); [|lra].
    assert (0 <= lsum (combine v w) (fun q => if Rle_dec (fst q) x then snd q else 0)).
    { apply lsum_nonneg. intros [y q] Hq. cbn. destruct (Rle_dec y x); [|lra]. apply HP. right. eapply in_combine_r; eauto. }
    cbn. change (r0 : R) with 0. lra.
  - replace (S (S k) - 1)%nat with (S k) by lia. cbn [nth]. cbn [firstn combine].
    change (lsum (p :: firstn (S k) w) (fun x0 => x0) <= lsum ((x, p) :: combine v w) (fun q => if Rle_dec (fst q) (nth k v 0) then snd q else 0)).
    rewrite !lsum_cons_R. cbn [fst snd].
    assert (x <= nth k v 0). { rewrite Forall_forall in HF. apply HF. apply nth_In. lia. }
    destruct (Rle_dec x (nth k v 0)); [|lra].
    specialize (IH w (S k) HS' ltac:(intros; apply HP; cbn; auto) ltac:(lia) ltac:(lia)).
    replace (S k - 1)%nat with k in IH by lia. lra.
Qed.
Lemma cdf_lt k x : (1 <= k <= length (dprobs X))%nat -> x < nth (k - 1) (dvals X) 0 -> drv_cdf X x <= C (k - 1).
Proof.
  intros Hk Hx. rewrite drv_cdf_eq. unfold mass_below, C. revert HS HP HL Hk Hx. generalize (dprobs X) as w, (dvals X) as v. clear.
  intros w v. revert w k. induction v as [|y v IH]; intros [|p w] k HS HP HL Hk Hx; cbn in HL, Hk; try lia.
  inversion HS as [|? ? HS' HF]; subst. rewrite Forall_forall in HF. cbn [combine]. rewrite lsum_cons_R. cbn [fst snd].
  destruct k as [|[|k]]; [lia| |].
  - cbn [Nat.sub nth firstn] in *. destruct (Rle_dec y x); [lra|].
    rewrite lsum_zero_R; [cbn; change (r0 : R) with 0; lra|]. intros [z q] Hz. cbn. apply in_combine_l in Hz. pose proof (HF z Hz).
    destruct (Rle_dec z x); lra.
  - replace (S (S k) - 1)%nat with (S k) in * by lia. cbn [nth] in Hx. cbn [firstn]. rewrite lsum_cons_R.
    specialize (IH w (S k) HS' ltac:(intros; apply HP; cbn; auto) ltac:(lia) ltac:(lia)).
    replace (S k - 1)%nat with k in IH by lia. specialize (IH Hx).
    assert (0 <= p) by (apply HP; cbn; auto). destruct (Rle_dec y x); lra.
Qed.

Lemma idx_quantile p k : 0 < p -> idx_of p k ->
  exists v, nth k (MInf :: map Fin (dvals X)) MInf = Fin v /\ In v (dvals X) /\ is_quantile (drv_cdf X) p v.
Proof.
  intros Hp [H1 [H2 H3]]. destruct k as [|k]; [unfold C in H2; cbn in H2; change (r0 : R) with 0 in H2; lra|].
  exists (nth k (dvals X) 0). cbn [nth]. rewrite (map_nth_in _ _ _ 0) by lia. split; auto. split; [apply nth_In; lia|].
  split.
  - apply Rle_trans with (C (S k)); auto. replace k with (S k - 1)%nat at 2 by lia. apply cdf_ge. lia.
  - intros x Hx. destruct (Rle_lt_dec (nth k (dvals X) 0) x) as [Y|Y]; auto. exfalso.
    pose proof (cdf_lt (S k) x ltac:(lia)) as Q. replace (S k - 1)%nat with k in Q by lia. specialize (Q Y).
    specialize (H3 k ltac:(lia)). lra.
Qed.
End Icdf.

Lemma icdf_quantile X ps : length (dvals X) = length (dprobs X) -> is_distribution (dprobs X) -> nondecreasing (dvals X) ->
  (forall p, In p ps -> 0 < p <= 1) ->
  exists vs, drv_icdf X ps = Some (map Fin vs) /\ Forall2 (fun p v => In v (dvals X) /\ is_quantile (drv_cdf X) p v) ps vs.
Proof.
  intros HL [HP HT] HS Hps.
  destruct (drv_icdf_idx X HL HP ps) as [ks [E1 E2]]; [intros p Hp; unfold total; rewrite HT; apply Hps in Hp; lra|].
  rewrite E1. clear E1. assert (K : exists vs, map (fun k => nth k (MInf :: map Fin (dvals X)) MInf) ks = map Fin vs /\
    Forall2 (fun p v => In v (dvals X) /\ is_quantile (drv_cdf X) p v) ps vs).
  { induction E2 as [|p k ps ks H E2 IH]; [exists []; split; auto|].
    destruct IH as [vs [I1 I2]]; [intros; apply Hps; cbn; auto|].
    destruct (idx_quantile X HL HP HS p k) as [v [J1 [J2 J3]]]; auto; [apply Hps; cbn; auto|].
    exists (v :: vs). split; [change (nth k (MInf :: map Fin (dvals X)) MInf :: map (fun k => nth k (MInf :: map Fin (dvals X)) MInf) ks = Fin v :: map Fin vs)|]; [congruence|constructor; auto]. }
  destruct K as [vs [K1 K2]]. exists vs. rewrite K1. auto.
Qed.
