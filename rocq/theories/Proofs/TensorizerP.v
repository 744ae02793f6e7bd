From Coq Require Import List Arith ZArith Reals Bool Lia Lra.
From Verif.Base Require Import ListAux Index.
From Verif.Model Require Import Utils Tensorizer.
From Verif.Spec Require Import MultiIndicesSpec TensorizerSpec.
From Verif.Proofs Require Import MIMoreP.
Import ListNotations.
Local Open Scope R_scope.

Lemma pow_pos_R b d : (1 <= b)%nat -> 0 < INR (b ^ d).
Proof. intros H. apply lt_0_INR. enough (b ^ d <> 0)%nat by lia. apply Nat.pow_nonzero; lia. Qed.

Lemma rfloor_spec x : IZR (rfloor x) <= x < IZR (rfloor x) + 1.
Proof. unfold rfloor. destruct (base_Int_part x). lra. Qed.

Lemma rfloor_unique x (z : Z) : IZR z <= x < IZR z + 1 -> rfloor x = z.
Proof.
  intros H. pose proof (rfloor_spec x) as H'.
  assert (rfloor x < z + 1)%Z by (apply lt_IZR; rewrite plus_IZR; lra).
  assert (z < rfloor x + 1)%Z by (apply lt_IZR; rewrite plus_IZR; lra).
  lia.
Qed.

Lemma rtrunc_INR n : rtrunc (INR n) = Z.of_nat n.
Proof.
  unfold rtrunc. destruct (Rle_dec 0 (INR n)) as [_|C]; [|pose proof (pos_INR n); lra].
  apply rfloor_unique. rewrite <- INR_IZR_INZ. lra.
Qed.

Lemma u2z_ok u b d : (1 <= b)%nat -> 0 <= u ->
  exists D y, u2z u b d = Some (map INR D ++ [y]) /\ length D = d /\ Forall (fun c => (c < b)%nat) D /\
    u = (INR (digits_value b D) + y) / INR (b ^ d) /\ 0 <= y /\ (u <= 1 -> y <= 1) /\ (u < 1 -> y < 1).
Proof.
  intros Hb Hu. unfold u2z. set (B := (b ^ d)%nat).
  assert (HB : 0 < INR B) by (apply pow_pos_R; auto).
  set (su := u * INR B). assert (Hsu : 0 <= su) by (unfold su; apply Rmult_le_pos; lra).
  pose proof (rfloor_spec su) as Hf.
  assert (Hf0 : (0 <= rfloor su)%Z).
  { enough (-1 < rfloor su)%Z by lia. apply lt_IZR. lra. }
  assert (HB1 : (0 < B)%nat) by (apply INR_lt; auto). 
  assert (HBZ : IZR (Z.of_nat B - 1) = INR B - 1) by (rewrite minus_IZR, <- INR_IZR_INZ; lra).
  set (i := Z.min (rfloor su) (Z.of_nat B - 1)).
  assert (Hi : (0 <= i <= Z.of_nat B - 1)%Z) by (unfold i; lia).
  assert (Hi1 : IZR i <= su). { apply Rle_trans with (IZR (rfloor su)); [apply IZR_le; unfold i; lia|lra]. }
  unfold as_nat. destruct (Z.ltb_spec i 0) as [C|_]; [lia|].
  destruct (integer2baseb_full (Z.to_nat i) b d) as [HE HP].
  destruct HE as [l Hl]; [fold B; lia|]. rewrite Hl.
  destruct (HP l Hl) as [L1 [L2 [L3 _]]].
  assert (Hv : INR (digits_value b l) = IZR i).
  { rewrite L3, INR_IZR_INZ, Z2Nat.id by lia. auto. }
  exists l, (su - IZR i). repeat split; auto.
  - rewrite Hv. unfold su. field. lra.
  - lra.
  - intros Hu1. assert (su <= INR B) by (unfold su; rewrite <- (Rmult_1_l (INR B)) at 2; apply Rmult_le_compat_r; lra).
    destruct (Z.min_spec (rfloor su) (Z.of_nat B - 1)) as [[? E]|[? E]]; unfold i; rewrite E; [lra|].
    rewrite HBZ. lra.
  - intros Hu1. assert (su < INR B) by (unfold su; rewrite <- (Rmult_1_l (INR B)) at 2; apply Rmult_lt_compat_r; lra).
    destruct (Z.min_spec (rfloor su) (Z.of_nat B - 1)) as [[? E]|[? E]]; unfold i; rewrite E; [lra|].
    rewrite HBZ. lra.
Qed.

Lemma u2z_neg u b d : (1 <= b)%nat -> u < 0 -> u2z u b d = None.
Proof.
  intros Hb Hu. unfold u2z. assert (HB := pow_pos_R b d Hb). set (B := (b ^ d)%nat) in *.
  assert (Hs : u * INR B < 0) by (apply Ropp_lt_cancel; rewrite Ropp_0, Ropp_mult_distr_l; apply Rmult_lt_0_compat; lra).
  pose proof (rfloor_spec (u * INR B)). assert (rfloor (u * INR B) < 0)%Z by (apply lt_IZR; lra).
  unfold as_nat. destruct (Z.ltb_spec (Z.min (rfloor (u * INR B)) (Z.of_nat B - 1)) 0); [auto|lia].
Qed.

Lemma z2u_ok D y b : Forall (fun c => (c < b)%nat) D ->
  z2u (map INR D ++ [y]) b = Some ((INR (digits_value b D) + y) / INR (b ^ length D)).
Proof.
  intros HD. unfold z2u. rewrite rev_app_distr. cbn [rev app]. rewrite rev_involutive, rev_length, map_length.
  assert (E : omap (fun x => as_nat (rtrunc x)) (map INR D) = Some D).
  { clear. induction D as [|c D IH]; cbn; auto. rewrite rtrunc_INR. unfold as_nat at 1.
    destruct (Z.ltb_spec (Z.of_nat c) 0) as [C|_]; [lia|]. rewrite Nat2Z.id, IH. auto. }
  rewrite E. destruct (baseb2integer_full D b) as [H1 H2]. destruct (H1 HD) as [i Hi]. rewrite Hi.
  destruct (H2 i Hi) as [-> _]. f_equal. unfold Rdiv. ring.
Qed.

Lemma digits_value_lt b D : Forall (fun c => (c < b)%nat) D -> (digits_value b D < b ^ length D)%nat.
Proof.
  intros HD. destruct (baseb2integer_full D b) as [H1 H2]. destruct (H1 HD) as [i Hi].
  destruct (H2 i Hi) as [-> [H _]]. auto.
Qed.

Lemma u2z_inv D y b : (1 <= b)%nat -> Forall (fun c => (c < b)%nat) D ->
  (0 <= y < 1 \/ y = 1 /\ S (digits_value b D) = (b ^ length D)%nat) ->
  u2z ((INR (digits_value b D) + y) / INR (b ^ length D)) b (length D) = Some (map INR D ++ [y]).
Proof.
  intros Hb HD Hy. unfold u2z. assert (HB := pow_pos_R b (length D) Hb).
  pose proof (digits_value_lt b D HD) as Hlt.
  set (B := (b ^ length D)%nat) in *.
  replace ((INR (digits_value b D) + y) / INR B * INR B) with (INR (digits_value b D) + y) by (field; lra).
  set (v := digits_value b D) in *.
  assert (Hfl : Z.min (rfloor (INR v + y)) (Z.of_nat B - 1) = Z.of_nat v).
  { destruct Hy as [Hy|[-> Hy]].
    - rewrite (rfloor_unique _ (Z.of_nat v)) by (rewrite <- INR_IZR_INZ; lra). lia.
    - rewrite (rfloor_unique _ (Z.of_nat v + 1)) by (rewrite plus_IZR, <- INR_IZR_INZ; lra). lia. }
  rewrite Hfl. unfold as_nat. destruct (Z.ltb_spec (Z.of_nat v) 0) as [C|_]; [lia|].
  rewrite Nat2Z.id. destruct (baseb2integer_full D b) as [H1 H2]. destruct (H1 HD) as [i Hi].
  destruct (H2 i Hi) as [Ei [_ H3]]. fold v in Ei. subst i. rewrite H3. do 3 f_equal.
  rewrite <- INR_IZR_INZ. ring.
Qed.

(** ** Rearrangements of the digits *)
Lemma nth_concat_uniform {A} (d : A) n ls k j : Forall (fun l => length l = n) ls -> (j < n)%nat ->
  nth (k * n + j) (concat ls) d = nth j (nth k ls []) d.
Proof.
  intros H Hj. revert k. induction H as [|l ls Hl _ IH]; intros k.
  - assert (E : nth k (@nil (list A)) [] = []) by (destruct k; auto). rewrite E. cbn [concat].
    destruct (k * n + j)%nat, j; auto.
  - destruct k; cbn [concat nth].
    + rewrite app_nth1 by (cbn; lia). auto.
    + rewrite app_nth2 by lia. rewrite <- IH. f_equal. lia.
Qed.

Lemma length_concat_uniform {A} n (ls : list (list A)) : Forall (fun l => length l = n) ls ->
  length (concat ls) = (length ls * n)%nat.
Proof. induction 1 as [|l ls Hl _ IH]; cbn; auto. rewrite app_length, IH. lia. Qed.

Lemma concat_uniform_map {A} (dA : A) n m (f : nat -> list A) : (forall k, (k < m)%nat -> length (f k) = n) ->
  concat (map f (seq 0 m)) = map (fun p => nth (p mod n) (f (p / n)%nat) dA) (seq 0 (m * n)).
Proof.
  intros H. assert (HF : Forall (fun l => length l = n) (map f (seq 0 m))).
  { apply Forall_forall. intros l Hl. apply in_map_iff in Hl. destruct Hl as [k [<- Hk]]. apply in_seq in Hk. apply H; lia. }
  apply (nth_ext' dA).
  - rewrite (length_concat_uniform n), !map_length, !seq_length; auto.
  - intros p Hp. rewrite (length_concat_uniform n), map_length, seq_length in Hp; auto.
    assert (n <> 0)%nat by nia.
    rewrite nth_map_seq by auto. cbn.
    rewrite (Nat.div_mod p n) at 1 by auto. rewrite (Nat.mul_comm n).
    rewrite (nth_concat_uniform dA n) by (auto; apply Nat.mod_upper_bound; auto).
    f_equal. rewrite nth_map_seq; auto. apply Nat.div_lt_upper_bound; auto. lia.
Qed.

Lemma omap_map {A B C} (f : B -> option C) (g : A -> B) l : omap f (map g l) = omap (fun x => f (g x)) l.
Proof. induction l as [|a l IH]; cbn; auto. destruct (f (g a)); auto. rewrite IH. auto. Qed.

Lemma omap_ext_in {A B} (f g : A -> option B) l : (forall x, In x l -> f x = g x) -> omap f l = omap g l.
Proof.
  induction l as [|a l IH]; cbn; intros H; auto. rewrite (H a) by auto. destruct (g a); auto. rewrite IH; auto.
Qed.

Lemma omap_Some_map {A B} (f : A -> B) l : omap (fun x => Some (f x)) l = Some (map f l).
Proof. induction l as [|a l IH]; cbn; auto. rewrite IH. auto. Qed.

Lemma take_cols_some l idx : Forall (fun i => (i < length l)%nat) idx ->
  take_cols l idx = Some (map (fun i => nth i l 0) idx).
Proof.
  intros H. unfold take_cols. rewrite <- omap_Some_map. apply omap_ext_in. intros i Hi.
  rewrite Forall_forall in H. apply nth_error_nth'. auto.
Qed.

Lemma arange_full k m d : (k < d)%nat -> arange k (m * d) d = map (fun j => k + j * d)%nat (seq 0 m).
Proof.
  intros H. unfold arange. destruct m as [|m].
  - replace (0 * d - k + (d - 1))%nat with (d - 1)%nat by lia. rewrite Nat.div_small by lia. auto.
  - do 2 f_equal. replace (S m * d - k + (d - 1))%nat with ((d - 1 - k) + S m * d)%nat by nia.
    rewrite Nat.div_add by lia. rewrite Nat.div_small by lia. auto.
Qed.

(** the digits part of the result, position by position *)
Definition digits_part (ordering d dim : nat) (D : nat -> list nat) : list R :=
  if (ordering =? 2)%nat
  then map (fun p => INR (nth (p / dim) (D (p mod dim)%nat) 0%nat)) (seq 0 (d * dim))
  else map (fun p => INR (nth (p mod d) (D (p / d)%nat) 0%nat)) (seq 0 (d * dim)).

Lemma digits_part_length ordering d dim D : length (digits_part ordering d dim D) = (d * dim)%nat.
Proof. unfold digits_part. destruct (ordering =? 2)%nat; rewrite map_length, seq_length; auto. Qed.

Lemma digit_col_lt ordering d dim k l : (k < dim)%nat -> (l < d)%nat -> (digit_col ordering d dim k l < d * dim)%nat.
Proof. intros. unfold digit_col. destruct ordering as [|[|?]]; nia. Qed.

Lemma digits_part_nth ordering d dim D k l : (ordering = 1 \/ ordering = 2)%nat -> (k < dim)%nat -> (l < d)%nat ->
  nth (digit_col ordering d dim k l) (digits_part ordering d dim D) 0 = INR (nth l (D k) 0%nat).
Proof.
  intros Ho Hk Hl. pose proof (digit_col_lt ordering d dim k l Hk Hl) as Hc.
  unfold digits_part. destruct Ho as [-> | ->]; cbn [Nat.eqb]; rewrite nth_map_seq by auto; cbn [digit_col Nat.add].
  - rewrite Nat.add_comm, Nat.mod_add, Nat.mod_small by lia. rewrite Nat.div_add, Nat.div_small by lia. auto.
  - rewrite Nat.add_comm, Nat.mod_add, Nat.mod_small by lia. rewrite Nat.div_add, Nat.div_small by lia. auto.
Qed.

Lemma digits_part_unique ordering d dim (l1 l2 : list R) : (ordering = 1 \/ ordering = 2)%nat ->
  length l1 = (d * dim)%nat -> length l2 = (d * dim)%nat ->
  (forall k l, (k < dim)%nat -> (l < d)%nat ->
     nth (digit_col ordering d dim k l) l1 0 = nth (digit_col ordering d dim k l) l2 0) -> l1 = l2.
Proof.
  intros Ho L1 L2 H. apply (nth_ext' 0); [congruence|]. intros p Hp. rewrite L1 in Hp.
  assert (d <> 0 /\ dim <> 0)%nat by nia.
  destruct Ho as [-> | ->]; cbn [digit_col] in H.
  - specialize (H (p / d) (p mod d))%nat.
    replace (p / d * d + p mod d)%nat with p in H by (rewrite Nat.mul_comm; apply Nat.div_mod; lia).
    apply H; [apply Nat.div_lt_upper_bound; lia|apply Nat.mod_upper_bound; lia].
  - specialize (H (p mod dim) (p / dim))%nat.
    replace (p / dim * dim + p mod dim)%nat with p in H by (rewrite Nat.mul_comm; apply Nat.div_mod; lia).
    apply H; [apply Nat.mod_upper_bound; lia|apply Nat.div_lt_upper_bound; lia].
Qed.

Lemma tz_map_eq ordering b d dim Xcdf Yicdf x D y : (ordering = 1 \/ ordering = 2)%nat -> length x = dim ->
  (forall k, (k < dim)%nat -> u2z (Xcdf k (nth k x 0)) b d = Some (map INR (D k) ++ [y k]) /\ length (D k) = d) ->
  tz_map ordering b d dim Xcdf Yicdf x =
    Some (digits_part ordering d dim D ++ map (fun k => Yicdf k (y k)) (seq 0 dim)).
Proof.
  intros Ho Hx H. unfold tz_map.
  rewrite (omap_ext_in _ (fun k => Some (map INR (D k) ++ [y k]))).
  2:{ intros k Hk. apply in_seq in Hk. rewrite (nth_error_nth' x 0) by lia. apply H; lia. }
  rewrite omap_Some_map. cbv zeta.
  assert (EY : map (fun k => Yicdf k (last (nth k (map (fun k => map INR (D k) ++ [y k]) (seq 0 dim)) []) 0)) (seq 0 dim)
    = map (fun k => Yicdf k (y k)) (seq 0 dim)).
  { apply map_ext_in. intros k Hk. apply in_seq in Hk. rewrite nth_map_seq by lia. rewrite last_last. auto. }
  rewrite EY. rewrite map_map.
  rewrite (map_ext (fun k => removelast (map INR (D k) ++ [y k])) (fun k => map INR (D k))) by (intros; apply removelast_last).
  rewrite (concat_uniform_map 0 d) by (intros; rewrite map_length; apply H; auto).
  assert (E1 : map (fun p => nth (p mod d) (map INR (D (p / d)%nat)) 0) (seq 0 (dim * d)) =
    map (fun p => INR (nth (p mod d) (D (p / d)%nat) 0%nat)) (seq 0 (dim * d))).
  { apply map_ext. intros p. change 0 with (INR 0) at 1. rewrite map_nth. auto. }
  rewrite E1. unfold digits_part.
  destruct Ho as [-> | ->]; cbn [Nat.eqb].
  - rewrite (Nat.mul_comm dim d). auto.
  - rewrite map_length, seq_length.
    rewrite (omap_ext_in _ (fun l => Some (map (fun k => INR (nth l (D k) 0%nat)) (seq 0 dim)))).
    2:{ intros l Hl. apply in_seq in Hl. rewrite arange_full by lia.
        rewrite take_cols_some.
        - f_equal. rewrite map_map. apply map_ext_in. intros k Hk. apply in_seq in Hk.
          rewrite nth_map_seq by nia. cbn [Nat.add].
          rewrite Nat.mod_add, Nat.mod_small by lia. rewrite Nat.div_add, Nat.div_small by lia. auto.
        - apply Forall_forall. intros p Hp. apply in_map_iff in Hp. destruct Hp as [k [<- Hk]]. apply in_seq in Hk.
          rewrite map_length, seq_length. nia. }
    rewrite omap_Some_map. cbn [option_map].
    rewrite (concat_uniform_map 0 dim) by (intros; rewrite map_length, seq_length; auto).
    do 2 f_equal. apply map_ext_in. intros p Hp. apply in_seq in Hp.
    assert (dim <> 0)%nat by nia.
    rewrite nth_map_seq by (apply Nat.mod_upper_bound; auto). auto.
Qed.

Lemma tz_inverse_eq ordering b d dim Ycdf Xicdf z D : (ordering = 1 \/ ordering = 2)%nat ->
  length z = (d * dim + dim)%nat ->
  (forall k, (k < dim)%nat -> length (D k) = d /\ Forall (fun c => (c < b)%nat) (D k) /\
     forall l, (l < d)%nat -> nth (digit_col ordering d dim k l) z 0 = INR (nth l (D k) 0%nat)) ->
  tz_inverse_map ordering b d dim Ycdf Xicdf z =
    Some (map (fun k => Xicdf k ((INR (digits_value b (D k)) + Ycdf k (nth (d * dim + k) z 0)) / INR (b ^ d))) (seq 0 dim)).
Proof.
  intros Ho Hz H. unfold tz_inverse_map. rewrite <- omap_Some_map. apply omap_ext_in.
  intros k Hk. apply in_seq in Hk. destruct (H k) as [H1 [H2 H3]]; [lia|].
  set (idx := map (fun l => digit_col ordering d dim k l) (seq 0 d)).
  assert (EI : (if (ordering =? 1)%nat then Some (map (fun j => j + k * d)%nat (seq 0 d))
               else if (ordering =? 2)%nat then Some (arange k (dim * d) dim) else None) = Some idx).
  { unfold idx. destruct Ho as [-> | ->]; cbn [Nat.eqb digit_col]; f_equal.
    - apply map_ext. intros; lia.
    - rewrite Nat.mul_comm, arange_full by lia. apply map_ext. intros; lia. }
  rewrite EI. cbv beta iota zeta.
  rewrite take_cols_some.
  2:{ apply Forall_forall. intros p Hp. unfold idx in Hp. apply in_map_iff in Hp. destruct Hp as [l [<- Hl]]. apply in_seq in Hl.
      pose proof (digit_col_lt ordering d dim k l). rewrite Hz. lia. }
  assert (EM : map (fun i => nth i z 0) idx = map INR (D k)).
  { apply (nth_ext' 0).
    - unfold idx. rewrite !map_length, seq_length. auto.
    - unfold idx. rewrite !map_length, seq_length. intros l Hl. rewrite map_map, nth_map_seq by auto. cbn [Nat.add].
      rewrite H3 by auto. change 0 with (INR 0). rewrite map_nth. auto. }
  rewrite EM. destruct (Nat.leb_spec dim (length z)) as [_|C]; [|lia].
  replace (length z - dim + k)%nat with (d * dim + k)%nat by lia.
  rewrite (nth_error_nth' z 0) by lia. rewrite z2u_ok by auto. rewrite H1. auto.
Qed.

Lemma choose_nat {A} (a0 : A) n (P : nat -> A -> Prop) : (forall k, (k < n)%nat -> exists a, P k a) ->
  exists f : nat -> A, forall k, (k < n)%nat -> P k (f k).
Proof.
  induction n as [|n IH]; intros H.
  - exists (fun _ => a0). intros; lia.
  - destruct IH as [f Hf]; [intros; apply H; lia|]. destruct (H n) as [a Ha]; [lia|].
    exists (fun k => if (k =? n)%nat then a else f k). intros k Hk. destruct (Nat.eqb_spec k n) as [-> |]; auto. apply Hf; lia.
Qed.

Lemma tz_map_spec ordering b d dim Xcdf Yicdf x : (ordering = 1 \/ ordering = 2)%nat -> (1 <= b)%nat ->
  length x = dim -> (forall k, (k < dim)%nat -> 0 <= Xcdf k (nth k x 0)) ->
  exists z (D : nat -> list nat) (y : nat -> R), tz_map ordering b d dim Xcdf Yicdf x = Some z /\ length z = (d * dim + dim)%nat /\
    forall k, (k < dim)%nat ->
      length (D k) = d /\ Forall (fun c => (c < b)%nat) (D k) /\
      (forall l, (l < d)%nat -> nth (digit_col ordering d dim k l) z 0 = INR (nth l (D k) 0%nat)) /\
      nth (d * dim + k) z 0 = Yicdf k (y k) /\
      Xcdf k (nth k x 0) = (INR (digits_value b (D k)) + y k) / INR (b ^ d) /\
      0 <= y k /\ (Xcdf k (nth k x 0) <= 1 -> y k <= 1) /\ (Xcdf k (nth k x 0) < 1 -> y k < 1).
Proof.
  intros Ho Hb Hx H.
  destruct (choose_nat ([], 0) dim (fun k Dy => u2z (Xcdf k (nth k x 0)) b d = Some (map INR (fst Dy) ++ [snd Dy]) /\
     length (fst Dy) = d /\ Forall (fun c => (c < b)%nat) (fst Dy) /\
     Xcdf k (nth k x 0) = (INR (digits_value b (fst Dy)) + snd Dy) / INR (b ^ d) /\
     0 <= snd Dy /\ (Xcdf k (nth k x 0) <= 1 -> snd Dy <= 1) /\ (Xcdf k (nth k x 0) < 1 -> snd Dy < 1))) as [f Hf].
  { intros k Hk. destruct (u2z_ok (Xcdf k (nth k x 0)) b d Hb (H k Hk)) as [D [y HD]]. exists (D, y). exact HD. }
  exists (digits_part ordering d dim (fun k => fst (f k)) ++ map (fun k => Yicdf k (snd (f k))) (seq 0 dim)),
    (fun k => fst (f k)), (fun k => snd (f k)).
  split; [|split].
  - apply tz_map_eq; auto. intros k Hk. destruct (Hf k Hk) as [? [? _]]. auto.
  - rewrite app_length, digits_part_length, map_length, seq_length. lia.
  - intros k Hk. destruct (Hf k Hk) as [_ [H1 [H2 [H3 [H4 [H5 H6]]]]]]. repeat split; auto.
    + intros l Hl. rewrite app_nth1 by (rewrite digits_part_length; apply digit_col_lt; auto).
      rewrite digits_part_nth; auto.
    + rewrite app_nth2 by (rewrite digits_part_length; lia). rewrite digits_part_length.
      replace (d * dim + k - d * dim)%nat with k by lia. rewrite nth_map_seq; auto.
Qed.

Lemma tz_inverse_map_map ordering b d dim Xcdf Xicdf Ycdf Yicdf SX SY x : (ordering = 1 \/ ordering = 2)%nat -> (1 <= b)%nat ->
  (forall k, (k < dim)%nat -> cdf_on (SX k) (Xcdf k) (Xicdf k) /\ icdf_on (SY k) (Ycdf k) (Yicdf k)) ->
  length x = dim -> (forall k, (k < dim)%nat -> SX k (nth k x 0)) ->
  exists z, tz_map ordering b d dim Xcdf Yicdf x = Some z /\ tz_inverse_map ordering b d dim Ycdf Xicdf z = Some x.
Proof.
  intros Ho Hb HS Hx HX.
  destruct (tz_map_spec ordering b d dim Xcdf Yicdf x Ho Hb Hx) as [z [D [y [E [Lz H]]]]].
  { intros k Hk. apply HS; auto. }
  exists z. split; auto. rewrite (tz_inverse_eq ordering b d dim Ycdf Xicdf z D); auto.
  2:{ intros k Hk. destruct (H k Hk) as [? [? [? _]]]. auto. }
  f_equal. apply (nth_ext' 0); [rewrite map_length, seq_length; auto|].
  rewrite map_length, seq_length. intros k Hk. rewrite nth_map_seq by auto. cbn [Nat.add].
  destruct (H k Hk) as [_ [_ [_ [H1 [H2 [H3 [H4 _]]]]]]]. destruct (HS k Hk) as [HSx HSy].
  destruct (HSx _ (HX k Hk)) as [? ?].
  rewrite H1. destruct (HSy (y k)) as [_ ->]; [lra|]. rewrite <- H2. auto.
Qed.

Lemma tz_map_inverse_map ordering b d dim Xcdf Xicdf Ycdf Yicdf SX SY z D : (ordering = 1 \/ ordering = 2)%nat -> (1 <= b)%nat ->
  (forall k, (k < dim)%nat -> icdf_on (SX k) (Xcdf k) (Xicdf k) /\ cdf_on (SY k) (Ycdf k) (Yicdf k)) ->
  length z = (d * dim + dim)%nat ->
  (forall k, (k < dim)%nat -> length (D k) = d /\ Forall (fun c => (c < b)%nat) (D k) /\
     forall l, (l < d)%nat -> nth (digit_col ordering d dim k l) z 0 = INR (nth l (D k) 0%nat)) ->
  (forall k, (k < dim)%nat -> SY k (nth (d * dim + k) z 0) /\ Ycdf k (nth (d * dim + k) z 0) < 1) ->
  exists x, tz_inverse_map ordering b d dim Ycdf Xicdf z = Some x /\ length x = dim /\
    (forall k, (k < dim)%nat -> SX k (nth k x 0)) /\ tz_map ordering b d dim Xcdf Yicdf x = Some z.
Proof.
  intros Ho Hb HS Lz HD HY.
  rewrite (tz_inverse_eq ordering b d dim Ycdf Xicdf z D Ho Lz HD).
  eexists. split; [reflexivity|]. split; [rewrite map_length, seq_length; auto|].
  set (u := fun k => (INR (digits_value b (D k)) + Ycdf k (nth (d * dim + k) z 0)) / INR (b ^ d)).
  assert (Hu : forall k, (k < dim)%nat -> 0 <= u k <= 1).
  { intros k Hk. destruct (HS k Hk) as [_ HSy]. destruct (HY k Hk) as [Y1 Y2]. destruct (HSy _ Y1) as [Y3 _].
    destruct (HD k Hk) as [D1 [D2 _]]. pose proof (digits_value_lt b (D k) D2) as L. rewrite D1 in L.
    assert (HB := pow_pos_R b d Hb). unfold u. assert (INR (digits_value b (D k)) + 1 <= INR (b ^ d)).
    { rewrite <- S_INR. apply le_INR. lia. }
    pose proof (pos_INR (digits_value b (D k))). 
    split; [apply Rmult_le_pos; [lra|left; apply Rinv_0_lt_compat; lra]|].
    apply (Rmult_le_reg_r (INR (b ^ d))); auto. unfold Rdiv. rewrite Rmult_assoc, Rinv_l by lra. lra. }
  split.
  - intros k Hk. rewrite nth_map_seq by auto. cbn [Nat.add]. destruct (HS k Hk) as [HSx _]. apply HSx. apply Hu; auto.
  - rewrite (tz_map_eq ordering b d dim Xcdf Yicdf _ D (fun k => Ycdf k (nth (d * dim + k) z 0))); auto.
    2:{ rewrite map_length, seq_length; auto. }
    2:{ intros k Hk. rewrite nth_map_seq by auto. cbn [Nat.add]. destruct (HS k Hk) as [HSx HSy].
        destruct (HSx (u k) (Hu k Hk)) as [_ E]. fold (u k). rewrite E. unfold u. destruct (HD k Hk) as [D1 [D2 _]].
        split; auto. rewrite <- D1. apply u2z_inv; auto. left. destruct (HY k Hk) as [Y1 Y2]. rewrite D1. destruct (HSy _ Y1). lra. }
    f_equal. transitivity (firstn (d * dim) z ++ skipn (d * dim) z); [|apply firstn_skipn]. f_equal.
    + apply (digits_part_unique ordering d dim); auto.
      * apply digits_part_length.
      * rewrite firstn_length. lia.
      * intros k l Hk Hl. rewrite digits_part_nth by auto. destruct (HD k Hk) as [_ [_ D3]].
        rewrite <- D3 by auto. pose proof (digit_col_lt ordering d dim k l Hk Hl).
        rewrite <- (firstn_skipn (d * dim) z) at 1. rewrite app_nth1; auto. rewrite firstn_length. lia.
    + apply (nth_ext' 0); [rewrite map_length, seq_length, skipn_length; lia|].
      rewrite map_length, seq_length. intros k Hk. rewrite nth_map_seq by auto. cbn [Nat.add].
      destruct (HS k Hk) as [_ HSy]. destruct (HY k Hk) as [Y1 _]. destruct (HSy _ Y1) as [_ ->].
      rewrite <- (firstn_skipn (d * dim) z) at 1. rewrite app_nth2 by (rewrite firstn_length; lia).
      f_equal. rewrite firstn_length. lia.
Qed.

Lemma tensorized_eval_ok {V} ordering b d dim Xcdf Xicdf Ycdf Yicdf SX SY (f : list R -> V) x :
  (ordering = 1 \/ ordering = 2)%nat -> (1 <= b)%nat ->
  (forall k, (k < dim)%nat -> cdf_on (SX k) (Xcdf k) (Xicdf k) /\ icdf_on (SY k) (Ycdf k) (Yicdf k)) ->
  length x = dim -> (forall k, (k < dim)%nat -> SX k (nth k x 0)) ->
  tensorized_eval ordering b d dim Xcdf Xicdf Ycdf Yicdf f x = Some (f x).
Proof.
  intros Ho Hb HS Hx HX. unfold tensorized_eval. rewrite Hx, Nat.eqb_refl.
  destruct (tz_inverse_map_map ordering b d dim Xcdf Xicdf Ycdf Yicdf SX SY x Ho Hb HS Hx HX) as [z [-> ->]]. auto.
Qed.

Lemma unif_ok a b : a < b -> cdf_on (fun x => a <= x <= b) (unif_cdf a b) (unif_icdf a b) /\
  icdf_on (fun x => a <= x <= b) (unif_cdf a b) (unif_icdf a b).
Proof.
  intros H. split.
  - intros x [H1 H2]. unfold unif_cdf, unif_icdf. destruct (Rle_dec x a); [split; [lra|]; lra|].
    destruct (Rle_dec b x); [split; [lra|]; lra|]. split; [|field; lra].
    split; [apply Rmult_le_pos; [lra|left; apply Rinv_0_lt_compat; lra]|].
    apply (Rmult_le_reg_r (b - a)); [lra|]. unfold Rdiv. rewrite Rmult_assoc, Rinv_l by lra. lra.
  - intros u [H1 H2]. unfold unif_cdf, unif_icdf.
    assert (0 <= u * (b - a)) by (apply Rmult_le_pos; lra).
    assert (u * (b - a) <= 1 * (b - a)) by (apply Rmult_le_compat_r; lra).
    split; [lra|].
    destruct (Rle_dec (a + u * (b - a)) a).
    + destruct (Req_dec u 0); [lra|]. assert (0 < u * (b - a)) by (apply Rmult_lt_0_compat; lra). lra.
    + destruct (Rle_dec b (a + u * (b - a))); [|field; lra].
      assert (0 = (1 - u) * (b - a)) by lra. symmetry in H4. apply Rmult_integral in H4. lra.
Qed.
