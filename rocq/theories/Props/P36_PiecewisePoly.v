(** Property C73: the piecewise polynomial basis (approximation/bases/piecewise_polynomial_functional_basis.py): location of
    the points, values of the functions, and orthonormality for the measure of the basis (Lebesgue on [a, b]). *)
From Coq Require Import List Arith Bool Reals Lia Lra.
From Coquelicot Require Import Coquelicot.
From Verif.Base Require Import ListAux CRing Index RealAux.
From Verif.Model Require Import PiecewisePoly.
Import ListNotations.
Local Open Scope R_scope.

(** at least two knots, strictly increasing, and one degree for each of the intervals *)
Definition mesh (pts : list R) (p : list nat) : Prop :=
  length pts = S (length p) /\ (0 < length p)%nat /\ forall i, (i < length p)%nat -> pt pts i < pt pts (S i).
(** the polynomials of degrees at most m are orthonormal on [0, 1] *)
Definition orthonormal01 (pol : nat -> R -> R) (m : nat) : Prop :=
  forall k l, (k <= m)%nat -> (l <= m)%nat -> is_RInt (fun u => pol k u * pol l u) 0 1 (if (k =? l)%nat then 1 else 0).

Lemma mesh_le pts p : mesh pts p -> forall i j, (i <= j)%nat -> (j <= length p)%nat -> pt pts i <= pt pts j.
Proof.
  intros (HL & H0 & HM) i j Hij. induction Hij as [|j Hij IH]; intros Hj; [lra|]. specialize (HM j ltac:(lia)). specialize (IH ltac:(lia)). lra.
Qed.
Lemma last_pt pts p : mesh pts p -> last pts 0 = pt pts (length p).
Proof.
  intros (HL & H0 & HM). unfold pt. replace (length p) with (length pts - 1)%nat by lia. clear -HL. assert (pts <> []) by (destruct pts; [discriminate|congruence]). clear HL.
  induction pts as [|a l IH]; [congruence|]. destruct l as [|b l]; [reflexivity|]. change (last (a :: b :: l) 0) with (last (b :: l) 0). rewrite IH by congruence. cbn [length]. replace (S (S (length l)) - 1)%nat with (S (S (length l) - 1))%nat by lia. reflexivity.
Qed.
Lemma fold_pos pts x i m : (i < m)%nat -> pt pts i <= x -> x < pt pts (S i) -> (forall j, (i < j)%nat -> (j < m)%nat -> x < pt pts j) ->
  fold_left (fun pos i => if Rle_dec (pt pts i) x then if Rlt_dec x (pt pts (S i)) then i else pos else pos) (seq 0 m) 0%nat = i.
Proof.
  induction m as [|m IH]; intros Hi H1 H2 H3; [lia|]. rewrite seq_S, fold_left_app. rewrite Nat.add_0_l. cbn [fold_left]. destruct (Nat.eq_dec i m) as [<-|Hne].
  - destruct (Rle_dec (pt pts i) x); [|lra]. destruct (Rlt_dec x (pt pts (S i))); [reflexivity|lra].
  - specialize (H3 m) as H4. destruct (Rle_dec (pt pts m) x) as [L|L]; [specialize (H4 ltac:(lia) ltac:(lia)); lra|]. apply IH; auto. lia.
Qed.
(** element_number: the interval that contains x; the first one on the left of the knots and the last one on their right *)
Theorem c73_element_number : forall pts p x, mesh pts p ->
  (forall i, (i < length p)%nat -> pt pts i <= x < pt pts (S i) -> pw_pos pts x = i) /\
  (x < pt pts 0 -> pw_pos pts x = 0%nat) /\ (pt pts (length p) <= x -> pw_pos pts x = (length p - 1)%nat).
Proof.
  intros pts p x HM. pose proof (mesh_le pts p HM) as ML. pose proof (last_pt pts p HM) as HLa. destruct HM as (HL & H0 & HM).
  assert (En : (length pts - 1)%nat = length p) by lia. unfold pw_pos. rewrite En, HLa. split; [|split].
  - intros i Hi [H1 H2]. pose proof (ML 0%nat i ltac:(lia) ltac:(lia)). pose proof (ML (S i) (length p) ltac:(lia) ltac:(lia)).
    destruct (Rlt_dec x (pt pts 0)); [lra|]. destruct (Rle_dec (pt pts (length p)) x); [lra|]. apply fold_pos; auto.
    intros j Hj Hj2. pose proof (ML (S i) j ltac:(lia) ltac:(lia)). lra.
  - intros H. destruct (Rlt_dec x (pt pts 0)); [reflexivity|lra].
  - intros H. pose proof (ML 0%nat (length p) ltac:(lia) ltac:(lia)). destruct (Rlt_dec x (pt pts 0)); [lra|]. destruct (Rle_dec (pt pts (length p)) x); [reflexivity|lra].
Qed.
Print Assumptions c73_element_number.

Lemma offset_S p i : (i < length p)%nat -> pw_offset p (S i) = (pw_offset p i + S (nth i p 0))%nat.
Proof.
  unfold pw_offset. revert i. induction p as [|a p IH]; intros i Hi; cbn in Hi; [lia|]. destruct i as [|i]; [cbn; lia|].
  change (firstn (S (S i)) (a :: p)) with (a :: firstn (S i) p). change (firstn (S i) (a :: p)) with (a :: firstn i p). cbn [map list_sum fold_right nth]. fold (list_sum (map S (firstn (S i) p))). fold (list_sum (map S (firstn i p))).
  specialize (IH i ltac:(lia)). unfold list_sum in *. cbn [fold_right]. lia.
Qed.
Lemma offset_mono p i j : (i <= j)%nat -> (j <= length p)%nat -> (pw_offset p i <= pw_offset p j)%nat.
Proof. intros Hij. induction Hij as [|j Hij IH]; intros Hj; [lia|]. rewrite offset_S by lia. specialize (IH ltac:(lia)). lia. Qed.
Definition inb (p : list nat) (i c : nat) : bool := (pw_offset p i <=? c)%nat && (c <=? pw_offset p i + nth i p 0)%nat.
Lemma inb_true p i c : inb p i c = true <-> (pw_offset p i <= c <= pw_offset p i + nth i p 0)%nat.
Proof. unfold inb. rewrite andb_true_iff, !Nat.leb_le. tauto. Qed.
Lemma block_ex p c : (c < pw_card p)%nat -> exists i, (i < length p)%nat /\ inb p i c = true.
Proof.
  unfold pw_card. intros H. assert (G : forall m, (m <= length p)%nat -> (c < pw_offset p m)%nat -> exists i, (i < m)%nat /\ inb p i c = true).
  { induction m as [|m IH]; intros Hm Hc; [unfold pw_offset in Hc; cbn in Hc; lia|]. rewrite offset_S in Hc by lia. destruct (Nat.ltb_spec c (pw_offset p m)) as [L|L].
    - destruct (IH ltac:(lia) L) as (i & Hi & B). exists i. split; [lia|auto].
    - exists m. split; [lia|]. apply inb_true. lia. }
  apply (G (length p)); auto.
Qed.
Lemma block_un p i j c : (i < length p)%nat -> (j < length p)%nat -> inb p i c = true -> inb p j c = true -> i = j.
Proof.
  intros Hi Hj. rewrite !inb_true. intros H1 H2. destruct (Nat.lt_trichotomy i j) as [L|[E|L]]; auto; exfalso.
  - pose proof (offset_mono p (S i) j ltac:(lia) ltac:(lia)) as M. rewrite offset_S in M by lia. lia.
  - pose proof (offset_mono p (S j) i ltac:(lia) ltac:(lia)) as M. rewrite offset_S in M by lia. lia.
Qed.
(** values: on the interval number i the function of column pw_offset p i + k, for k at most the degree p_i, is the k-th
    polynomial rescaled; the functions of the other columns vanish.  The columns of the intervals are disjoint and cover all *)
Theorem c73_values : forall pol pts p x i, mesh pts p -> (i < length p)%nat -> pt pts i <= x < pt pts (S i) ->
  let h := pt pts (S i) - pt pts i in
  (forall k, (k <= nth i p 0)%nat -> pw_at pol pts p x (pw_offset p i + k)%nat = pol k ((x - pt pts i) / h) / sqrt h) /\
  (forall j l, (j < length p)%nat -> j <> i -> (l <= nth j p 0)%nat -> pw_at pol pts p x (pw_offset p j + l)%nat = 0) /\
  (forall c, (c < pw_card p)%nat -> exists j l, (j < length p)%nat /\ (l <= nth j p 0)%nat /\ c = (pw_offset p j + l)%nat).
Proof.
  intros pol pts p x i HM Hi Hx h. destruct (c73_element_number pts p x HM) as [HP _]. specialize (HP i Hi Hx). unfold pw_at. rewrite HP. fold h. split; [|split].
  - intros k Hk. assert (E : inb p i (pw_offset p i + k) = true) by (apply inb_true; lia). unfold inb in E. rewrite E. f_equal. f_equal. lia.
  - intros j l Hj Hne Hl. destruct ((pw_offset p i <=? pw_offset p j + l)%nat && (pw_offset p j + l <=? pw_offset p i + nth i p 0)%nat) eqn:E; [|reflexivity].
    exfalso. apply Hne. apply (block_un p j i (pw_offset p j + l)%nat); auto. apply inb_true. lia.
  - intros c Hc. destruct (block_ex p c Hc) as (j & Hj & B). apply inb_true in B. exists j, (c - pw_offset p j)%nat. split; [auto|]. split; lia.
Qed.
Print Assumptions c73_values.

Section O.
  Variables (pol : nat -> R -> R) (pts : list R) (p : list nat).
  Hypothesis HM : mesh pts p.
  Hypothesis HO : orthonormal01 pol (list_max p).
  Notation F c d := (fun x => pw_at pol pts p x c * pw_at pol pts p x d).
  Lemma on_element c d i : (i < length p)%nat ->
    is_RInt (F c d) (pt pts i) (pt pts (S i)) (if inb p i c && inb p i d then if (c =? d)%nat then 1 else 0 else 0).
  Proof.
    intros Hi. destruct (HM) as (HL & H0 & Hm). specialize (Hm i Hi). set (a := pt pts i) in *. set (b := pt pts (S i)) in *. set (h := b - a). set (o := pw_offset p i).
    assert (HV : forall x e, a < x < b -> pw_at pol pts p x e = if inb p i e then pol (e - o)%nat ((x - a) / h) / sqrt h else 0).
    { intros x e Hx. destruct (c73_element_number pts p x HM) as [HP _]. specialize (HP i Hi ltac:(fold a b; lra)). unfold pw_at. rewrite HP. reflexivity. }
    assert (Hz : is_RInt (fun _ => 0) a b 0). { pose proof (@is_RInt_const R_NormedModule a b 0) as HK. change (scal (b - a) 0) with ((b - a) * 0) in HK. rewrite Rmult_0_r in HK. exact HK. }
    destruct (inb p i c) eqn:Ec; cbn [andb].
    2:{ apply (is_RInt_ext (fun _ => 0)); [|exact Hz]. intros x Hx. rewrite Rmin_left, Rmax_right in Hx by lra. rewrite (HV x c Hx), Ec. symmetry. apply Rmult_0_l. }
    destruct (inb p i d) eqn:Ed.
    2:{ apply (is_RInt_ext (fun _ => 0)); [|exact Hz]. intros x Hx. rewrite Rmin_left, Rmax_right in Hx by lra. rewrite (HV x d Hx), Ed. symmetry. apply Rmult_0_r. }
    apply inb_true in Ec as Bc. apply inb_true in Ed as Bd. fold o in Bc, Bd.
    assert (Hmax : (nth i p 0 <= list_max p)%nat). { pose proof (proj1 (list_max_le p (list_max p)) (Nat.le_refl _)) as FA. rewrite Forall_forall in FA. apply FA. apply nth_In. auto. }
    pose proof (HO (c - o)%nat (d - o)%nat ltac:(lia) ltac:(lia)) as HI.
    replace (c - o =? d - o)%nat with (c =? d)%nat in HI by (destruct (Nat.eqb_spec c d); destruct (Nat.eqb_spec (c - o) (d - o)); auto; lia).
    set (g := fun u => pol (c - o)%nat u * pol (d - o)%nat u) in *.
    pose proof (@is_RInt_comp_lin R_NormedModule g (/ h) (- a / h) a b (if (c =? d)%nat then 1 else 0)) as HC.
    replace (/ h * a + - a / h) with 0 in HC by (unfold h; field; unfold h; lra). replace (/ h * b + - a / h) with 1 in HC by (unfold h; field; lra).
    specialize (HC HI). refine (is_RInt_ext _ _ _ _ _ _ HC). intros x Hx. rewrite Rmin_left, Rmax_right in Hx by lra. rewrite (HV x c Hx), (HV x d Hx), Ec, Ed.
    unfold scal; cbn; unfold mult; cbn. unfold g. replace (/ h * x + - a / h) with ((x - a) / h) by (unfold h; field; lra).
    assert (Hh : 0 < h) by (unfold h; lra). assert (Hs : sqrt h * sqrt h = h) by (apply sqrt_sqrt; lra). assert (0 < sqrt h) by (apply sqrt_lt_R0; auto).
    rewrite <- Hs at 1. field. lra.
  Qed.
  Lemma up_to c d m : (m <= length p)%nat -> is_RInt (F c d) (pt pts 0) (pt pts m) (rsum m (fun i => if inb p i c && inb p i d then if (c =? d)%nat then 1 else 0 else 0)).
  Proof.
    induction m as [|m IH]; intros Hle.
    - cbn [rsum]. exact (@is_RInt_point R_NormedModule (F c d) (pt pts 0)).
    - cbn [rsum]. exact (@is_RInt_Chasles R_NormedModule (F c d) (pt pts 0) (pt pts m) (pt pts (S m)) _ _ (IH ltac:(lia)) (on_element c d m ltac:(lia))).
  Qed.
End O.
(** the functions of the basis are orthonormal for the Lebesgue measure on [a, b] *)
Theorem c73_orthonormal : forall pol pts p, mesh pts p -> orthonormal01 pol (list_max p) ->
  forall c d, (c < pw_card p)%nat -> (d < pw_card p)%nat ->
  is_RInt (fun x => pw_at pol pts p x c * pw_at pol pts p x d) (pt pts 0) (pt pts (length p)) (if (c =? d)%nat then 1 else 0).
Proof.
  intros pol pts p HM HO c d Hc Hd. pose proof (up_to pol pts p HM HO c d (length p) (Nat.le_refl _)) as H.
  assert (E0 : rsum (length p) (fun i => if inb p i c && inb p i d then if (c =? d)%nat then 1 else 0 else 0) = (if (c =? d)%nat then 1 else 0)); [|rewrite E0 in H; exact H].
  destruct (block_ex p c Hc) as (i & Hi & B). destruct (Nat.eqb_spec c d) as [<-|Hne].
  - rewrite (rsum_single (R := R) _ i); auto.
    + rewrite B. reflexivity.
    + intros j Hj Hji. destruct (inb p j c) eqn:E; [|reflexivity]. exfalso. apply Hji. apply (block_un p j i c); auto.
  - assert (Z0 : forall m (f : nat -> R), (forall j, (j < m)%nat -> f j = 0) -> rsum m f = 0).
    { induction m as [|m IH]; intros f Hf; cbn [rsum]; [reflexivity|]. rewrite IH by (intros; apply Hf; lia). rewrite Hf by lia. apply Rplus_0_l. }
    apply Z0. intros j Hj. destruct (inb p j c && inb p j d); reflexivity.
Qed.
Print Assumptions c73_orthonormal.
(** ... and not, as documented in the class, for the uniform probability measure on (a, b): the squares of the functions
    have the integrals 1 / (b - a) for it *)
Theorem c73_documented_measure_refuted : forall pol pts p, mesh pts p -> orthonormal01 pol (list_max p) -> pt pts (length p) - pt pts 0 <> 1 ->
  forall c, (c < pw_card p)%nat ->
  ~ is_RInt (fun x => 1 / (pt pts (length p) - pt pts 0) * (pw_at pol pts p x c * pw_at pol pts p x c)) (pt pts 0) (pt pts (length p)) 1.
Proof.
  intros pol pts p HM HO Hne c Hc H. pose proof (c73_orthonormal pol pts p HM HO c c Hc Hc) as H1. rewrite Nat.eqb_refl in H1. set (L := pt pts (length p) - pt pts 0) in *.
  pose proof (@is_RInt_scal R_NormedModule _ _ _ (1 / L) _ H1) as H2.
  pose proof (@is_RInt_unique R_CompleteNormedModule _ _ _ _ H) as E1. pose proof (@is_RInt_unique R_CompleteNormedModule _ _ _ _ H2) as E2.
  assert (E : 1 = 1 / L * 1) by exact (eq_trans (eq_sym E1) E2). assert (HL : L <> 0).
  { unfold L. pose proof (mesh_le pts p HM 1 (length p)) as M. destruct HM as (_ & H0 & Hm). specialize (Hm 0%nat H0). specialize (M ltac:(lia) ltac:(lia)). lra. }
  apply Hne. apply (Rmult_eq_reg_l (1 / L)); [|unfold Rdiv; rewrite Rmult_1_l; apply Rinv_neq_0_compat; auto]. replace (1 / L * L) with 1 by (field; auto). lra.
Qed.
Print Assumptions c73_documented_measure_refuted.

(** example: degree 0 on [0, 1] and [1, 3]; the orthonormal polynomial of degree 0 is 1 *)
Example c73_ex : mesh [0; 1; 3] [0%nat; 0%nat] /\ orthonormal01 (fun _ _ => 1) 0 /\ pw_pos [0; 1; 3] 2 = 1%nat.
Proof.
  assert (M : mesh [0; 1; 3] [0%nat; 0%nat]). { split; [reflexivity|]. split; [cbn; lia|]. intros [|[|i]] Hi; cbn; try lra. cbn in Hi. lia. }
  split; [exact M|]. split.
  - intros k l Hk Hl. assert (k = 0%nat) by lia. assert (l = 0%nat) by lia. subst. cbn [Nat.eqb]. pose proof (@is_RInt_const R_NormedModule 0 1 (1 * 1)) as HK.
    change (scal (1 - 0) (1 * 1)) with ((1 - 0) * (1 * 1)) in HK. replace ((1 - 0) * (1 * 1)) with 1 in HK by ring. exact HK.
  - apply (proj1 (c73_element_number _ _ 2 M)); cbn; [lia|lra].
Qed.
