(** Magic indices and interpolation. *)
From Coq Require Import List Arith Lia Reals Lra Bool Permutation.
From Verif.Base Require Import ListAux CRing Index RealAux LinAlg.
From Verif.Model Require Import Measures Learning DensityL2 MagicIndices.
From Verif.Spec Require Import LearningSpec MagicSpec.
From Verif.Proofs Require Import MeasuresP LearningP DensityP.
Import ListNotations.
Local Open Scope R_scope.

(** ** cross approximation *)
Section Cross.
Variables (m p : nat) (F : nat -> nat -> R).
Lemma cross_rows Is J G : cross_approximation m p F Is J G -> (forall i, In i Is -> (i < m)%nat) -> forall i b, In i Is -> (b < p)%nat -> G i b = F i b.
Proof. intros (X & HX & HG) HI i b Hi Hb. destruct (In_nth Is i 0%nat Hi) as (k & Hk & <-). rewrite HG by (auto; apply HI, nth_In; auto). apply HX; auto. Qed.
Lemma cross_cols Is J G : sub_nonsingular F Is J -> cross_approximation m p F Is J G -> (forall j, In j J -> (j < p)%nat) -> forall a j, (a < m)%nat -> In j J -> G a j = F a j.
Proof.
  intros [HL HN] (X & HX & HG) HJ a j Ha Hj. destruct (In_nth J j 0%nat Hj) as (q & Hq & <-). assert (Hb : (nth q J 0 < p)%nat) by (apply HJ, nth_In; auto).
  rewrite HG by auto. set (e := fun l => if (l =? q)%nat then 1 else 0).
  assert (E : forall l, (l < length J)%nat -> X l (nth q J 0%nat) = e l).
  { assert (E : forall l, (l < length J)%nat -> (fun l => X l (nth q J 0%nat) - e l) l = 0); [|intros l Hl; specialize (E l Hl); cbn beta in E; lra].
    apply HN. intros k Hk. rewrite (rsum_ext_R' _ _ (fun l => F (nth k Is 0%nat) (nth l J 0%nat) * X l (nth q J 0%nat) - F (nth k Is 0%nat) (nth l J 0%nat) * e l)) by (intros; ring).
    rewrite rsum_minus_R, HX by auto. rewrite (rsum_ext_R' _ (fun l => _ * e l) (fun l => if (l =? q)%nat then F (nth k Is 0%nat) (nth l J 0%nat) else 0)) by (intros l _; unfold e; destruct (l =? q)%nat; ring).
    rewrite (rsum_delta_R _ q (fun l => F (nth k Is 0%nat) (nth l J 0%nat)) Hq). ring. }
  rewrite (rsum_ext_R' _ _ (fun l => if (l =? q)%nat then F a (nth l J 0%nat) else 0)) by (intros l Hl; rewrite E by auto; unfold e; destruct (l =? q)%nat; ring).
  exact (rsum_delta_R _ q (fun l => F a (nth l J 0%nat)) Hq).
Qed.
Lemma cross_unique Is J G G' : sub_nonsingular F Is J -> cross_approximation m p F Is J G -> cross_approximation m p F Is J G' -> forall a b, (a < m)%nat -> (b < p)%nat -> G a b = G' a b.
Proof.
  intros [HL HN] (X & HX & HG) (X' & HX' & HG') a b Ha Hb. rewrite HG, HG' by auto. apply rsum_ext_R'. intros l Hl. f_equal.
  assert (E : forall l, (l < length J)%nat -> (fun l => X l b - X' l b) l = 0); [|specialize (E l Hl); cbn beta in E; lra].
  apply HN. intros k Hk. rewrite (rsum_ext_R' _ _ (fun l => F (nth k Is 0%nat) (nth l J 0%nat) * X l b - F (nth k Is 0%nat) (nth l J 0%nat) * X' l b)) by (intros; ring).
  rewrite rsum_minus_R, HX, HX' by auto. ring.
Qed.
Lemma cross_nil : cross_approximation m p F [] [] (fun _ _ => 0).
Proof. exists (fun _ _ => 0). split; intros; cbn in *; [lia|auto]. Qed.
Lemma nonsingular_nil : sub_nonsingular F [] [].
Proof. split; auto. intros; cbn in *; lia. Qed.
Lemma nth_snoc {A} (l : list A) x k d : (k < length l)%nat -> nth k (l ++ [x]) d = nth k l d.
Proof. intros; apply app_nth1; auto. Qed.
Lemma nth_snoc_last {A} (l : list A) x d : nth (length l) (l ++ [x]) d = x.
Proof. rewrite app_nth2, Nat.sub_diag; auto. Qed.
Lemma extend Is J G i j : sub_nonsingular F Is J -> cross_approximation m p F Is J G -> (i < m)%nat -> (j < p)%nat -> F i j <> G i j -> sub_nonsingular F (Is ++ [i]) (J ++ [j]).
Proof.
  intros [HL HN] (X & HX & HG) Hi Hj Hne. split; [rewrite !app_length; cbn; lia|]. intros c Hc.
  replace (length (Is ++ [i])) with (S (length J)) in Hc by (rewrite app_length; cbn; lia). replace (length (J ++ [j])) with (S (length J)) in * by (rewrite app_length; cbn; lia).
  set (k := length J) in *.
  assert (ES : forall a, rsum (S k) (fun l => F a (nth l (J ++ [j]) 0%nat) * c l) = rsum k (fun l => F a (nth l J 0%nat) * c l) + F a j * c k).
  { intros a. rewrite rsum_S_R. f_equal; [apply rsum_ext_R'; intros l Hl; rewrite nth_snoc by auto; auto|]. unfold k. rewrite nth_snoc_last. auto. }
  assert (E1 : forall l, (l < k)%nat -> c l = - c k * X l j).
  { assert (E : forall l, (l < k)%nat -> (fun l => c l + c k * X l j) l = 0); [|intros l Hl; specialize (E l Hl); cbn beta in E; lra].
    apply HN. intros q Hq. assert (H := Hc q ltac:(lia)). rewrite ES in H. rewrite nth_snoc in H by auto.
    rewrite (rsum_ext_R' _ _ (fun l => F (nth q Is 0%nat) (nth l J 0%nat) * c l + c k * (F (nth q Is 0%nat) (nth l J 0%nat) * X l j))) by (intros; ring).
    rewrite rsum_plus_R, rsum_scal_l_R. fold k. fold k in HX. rewrite HX by auto. lra. }
  assert (H := Hc k ltac:(lia)). rewrite ES in H. replace (nth k (Is ++ [i]) 0%nat) with i in H by (rewrite <- HL; symmetry; apply nth_snoc_last).
  rewrite (rsum_ext_R' k _ (fun l => - c k * (F i (nth l J 0%nat) * X l j))) in H by (intros l Hl; rewrite E1 by auto; ring).
  rewrite rsum_scal_l_R in H. fold k in HG. rewrite <- HG in H by auto.
  assert (Z : c k = 0). { assert (H' : c k * (F i j - G i j) = 0) by lra. apply Rmult_integral in H' as [|]; auto. exfalso. apply Hne. lra. }
  intros l Hl. destruct (Nat.eq_dec l k) as [->|]; auto. rewrite E1 by lia. rewrite Z. ring.
Qed.
Lemma cross_exists Is J : sub_nonsingular F Is J -> exists G, cross_approximation m p F Is J G.
Proof.
  intros [HL HN]. assert (HI : inj (length J) (length J) (fun k l => F (nth k Is 0%nat) (nth l J 0%nat))) by (intros x Hx; apply HN; rewrite HL; exact Hx).
  assert (HX : exists X, forall b, (b < p)%nat -> forall k, (k < length J)%nat -> mv (length J) (fun k l => F (nth k Is 0%nat) (nth l J 0%nat)) (fun l => X l b) k = F (nth k Is 0%nat) b).
  { clear HN. induction p as [|q IH].
    - exists (fun _ _ => 0). intros; lia.
    - destruct IH as [X HX]. destruct (inj_surj _ _ HI (fun k => F (nth k Is 0%nat) q)) as [x Hx]. exists (fun l b => if (b =? q)%nat then x l else X l b).
      intros b Hb k Hk. destruct (Nat.eqb_spec b q) as [->|]; [apply Hx; auto|]. apply HX; auto; lia. }
  destruct HX as [X HX]. exists (fun a b => rsum (length J) (fun l => F a (nth l J 0%nat) * X l b)), X. split; auto. intros k b Hk Hb. apply HX; auto. lia.
Qed.
(** the chosen indices are distinct *)
Lemma nonsingular_distinct_cols Is J : sub_nonsingular F Is J -> NoDup J.
Proof.
  intros [HL HN]. apply NoDup_nth with (d := 0%nat). intros a b Ha Hb E. destruct (Nat.eq_dec a b) as [|N]; auto. exfalso.
  assert (H := HN (fun l => (if (l =? a)%nat then 1 else 0) - (if (l =? b)%nat then 1 else 0))). assert (HZ : (fun l => (if (l =? a)%nat then 1 else 0) - (if (l =? b)%nat then 1 else 0)) a = 0).
  { apply H; auto. intros k Hk. rewrite (rsum_ext_R' _ _ (fun l => (if (l =? a)%nat then F (nth k Is 0%nat) (nth l J 0%nat) else 0) - (if (l =? b)%nat then F (nth k Is 0%nat) (nth l J 0%nat) else 0))) by (intros l _; destruct (l =? a)%nat, (l =? b)%nat; ring).
    rewrite rsum_minus_R. rewrite (rsum_delta_R _ a (fun l => F (nth k Is 0%nat) (nth l J 0%nat)) Ha), (rsum_delta_R _ b (fun l => F (nth k Is 0%nat) (nth l J 0%nat)) Hb), E. ring. }
  cbn beta in HZ. rewrite Nat.eqb_refl in HZ. destruct (Nat.eqb_spec a b); [auto|lra].
Qed.
End Cross.
Lemma nonsingular_tr F Is J : sub_nonsingular F Is J -> sub_nonsingular (fun a b => F b a) J Is.
Proof.
  intros [HL HN]. split; auto. assert (HI : inj (length J) (length J) (fun k l => F (nth k Is 0%nat) (nth l J 0%nat))) by (intros x Hx; apply HN; rewrite HL; exact Hx).
  apply inj_tr in HI. intros c Hc. rewrite HL. rewrite HL in Hc. apply HI. exact Hc.
Qed.
Lemma nonsingular_distinct F Is J : sub_nonsingular F Is J -> NoDup Is /\ NoDup J.
Proof. intros H. split; [apply (nonsingular_distinct_cols (fun a b => F b a) J Is), nonsingular_tr; auto|eapply nonsingular_distinct_cols; eauto]. Qed.

(** ** rank *)
Lemma rank_sub m p F r Is J : rank_le m p F r -> (forall i, In i Is -> (i < m)%nat) -> (forall j, In j J -> (j < p)%nat) -> sub_nonsingular F Is J -> (length J <= r)%nat.
Proof.
  intros (A & B & HAB) HI HJ [HL HN]. destruct (Nat.le_gt_cases (length J) r) as [|Hr]; auto. exfalso.
  destruct (dependent r (fun k i => B i (nth k J 0%nat))) as (c & (q & Hq & Hcq) & Hz).
  set (c' := fun l => if (l <=? r)%nat then c l else 0).
  assert (EX : forall f : nat -> R, rsum (length J) (fun l => f l * c' l) = rsum (S r) (fun l => f l * c l)).
  { intros f. replace (length J) with (S r + (length J - S r))%nat by lia. generalize (length J - S r)%nat. intros n. induction n as [|n IH].
    - rewrite Nat.add_0_r. apply rsum_ext_R'. intros i Hi. unfold c'. destruct (Nat.leb_spec i r); [auto|lia].
    - rewrite Nat.add_succ_r, rsum_S_R, IH. unfold c'. destruct (Nat.leb_spec (S r + n) r); [lia|ring]. }
  assert (Z : c' q = 0).
  { apply HN; [|lia]. intros k Hk. rewrite EX. rewrite (rsum_ext_R' _ _ (fun l => rsum r (fun i => A (nth k Is 0%nat) i * (c l * B i (nth l J 0%nat))))).
    - rewrite rsum_swap_R. rewrite (rsum_ext_R' r _ (fun _ => 0)); [apply rsum_const0|]. intros i Hi. rewrite rsum_scal_l_R, Hz by auto. ring.
    - intros l Hl. rewrite HAB by (try apply HI; try apply HJ; apply nth_In; lia). rewrite Rmult_comm, <- rsum_scal_l_R. apply rsum_ext_R'. intros; ring. }
  unfold c' in Z. destruct (Nat.leb_spec q r); [auto|lia].
Qed.
Lemma rank_mono m p F r s : (r <= s)%nat -> rank_le m p F r -> rank_le m p F s.
Proof.
  intros Hrs (A & B & HAB). exists (fun a k => if (k <? r)%nat then A a k else 0), B. intros a b Ha Hb. rewrite HAB by auto.
  replace s with (r + (s - r))%nat by lia. generalize (s - r)%nat. intros n. induction n as [|n IH].
  - rewrite Nat.add_0_r. apply rsum_ext_R'. intros i Hi. destruct (Nat.ltb_spec i r); [auto|lia].
  - rewrite Nat.add_succ_r, rsum_S_R, <- IH. destruct (Nat.ltb_spec (r + n) r); [lia|ring].
Qed.
Lemma cross_rank m p F Is J G : cross_approximation m p F Is J G -> rank_le m p G (length J).
Proof. intros (X & _ & HG). exists (fun a l => F a (nth l J 0%nat)), X. auto. Qed.
Lemma cross_exact m p F Is J G : rank_le m p F (length J) -> (forall i, In i Is -> (i < m)%nat) -> (forall j, In j J -> (j < p)%nat) -> sub_nonsingular F Is J ->
  cross_approximation m p F Is J G -> forall a b, (a < m)%nat -> (b < p)%nat -> G a b = F a b.
Proof.
  intros (A & B & HAB) HI HJ [HL HN] (X & HX & HG) a b Ha Hb. set (n := length J) in *.
  assert (HS : forall k l, (k < n)%nat -> (l < n)%nat -> F (nth k Is 0%nat) (nth l J 0%nat) = rsum n (fun q => A (nth k Is 0%nat) q * B q (nth l J 0%nat))).
  { intros k l Hk Hl. apply HAB; [apply HI|apply HJ]; apply nth_In; unfold n in *; lia. }
  assert (IM : inj n n (fun k l => rsum n (fun q => A (nth k Is 0%nat) q * B q (nth l J 0%nat)))).
  { intros x Hx. apply HN. intros k Hk. rewrite HL in Hk. rewrite <- (Hx k Hk). apply rsum_ext_R'. intros l Hl. rewrite HS by auto. auto. }
  (* A[I, :] is onto, hence injective *)
  assert (IA : inj n n (fun k q => A (nth k Is 0%nat) q)).
  { apply surj_inj. intros y. destruct (inj_surj _ _ IM y) as [x Hx]. exists (fun q => mv n (fun q l => B q (nth l J 0%nat)) x q). intros k Hk. rewrite <- (Hx k Hk). apply (mv_mv n n (fun k q => A (nth k Is 0%nat) q) (fun q l => B q (nth l J 0%nat))). }
  assert (EB : forall q, (q < n)%nat -> rsum n (fun l => B q (nth l J 0%nat) * X l b) = B q b).
  { assert (E : forall q, (q < n)%nat -> (fun q => rsum n (fun l => B q (nth l J 0%nat) * X l b) - B q b) q = 0); [|intros q Hq; specialize (E q Hq); cbn beta in E; lra].
    apply IA. intros k Hk. rewrite mv_minus. assert (HXk := HX k b ltac:(lia) Hb). rewrite HAB in HXk by (auto; apply HI, nth_In; lia).
    replace (mv n (fun k q => A (nth k Is 0%nat) q) (fun q => B q b) k) with (rsum n (fun q => A (nth k Is 0%nat) q * B q b)) by reflexivity. rewrite <- HXk.
    assert (HM := mv_mv n n (fun k q => A (nth k Is 0%nat) q) (fun q l => B q (nth l J 0%nat)) (fun l => X l b) k).
    unfold mv at 2 in HM. unfold mv at 1. unfold mv in HM. rewrite HM. rewrite (rsum_ext_R' n (fun j => rsum n _ * X j b) (fun l => F (nth k Is 0%nat) (nth l J 0%nat) * X l b)) by (intros l Hl; rewrite HS by auto; auto). ring. }
  rewrite HG, HAB by auto. rewrite (rsum_ext_R' n _ (fun l => rsum n (fun q => A a q * (B q (nth l J 0%nat) * X l b)))).
  - rewrite rsum_swap_R. apply rsum_ext_R'. intros q Hq. rewrite rsum_scal_l_R, EB by auto. auto.
  - intros l Hl. rewrite HAB by (auto; apply HJ, nth_In; unfold n in *; lia). rewrite Rmult_comm, <- rsum_scal_l_R. apply rsum_ext_R'. intros; ring.
Qed.

(** ** argmax *)
Lemma rargmax_spec l : l <> [] -> (rargmax l < length l)%nat /\ forall j, (j < length l)%nat -> nth j l 0 <= nth (rargmax l) l 0.
Proof.
  intros Hl. unfold rargmax. destruct (rargmin_spec (map Ropp l)) as [H1 H2]; [destruct l; cbn; congruence|]. rewrite map_length in *. split; auto.
  intros j Hj. specialize (H2 j Hj). replace 0 with (- 0) in H2 by ring. rewrite !map_nth in H2. lra.
Qed.
Lemma rargmax_seq n (f : nat -> R) : (0 < n)%nat -> (rargmax (map f (seq 0 n)) < n)%nat /\ forall b, (b < n)%nat -> f b <= f (rargmax (map f (seq 0 n))).
Proof.
  intros Hn. destruct (rargmax_spec (map f (seq 0 n))) as [H1 H2]; [destruct n; [lia|cbn; congruence]|]. rewrite map_length, seq_length in *. split; auto.
  intros b Hb. specialize (H2 b Hb). rewrite !nth_map_seq in H2 by auto. exact H2.
Qed.
Lemma rmax_seq n (f : nat -> R) : (0 < n)%nat -> (forall b, (b < n)%nat -> f b <= rmax_list (map f (seq 0 n))) /\ exists b, (b < n)%nat /\ rmax_list (map f (seq 0 n)) = f b.
Proof.
  intros Hn. destruct (rargmax_seq n f Hn) as [H1 H2]. unfold rmax_list. rewrite nth_map_seq by auto. cbn [Nat.add]. split; auto. eauto.
Qed.

Section Loop.
Variable L : lapack.
Hypothesis HL : lapack_ok L.
Lemma nonsingular_iff F Is J : nonsingular (submatrix F Is J) <-> sub_nonsingular (ment F) Is J.
Proof. unfold nonsingular, square, sub_nonsingular, inj, submatrix. cbn. split; intros [H1 H2]; split; auto. Qed.
Lemma cross_spec F Is J : match cross_matrix L F Is J with
  | Some G => mrows G = mrows F /\ mcols G = mcols F /\ sub_nonsingular (ment F) Is J /\ cross_approximation (mrows F) (mcols F) (ment F) Is J (ment G)
  | None => ~ sub_nonsingular (ment F) Is J
  end.
Proof.
  destruct HL as (_ & HS & _). unfold cross_matrix, solve_mat. set (M := submatrix F Is J). assert (H0 := HS M (fun r => ment (take_rows F Is) r 0%nat)).
  destruct (l_solve L M (fun r => ment (take_rows F Is) r 0%nat)) as [x0|].
  - destruct H0 as [HN _]. assert (HN' := proj1 (nonsingular_iff F Is J) HN). split; [auto|]. split; [auto|]. split; auto.
    exists (fun l b => match l_solve L M (fun r => ment (take_rows F Is) r b) with Some x => x l | None => 0 end). split.
    + intros k b Hk Hb. assert (H := HS M (fun r => ment (take_rows F Is) r b)). destruct (l_solve L M (fun r => ment (take_rows F Is) r b)) as [x|]; [|exfalso; exact (H HN)].
      destruct H as [_ H]. exact (H k Hk).
    + intros a b Ha Hb. reflexivity.
  - intros H. apply H0, nonsingular_iff; auto.
Qed.
Lemma worst_row_spec F G : match worst_row F G with
  | Some i => (i < mrows F)%nat /\ (0 < mcols F)%nat /\ exists b, (b < mcols F)%nat /\ forall a' b', (a' < mrows F)%nat -> (b' < mcols F)%nat -> Rabs (ment F a' b' - ment G a' b') <= Rabs (ment F i b - ment G i b)
  | None => mrows F = 0%nat \/ mcols F = 0%nat
  end.
Proof.
  unfold worst_row. destruct (Nat.eqb_spec (mrows F) 0) as [|Hm]; cbn [orb]; auto. destruct (Nat.eqb_spec (mcols F) 0) as [|Hp]; auto.
  set (g := fun a => rmax_list (map (fun b => Rabs (ment F a b - ment G a b)) (seq 0 (mcols F)))).
  destruct (rargmax_seq (mrows F) g ltac:(lia)) as [H1 H2]. set (i := rargmax (map g (seq 0 (mrows F)))) in *. split; auto. split; [lia|].
  destruct (rmax_seq (mcols F) (fun b => Rabs (ment F i b - ment G i b)) ltac:(lia)) as [_ (b & Hb & Eb)]. exists b. split; auto. intros a' b' Ha' Hb'.
  destruct (rmax_seq (mcols F) (fun b => Rabs (ment F a' b - ment G a' b)) ltac:(lia)) as [H3 _]. specialize (H3 b' Hb'). specialize (H2 a' Ha'). unfold g in H2. lra.
Qed.
Lemma worst_col_spec F G i : (0 < mcols F)%nat -> (worst_col F G i < mcols F)%nat /\ forall b, (b < mcols F)%nat -> Rabs (ment F i b - ment G i b) <= Rabs (ment F i (worst_col F G i) - ment G i (worst_col F G i)).
Proof. intros H. apply (rargmax_seq (mcols F) (fun b => Rabs (ment F i b - ment G i b)) H). Qed.

Definition state (F : mx) (Is J : list nat) (G : mx) : Prop :=
  sub_nonsingular (ment F) Is J /\ cross_approximation (mrows F) (mcols F) (ment F) Is J (ment G) /\ (forall i, In i Is -> (i < mrows F)%nat) /\ (forall j, In j J -> (j < mcols F)%nat).
Definition greedy_at (F : mx) (Is J : list nat) (k : nat) : Prop :=
  exists G, cross_approximation (mrows F) (mcols F) (ment F) (firstn k Is) (firstn k J) G /\ sub_nonsingular (ment F) (firstn k Is) (firstn k J) /\
    let i := nth k Is 0%nat in let j := nth k J 0%nat in
    0 < Rabs (ment F i j - G i j) /\
    forall a b, (a < mrows F)%nat -> (b < mcols F)%nat -> Rabs (ment F a b - G a b) <= Rabs (ment F i j - G i j).
Lemma in_snoc l i n : (forall x, In x l -> (x < n)%nat) -> (i < n)%nat -> forall x : nat, In x (l ++ [i]) -> (x < n)%nat.
Proof. intros H Hi x Hx. apply in_app_iff in Hx as [Hx|[<-|[]]]; auto. Qed.
Lemma state_len F Is J G : state F Is J G -> length Is = length J.
Proof. intros [[H _] _]. auto. Qed.
(** the residual vanishes at an entry of the last row and column iff the extended matrix is singular *)
Lemma extend_iff F Is J G i j : state F Is J G -> (i < mrows F)%nat -> (j < mcols F)%nat -> (sub_nonsingular (ment F) (Is ++ [i]) (J ++ [j]) <-> ment F i j <> ment G i j).
Proof.
  intros (H1 & H2 & H3 & H4) Hi Hj. split; [|eapply extend; eauto]. intros [HL2 HN2] E. destruct H2 as (X & HX & HG). assert (HLn : length Is = length J) by apply H1.
  set (k := length J) in *. set (c := fun l => if (l =? k)%nat then 1 else - X l j).
  assert (ES : forall a, rsum (S k) (fun l => ment F a (nth l (J ++ [j]) 0%nat) * c l) = ment F a j - rsum k (fun l => ment F a (nth l J 0%nat) * X l j)).
  { intros a. rewrite rsum_S_R. replace (nth k (J ++ [j]) 0%nat) with j by (symmetry; apply nth_snoc_last). unfold c at 2. rewrite Nat.eqb_refl.
    rewrite (rsum_ext_R' k _ (fun l => - (1) * (ment F a (nth l J 0%nat) * X l j))). 
    - rewrite rsum_scal_l_R. ring.
    - intros l Hl. rewrite nth_snoc by auto. unfold c. destruct (Nat.eqb_spec l k); [lia|ring]. }
  assert (Z : c k = 0).
  { apply HN2; [|rewrite app_length; cbn; unfold k; lia]. intros q Hq. replace (length (J ++ [j])) with (S k) by (rewrite app_length; cbn; unfold k; lia). rewrite ES.
    rewrite app_length in Hq. cbn in Hq. destruct (Nat.eq_dec q k) as [->|].
    - replace (nth k (Is ++ [i]) 0%nat) with i by (rewrite <- HLn; symmetry; apply nth_snoc_last). rewrite <- HG by auto. lra.
    - rewrite nth_snoc by lia. rewrite HX by (auto; lia). ring. }
  unfold c in Z. rewrite Nat.eqb_refl in Z. lra.
Qed.
Lemma loop_lr_spec F n : forall G Is J, state F Is J G ->
  match loop_left_right L F n G Is J with
  | Some (Is', J') => exists G' I2 J2, Is' = Is ++ I2 /\ J' = J ++ J2 /\ length I2 = n /\ state F Is' J' G' /\
      (forall k, (length Is <= k)%nat -> (k < length Is')%nat -> greedy_at F Is' J' k)
  | None => exists r, (length Is <= r)%nat /\ (r < length Is + n)%nat /\ rank_le (mrows F) (mcols F) (ment F) r
  end.
Proof.
  induction n as [|n IH]; intros G Is J HS; cbn [loop_left_right].
  - exists G, [], []. rewrite !app_nil_r. split; [auto|]. split; [auto|]. split; [auto|]. split; auto. intros; lia.
  - assert (HW := worst_row_spec F G). destruct (worst_row F G) as [i|].
    + destruct HW as (Hi & Hp & b0 & Hb0 & Hmax). destruct (worst_col_spec F G i Hp) as [Hj Hcol]. set (j := worst_col F G i) in *.
      assert (Hall : forall a b, (a < mrows F)%nat -> (b < mcols F)%nat -> Rabs (ment F a b - ment G a b) <= Rabs (ment F i j - ment G i j)).
      { intros a b Ha Hb. specialize (Hmax a b Ha Hb). specialize (Hcol b0 Hb0). lra. }
      assert (HC := cross_spec F (Is ++ [i]) (J ++ [j])). destruct (cross_matrix L F (Is ++ [i]) (J ++ [j])) as [G'|].
      * destruct HC as (_ & _ & N1 & N2). assert (HS' : state F (Is ++ [i]) (J ++ [j]) G').
        { destruct HS as (A1 & A2 & A3 & A4). split; auto. split; auto. split; apply in_snoc; auto. }
        assert (Hne : ment F i j <> ment G i j) by (apply (extend_iff F Is J G); auto).
        specialize (IH G' _ _ HS'). destruct (loop_left_right L F n G' (Is ++ [i]) (J ++ [j])) as [[Is' J']|].
        -- destruct IH as (G2 & I2 & J2 & EI & EJ & Ln & HS2 & HG). exists G2, (i :: I2), (j :: J2). rewrite <- !app_assoc in EI, EJ. cbn [app] in EI, EJ.
           split; [auto|]. split; [auto|]. split; [cbn; auto|]. split; [auto|]. intros k Hk1 Hk2. destruct (Nat.eq_dec k (length Is)) as [Ek|].
           ++ assert (LJ := state_len _ _ _ _ HS). exists (ment G). rewrite EI, EJ. rewrite Ek. rewrite firstn_app, firstn_all, Nat.sub_diag. cbn [firstn]. rewrite app_nil_r.
              replace (firstn (length Is) (J ++ j :: J2)) with J by (rewrite LJ, firstn_app, firstn_all, Nat.sub_diag; cbn [firstn]; rewrite app_nil_r; auto).
              destruct HS as (A1 & A2 & A3 & A4). split; [auto|]. split; [auto|]. cbv zeta.
              replace (nth (length Is) (Is ++ i :: I2) 0%nat) with i by (rewrite app_nth2, Nat.sub_diag; auto).
              replace (nth (length Is) (J ++ j :: J2) 0%nat) with j by (rewrite LJ, app_nth2, Nat.sub_diag; auto). split; auto.
              apply Rabs_pos_lt. lra.
           ++ apply HG; auto. rewrite app_length. cbn. lia.
        -- destruct IH as (r & H1 & H2 & H3). rewrite app_length in *. cbn in *. exists r. repeat split; auto; lia.
      * exists (length Is). split; [lia|]. split; [lia|].
        assert (EG : ment F i j = ment G i j). { destruct (Req_EM_T (ment F i j) (ment G i j)) as [|N]; auto. exfalso. apply HC. apply (extend_iff F Is J G); auto. }
        destruct HS as (A1 & A2 & A3 & A4). destruct (cross_rank _ _ _ _ _ _ A2) as (A & B & HAB). replace (length J) with (length Is) in HAB by apply A1.
        exists A, B. intros a b Ha Hb. rewrite <- HAB by auto. specialize (Hall a b Ha Hb). rewrite EG in Hall. replace (ment G i j - ment G i j) with 0 in Hall by ring. rewrite Rabs_R0 in Hall.
        assert (0 <= Rabs (ment F a b - ment G a b)) by apply Rabs_pos. destruct (Req_EM_T (ment F a b - ment G a b) 0) as [|N]; [lra|]. apply Rabs_pos_lt in N. lra.
    + exists (length Is). split; [lia|]. split; [lia|]. exists (fun _ _ => 0), (fun _ _ => 0). intros a b Ha Hb. lia.
Qed.
Lemma state_nil F : state F [] [] (zero_mx F).
Proof. split; [apply nonsingular_nil|]. split; [apply cross_nil|]. split; intros ? []. Qed.

(** ** option "left" *)
Definition greedy_left_at (F : mx) (Is : list nat) (k : nat) : Prop :=
  exists G, cross_approximation (mrows F) (mcols F) (ment F) (firstn k Is) (seq 0 k) G /\ sub_nonsingular (ment F) (firstn k Is) (seq 0 k) /\
    let i := nth k Is 0%nat in
    0 < Rabs (ment F i k - G i k) /\ forall a, (a < mrows F)%nat -> Rabs (ment F a k - G a k) <= Rabs (ment F i k - G i k).
Lemma loop_left_spec F n : forall k G Is, state F Is (seq 0 k) G ->
  match loop_left L F n k G Is (seq 0 k) with
  | Some (Is', J') => exists G' I2, Is' = Is ++ I2 /\ J' = seq 0 (k + n) /\ length I2 = n /\ state F Is' J' G' /\
      (forall q, (k <= q)%nat -> (q < k + n)%nat -> greedy_left_at F Is' q)
  | None => (mcols F < k + n)%nat \/ exists c l, (l < k + n)%nat /\ c l <> 0 /\ forall a, (a < mrows F)%nat -> rsum (k + n) (fun l => ment F a l * c l) = 0
  end.
Proof.
  induction n as [|n IH]; intros k G Is HS; cbn [loop_left].
  - exists G, []. rewrite app_nil_r, Nat.add_0_r. split; [auto|]. split; [auto|]. split; [auto|]. split; auto. intros; lia.
  - assert (HLn := state_len _ _ _ _ HS). rewrite seq_length in HLn. assert (HW := worst_row_spec (first_cols F (S k)) G). destruct (worst_row (first_cols F (S k)) G) as [i|].
    + destruct (Nat.leb_spec (mcols F) k) as [Hk|Hk]; [left; lia|]. cbn [first_cols mrows mcols ment] in HW. rewrite Nat.min_l in HW by lia. destruct HW as (Hi & _ & b0 & Hb0 & Hmax).
      assert (HZ : forall a b, (a < mrows F)%nat -> (b < k)%nat -> ment G a b = ment F a b).
      { destruct HS as (A1 & A2 & A3 & A4). intros a b Ha Hb. apply (cross_cols (mrows F) (mcols F) (ment F) Is (seq 0 k)); auto. apply in_seq. lia. }
      assert (Hall : forall a, (a < mrows F)%nat -> Rabs (ment F a k - ment G a k) <= Rabs (ment F i k - ment G i k)).
      { intros a Ha. specialize (Hmax a k Ha ltac:(lia)). destruct (Nat.eq_dec b0 k) as [->|]; auto. rewrite (HZ i b0) in Hmax by (auto; lia).
        replace (ment F i b0 - ment F i b0) with 0 in Hmax by ring. rewrite Rabs_R0 in Hmax. assert (0 <= Rabs (ment F i k - ment G i k)) by apply Rabs_pos. lra. }
      replace (seq 0 k ++ [k]) with (seq 0 (S k)) by (rewrite seq_S; auto). assert (HC := cross_spec F (Is ++ [i]) (seq 0 (S k))). destruct (cross_matrix L F (Is ++ [i]) (seq 0 (S k))) as [G'|].
      * destruct HC as (_ & _ & N1 & N2). assert (HS' : state F (Is ++ [i]) (seq 0 (S k)) G').
        { destruct HS as (A1 & A2 & A3 & A4). split; auto. split; auto. split; [apply in_snoc; auto|]. intros x Hx. apply in_seq in Hx. lia. }
        assert (Hne : ment F i k <> ment G i k) by (apply (extend_iff F Is (seq 0 k) G); auto; replace (seq 0 k ++ [k]) with (seq 0 (S k)) by (rewrite seq_S; auto); auto).
        specialize (IH (S k) G' _ HS'). destruct (loop_left L F n (S k) G' (Is ++ [i]) (seq 0 (S k))) as [[Is' J']|].
        -- destruct IH as (G2 & I2 & EI & EJ & Ln & HS2 & HG). exists G2, (i :: I2). rewrite <- !app_assoc in EI. cbn [app] in EI.
           split; [auto|]. split; [rewrite EJ; f_equal; lia|]. split; [cbn; auto|]. split; [auto|]. intros q Hq1 Hq2. destruct (Nat.eq_dec q k) as [->|]; [|apply HG; lia].
           exists (ment G). rewrite EI. replace (firstn k (Is ++ i :: I2)) with Is by (rewrite <- HLn, firstn_app, firstn_all, Nat.sub_diag; cbn [firstn]; rewrite app_nil_r; auto).
           destruct HS as (A1 & A2 & A3 & A4). split; [auto|]. split; [auto|]. cbv zeta.
           replace (nth k (Is ++ i :: I2) 0%nat) with i by (rewrite <- HLn, app_nth2, Nat.sub_diag; auto). split; auto. apply Rabs_pos_lt. lra.
        -- replace (S k + n)%nat with (k + S n)%nat in IH by lia. exact IH.
      * right. assert (EG : ment F i k = ment G i k).
        { destruct (Req_EM_T (ment F i k) (ment G i k)) as [|N]; auto. exfalso. apply HC. replace (seq 0 (S k)) with (seq 0 k ++ [k]) by (rewrite seq_S; auto). apply (extend_iff F Is (seq 0 k) G); auto. }
        assert (EA : forall a, (a < mrows F)%nat -> ment F a k = ment G a k).
        { intros a Ha. specialize (Hall a Ha). rewrite EG in Hall. replace (ment G i k - ment G i k) with 0 in Hall by ring. rewrite Rabs_R0 in Hall.
          destruct (Req_EM_T (ment F a k - ment G a k) 0) as [|N]; [lra|]. apply Rabs_pos_lt in N. lra. }
        destruct HS as (A1 & (X & HX & HGX) & A3 & A4). rewrite seq_length in HGX.
        exists (fun l => if (l =? k)%nat then 1 else if (l <? k)%nat then - X l k else 0), k. split; [lia|]. split; [rewrite Nat.eqb_refl; lra|].
        intros a Ha. replace (k + S n)%nat with (S k + n)%nat by lia.
        assert (Z : rsum (S k) (fun l => ment F a l * (if (l =? k)%nat then 1 else if (l <? k)%nat then - X l k else 0)) = 0).
        { rewrite rsum_S_R. rewrite Nat.eqb_refl. rewrite (rsum_ext_R' k _ (fun l => - (1) * (ment F a (nth l (seq 0 k) 0%nat) * X l k))).
          - rewrite rsum_scal_l_R, <- HGX by auto. rewrite EA by auto. ring.
          - intros l Hl. rewrite seq_nth by auto. cbn [Nat.add]. destruct (Nat.eqb_spec l k); [lia|]. destruct (Nat.ltb_spec l k); [ring|lia]. }
        clear - Z. induction n as [|n IHn]; [rewrite Nat.add_0_r; auto|]. rewrite Nat.add_succ_r, rsum_S_R, IHn. destruct (Nat.eqb_spec (S k + n) k); [lia|]. destruct (Nat.ltb_spec (S k + n) k); [lia|ring].
    + cbn [first_cols mrows mcols] in HW. destruct (Nat.eq_dec (mcols F) 0) as [|Hp]; [left; lia|]. destruct HW as [HW|HW]; [|lia]. right. exists (fun _ => 1), 0%nat. split; [lia|]. split; [lra|]. intros; lia.
Qed.

(** ** magic_indices *)
Definition n_of (F : mx) (n : option nat) : nat := match n with Some n => n | None => Nat.min (mrows F) (mcols F) end.
Lemma magic_state F n o Is J : magic_indices L F n o = Some (Is, J) -> length Is = n_of F n /\ sub_nonsingular (ment F) Is J /\
  distinct_below (mrows F) Is /\ distinct_below (mcols F) J.
Proof.
  intros H. assert (G : length Is = n_of F n /\ sub_nonsingular (ment F) Is J /\ (forall i, In i Is -> (i < mrows F)%nat) /\ (forall j, In j J -> (j < mcols F)%nat)).
  { unfold magic_indices in H. fold (n_of F n) in H. destruct o.
    - assert (HS := loop_lr_spec F (n_of F n) _ _ _ (state_nil F)). rewrite H in HS. destruct HS as (G' & I2 & J2 & EI & EJ & Ln & (S1 & S2 & S3 & S4) & _). cbn in EI. subst I2. auto.
    - assert (HS := loop_left_spec F (n_of F n) 0 _ _ (state_nil F)). cbn [seq] in HS. rewrite H in HS. destruct HS as (G' & I2 & EI & EJ & Ln & (S1 & S2 & S3 & S4) & _). cbn in EI. subst I2. auto.
    - assert (HS := loop_left_spec (mtr F) (n_of F n) 0 _ _ (state_nil (mtr F))). cbn [seq] in HS. destruct (loop_left L (mtr F) (n_of F n) 0 (zero_mx (mtr F)) [] []) as [[J' I']|]; [|discriminate].
      injection H as <- <-. destruct HS as (G' & I2 & EI & EJ & Ln & (S1 & S2 & S3 & S4) & _). cbn in EI. subst I2. assert (length J' = length I') by apply S1.
      split; [rewrite <- Ln; auto|]. split; [exact (nonsingular_tr _ _ _ S1)|]. auto. }
  destruct G as (G1 & G2 & G3 & G4). destruct (nonsingular_distinct _ _ _ G2). split; [auto|]. split; [auto|]. split; split; auto.
Qed.
Lemma magic_lr_success F n : (exists r, magic_indices L F n LeftRight = Some r) <-> (forall r, (r < n_of F n)%nat -> ~ rank_le (mrows F) (mcols F) (ment F) r).
Proof.
  split.
  - intros [[Is J] H] r Hr HR. destruct (magic_state _ _ _ _ _ H) as (HLn & HN & HI & HJ). assert (length Is = length J) by apply HN.
    assert (length J <= r)%nat by (eapply rank_sub; eauto; [apply HI|apply HJ]). lia.
  - intros HR. unfold magic_indices. fold (n_of F n). assert (HS := loop_lr_spec F (n_of F n) _ _ _ (state_nil F)). destruct (loop_left_right L F (n_of F n) (zero_mx F) [] []) as [r|]; eauto.
    destruct HS as (r & _ & H1 & H2). exfalso. apply (HR r); auto.
Qed.
Lemma magic_left_success F n : (exists r, magic_indices L F n Left = Some r) <-> ((n_of F n <= mcols F)%nat /\ inj (mrows F) (n_of F n) (ment F)).
Proof.
  assert (HS := loop_left_spec F (n_of F n) 0 _ _ (state_nil F)). cbn [seq] in HS. unfold magic_indices. fold (n_of F n). cbn [Nat.add] in HS. split.
  - intros [[Is J] H]. rewrite H in HS. destruct HS as (G' & I2 & EI & EJ & Ln & (S1 & S2 & S3 & S4) & _). split.
    + destruct (n_of F n) as [|q] eqn:Eq; [lia|]. assert (q < mcols F)%nat; [|lia]. apply S4. rewrite EJ. apply in_seq. lia.
    + intros x Hx l Hl. destruct S1 as [L1 N1]. rewrite EJ, seq_length in N1. apply N1; auto. intros k Hk. rewrite <- (Hx (nth k Is 0%nat)) by (apply S3, nth_In; auto).
      apply rsum_ext_R'. intros l' Hl'. rewrite seq_nth by auto. auto.
  - intros [H1 H2]. destruct (loop_left L F (n_of F n) 0 (zero_mx F) [] []) as [r|]; eauto. destruct HS as [HS|(c & l & Hl & Hc & Hz)]; [lia|]. exfalso. apply Hc. apply (H2 c Hz); auto.
Qed.
Lemma magic_lr_greedy F n Is J : magic_indices L F n LeftRight = Some (Is, J) -> forall k, (k < n_of F n)%nat -> greedy_at F Is J k.
Proof.
  intros H k Hk. unfold magic_indices in H. fold (n_of F n) in H. assert (HS := loop_lr_spec F (n_of F n) _ _ _ (state_nil F)). rewrite H in HS.
  destruct HS as (G' & I2 & J2 & EI & EJ & Ln & _ & HG). cbn in EI. subst I2. apply HG; [cbn; lia|lia].
Qed.
Lemma magic_left_greedy F n Is J : magic_indices L F n Left = Some (Is, J) -> J = seq 0 (n_of F n) /\ forall k, (k < n_of F n)%nat -> greedy_left_at F Is k.
Proof.
  intros H. unfold magic_indices in H. fold (n_of F n) in H. assert (HS := loop_left_spec F (n_of F n) 0 _ _ (state_nil F)). cbn [seq] in HS. rewrite H in HS.
  destruct HS as (G' & I2 & EI & EJ & Ln & _ & HG). split; [exact EJ|]. intros k Hk. apply HG; lia.
Qed.
Lemma magic_right F n : magic_indices L F n Right = match magic_indices L (mtr F) (Some (n_of F n)) Left with Some (J, Is) => Some (Is, J) | None => None end.
Proof. reflexivity. Qed.

(** ** interpolation *)
Lemma nonsingular_all_rows F Is J : (length J = mcols F) -> distinct_below (mcols F) J -> sub_nonsingular (ment F) Is J -> nonsingular (take_rows F Is).
Proof.
  intros HJ [ND HB] [HLn HN]. split; [unfold square; cbn; lia|]. cbn [take_rows mrows mcols ment]. intros x Hx j Hj.
  assert (HP : forall j, (j < mcols F)%nat -> In j J).
  { intros q Hq. assert (incl (seq 0 (mcols F)) J); [|apply H, in_seq; lia]. apply NoDup_length_incl; [auto|rewrite seq_length; lia|]. intros y Hy. apply in_seq. specialize (HB y Hy). lia. }
  destruct (In_nth J j 0%nat (HP j Hj)) as (l & Hl & <-). apply (HN (fun l => x (nth l J 0%nat))); auto. intros k Hk. rewrite <- (Hx k Hk). unfold mv.
  rewrite <- (lsum_seq_rsum (mcols F)). rewrite <- (lsum_seq_rsum (length J)). rewrite <- (lsum_map_R (fun l => nth l J 0%nat) (seq 0 (length J)) (fun b => ment F (nth k Is 0%nat) b * x b)).
  rewrite map_seq_nth. apply lsum_perm. apply NoDup_Permutation; auto; [apply seq_NoDup|]. intros y. rewrite in_seq. split; [intros Hy; specialize (HB y Hy); lia|intros Hy; apply HP; lia].
Qed.
Section Points.
Variables (card : nat) (phi : R -> nat -> R).
Lemma rank_inj N p F r : rank_le N p F r -> (r < p)%nat -> ~ inj N p F.
Proof.
  intros (A & B & HAB) Hr HI. destruct (dependent r (fun k i => B i k)) as (c & (q & Hq & Hcq) & Hz). set (c' := fun l => if (l <=? r)%nat then c l else 0).
  assert (EX : forall f : nat -> R, rsum p (fun l => f l * c' l) = rsum (S r) (fun l => f l * c l)).
  { intros f. replace p with (S r + (p - S r))%nat by lia. generalize (p - S r)%nat. intros n. induction n as [|n IH].
    - rewrite Nat.add_0_r. apply rsum_ext_R'. intros i Hi. unfold c'. destruct (Nat.leb_spec i r); [auto|lia].
    - rewrite Nat.add_succ_r, rsum_S_R, IH. unfold c'. destruct (Nat.leb_spec (S r + n) r); [lia|ring]. }
  assert (Z : c' q = 0).
  { apply HI; [|lia]. intros a Ha. unfold mv. rewrite EX. rewrite (rsum_ext_R' _ _ (fun l => rsum r (fun i => A a i * (c l * B i l)))).
    - rewrite rsum_swap_R. rewrite (rsum_ext_R' r _ (fun _ => 0)); [apply rsum_const0|]. intros i Hi. rewrite rsum_scal_l_R, Hz by auto. ring.
    - intros l Hl. rewrite HAB by (auto; lia). rewrite Rmult_comm, <- rsum_scal_l_R. apply rsum_ext_R'. intros; ring. }
  unfold c' in Z. destruct (Nat.leb_spec q r); [auto|lia].
Qed.
Lemma points_nonsingular x J pts ind : (forall j, In j (match J with Some J => J | None => [] end) -> (j < card)%nat) -> magic_points L card phi x J = Some (pts, ind) ->
  length ind = card /\ distinct_below (length x) ind /\ pts = map (fun i => nth i x 0) ind /\ nonsingular (fb_eval card phi pts).
Proof.
  intros HJ H. unfold magic_points in H. destruct (Nat.ltb_spec (length x) card) as [|Hc]; [discriminate|].
  assert (G : exists J', length J' = card /\ length ind = card /\ distinct_below (length x) ind /\ distinct_below card J' /\ sub_nonsingular (ment (fb_eval card phi x)) ind J' /\ pts = map (fun i => nth i x 0) ind).
  { destruct J as [J|].
    - destruct (magic_indices L (take_cols (fb_eval card phi x) J) (Some card) Left) as [[I' J']|] eqn:E; [|discriminate]. injection H as <- <-.
      destruct (magic_state _ _ _ _ _ E) as (H1 & H2 & H3 & H4). destruct (magic_left_greedy _ _ _ _ E) as [EJ _]. cbn [n_of] in *. cbn [take_cols fb_eval mrows mcols] in *.
      assert (LJ : (card <= length J)%nat). { destruct H4 as [_ H4]. destruct card as [|q]; [lia|]. assert (q < length J)%nat; [|lia]. apply H4. rewrite EJ. apply in_seq. lia. }
      exists (firstn card J). rewrite firstn_length, Nat.min_l by auto. split; [auto|]. split; [auto|]. split; [auto|].
      assert (EN : forall l, (l < card)%nat -> nth l (firstn card J) 0%nat = nth l J 0%nat).
      { intros l Hl. rewrite <- (firstn_skipn card J) at 2. rewrite app_nth1; auto. rewrite firstn_length. lia. }
      assert (HS : sub_nonsingular (ment (fb_eval card phi x)) I' (firstn card J)).
      { destruct H2 as [L2 N2]. split; [rewrite firstn_length; lia|]. rewrite firstn_length, Nat.min_l by auto. intros c Hc' l Hl. rewrite EJ, seq_length in N2.
        apply N2; auto. intros k Hk. rewrite <- (Hc' k Hk). apply rsum_ext_R'. intros l' Hl'. rewrite EN, seq_nth by auto. reflexivity. }
      split; [|auto]. split; [apply (nonsingular_distinct _ _ _ HS)|]. intros j Hj. apply HJ. rewrite <- (firstn_skipn card J). apply in_app_iff. auto.
    - destruct (magic_indices L (fb_eval card phi x) None LeftRight) as [[I' J']|] eqn:E; [|discriminate]. injection H as <- <-.
      destruct (magic_state _ _ _ _ _ E) as (H1 & H2 & H3 & H4). cbn [n_of fb_eval mrows mcols] in *. rewrite Nat.min_r in H1 by auto. exists J'. assert (length I' = length J') by apply H2. split; [lia|]. auto. }
  destruct G as (J' & G1 & G2 & G3 & G4 & G5 & ->). split; [auto|]. split; [auto|]. split; [auto|].
  assert (HR := nonsingular_all_rows (fb_eval card phi x) ind J' G1 G4 G5). unfold nonsingular, square, inj, take_rows, fb_eval, mv in *. cbn [mrows mcols ment] in *. rewrite map_length.
  destruct HR as [R1 R2]. split; auto. intros y Hy. apply R2. intros k Hk. specialize (Hy k Hk). rewrite (map_nth_in (fun i => nth i x 0) ind k 0%nat 0) in Hy by auto. exact Hy.
Qed.
Lemma points_success x : (exists r, magic_points L card phi x None = Some r) <-> ((card <= length x)%nat /\ inj (length x) card (fun i j => phi (nth i x 0) j)).
Proof.
  unfold magic_points. destruct (Nat.ltb_spec (length x) card) as [|Hc]; [split; [intros [r Hr]; discriminate|lia]|].
  assert (HS := magic_lr_success (fb_eval card phi x) None). cbn [n_of fb_eval mrows mcols ment] in HS. rewrite Nat.min_r in HS by auto. split.
  - intros [r Hr]. split; auto. destruct (magic_indices L (fb_eval card phi x) None LeftRight) as [[I' J']|] eqn:E; [|discriminate].
    destruct (magic_state _ _ _ _ _ E) as (H1 & H2 & H3 & H4). cbn [n_of fb_eval mrows mcols ment] in *. rewrite Nat.min_r in H1 by auto.
    assert (LJ : length J' = card) by (rewrite <- H1; symmetry; apply H2). destruct (nonsingular_all_rows (fb_eval card phi x) I' J' LJ H4 H2) as [_ HI]. cbn [take_rows fb_eval mrows mcols ment] in HI.
    intros y Hy. apply HI. intros k Hk. apply (Hy (nth k I' 0%nat)). apply H3, nth_In; auto.
  - intros [_ HI]. destruct (proj2 HS) as [[I' J'] E]; [|fold (fb_eval card phi x) in E; rewrite E; eauto]. intros r Hr HR. apply (rank_inj _ _ _ _ HR Hr HI).
Qed.
Lemma interpolate_spec pts y : nonsingular (fb_eval card phi pts) -> exists c, interpolate L card phi pts y = Some c /\
  (forall k, (k < length pts)%nat -> rsum card (fun j => phi (nth k pts 0) j * c j) = y k) /\
  (forall c', (forall k, (k < length pts)%nat -> rsum card (fun j => phi (nth k pts 0) j * c' j) = y k) -> forall j, (j < card)%nat -> c j = c' j).
Proof.
  intros HN. destruct HL as (_ & HS & _). unfold interpolate. specialize (HS (fb_eval card phi pts) y). destruct (l_solve L (fb_eval card phi pts) y) as [c|]; [|exfalso; exact (HS HN)].
  destruct HS as [_ HS]. exists c. split; auto. split; [exact HS|]. intros c' Hc' j Hj. destruct HN as [_ HI]. assert (Z : (fun j => c j - c' j) j = 0); [|cbn in Z; lra].
  apply (HI (fun j => c j - c' j)); auto. intros k Hk. rewrite mv_minus. rewrite HS by auto. cbn [fb_eval mcols ment]. unfold mv. rewrite Hc' by auto. ring.
Qed.
End Points.
End Loop.

(** ** nestedness *)
Lemma lr_prefix L F n : forall G Is J Is' J', loop_left_right L F n G Is J = Some (Is', J') -> exists I2 J2, Is' = Is ++ I2 /\ J' = J ++ J2 /\ length I2 = n /\ length J2 = n.
Proof.
  induction n as [|n IH]; intros G Is J Is' J' H; cbn [loop_left_right] in H.
  - injection H as <- <-. exists [], []. rewrite !app_nil_r. auto.
  - destruct (worst_row F G) as [i|]; [|discriminate]. destruct (cross_matrix L F _ _) as [G'|]; [|discriminate]. destruct (IH _ _ _ _ _ H) as (I2 & J2 & -> & -> & L1 & L2).
    exists (i :: I2), (worst_col F G i :: J2). rewrite <- !app_assoc. cbn. auto.
Qed.
Lemma lr_nested L F k : forall n G Is J Is' J', (k <= n)%nat -> length Is = length J -> loop_left_right L F n G Is J = Some (Is', J') ->
  loop_left_right L F k G Is J = Some (firstn (length Is + k) Is', firstn (length J + k) J').
Proof.
  induction k as [|k IH]; intros n G Is J Is' J' Hk HL H.
  - destruct (lr_prefix _ _ _ _ _ _ _ _ H) as (I2 & J2 & EI & EJ & _). subst Is' J'. cbn [loop_left_right]. rewrite !Nat.add_0_r, !firstn_app, !firstn_all, !Nat.sub_diag. cbn [firstn]. rewrite !app_nil_r. auto.
  - destruct n as [|n]; [lia|]. cbn [loop_left_right] in *. destruct (worst_row F G) as [i|]; [|discriminate]. destruct (cross_matrix L F _ _) as [G'|]; [|discriminate].
    rewrite (IH n G' (Is ++ [i]) (J ++ [worst_col F G i]) Is' J'); [|lia|rewrite !app_length; cbn; lia|exact H]. rewrite !app_length. cbn [length].
    replace (length Is + 1 + k)%nat with (length Is + S k)%nat by lia. replace (length J + 1 + k)%nat with (length J + S k)%nat by lia. reflexivity.
Qed.
Lemma magic_nested L F n k Is J : (k <= n)%nat -> magic_indices L F (Some n) LeftRight = Some (Is, J) -> magic_indices L F (Some k) LeftRight = Some (firstn k Is, firstn k J).
Proof. intros Hk H. unfold magic_indices in *. apply (lr_nested L F k) in H; auto. Qed.
