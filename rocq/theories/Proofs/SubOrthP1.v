(** The Gram-Schmidt process. *)
From Coq Require Import List Arith Bool Lia Reals Lra.
From Verif.Base Require Import ListAux CRing Index RealAux.
From Verif.Model Require Import Numpy FunctionalBases SubOrth.
From Verif.Proofs Require Import FunctionalP4.
Import ListNotations.
Local Open Scope R_scope.
Notation z := (fun _ : nat => 0).

Lemma rsum_opp_R n f : rsum n (fun a => - f a) = - rsum n f.
Proof. induction n; cbn [rsum]; rcbn; [lra|]. rewrite IHn. lra. Qed.
Lemma dotn_sym n u v : dotn n u v = dotn n v u.
Proof. unfold dotn. apply rsum_ext. intros; rcbn; ring. Qed.
Lemma dotn_ext n u u' v v' : (forall k, (k < n)%nat -> u k = u' k) -> (forall k, (k < n)%nat -> v k = v' k) -> dotn n u v = dotn n u' v'.
Proof. intros H1 H2. unfold dotn. apply rsum_ext. intros k Hk. rewrite H1, H2; auto. Qed.
Lemma dotn_zero n u : dotn n u u = 0 -> forall k, (k < n)%nat -> u k = 0.
Proof.
  intros H k Hk. pose proof (rsum_term_le n (fun k => u k * u k) k (fun i _ => Rle_0_sqr (u i)) Hk) as H1. cbn beta in H1. unfold dotn in H. rewrite H in H1. nra.
Qed.
Lemma dotn_nonneg n u : 0 <= dotn n u u.
Proof. apply rsum_nonneg. intros i _. apply Rle_0_sqr. Qed.
(** linear combination of a list of vectors *)
Definition comb (c : nat -> R) (vs : list (nat -> R)) : nat -> R := fun k => rsum (length vs) (fun j => c j * nth j vs z k).
Lemma dotn_comb n u c vs : dotn n u (comb c vs) = rsum (length vs) (fun j => c j * dotn n u (nth j vs z)).
Proof.
  unfold dotn, comb. transitivity (rsum n (fun k => rsum (length vs) (fun j => c j * (u k * nth j vs z k)))).
  - apply rsum_ext. intros k Hk. rewrite <- (rsum_scal_l_R (length vs) (u k)). apply rsum_ext. intros j Hj. rcbn. ring.
  - rewrite (rsum_exchange (R := R)). apply rsum_ext. intros j Hj. rewrite rsum_scal_l_R. auto.
Qed.
Lemma comb_app c vs v k : comb c (vs ++ [v]) k = comb c vs k + c (length vs) * v k.
Proof.
  unfold comb. rewrite app_length. cbn [length]. rewrite Nat.add_1_r. cbn [rsum]. rcbn. rewrite app_nth2, Nat.sub_diag by lia. cbn [nth]. f_equal.
  apply rsum_ext. intros j Hj. rewrite app_nth1 by auto. auto.
Qed.
Lemma comb_ext c c' vs k : (forall j, (j < length vs)%nat -> c j = c' j) -> comb c vs k = comb c' vs k.
Proof. intros H. unfold comb. apply rsum_ext. intros j Hj. rewrite H; auto. Qed.
Lemma comb_comb c D qs vs k : (forall j, (j < length qs)%nat -> nth j qs z k = comb (D j) vs k) -> comb c qs k = comb (fun i => rsum (length qs) (fun j => c j * D j i)) vs k.
Proof.
  intros H. unfold comb at 1. transitivity (rsum (length qs) (fun j => rsum (length vs) (fun i => c j * (D j i * nth i vs z k)))).
  - apply rsum_ext. intros j Hj. rewrite H by auto. unfold comb. rewrite rsum_scal_l_R. auto.
  - rewrite (rsum_exchange (R := R)). unfold comb. apply rsum_ext. intros i Hi. rewrite <- (rsum_scal_r_R (length qs) (nth i vs z k)). apply rsum_ext. intros j Hj. rcbn. ring.
Qed.

Section GS.
  Variable n : nat.
  Definition indep (vs : list (nat -> R)) : Prop := forall c, (forall k, (k < n)%nat -> comb c vs k = 0) -> forall j, (j < length vs)%nat -> c j = 0.
  Definition orthon (qs : list (nat -> R)) : Prop := forall i j, (i < length qs)%nat -> (j < length qs)%nat -> dotn n (nth i qs z) (nth j qs z) = if (i =? j)%nat then 1 else 0.
  Definition spans (qs vs : list (nat -> R)) : Prop := exists D : nat -> nat -> R, forall j k, (j < length qs)%nat -> (k < n)%nat -> nth j qs z k = comb (D j) vs k.
  Lemma indep_app vs v : indep (vs ++ [v]) -> indep vs.
  Proof.
    intros H c Hc j Hj. pose proof (H (fun i => if (i <? length vs)%nat then c i else 0)) as H1. cbn beta in H1.
    specialize (fun X => H1 X j). rewrite app_length in H1. cbn [length] in H1. assert (E : (j <? length vs)%nat = true) by (apply Nat.ltb_lt; auto). rewrite E in H1. apply H1; [|lia].
    intros k Hk. rewrite comb_app, Nat.ltb_irrefl. rewrite (comb_ext _ c).
    - rewrite Hc by auto. lra.
    - intros i Hi. apply Nat.ltb_lt in Hi. rewrite Hi. auto.
  Qed.
  Lemma gs_sub_comb qs v k : gs_sub n qs v k = v k - comb (fun j => dotn n (nth j qs z) v) qs k.
  Proof. unfold gs_sub, comb. f_equal. apply rsum_ext. intros j Hj. rcbn. ring. Qed.
  Lemma gs_sub_orth qs v i : orthon qs -> (i < length qs)%nat -> dotn n (nth i qs z) (gs_sub n qs v) = 0.
  Proof.
    intros HO Hi. transitivity (dotn n (nth i qs z) v - dotn n (nth i qs z) (comb (fun j => dotn n (nth j qs z) v) qs)).
    - unfold dotn at 1 2 3. rewrite <- rsum_minus_R. apply rsum_ext. intros k Hk. rewrite gs_sub_comb. rcbn. ring.
    - rewrite dotn_comb. rewrite (rsum_single (R := R) _ i); auto.
      + rewrite HO by auto. rewrite Nat.eqb_refl. ring.
      + intros j Hj Hne. rewrite HO by auto. destruct (Nat.eqb_spec i j); [congruence|]. rcbn. ring.
  Qed.
  Theorem gs_ok vs : indep vs -> length (gs n vs) = length vs /\ orthon (gs n vs) /\ spans (gs n vs) vs /\ spans vs (gs n vs).
  Proof.
    induction vs as [|v vs IH] using rev_ind; intros HI.
    - split; [reflexivity|]. split; [intros i j Hi; cbn in Hi; lia|]. split; exists (fun _ _ => 0); intros j k Hj; cbn in Hj; lia.
    - destruct (IH (indep_app _ _ HI)) as (HL & HO & (D & HD) & (E & HE)). unfold gs in *. rewrite fold_left_app. cbn [fold_left]. fold (gs n vs) in *. set (qs := gs n vs) in *.
      set (w := gs_sub n qs v). set (N := sqrt (dotn n w w)).
      assert (Hp : 0 < dotn n w w).
      { destruct (Rle_lt_or_eq_dec 0 (dotn n w w) (dotn_nonneg n w)) as [Hlt|Heq]; auto. exfalso. symmetry in Heq.
        pose proof (dotn_zero n w Heq) as Hz. set (a := fun j => dotn n (nth j qs z) v).
        set (c := fun i => if (i <? length vs)%nat then - rsum (length qs) (fun j => a j * D j i) else 1).
        assert (Hc : c (length vs) = 0).
        { apply HI; [|rewrite app_length; cbn; lia]. intros k Hk. rewrite comb_app. unfold c at 2. rewrite Nat.ltb_irrefl. specialize (Hz k Hk). unfold w in Hz. rewrite gs_sub_comb in Hz. fold a in Hz.
          rewrite (comb_comb a D qs vs k) in Hz by (intros j Hj; apply HD; auto).
          assert (Ec : comb c vs k = - comb (fun i => rsum (length qs) (fun j => a j * D j i)) vs k).
          { unfold comb. rewrite <- rsum_opp_R. apply rsum_ext. intros i Hi. unfold c. apply Nat.ltb_lt in Hi. rewrite Hi. rcbn. ring. }
          rewrite Ec. lra. }
        unfold c in Hc. rewrite Nat.ltb_irrefl in Hc. lra. }
      assert (HN : 0 < N) by (apply sqrt_lt_R0; auto). assert (HNN : N * N = dotn n w w) by (apply sqrt_sqrt; lra).
      set (q := gs_col n qs v). assert (Hq : forall k, q k = w k / N) by reflexivity.
      assert (Hqq : dotn n q q = 1).
      { transitivity (dotn n w w / (N * N)); [|rewrite HNN; field; lra]. unfold dotn at 1 2. unfold Rdiv at 1. rewrite <- rsum_scal_r_R. apply rsum_ext. intros k Hk. rewrite !Hq. field. lra. }
      assert (Hqi : forall i, (i < length qs)%nat -> dotn n (nth i qs z) q = 0).
      { intros i Hi. transitivity (dotn n (nth i qs z) w / N); [|unfold w; rewrite gs_sub_orth by auto; unfold Rdiv; ring]. unfold dotn. unfold Rdiv. rewrite <- rsum_scal_r_R. apply rsum_ext. intros k Hk. rewrite Hq. unfold Rdiv. rcbn. ring. }
      split; [rewrite !app_length; cbn; lia|]. split; [|split].
      + intros i j Hi Hj. rewrite app_length in Hi, Hj. cbn [length] in Hi, Hj.
        destruct (Nat.eq_dec i (length qs)) as [->|Hi']; destruct (Nat.eq_dec j (length qs)) as [->|Hj'].
        * rewrite app_nth2, Nat.sub_diag, Nat.eqb_refl by lia. exact Hqq.
        * rewrite app_nth2, Nat.sub_diag by lia. rewrite app_nth1 by lia. cbn [nth]. rewrite dotn_sym, Hqi by lia. destruct (Nat.eqb_spec (length qs) j); [lia|auto].
        * rewrite (app_nth2 qs [q] z (n := length qs)), Nat.sub_diag by lia. rewrite app_nth1 by lia. cbn [nth]. rewrite Hqi by lia. destruct (Nat.eqb_spec i (length qs)); [lia|auto].
        * rewrite !app_nth1 by lia. apply HO; lia.
      + exists (fun j i => if (j <? length qs)%nat then (if (i <? length vs)%nat then D j i else 0)
                 else if (i <? length vs)%nat then - rsum (length qs) (fun l => dotn n (nth l qs z) v * D l i) / N else 1 / N).
        intros j k Hj Hk. rewrite app_length in Hj. cbn [length] in Hj. rewrite comb_app, Nat.ltb_irrefl. destruct (Nat.ltb_spec j (length qs)) as [Hlt|Hge].
        * rewrite app_nth1 by auto. rewrite (HD j k) by auto. rewrite (comb_ext _ (fun i => if (i <? length vs)%nat then D j i else 0)) by (intros i Hi; apply Nat.ltb_lt in Hi; rewrite Hi; auto). ring.
        * replace j with (length qs) by lia. rewrite app_nth2, Nat.sub_diag by lia. cbn [nth]. rewrite Hq. unfold w. rewrite gs_sub_comb.
          rewrite (comb_comb _ D qs vs k) by (intros l Hl; apply HD; auto).
          assert (Ec : comb (fun i => if (i <? length vs)%nat then - rsum (length qs) (fun l => dotn n (nth l qs z) v * D l i) / N else 1 / N) vs k
                     = - comb (fun i => rsum (length qs) (fun l => dotn n (nth l qs z) v * D l i)) vs k / N).
          { unfold comb at 1 2. unfold Rdiv. rewrite Ropp_mult_distr_l_reverse, <- rsum_scal_r_R, <- rsum_opp_R. apply rsum_ext. intros i Hi. apply Nat.ltb_lt in Hi. rewrite Hi. rcbn. ring. }
          rewrite Ec. field. lra.
      + exists (fun j i => if (j <? length vs)%nat then (if (i <? length qs)%nat then E j i else 0) else if (i <? length qs)%nat then dotn n (nth i qs z) v else N).
        intros j k Hj Hk. rewrite app_length in Hj. cbn [length] in Hj. rewrite comb_app, Nat.ltb_irrefl. destruct (Nat.ltb_spec j (length vs)) as [Hlt|Hge].
        * rewrite app_nth1 by auto. rewrite (HE j k) by auto. rewrite (comb_ext _ (fun i => if (i <? length qs)%nat then E j i else 0)) by (intros i Hi; apply Nat.ltb_lt in Hi; rewrite Hi; auto). ring.
        * replace j with (length vs) by lia. rewrite app_nth2, Nat.sub_diag by lia. cbn [nth]. rewrite Hq. unfold w. rewrite gs_sub_comb.
          rewrite (comb_ext (fun i => if (i <? length qs)%nat then dotn n (nth i qs z) v else N) (fun i => dotn n (nth i qs z) v)) by (intros i Hi; apply Nat.ltb_lt in Hi; rewrite Hi; auto). field. lra.
  Qed.
  Lemma indep_prefix a b : indep (a ++ b) -> indep a.
  Proof.
    induction b as [|v b IH] using rev_ind; intros H; [rewrite app_nil_r in H; auto|]. rewrite app_assoc in H. apply IH. exact (indep_app _ _ H).
  Qed.
  Lemma gs_grow a b : exists t, gs n (a ++ b) = gs n a ++ t.
  Proof.
    induction b as [|v b (t & IH)] using rev_ind; [exists []; rewrite !app_nil_r; auto|]. rewrite app_assoc. unfold gs in *. rewrite fold_left_app, IH. cbn [fold_left].
    eexists. rewrite <- app_assoc. reflexivity.
  Qed.
  (** the first q new vectors and the first q given ones span the same space *)
  Theorem gs_prefix vs q : indep vs -> (q <= length vs)%nat ->
    (forall j, (j < q)%nat -> exists c, forall k, (k < n)%nat -> nth j (gs n vs) z k = rsum q (fun i => c i * nth i vs z k)) /\
    (forall j, (j < q)%nat -> exists c, forall k, (k < n)%nat -> nth j vs z k = rsum q (fun i => c i * nth i (gs n vs) z k)).
  Proof.
    intros HI Hq. pose proof (firstn_skipn q vs) as E. set (a := firstn q vs) in *. set (b := skipn q vs) in *.
    assert (La : length a = q) by (unfold a; rewrite firstn_length; lia). rewrite <- E in HI. rewrite <- E. clear E. clearbody a b.
    destruct (gs_ok a (indep_prefix a b HI)) as (L & _ & (D & HD) & (D2 & HE)). destruct (gs_grow a b) as (t & ->). rewrite La in L. split; intros j Hj.
    - exists (D j). intros k Hk. rewrite app_nth1 by lia. rewrite HD by lia. unfold comb. rewrite La. apply rsum_ext. intros i Hi. rewrite app_nth1 by lia. reflexivity.
    - exists (D2 j). intros k Hk. rewrite app_nth1 by lia. rewrite HE by lia. unfold comb. rewrite L. apply rsum_ext. intros i Hi. rewrite (app_nth1 (gs n a)) by lia. reflexivity.
  Qed.
End GS.
