(** Proofs for Model/RankAdapt.v: the new rank. *)
From Coq Require Import List Arith Lia Bool Permutation Sorted Reals Lra.
From Verif.Base Require Import ListAux CRing Index RealAux.
From Verif.Model Require Import Sorting Utils Numpy FullTensor DimensionTree TreeBased RankAdapt.
From Verif.Spec Require Import TensorSpec TreeSpec TreeTensorSpec RankSpec.
From Verif.Proofs Require Import NumpyP DimTreeP TreeTensorP TreeTensorP2 TreeTensorP3 TreeTensorP4 TreeTensorP15 RankP1 RankP2 RankP4.
Import ListNotations.

Section StuckBound.
  Context {K : Type} {CR : CRing K}.
  Variables (X : tbt K) (r : nat) (sv : list (option R)).
  Hypothesis O : tb_ok X r.
  Local Notation t := (ttree X).
  (** nodes marked: nothing increases there *)
  Lemma stuck_bound v n : admissible X r v -> (forall l, node t l -> is_leaf t l = true -> active X l = true -> sval sv l = None -> l <> r -> rk v l <= tb_rank X l) ->
    node t n -> n <> r -> stuck X r sv n -> rk v n <= tb_rank X n.
  Proof.
    intros (A1 & A2 & A3 & A4) HL. pose proof (proj1 (proj1 O)) as T. revert n. apply (tree_up_ind t r T (fun n => n <> r -> stuck X r sv n -> rk v n <= tb_rank X n)). intros n Hn IH NE Hs.
    destruct (active X n) eqn:Ha; [|rewrite (A1 n Hn Ha); lia]. inversion Hs; subst; [congruence|auto|].
    specialize (A3 n Hn ltac:(auto)). unfold axis_size at 1 in A3. rewrite (proj2 (Nat.eqb_neq n r) NE), Ha in A3.
    assert (Hp : tb_rank X n <> 0).
    { intros C. pose proof (proj1 (active_prod X n) Ha) as P. pose proof (ok_exts_rank X r O n Hn Ha NE) as E. pose proof (ok_shape X n Hn Ha) as SH. rewrite SH, E, prodn_app in P. cbn [prodn fold_right] in P. pose proof (csize_rank X r n O Hn NE) as CS. unfold csize in CS. rewrite Ha in CS. rewrite CS, C in P. lia. }
    apply Nat.le_trans with (1 := A3). replace (tb_rank X n) with (prodn (map (tb_rank X) (children t n))) by auto. replace (tb_rank X n) with (prodn (map (tb_rank X) (children t n))) in Hp by auto.
    assert (Hc : forall c, In c (children t n) -> edge t n c) by (intros c Hc; apply in_children; auto).
    match goal with H : forall c, edge t n c -> stuck X r sv c |- _ => rename H into HC end.
    clear - Hc HC IH Hp T O.
    revert Hp Hc. generalize (children t n) as l. induction l as [|c l IHl]; intros Hp Hc; [auto|]. cbn [map prodn fold_right] in *. fold (prodn (map (tb_rank X) l)) in *. fold (prodn (map (axis_size X r v) l)).
    assert (E : edge t n c) by (apply Hc; left; auto). apply Nat.mul_le_mono; [|apply IHl; [lia|intros; apply Hc; right; auto]].
    assert (NEc : c <> r) by (intros ->; apply (rt_no_edge t r T n E)). unfold axis_size. rewrite (proj2 (Nat.eqb_neq c r) NEc).
    destruct (active X c) eqn:Hac; [apply (IH c E NEc); auto|]. exfalso. apply Hp. assert (node t c) by apply E. unfold tb_rank at 1. rewrite (inactive_leaf X r O c), Hac by auto. auto.
  Qed.
End StuckBound.

Section RankP5.
  Context {K : Type} {CR : CRing K}.
  Variables (X : tbt K) (r : nat) (theta : R) (sv : list (option R)).
  Hypothesis O : tb_ok X r.
  Hypothesis HX : exts X r = [] \/ exts X r = [1].
  Hypothesis HS : inactive_sorted X.
  Hypothesis HR : sval sv r = None.
  Hypothesis HP : forall n x, sval sv n = Some x -> (0 < x)%R.
  Local Notation t := (ttree X).
  Local Notation N := (nbn (ttree X)).
  Local Notation ranks := (tb_ranks X).
  Local Notation cand := (candidate X r sv).

  Lemma stuck_dec n : node t n -> {stuck X r sv n} + {~ stuck X r sv n}.
  Proof. intros Hn. destruct (nth (n - 1) (nrs_mark X sv) false) eqn:E; [left|right]; rewrite <- (mark_stuck X r sv O HR n Hn), E; auto. Qed.
  Let sv1 := map (fun n => if nth (n - 1) (nrs_mark2 X (nrs_mark X sv)) false then None else sv_at sv n) (nodes t).
  Lemma sv1_spec n x : node t n -> (sv_at sv1 n = Some x <-> cand n x).
  Proof.
    intros Hn. pose proof Hn as Hn'. unfold node in Hn'. unfold sv_at at 1, sv1. rewrite (map_nth_in _ _ _ 0) by (rewrite (nodes_len X); lia). rewrite (nodes_nth X) by lia. replace (S (n - 1)) with n by lia.
    rewrite mark2_same. unfold candidate. rewrite <- (mark_stuck X r sv O HR n Hn). unfold sv_at, sval. destruct (nth (n - 1) (nrs_mark X sv) false); split; try tauto; [discriminate|]. intros H. split; auto.
  Qed.
  Lemma sv1_len : length sv1 = N.
  Proof. unfold sv1. rewrite map_length. apply nodes_len. Qed.
  Lemma vals_nodes (l : list (option R)) x : length l = N -> (In x (sv_vals l) <-> exists n, node t n /\ sv_at l n = Some x).
  Proof.
    intros L. rewrite sv_vals_in. split.
    - intros H. apply (In_nth _ _ None) in H. destruct H as (k & Hk & E). exists (S k). unfold node, sv_at. cbn. rewrite Nat.sub_0_r. split; [lia|auto].
    - intros (n & Hn & E). unfold sv_at in E. rewrite <- E. apply nth_In. unfold node in Hn. lia.
  Qed.
  Lemma cand_pos n x : cand n x -> (0 < x)%R.
  Proof. intros (_ & _ & H). apply (HP n x H). Qed.
  Lemma cand_fun n x y : cand n x -> cand n y -> x = y.
  Proof. intros (_ & _ & H1) (_ & _ & H2). congruence. Qed.
  (** raising *)
  Lemma raise_len l E : length (raise_at l E) = length l.
  Proof. unfold raise_at. rewrite map_length, seq_length. auto. Qed.
  Lemma raise_rk l E n : node t n -> length l = N -> rk (raise_at l E) n = if inb n E then S (rk l n) else rk l n.
  Proof.
    intros Hn L. unfold node in Hn. unfold rk, raise_at. rewrite (map_nth_in _ _ _ 0) by (rewrite seq_length; lia). rewrite seq_nth by lia. cbn [Nat.add]. replace (S (n - 1)) with n by lia. auto.
  Qed.
  Lemma raise_increased E : increased X E (raise_at ranks E).
  Proof.
    split; [rewrite raise_len; apply ranks_len|]. intros n Hn. rewrite raise_rk by (auto; apply ranks_len). rewrite (ranks_nth X) by auto. split; intros H.
    - rewrite (proj2 (inb_spec n E) H). auto.
    - rewrite (proj2 (inb_false n E) H). auto.
  Qed.
  Lemma increased_unique E E' v v' : (forall n, node t n -> (In n E <-> In n E')) -> increased X E v -> increased X E' v' -> v = v'.
  Proof.
    intros HE [L H] [L' H']. apply nth_ext' with (d := 0); [lia|]. intros k Hk. assert (Hn : node t (S k)) by (unfold node; lia).
    destruct (H (S k) Hn) as [Ha Hb]. destruct (H' (S k) Hn) as [Ha' Hb']. specialize (HE (S k) Hn). unfold rk in *. cbn in Ha, Hb, Ha', Hb'. rewrite Nat.sub_0_r in *.
    destruct (in_dec Nat.eq_dec (S k) E) as [i|i]; [rewrite Ha, Ha'|rewrite Hb, Hb']; tauto.
  Qed.
  Lemma raise_twice E F : (forall n, In n E -> ~ In n F) -> raise_at (raise_at ranks E) F = raise_at ranks (E ++ F).
  Proof.
    intros D. apply nth_ext' with (d := 0); [rewrite !raise_len; auto|]. intros k Hk. rewrite !raise_len, (ranks_len X) in Hk. assert (Hn : node t (S k)) by (unfold node; lia).
    assert (H : rk (raise_at (raise_at ranks E) F) (S k) = rk (raise_at ranks (E ++ F)) (S k)).
    { rewrite !raise_rk; auto; try apply ranks_len; [|rewrite raise_len; apply ranks_len].
      destruct (inb (S k) E) eqn:EE, (inb (S k) F) eqn:EF; rewrite ?inb_spec, ?inb_false in *.
      - exfalso. apply (D (S k)); auto.
      - rewrite (proj2 (inb_spec _ _)); auto. apply in_or_app; auto.
      - rewrite (proj2 (inb_spec _ _)); auto. apply in_or_app; auto.
      - rewrite (proj2 (inb_false _ _)); auto. intros C. apply in_app_or in C. tauto. }
    unfold rk in H. cbn in H. rewrite Nat.sub_0_r in H. auto.
  Qed.
  Lemma adm_raise E : exists b, tb_is_admissible X (raise_at ranks E) = Some b /\ (b = true <-> admissible X r (raise_at ranks E)).
  Proof. apply (admissible_spec X r O); auto. rewrite raise_len. apply ranks_len. Qed.

  Theorem new_rank_spec : (0 < theta <= 1)%R ->
    exists v E, new_rank_sel X theta sv = Some (v, E) /\ NoDup E /\ increased X E v /\ (E = [] \/ admissible X r v) /\
      (forall n, In n E -> exists x, cand n x) /\
      (E <> [] -> forall n x, cand n x -> (forall m y, cand m y -> theta * y <= x)%R -> In n E) /\
      (forall m n y x, In m E -> cand m y -> cand n x -> (y <= x)%R -> In n E) /\
      (forall m y k z, cand m y -> cand k z -> (y <= theta * z)%R -> (forall n x, cand n x -> (x < y)%R -> (x + x / 100 < y)%R) ->
         (forall F w, (forall n, In n F <-> exists x, cand n x /\ (y <= x)%R) -> increased X F w -> admissible X r w) ->
         E <> [] /\ forall n, In n E -> exists x, cand n x /\ (y <= x)%R).
  Proof.
    intros HT. unfold new_rank_sel. fold sv1.
    set (E0 := match sv_vals sv1 with [] => [] | _ => filter (fun n => sv_geb (sv_at sv1 n) (theta * nanmax (sv_vals sv1))%R) (nodes t) end).
    set (M := (theta * nanmax (sv_vals sv1))%R) in E0.
    assert (V : forall x, In x (sv_vals sv1) <-> exists n, cand n x).
    { intros x. rewrite vals_nodes by apply sv1_len. split; intros (n & H); exists n.
      - apply sv1_spec; apply H.
      - split; [apply H|]. apply sv1_spec; [apply H|auto]. }
    assert (Hgeb : forall n s, node t n -> (sv_geb (sv_at sv1 n) s = true <-> exists x, cand n x /\ (s <= x)%R)).
    { intros n s Hn. split.
      - intros H. destruct (sv_at sv1 n) as [x|] eqn:E; [|discriminate]. exists x. split; [apply sv1_spec; auto|]. cbn in H. destruct (Rle_dec s x); [auto|discriminate].
      - intros (x & Hx & L). apply sv1_spec in Hx; auto. rewrite Hx. cbn. destruct (Rle_dec s x); [auto|contradiction]. }
    assert (HM : forall m y, cand m y -> (theta * y <= M)%R /\ exists k, cand k (nanmax (sv_vals sv1))).
    { intros m y Hm. assert (Hy : In y (sv_vals sv1)) by (apply V; exists m; auto). destruct (nanmax_spec (sv_vals sv1)) as [N1 N2]; [intros C; rewrite C in Hy; destruct Hy|].
      split; [apply Rmult_le_compat_l; [lra|auto]|apply V; auto]. }
    assert (H0 : forall n, In n E0 <-> exists x, cand n x /\ (M <= x)%R).
    { intros n. unfold E0. destruct (sv_vals sv1) as [|a l] eqn:EV.
      - split; [intros []|]. intros (x & Hx & _). exfalso. apply (proj2 (V x)). exists n; auto.
      - clear V. rewrite filter_In, in_nodes. split; [intros [Hn H]; apply Hgeb; auto|]. intros (x & Hx & L). split; [apply Hx|]. apply Hgeb; [apply Hx|exists x; auto]. }
    assert (ND0 : NoDup E0) by (unfold E0; destruct (sv_vals sv1); [constructor|apply NoDup_filter, NoDup_nodes]).
    assert (HE0 : forall m y, cand m y -> E0 <> []).
    { intros m y Hm. destruct (HM m y Hm) as [_ [k Hk]]. assert (In k E0); [|intros C; rewrite C in *; auto].
      apply H0. exists (nanmax (sv_vals sv1)). split; auto. pose proof (cand_pos _ _ Hk). unfold M. nra. }
    destruct (adm_raise E0) as (b & Eb & Hb). rewrite Eb. cbn [bind]. destruct b.
    { exists (raise_at ranks E0), E0. split; auto. split; auto. split; [apply raise_increased|]. split; [right; apply Hb; auto|]. split; [|split; [|split]].
      - intros n Hn. apply H0 in Hn. destruct Hn as (x & Hx & _). exists x; auto.
      - intros _ n x Hx Hmax. apply H0. exists x. split; auto. destruct (HM n x Hx) as [_ [k Hk]]. apply (Hmax k). auto.
      - intros m n y x Hm Cm Cn L. apply H0 in Hm. destruct Hm as (y' & Cy & L'). rewrite (cand_fun _ _ _ Cm Cy) in L. apply H0. exists x. split; auto. lra.
      - intros m y k z Cm Ck L _ _. split; [apply (HE0 m y Cm)|]. intros n Hn. apply H0 in Hn. destruct Hn as (x & Cx & L'). exists x. split; auto. destruct (HM k z Ck). lra. }
    set (sv2 := map (fun n => if inb n E0 then None else sv_at sv1 n) (nodes t)).
    set (ind := fun s => filter (fun n => sv_geb (sv_at sv2 n) s) (nodes t)).
    assert (L2 : length sv2 = N) by (unfold sv2; rewrite map_length; apply nodes_len).
    assert (S2 : forall n x, node t n -> (sv_at sv2 n = Some x <-> cand n x /\ ~ In n E0)).
    { intros n x Hn. pose proof Hn as Hn'. unfold node in Hn'. unfold sv_at at 1, sv2. rewrite (map_nth_in _ _ _ 0) by (rewrite (nodes_len X); lia). rewrite (nodes_nth X) by lia. replace (S (n - 1)) with n by lia.
      destruct (inb n E0) eqn:E; rewrite ?inb_spec, ?inb_false in E; [split; [discriminate|tauto]|]. rewrite sv1_spec by auto. tauto. }
    assert (HI : forall s n, In n (ind s) <-> exists x, cand n x /\ ~ In n E0 /\ (s <= x)%R).
    { intros s n. unfold ind. rewrite filter_In, in_nodes. split.
      - intros [Hn H]. destruct (sv_at sv2 n) as [x|] eqn:E; [|discriminate]. apply S2 in E; auto. exists x. split; [apply E|split; [apply E|]]. cbn in H. destruct (Rle_dec s x); [auto|discriminate].
      - intros (x & Hx & Hni & L). assert (Hn : node t n) by apply Hx. split; auto. rewrite (proj2 (S2 n x Hn)) by auto. cbn. destruct (Rle_dec s x); [auto|contradiction]. }
    assert (V2 : forall x, In x (sv_vals sv2) <-> exists n, cand n x /\ ~ In n E0).
    { intros x. rewrite (vals_nodes _ _ L2). split; intros (n & H); exists n; [apply S2; apply H|]. split; [apply H|apply S2; auto; apply H]. }
    assert (DJ : forall s n, In n E0 -> ~ In n (ind s)) by (intros s n H1 H2; apply HI in H2; destruct H2 as (x & _ & H2 & _); auto).
    assert (TW : forall s, raise_at (raise_at ranks E0) (ind s) = raise_at ranks (E0 ++ ind s)) by (intros s; apply raise_twice; apply DJ).
    pose proof (ofind_first (fun s => tb_is_admissible X (raise_at (raise_at ranks E0) (ind s))) (rev (unique_tol (1 / 100) (sv_vals sv2)))) as OF.
    match type of OF with ?A -> _ => assert (HA : A) end.
    { intros s _. rewrite TW. destruct (adm_raise (E0 ++ ind s)) as (b & E & _). exists b; auto. }
    specialize (OF HA). clear HA. destruct (ofind _ _) as [[s|]|]; [| |contradiction]; cbn [bind].
    - destruct OF as (l1 & l2 & EL & Hs & Hf). exists (raise_at (raise_at ranks E0) (ind s)), (E0 ++ ind s). split; auto.
      assert (Hsv : exists n, cand n s /\ ~ In n E0). { apply V2. apply (unique_tol_in (1 / 100)). apply in_rev. rewrite EL. apply in_or_app. right. left. auto. }
      assert (HU : forall n, In n (E0 ++ ind s) <-> exists x, cand n x /\ (s <= x)%R).
      { intros n. rewrite in_app_iff, H0, HI. destruct Hsv as (k & Ck & Nk). assert (s < M)%R. { destruct (Rlt_le_dec s M); auto. exfalso. apply Nk, H0. exists s; auto. } split.
        - intros [(x & Cx & L) | (x & Cx & _ & L)]; exists x; split; auto; lra.
        - intros (x & Cx & L). destruct (Rle_lt_dec M x) as [L'|L']; [left; exists x; auto|]. right. exists x. split; auto. split; auto. rewrite H0. intros (x' & Cx' & L''). rewrite (cand_fun _ _ _ Cx' Cx) in L''. lra. }
      split; [|split; [|split; [|split; [|split; [|split]]]]].
      + apply NoDup_app; [auto|apply NoDup_filter, NoDup_nodes|]. intros n. apply DJ.
      + rewrite TW. apply raise_increased.
      + right. rewrite TW in Hs |- *. destruct (adm_raise (E0 ++ ind s)) as (b & E & Hb'). rewrite E in Hs. injection Hs as ->. apply Hb'. auto.
      + intros n Hn. apply HU in Hn. destruct Hn as (x & Cx & _). exists x; auto.
      + intros _ n x Hx Hmax. apply in_or_app. left. apply H0. exists x. split; auto. destruct (HM n x Hx) as [_ [k Hk]]. apply (Hmax k). auto.
      + intros m n y x Hm Cm Cn L. apply HU in Hm. destruct Hm as (y' & Cy & L'). rewrite (cand_fun _ _ _ Cm Cy) in L. apply HU. exists x. split; auto. lra.
      + intros m y k z Cm Ck L Hg Hadm. split; [intros C; apply app_eq_nil in C; apply (HE0 m y Cm); apply C|]. intros n Hn. apply HU in Hn. destruct Hn as (x & Cx & Lx). exists x. split; auto. apply Rle_trans with (2 := Lx).
        assert (LM : (y <= M)%R) by (destruct (HM k z Ck); lra).
        destruct (Rle_lt_dec M y) as [E|LT].
        * exfalso. assert (y = M) by lra. subst y. assert (admissible X r (raise_at ranks E0)) by (apply (Hadm E0); [apply H0|apply raise_increased]). assert (false = true) by (apply Hb; auto). discriminate.
        * assert (Hy : In y (unique_tol (1 / 100) (sv_vals sv2))).
          { apply unique_tol_keep; [lra| | |].
            - intros q Hq. apply V2 in Hq. destruct Hq as (nq & Cq & _). apply (cand_pos _ _ Cq).
            - apply V2. exists m. split; auto. rewrite H0. intros (y' & Cy & L'). rewrite (cand_fun _ _ _ Cy Cm) in L'. lra.
            - intros q Hq Lq. apply V2 in Hq. destruct Hq as (nq & Cq & _). specialize (Hg nq q Cq Lq). lra. }
          apply in_rev in Hy. rewrite EL in Hy. apply in_app_or in Hy. destruct Hy as [Hy | [-> | Hy]]; [|lra|].
          -- exfalso. specialize (Hf y Hy). cbv beta in Hf. rewrite TW in Hf. destruct (adm_raise (E0 ++ ind y)) as (b & E & Hb'). rewrite E in Hf. injection Hf as ->.
             assert (admissible X r (raise_at ranks (E0 ++ ind y))); [|assert (false = true) by (apply Hb'; auto); discriminate]. apply (Hadm (E0 ++ ind y)); [|apply raise_increased].
             intros p. rewrite in_app_iff, H0, HI. split.
             ++ intros [(q & Cq & Lq) | (q & Cq & _ & Lq)]; exists q; split; auto; lra.
             ++ intros (q & Cq & Lq). destruct (Rle_lt_dec M q) as [L'|L']; [left; exists q; auto|]. right. exists q. split; auto. split; auto. rewrite H0. intros (x' & Cx' & L''). rewrite (cand_fun _ _ _ Cx' Cq) in L''. lra.
          -- apply (sorted_rev_split _ _ _ _ _ (unique_tol_sorted (1 / 100) (sv_vals sv2)) EL Hy).
    - exists ranks, []. split; auto. split; [constructor|]. split; [|split; [left; auto|split; [intros n []|split; [congruence|split; [intros m n y x []|]]]]].
      + split; [apply ranks_len|]. intros n Hn. split; [intros []|]. intros _. apply ranks_nth; auto.
      + intros m y k z Cm Ck L Hg Hadm. exfalso. assert (LM : (y <= M)%R) by (destruct (HM k z Ck); lra).
        destruct (Rle_lt_dec M y) as [E|LT].
        * assert (y = M) by lra. subst y. assert (admissible X r (raise_at ranks E0)) by (apply (Hadm E0); [apply H0|apply raise_increased]). assert (false = true) by (apply Hb; auto). discriminate.
        * assert (Hy : In y (unique_tol (1 / 100) (sv_vals sv2))).
          { apply unique_tol_keep; [lra| | |].
            - intros q Hq. apply V2 in Hq. destruct Hq as (nq & Cq & _). apply (cand_pos _ _ Cq).
            - apply V2. exists m. split; auto. rewrite H0. intros (y' & Cy & L'). rewrite (cand_fun _ _ _ Cy Cm) in L'. lra.
            - intros q Hq Lq. apply V2 in Hq. destruct Hq as (nq & Cq & _). specialize (Hg nq q Cq Lq). lra. }
          apply in_rev in Hy. specialize (OF y Hy). cbv beta in OF. rewrite TW in OF. destruct (adm_raise (E0 ++ ind y)) as (b & E & Hb'). rewrite E in OF. injection OF as ->.
          assert (admissible X r (raise_at ranks (E0 ++ ind y))); [|assert (false = true) by (apply Hb'; auto); discriminate]. apply (Hadm (E0 ++ ind y)); [|apply raise_increased].
          intros p. rewrite in_app_iff, H0, HI. split.
          -- intros [(q & Cq & Lq) | (q & Cq & _ & Lq)]; exists q; split; auto; lra.
          -- intros (q & Cq & Lq). destruct (Rle_lt_dec M q) as [L'|L']; [left; exists q; auto|]. right. exists q. split; auto. split; auto. rewrite H0. intros (x' & Cx' & L''). rewrite (cand_fun _ _ _ Cx' Cq) in L''. lra.
  Qed.
End RankP5.
