(** Tensor-product projection: the discrete least-squares projection on a tensor-product basis. *)
From Coq Require Import List Arith Bool ZArith Lia.
From Verif.Base Require Import ListAux CRing Index.
From Verif.Model Require Import Sorting MultiIndices Numpy FullTensor Diagonal Canonical Sparse DimensionTree Functions FunctionalBases.
From Verif.Spec Require Import MultiIndicesSpec TensorSpec FunctionSpec FunctionalSpec.
From Verif.Proofs Require Import NumpyP FullTensorP FullTensorP3 SparseP CanonicalP CanonicalP2 MIMoreP FunctionsP FunctionsP2 FunctionsP3 TensorizerP FunctionalP FunctionalP2 FunctionalP3 FunctionalP4 FunctionalP5.
Import ListNotations.

Section P.
  Context {R : Type} {CR : CRing R} {A V : Type}.
  Add Ring Rfb6 : rth.
  Local Open Scope cr_scope.
  Notation fb := (fbasis R A V).

  Lemma splitc_stack (bs : list fb) : forall G acc x n, bs <> [] -> grid_ok bs G -> Forall (fun g => length g = n) G -> length x = n ->
    (forall i, (i < n)%nat -> skipn acc (nth i x []) = concat (map (fun g => nth i g []) G)) -> splitc acc (map fb_ndim bs) x = G.
  Proof.
    induction bs as [|b bs IH]; intros G acc x n Hn HG HF Hx H; [congruence|]. inversion HG as [|? g ? G' Hb HG']; subst. inversion HF as [|? ? Hg HF']; subst.
    destruct bs as [|b2 bs].
    - inversion HG'; subst. cbn [map splitc]. f_equal. apply nth_ext with (d := []) (d' := []); rewrite map_length; [auto|]. intros i Hi.
      rewrite map_nth_in with (da := []) by auto. rewrite H by auto. cbn. apply app_nil_r.
    - change (splitc acc (map fb_ndim (b :: b2 :: bs)) x) with (map (fun r => firstn (fb_ndim b) (skipn acc r)) x :: splitc (acc + fb_ndim b) (map fb_ndim (b2 :: bs)) x).
      f_equal.
      + apply nth_ext with (d := []) (d' := []); rewrite map_length; [auto|]. intros i Hi. rewrite map_nth_in with (da := []) by auto. rewrite H by auto. cbn [map concat].
        assert (Lp : length (nth i g []) = fb_ndim b) by (rewrite Forall_forall in Hb; apply Hb, nth_In; lia).
        rewrite firstn_app, Lp, Nat.sub_diag, firstn_all2 by lia. cbn [firstn]. apply app_nil_r.
      + apply (IH G' _ _ (length x)); auto; [congruence|]. intros i Hi. rewrite <- skipn_skipn', H by auto. cbn [map concat].
        assert (Lp : length (nth i g []) = fb_ndim b) by (rewrite Forall_forall in Hb; apply Hb, nth_In; lia).
        rewrite skipn_app, Lp, Nat.sub_diag, skipn_all2 by lia. reflexivity.
  Qed.
  Lemma hstack_evals (bs : list fb) G : bs <> [] -> grid_ok bs G -> hstack_ok G = true ->
    fbs_eval bs None (map (fun i => concat (map (fun g => nth i g []) G)) (seq 0 (length (hd [] G)))) = Some (gevals bs G).
  Proof.
    intros Hn HG Hh. rewrite fbs_eval_all. f_equal. unfold evals, gevals. f_equal. f_equal. apply (splitc_stack bs G 0 _ (length (hd [] G))); auto.
    - destruct G as [|g G]; [constructor|]. cbn [hstack_ok] in Hh. rewrite forallb_forall in Hh. apply Forall_forall. intros h Hh2. cbn [hd]. apply Nat.eqb_eq. auto.
    - rewrite map_length, seq_length. auto.
    - intros i Hi. rewrite nth_map_seq by auto. reflexivity.
  Qed.

  Definition ymat (q : fb * list (list A) * list R) : nd R :=
    ND [fb_card (fst (fst q)); length (snd (fst q))] (fun is => fb_at (fst (fst q)) (nth (nth 1 is 0%nat) (snd (fst q)) []) (nth 0 is 0%nat) * nth (nth 1 is 0%nat) (snd q) r0).
  Definition mmat (q : fb * list (list A) * list R) : nd R :=
    ND [fb_card (fst (fst q)); fb_card (fst (fst q))] (fun is => dmean (snd (fst q)) (snd q) (fun p => fb_at (fst (fst q)) p (nth 0 is 0%nat) * fb_at (fst (fst q)) p (nth 1 is 0%nat))).
  Lemma ymat_factors : forall (bs : list fb) G W is ks, grid_ok bs G -> length W = length bs -> valid (g_shape G) ks -> length is = length bs ->
    factors (map ymat (combine (combine bs G) W)) is ks = lfactors W ks * prod_fun bs is (grid_point G ks).
  Proof.
    induction bs as [|b bs IH]; intros G [|w W] is ks HG LW Hk Hi; cbn [length] in LW; try lia.
    - inversion HG; subst. destruct ks; [|inversion Hk]. destruct is; [|cbn in Hi; lia]. cbn. unfold lfactors. cbn. ring.
    - inversion HG as [|? g ? G' Hb HG']; subst. destruct ks as [|k ks]; [inversion Hk|]. destruct is as [|i is]; [cbn in Hi; lia|]. inversion Hk; subst.
      cbn [combine map factors grid_point prod_fun]. rewrite lfactors_cons, IH by (auto; cbn in Hi; lia). cbn [ymat get nth fst snd].
      assert (Lp : length (nth k g []) = fb_ndim b) by (rewrite Forall_forall in Hb; apply Hb, nth_In; auto).
      rewrite firstn_app, Lp, Nat.sub_diag, firstn_all2 by lia. cbn [firstn]. rewrite app_nil_r.
      rewrite skipn_app, Lp, Nat.sub_diag, skipn_all2 by lia. cbn [skipn app]. ring.
  Qed.
  Lemma rsum_delta n i (f : nat -> R) : (i < n)%nat -> rsum n (fun j => (if (i =? j)%nat then r1 else r0) * f j) = f i.
  Proof.
    intros Hi. rewrite (rsum_single n i); auto.
    - rewrite Nat.eqb_refl. ring.
    - intros j Hj Hne. destruct (i =? j)%nat eqn:E; [apply Nat.eqb_eq in E; congruence|ring].
  Qed.

  Section Proj.
    Variables (solve : nd R -> nd R -> option (nd R)) (bs : list fb) (f : list A -> R) (G : list (list (list A))) (W : list (list R)) (T : nd R).
    Hypothesis Hn : bs <> [].
    Hypothesis Hs : solve_contract solve.
    Hypothesis HG : grid_ok bs G.
    Hypothesis HE : Forall (fun g => g <> []) G.
    Hypothesis HW : map (@length R) W = g_shape G.
    Hypothesis HT : tp_project solve bs f G W = Some T.
    Let d := length bs.
    Let qs := combine (combine bs G) W.
    Let Hs' := gevals bs G.
    Let b0 : fb := hd (FB 0 0 (fun _ _ => r0) (fun _ => []) (scalar r0) false) bs.
    Lemma LG : length G = d. Proof. apply grid_len. auto. Qed.
    Lemma LW : length W = d. Proof. rewrite <- (map_length (@length R)), HW. unfold g_shape. rewrite map_length. apply LG. Qed.
    Lemma Lq : length qs = d. Proof. unfold qs. rewrite !combine_length, LG, LW. unfold d. lia. Qed.
    Lemma wlen k : (k < d)%nat -> length (nth k W []) = length (nth k G []).
    Proof.
      intros Hk. assert (E : nth k (map (@length R) W) 0%nat = nth k (g_shape G) 0%nat) by (rewrite HW; auto). unfold g_shape in E.
      rewrite map_nth_in with (da := []) in E by (rewrite LW; auto). rewrite map_nth_in with (da := []) in E by (rewrite LG; auto). auto.
    Qed.
    Lemma qs_nth k : (k < d)%nat -> nth k qs (b0, [], []) = (nth k bs b0, nth k G [], nth k W []).
    Proof. intros Hk. unfold qs. rewrite combine_nth by (rewrite combine_length, LG, LW; unfold d; lia). rewrite combine_nth by (symmetry; apply LG). auto. Qed.
    Lemma hs_nth k : (k < d)%nat -> nth k Hs' (scalar r0) = fb_eval (nth k bs b0) (nth k G []).
    Proof.
      intros Hk. unfold Hs', gevals. rewrite map_nth_in with (da := (b0, [])) by (rewrite combine_length, LG; fold d; lia). rewrite combine_nth by (symmetry; apply LG). auto.
    Qed.

    (** what the code computes: the values u of f on the grid and the matrices X_k *)
    Lemma project_data : exists u Xs, shape u = g_shape G /\ (forall ks, valid (g_shape G) ks -> get u ks = f (grid_point G ks)) /\ length Xs = d /\
      (forall k, (k < d)%nat -> shape (nth k Xs (scalar r0)) = [nth k (cards bs) 0%nat; nth k (g_shape G) 0%nat] /\
        (exists N, identity (nth k (cards bs) 0%nat) (fun i j => rsum (nth k (cards bs) 0%nat) (fun l => N i l * get (nth k (map mmat qs) (scalar r0)) [l; j]))) /\
        forall i j, (i < nth k (cards bs) 0%nat)%nat -> (j < nth k (g_shape G) 0%nat)%nat ->
          rsum (nth k (cards bs) 0%nat) (fun l => get (nth k (map mmat qs) (scalar r0)) [i; l] * get (nth k Xs (scalar r0)) [l; j]) = get (nth k (map ymat qs) (scalar r0)) [i; j]) /\
      shape T = cards bs /\ forall is, valid (cards bs) is -> get T is = bsum (g_shape G) (fun ks => get u ks * factors Xs is ks).
    Proof.
      assert (GN : G <> []) by (intros E; pose proof LG as L; rewrite E in L; unfold d in L; destruct bs; cbn in L; congruence).
      unfold tp_project in HT. destruct (eval_full_grid_scalar [1%nat] (fun p => [f p]) (length G) G GN HE eq_refl) as (u & EU & SU & GU). rewrite EU in HT. cbn [bind] in HT.
      destruct (hstack_ok G) eqn:EH; [|discriminate]. rewrite hstack_evals in HT by auto. cbn [bind] in HT.
      match type of HT with context [omap ?F ?L] => destruct (omap F L) as [Xs|] eqn:EX end; [|discriminate]. cbn [bind] in HT.
      destruct (omap_shapes _ _ _ (scalar r0, []) (scalar r0) EX) as [LX HX]. clear EX. fold Hs' in HX, LX.
      assert (LH : length Hs' = d) by (apply gevals_length, LG).
      rewrite combine_length, LH, LW, Nat.min_id in LX, HX.
      assert (LC : length (cards bs) = d) by apply map_length.
      assert (LS : length (g_shape G) = d) by (unfold g_shape; rewrite map_length; apply LG).
      assert (HK : forall k, (k < d)%nat -> shape (nth k Xs (scalar r0)) = [nth k (cards bs) 0%nat; nth k (g_shape G) 0%nat] /\
        (exists N, identity (nth k (cards bs) 0%nat) (fun i j => rsum (nth k (cards bs) 0%nat) (fun l => N i l * get (nth k (map mmat qs) (scalar r0)) [l; j]))) /\
        forall i j, (i < nth k (cards bs) 0%nat)%nat -> (j < nth k (g_shape G) 0%nat)%nat ->
          rsum (nth k (cards bs) 0%nat) (fun l => get (nth k (map mmat qs) (scalar r0)) [i; l] * get (nth k Xs (scalar r0)) [l; j]) = get (nth k (map ymat qs) (scalar r0)) [i; j]).
      { intros k Hk. pose proof (HX k Hk) as HXk. rewrite combine_nth in HXk by (rewrite LW; auto). cbn [fst snd] in HXk. rewrite hs_nth in HXk by auto.
        rewrite !map_nth_in with (da := (b0, [], [])) by (rewrite Lq; auto). rewrite qs_nth by auto.
        assert (EC : nth k (cards bs) 0%nat = fb_card (nth k bs b0)) by (unfold cards; rewrite map_nth_in with (da := b0) by (fold d; auto); auto).
        assert (EG : nth k (g_shape G) 0%nat = length (nth k G [])) by (unfold g_shape; rewrite map_nth_in with (da := []) by (rewrite LG; auto); auto).
        rewrite EC, EG. set (b := nth k bs b0) in *. set (g := nth k G []) in *. set (w := nth k W []) in *.
        destruct (np_T_shape (fb_eval b g) (length g) (fb_card b) eq_refl) as [ST GT].
        destruct (matmul_ok (np_T (fb_eval b g)) (row_scale w (fb_eval b g)) (fb_card b) (length g) (fb_card b)) as (C & EC2 & SC & GC); auto.
        rewrite EC2 in HXk. cbn [bind] in HXk. apply Hs in HXk. destruct HXk as (n & m & S1 & S2 & S3 & (N & HN) & HX2).
        rewrite SC in S1. injection S1 as <- . cbn [fb_eval shape nth] in S2. injection S2 as <-.
        assert (EM : forall i j, get C [i; j] = get (mmat (b, g, w)) [i; j]).
        { intros i j. rewrite GC. cbn [mmat get nth fst snd]. unfold dmean. apply rsum_ext. intros q Hq. rewrite GT. cbn [row_scale fb_eval get nth]. ring. }
        split; auto. split.
        - exists N. intros i j Hi Hj. rewrite <- (HN i j Hi Hj). apply rsum_ext. intros l Hl. rewrite EM. auto.
        - intros i j Hi Hj. cbn [ymat get nth fst snd]. transitivity (rsum (fb_card b) (fun l => get C [i; l] * get (nth k Xs (scalar r0)) [l; j])); [apply rsum_ext; intros l Hl; rewrite EM; auto|].
          rewrite (HX2 i j Hi Hj). cbn [get nth fb_eval]. reflexivity. }
      exists u, Xs. split; [auto|]. split; [intros ks Hk; rewrite GU by auto; reflexivity|]. split; [auto|]. split; [exact HK|].
      rewrite LX, <- LC in HT. destruct (tmp_all u Xs (cards bs)) as (Z & EZ & SZ & GZ).
      { unfold ndim. rewrite SU. lia. } { lia. } { intros k Hk. rewrite SU. apply HK. lia. }
      rewrite EZ in HT. injection HT as <-. split; auto. intros is Hi. rewrite GZ by auto. rewrite SU. reflexivity.
    Qed.
    (** the projection is characterised by its scalar products with the basis functions *)
    Theorem project_orth : shape T = cards bs /\ forall is, valid (cards bs) is ->
      tmean G W (fun p => expansion bs (get T) p * prod_fun bs is p) = tmean G W (fun p => f p * prod_fun bs is p).
    Proof.
      destruct project_data as (u & Xs & SU & GU & LX & HK & ST & GT). split; auto. intros is Hi. pose proof (valid_length _ _ Hi) as Li.
      assert (LC : length (cards bs) = d) by apply map_length. assert (LS : length (g_shape G) = d) by (unfold g_shape; rewrite map_length; apply LG).
      assert (LH : length Hs' = d) by (apply gevals_length, LG).
      unfold tmean. fold (g_shape G).
      transitivity (bsum (g_shape G) (fun ks => bsum (cards bs) (fun js => bsum (g_shape G) (fun ls => get u ls * (factors (map ymat qs) is ks * factors Hs' ks js * factors Xs js ls))))).
      { apply bsum_ext. intros ks Hk. unfold expansion.
        transitivity (factors (map ymat qs) is ks * bsum (cards bs) (fun js => get T js * factors Hs' ks js)).
        - unfold qs. rewrite ymat_factors by (first [exact LW | assumption | lia]). transitivity (lfactors W ks * prod_fun bs is (grid_point G ks) * bsum (cards bs) (fun js => get T js * prod_fun bs js (grid_point G ks))); [ring|]. f_equal.
          apply bsum_ext. intros js Hj. f_equal. symmetry. apply gevals_factors; auto. rewrite (valid_length _ _ Hj). auto.
        - rewrite <- bsum_scal_l. apply bsum_ext. intros js Hj. rewrite GT by auto. rewrite <- bsum_scal_r, <- bsum_scal_l. apply bsum_ext. intros ls Hl. ring. }
      rewrite bsum_exchange.
      transitivity (bsum (cards bs) (fun js => bsum (g_shape G) (fun ls => get u ls * (factors (map mmat qs) is js * factors Xs js ls)))).
      { apply bsum_ext. intros js Hj. rewrite bsum_exchange. apply bsum_ext. intros ls Hl. rewrite bsum_scal_l, bsum_scal_r. f_equal. f_equal.
        pose proof (valid_length _ _ Hj) as Lj.
        apply factors_compose; rewrite ?map_length, ?Lq; auto; try lia. intros k Hk. rewrite LS in Hk. rewrite !map_nth_in with (da := (b0, [], [])) by (rewrite Lq; auto). rewrite qs_nth, hs_nth by auto.
        unfold g_shape. rewrite map_nth_in with (da := []) by (rewrite LG; auto). cbn [ymat mmat fb_eval get nth fst snd]. unfold dmean. apply rsum_ext. intros q Hq. ring. }
      rewrite bsum_exchange. apply bsum_ext. intros ls Hl. rewrite bsum_scal_l. pose proof (valid_length _ _ Hl) as Ll.
      rewrite (factors_compose (cards bs) (map mmat qs) Xs (map ymat qs) is ls); rewrite ?map_length, ?Lq; auto; try lia.
      - rewrite GU by auto. unfold qs. rewrite ymat_factors by (first [exact LW | assumption | lia]). ring.
      - intros k Hk. apply HK; [lia| |].
        + apply (valid_nth _ _ k Hi). auto.
        + apply (valid_nth _ _ k Hl). lia.
    Qed.
    (** it is exact on the span of the basis *)
    Theorem project_exact C : (forall ks, valid (g_shape G) ks -> f (grid_point G ks) = expansion bs C (grid_point G ks)) ->
      forall is, valid (cards bs) is -> get T is = C is.
    Proof.
      intros HC is Hi. destruct project_data as (u & Xs & SU & GU & LX & HK & ST & GT). pose proof (valid_length _ _ Hi) as Li.
      assert (LC : length (cards bs) = d) by apply map_length. assert (LS : length (g_shape G) = d) by (unfold g_shape; rewrite map_length; apply LG).
      assert (LH : length Hs' = d) by (apply gevals_length, LG).
      rewrite GT by auto.
      transitivity (bsum (cards bs) (fun js => bsum (g_shape G) (fun ks => C js * (factors Xs is ks * factors Hs' ks js)))).
      { rewrite bsum_exchange. apply bsum_ext. intros ks Hk. rewrite GU, HC by auto. unfold expansion. rewrite <- bsum_scal_r. apply bsum_ext. intros js Hj. unfold Hs'. rewrite gevals_factors; auto; [ring|].
        rewrite (valid_length _ _ Hj). auto. }
      (* X_k H_k = Id *)
      assert (HI : forall k i j, (k < d)%nat -> (i < nth k (cards bs) 0%nat)%nat -> (j < nth k (cards bs) 0%nat)%nat ->
        rsum (nth k (g_shape G) 0%nat) (fun l => get (nth k Xs (scalar r0)) [i; l] * get (nth k Hs' (scalar r0)) [l; j]) = if (i =? j)%nat then r1 else r0).
      { intros k i j Hk Hi2 Hj2. destruct (HK k Hk) as (S1 & (N & HN) & HX). set (c := nth k (cards bs) 0%nat) in *. set (n := nth k (g_shape G) 0%nat) in *.
        set (M := nth k (map mmat qs) (scalar r0)) in *. set (X := nth k Xs (scalar r0)) in *. set (H := nth k Hs' (scalar r0)) in *. set (Y := nth k (map ymat qs) (scalar r0)) in *.
        assert (EM : forall i j, (i < c)%nat -> (j < c)%nat -> rsum n (fun l => get Y [i; l] * get H [l; j]) = get M [i; j]).
        { intros i' j' Hi' Hj'. unfold Y, H, M, n. rewrite !map_nth_in with (da := (b0, [], [])) by (rewrite Lq; auto). rewrite qs_nth, hs_nth by auto.
          unfold g_shape. rewrite map_nth_in with (da := []) by (rewrite LG; auto). cbn [ymat mmat fb_eval get nth fst snd]. unfold dmean. apply rsum_ext. intros q Hq. ring. }
        set (Z := fun a => rsum n (fun l => get X [a; l] * get H [l; j])).
        transitivity (Z i); [reflexivity|].
        assert (EZ : forall a, (a < c)%nat -> rsum c (fun l => get M [a; l] * Z l) = get M [a; j]).
        { intros a Ha. rewrite <- EM by auto. unfold Z. transitivity (rsum c (fun l => rsum n (fun q => get M [a; l] * (get X [l; q] * get H [q; j])))); [apply rsum_ext; intros l Hl; rewrite rsum_scal_l; auto|].
          rewrite rsum_exchange. apply rsum_ext. intros q Hq. rewrite <- (HX a q Ha Hq), <- rsum_scal_r. apply rsum_ext. intros l Hl. ring. }
        rewrite <- (rsum_delta c i Z Hi2). rewrite <- (HN i j Hi2 Hj2).
        transitivity (rsum c (fun b => rsum c (fun l => N i l * get M [l; b]) * Z b)); [apply rsum_ext; intros b Hb; rewrite HN; auto|].
        transitivity (rsum c (fun b => rsum c (fun l => N i l * (get M [l; b] * Z b)))); [apply rsum_ext; intros b Hb; rewrite <- rsum_scal_r; apply rsum_ext; intros l Hl; ring|].
        rewrite rsum_exchange. apply rsum_ext. intros l Hl. rewrite rsum_scal_l, EZ by auto. auto. }
      transitivity (bsum (cards bs) (fun js => C js * factors (map np_eye (cards bs)) is js)).
      { apply bsum_ext. intros js Hj. rewrite bsum_scal_l. f_equal. pose proof (valid_length _ _ Hj) as Lj.
        apply factors_compose; rewrite ?map_length; auto; try lia. intros k Hk. rewrite LS in Hk. rewrite map_nth_in with (da := 0%nat) by lia.
        rewrite HI; [reflexivity|auto|apply (valid_nth _ _ k Hi); lia|apply (valid_nth _ _ k Hj); lia]. }
      rewrite (bsum_single _ is); auto.
      - enough (EE : factors (map np_eye (cards bs)) is is = r1) by (rewrite EE; ring).
        clear -Hi. revert Hi. generalize (cards bs) is. induction l as [|n l IH]; intros [|i is0] Hi; inversion Hi; subst; cbn [map factors]; auto. rewrite IH by auto. cbn. rewrite Nat.eqb_refl. ring.
      - intros ks Hk Hne. enough (EE : factors (map np_eye (cards bs)) is ks = r0) by (rewrite EE; ring).
        clear -Hi Hk Hne. revert Hi Hk Hne. generalize (cards bs) is ks. induction l as [|n l IH]; intros [|i is0] [|k ks0] Hi Hk Hne; inversion Hi; inversion Hk; subst; cbn [map factors]; [congruence|].
        cbn [np_eye get nth]. destruct (i =? k)%nat eqn:E; [|ring]. apply Nat.eqb_eq in E. subst. rewrite IH; auto; [ring|congruence].
    Qed.
  End Proj.
End P.
