(** hsvd of a tree-based tensor. *)
From Coq Require Import List Arith Lia Bool Reals Lra Permutation.
From Verif.Base Require Import ListAux CRing Index RealAux.
From Verif.Model Require Import Sorting Numpy FullTensor Diagonal Canonical DimensionTree TreeBased Truncator HSVD HsvdTree.
From Verif.Spec Require Import TensorSpec TreeSpec TreeTensorSpec TruncatorSpec.
From Verif.Proofs Require Import NumpyP FullTensorP FullTensorP3 FullTensorP4 DimTreeP DimTreeP2 TreeTensorP TreeTensorP2 TreeTensorP3 TreeTensorP4 TreeTensorP6 TreeTensorP7 TreeTensorP12 TreeTensorP13 TreeTensorP14 TreeTensorP15 TreeTensorP29 PolyP5 SpectralP LapackP EckartP FunctionalP4 MeasuresP TruncatorP TruncatorP2 TruncatorP3 TruncatorP4 TruncatorP5 HsvdP2 HsvdP3 HsvdP5 HsvdP7 HsvdP9 HsvdTreeP1 HsvdTreeP2 HsvdTreeP3 HsvdTreeP4 HsvdTreeP5 HsvdTreeP6.
Import ListNotations.
Local Open Scope R_scope.

Section Fold.
  Variables (F : nat -> nd R) (kk : nat -> nat).
  Definition addL (M : nat -> option (nat -> nat -> R)) (L : list nat) (m : nat) : option (nat -> nat -> R) := if inb m L then Some (qf (fun i c => get (F m) [i; c]) (kk m)) else M m.
  Lemma supp_same X Y r M : (forall m, node (ttree X) m -> active Y m = active X m) -> ttree Y = ttree X -> supp X r M -> supp Y r M.
  Proof. intros HA HT HM m Q E. destruct (HM m Q E) as (H1 & H2 & H3). rewrite HT, HA by auto. auto. Qed.
  Lemma supp_addL X r M L : (forall m, In m L -> node (ttree X) m /\ active X m = true /\ m <> r) -> supp X r M -> supp X r (addL M L).
  Proof. intros HL HM m Q. unfold addL. destruct (inb m L) eqn:E; [|apply HM]. intros _. apply HL. apply inb_spec. auto. Qed.
  Lemma mult_fold : forall L X r, tb_ok X r -> NoDup L ->
    (forall n, In n L -> node (ttree X) n /\ active X n = true /\ n <> r /\ shape (F n) = [csize X n; kk n] /\ (0 < kk n)%nat) ->
    exists l, ofold (fun l n => hsvd_mult (ttree X) (F n) l n) L (cores X) = Some l /\
      (forall m, node (ttree X) m -> active (TB (ttree X) l) m = active X m) /\
      (forall m, node (ttree X) m -> m <> r -> csize (TB (ttree X) l) m = if inb m L then kk m else csize X m) /\
      forall M, supp X r M -> (forall m, In m L -> M m = None) -> same_val (insm (addL M L) X) (insm M (TB (ttree X) l)) r.
  Proof.
    induction L as [|n L IH]; intros X r O ND HL; cbn [ofold].
    - exists (cores X). split; auto. assert (EX : TB (ttree X) (cores X) = X) by (destruct X; auto). rewrite EX. split; auto. split; auto.
      intros M HM _. apply same_val_refl. apply insm_ok. auto.
    - destruct (HL n (or_introl eq_refl)) as (Hn & Ha & NE & SF & Kp). inversion ND as [|? ? Nin ND']; subst.
      destruct (mult_gauge X r O n (kk n) (F n) Hn Ha NE SF Kp) as (l1 & E1 & LL1 & AZn & G1). rewrite E1. set (Z := TB (ttree X) l1) in *.
      set (Qn := qf (fun i c => get (F n) [i; c]) (kk n)) in *.
      assert (SN : supp X r (fun _ => None)) by (intros m Q E; discriminate).
      assert (O' : tb_ok (insm (adm (fun _ => None) n Qn) X) r) by (apply insm_ok; auto).
      assert (G0 := G1 (fun _ => None) SN eq_refl).
      set (X' := insm (adm (fun _ => None) n Qn) X) in *.
      assert (OZ' : tb_ok (insm (fun _ => None) Z) r) by (apply (ga_ok X' _ r _ _ _ _ _ O' G0)).
      assert (LZ : length (cores Z) = length (cores (insm (fun _ => None) Z))).
      { unfold insm. cbn [cores]. unfold nodes. rewrite map_length, seq_length. unfold Z. cbn [cores ttree]. rewrite LL1. apply (ok_cores_length X r O). }
      assert (cz : forall m, node (ttree X) m -> core (insm (fun _ => None) Z) m = core Z m) by (intros m Hm; apply (insm_core Z (fun _ => None)); auto).
      assert (OZ : tb_ok Z r) by (apply (ss_ok (insm (fun _ => None) Z) Z r OZ'); auto; intros m Hm; rewrite cz; auto).
      rewrite (insm_none Z r OZ) in G0.
      assert (shX : forall m, node (ttree X) m -> shape (core X' m) = shape (core X m)) by (intros; apply insm_shape; auto).
      assert (AZ : forall m, node (ttree X) m -> active Z m = active X m).
      { intros m Hm. destruct (Nat.eq_dec m n) as [->|Nm]; [rewrite Ha; auto|].
        rewrite (ga_active X' Z r _ _ _ _ _ O' G0) by auto. apply (ss_active X X'); auto. }
      assert (CZ : forall m, node (ttree X) m -> m <> r -> csize Z m = if (m =? n)%nat then kk n else csize X m).
      { intros m Hm Nr. destruct (Nat.eqb_spec m n) as [->|Nm]; [apply (ga_csize_n X' Z r _ _ _ _ _ O' G0)|].
        rewrite (ga_csize X' Z r _ _ _ _ _ O' G0) by auto. apply (ss_csize X X' r O); auto. }
      destruct (IH Z r OZ ND') as (l & E2 & A2 & C2 & S2).
      { intros m Hm. destruct (HL m (or_intror Hm)) as (K1 & K2 & K3 & K4 & K5). split; auto. split; [rewrite AZ; auto|]. split; auto. split; auto. rewrite CZ by auto.
        destruct (Nat.eqb_spec m n) as [->|]; [contradiction|auto]. }
      change (ttree Z) with (ttree X) in *. exists l. split; [exact E2|]. split; [intros m Hm; rewrite A2, AZ; auto|]. split.
      { intros m Hm Nr. rewrite C2, CZ by auto. cbn [inb existsb]. fold (inb m L). destruct (Nat.eqb_spec m n) as [->|Nm]; cbn [orb]; auto. destruct (inb n L) eqn:E; auto. }
      intros M HM MN. assert (HM1 : supp X r (addL M L)) by (apply supp_addL; auto; intros m Hm; destruct (HL m (or_intror Hm)) as (K1 & K2 & K3 & _); auto).
      assert (M1n : addL M L n = None) by (unfold addL; rewrite (proj2 (inb_false n L)) by auto; apply MN; simpl; auto).
      apply (same_val_trans _ (insm (addL M L) Z)).
      + rewrite (insm_ext X (addL M (n :: L)) (adm (addL M L) n Qn)).
        * apply (gauge_same _ _ r _ _ _ _ _ (insm_ok X r O _) (G1 (addL M L) HM1 M1n)).
        * intros m _. unfold addL, adm. cbn [inb existsb]. fold (inb m L). destruct (Nat.eqb_spec m n) as [->|]; auto.
      + apply S2; [|intros m Hm; apply MN; simpl; auto]. apply (supp_same X Z r M); auto.
  Qed.
End Fold.

(** the loop with the truncator *)
Lemma fold_pair (frame : truncator -> nat -> option (truncator * nd R)) (mult : nd R -> list (nd R) -> nat -> option (list (nd R))) (F : nat -> nd R) (m : nat -> option nat) (P : truncator -> Prop) L :
  (forall n t, In n L -> P t -> frame t n = Some (set_max_rank t (m n), F n)) -> (forall n t, P t -> P (set_max_rank t (m n))) ->
  forall t c l, P t -> ofold (fun l n => mult (F n) l n) L c = Some l ->
  exists t', ofold (fun s n => let* f := frame (fst s) n in let* l := mult (snd f) (snd s) n in Some (fst f, l)) L (t, c) = Some (t', l) /\ P t' /\
    t' = fold_left (fun t n => set_max_rank t (m n)) L t.
Proof.
  intros HF HP. induction L as [|n L IH]; intros t c l Pt E; cbn [ofold] in *.
  - inversion E; subst. exists t. auto.
  - cbn [fst snd]. rewrite HF by (simpl; auto). cbn [bind fst snd]. destruct (mult (F n) c n) as [c1|] eqn:E1; [|discriminate]. cbn [bind].
    destruct (IH (fun n' t' H => HF n' t' (or_intror H)) (set_max_rank t (m n)) c1 l) as (t' & H1 & H2 & H3); auto. exists t'. auto.
Qed.
Lemma fold_mats svd (mr : list (option nat)) ltol (g : list (option (nd R))) (F : nat -> nd R) (P : truncator -> Prop) L :
  (forall n t, In n L -> P t -> match nth (n - 1) g None with None => True | Some _ => exists m, hsvd_frame svd t mr ltol g n = Some (set_max_rank t m, F n) end) -> (forall m t, P t -> P (set_max_rank t m)) ->
  forall t acc, P t -> exists t', ofold (fun st n => match nth (n - 1) g None with
                       | None => Some (fst st, snd st ++ [None])
                       | Some _ => let* f := hsvd_frame svd (fst st) mr ltol g n in Some (fst f, snd st ++ [Some (snd f)])
                       end) L (t, acc) = Some (t', acc ++ map (fun n => match nth (n - 1) g None with None => None | Some _ => Some (F n) end) L) /\ P t'.
Proof.
  intros HF HP. induction L as [|n L IH]; intros t acc Pt; cbn [ofold map].
  - exists t. rewrite app_nil_r. auto.
  - cbn [fst snd]. pose proof (HF n t (or_introl eq_refl) Pt) as Hn. destruct (nth (n - 1) g None) as [G|] eqn:E.
    + destruct Hn as (m & ->). cbn [bind fst snd]. destruct (IH (fun n' t' H => HF n' t' (or_intror H)) (set_max_rank t m) (acc ++ [Some (F n)])) as (t' & H1 & H2); auto. exists t'. rewrite <- app_assoc in H1. auto.
    + destruct (IH (fun n' t' H => HF n' t' (or_intror H)) t (acc ++ [None])) as (t' & H1 & H2); auto. exists t'. rewrite <- app_assoc in H1. auto.
Qed.

Section Main.
  Variable svd : nd R -> nd R * list R * nd R.
  Variable qr : nd R -> nd R * nd R.
  Hypothesis SVD : svd_contract svd.
  Hypothesis QR : qr_contract qr.
  (** one frame *)
  Lemma frame_eq t mr ltol g n G K : thresholding_parameter t = None \/ thresholding_parameter t = Some 0 -> (n - 1 < length mr)%nat -> nth (n - 1) g None = Some G -> shape G = [K; K] ->
    hsvd_frame svd t mr ltol g n = Some (set_max_rank t (nth (n - 1) mr None), take_cols (fst (fst (svd G))) (min_opt (tol_rank (Pw 1) (ltol * ltol) K (snd (fst (svd G)))) (nth (n - 1) mr None))).
  Proof.
    intros Ht Hl Hg SG. unfold hsvd_frame. rewrite (nth_error_nth' mr None Hl). cbn [bind]. rewrite Hg. cbn [bind].
    rewrite (trunc_svd_eq svd (set_max_rank t (nth (n - 1) mr None)) G K K SG (nth (n - 1) mr None) (ltol * ltol)); auto. rewrite Nat.min_id. reflexivity.
  Qed.
  Variables (X : tbt R) (r : nat) (t : truncator) (mr : list (option nat)).
  Hypothesis O : tb_ok X r.
  Hypothesis H2 : (2 <= tb_order X)%nat.
  Hypothesis Ht : thresholding_parameter t = None \/ thresholding_parameter t = Some 0.
  Local Notation tr := (ttree X).
  Hypothesis Emr : mr = match max_rank t with [m] => repeat m (nbn tr) | l => l end.
  Hypothesis Lmr : length mr = nbn tr.
  Hypothesis Hmr : Forall (fun m => m <> Some 0%nat) mr.
  Let V : dim_tree tr r := proj1 O.
  Let T : rooted_tree tr r := proj1 V.
  Let mrs := hsvd_max_rank t tr.
  Let ltol := hsvd_tol t (map (active X) (nodes tr)).
  Variable Z : tbt R.
  Hypothesis EZ : tb_orth qr X = Some Z.
  Hypothesis SV : same_val X Z r.
  Hypothesis AZ : forall n, node tr n -> active Z n = active X n.
  Hypothesis CZ : forall n, node tr n -> active X n = true -> n <> r -> orth_cols (core Z n).
  Let OZ : tb_ok Z r := proj1 SV.
  Let TZ : ttree Z = tr := proj1 (proj2 SV).
  Lemma H2Z : (2 <= tb_order Z)%nat.
  Proof. unfold tb_order. rewrite TZ. exact H2. Qed.
  Lemma HOZ : forall n, node (ttree Z) n -> active Z n = true -> n <> r -> orth_cols (core Z n).
  Proof. rewrite TZ. intros n Hn Ha NE. rewrite AZ in Ha by auto. auto. Qed.
  Variable g : list (option (nd R)).
  Hypothesis G0 : nth (r - 1) g None = Some one11.
  Hypothesis G1 : forall m, node tr m -> m <> r -> active X m = true -> exists G, nth (m - 1) g None = Some G /\ good Z r m G.
  Hypothesis G2 : forall m, node tr m -> m <> r -> active X m = false -> nth (m - 1) g None = None.
  Definition gn (n : nat) : nd R := match nth (n - 1) g None with Some G => G | None => scalar 0 end.
  Definition kn (n : nat) : nat := min_opt (tol_rank (Pw 1) (ltol * ltol) (csize Z n) (snd (fst (svd (gn n))))) (nth (n - 1) mrs None).
  Definition Fn (n : nat) : nd R := take_cols (fst (fst (svd (gn n)))) (kn n).
  Definition kkn (n : nat) : nat := Nat.min (kn n) (csize Z n).
  Definition okn (n : nat) : Prop := node tr n /\ active X n = true /\ n <> r.
  Lemma gn_good n : okn n -> good Z r n (gn n).
  Proof. intros (Hn & Ha & NE). unfold gn. destruct (G1 n Hn NE Ha) as (G & -> & HG). auto. Qed.
  Lemma csz_pos n : okn n -> (0 < csize Z n)%nat.
  Proof.
    intros (Hn & Ha & NE). assert (Ha' : active Z n = true) by (rewrite AZ; auto). assert (Hn' : node (ttree Z) n) by (rewrite TZ; auto). pose proof (exts_n Z r OZ n Hn' Ha' NE) as E.
    apply active_prod in Ha' as Hp. rewrite (ok_shape Z n Hn' Ha'), E, prodn_app in Hp. simpl in Hp. destruct (csize Z n); lia.
  Qed.
  Lemma Fn_shape n : okn n -> shape (Fn n) = [csize Z n; kkn n].
  Proof.
    intros Hn. destruct (gn_good n Hn) as (SG & _). destruct (SVD (gn n) _ _ SG) as (SU & _). rewrite Nat.min_id in SU. unfold Fn, take_cols. rewrite SU. cbn [nth shape]. auto.
  Qed.
  Lemma mrs_nth n : node tr n -> n <> r -> nth (n - 1) mrs None = nth (n - 1) mr None.
  Proof.
    intros Hn NE. unfold mrs, hsvd_max_rank. rewrite Emr. destruct (max_rank t) as [|m [|m' l]]; auto. rewrite (root_eq tr r T).
    pose proof (proj1 T) as Hr. unfold node in *. rewrite nth_upd_neq by lia. auto.
  Qed.
  Lemma mrs_len : length mrs = nbn tr.
  Proof. apply (hmr_len t tr mr Emr Lmr). Qed.
  Lemma kkn_pos n : okn n -> (0 < kkn n)%nat.
  Proof.
    intros Hn. pose proof (csz_pos n Hn). unfold kkn, kn. destruct Hn as (Hn & Ha & NE). rewrite mrs_nth by auto. assert (HTR : (1 <= tol_rank (Pw 1) (ltol * ltol) (csize Z n) (snd (fst (svd (gn n)))))%nat) by (unfold tol_rank; destruct (first_true _); lia).
    destruct (nth (n - 1) mr None) as [m|] eqn:E; cbn [min_opt]; [|lia]. assert (m <> 0%nat); [|lia].
    intros ->. rewrite Forall_forall in Hmr. apply (Hmr (Some 0%nat)); auto. rewrite <- E. apply nth_In. unfold node in Hn. lia.
  Qed.
  Lemma Fn_orth n : okn n -> orthonormal (csize Z n) (kkn n) (fun i c => get (Fn n) [i; c]).
  Proof.
    intros Hn a b Ha Hb. destruct (gn_good n Hn) as (SG & _). destruct (SVD (gn n) _ _ SG) as (_ & _ & _ & _ & _ & EU & _). rewrite Nat.min_id in EU.
    unfold kkn in *. unfold Fn, take_cols. cbn [get]. rewrite EU by lia. reflexivity.
  Qed.
  Lemma frame_n n t' : okn n -> thresholding_parameter t' = None \/ thresholding_parameter t' = Some 0 ->
    hsvd_frame svd t' mrs ltol g n = Some (set_max_rank t' (nth (n - 1) mrs None), Fn n).
  Proof.
    intros Hn Ht'. destruct (gn_good n Hn) as (SG & _). destruct Hn as (Hn & Ha & NE). destruct (G1 n Hn NE Ha) as (G & EG & _).
    assert (Eg : gn n = G) by (unfold gn; rewrite EG; auto). rewrite (frame_eq t' mrs ltol g n G (csize Z n)); auto.
    - unfold Fn, kn. rewrite Eg. auto.
    - rewrite mrs_len. unfold node in Hn. lia.
    - rewrite <- Eg. auto.
  Qed.
  (** the error of each truncation *)
  Lemma nerr_tail n : okn n -> nerr Z (fun n i j => get (gn n) [i; j]) (fun n i c => get (Fn n) [i; c]) kkn n = lsum (skipn (kkn n) (snd (fst (svd (gn n))))) (fun x => x).
  Proof.
    intros Hn. destruct (gn_good n Hn) as (SG & W & HW & EG). unfold nerr. unfold Fn, take_cols. cbn [get].
    apply (psd_err svd SVD (gn n) (csize Z n) SG).
    - intros i j Hi Hj. rewrite !EG by auto. apply gm_sym.
    - intros v. rewrite (rsum_ext_R _ _ (fun i => rsum (csize Z n) (fun j => v i * v j * gm Z r n W [i] [j]))).
      + apply gm_psd.
      + intros i Hi. apply rsum_ext_R. intros j Hj. rewrite EG by auto. auto.
    - unfold kkn. lia.
  Qed.
  Lemma nerr_tol n : okn n -> nth (n - 1) mr None = None -> nerr Z (fun n i j => get (gn n) [i; j]) (fun n i c => get (Fn n) [i; c]) kkn n <= ltol * ltol * tdist Z r (tval Z r) (fun _ _ => 0).
  Proof.
    intros Hn Hm. rewrite nerr_tail by auto. destruct (gn_good n Hn) as (SG & W & HW & EG).
    assert (E : tdist Z r (tval Z r) (fun _ _ => 0) = rsum (csize Z n) (fun k => get (gn n) [k; k])).
    { destruct Hn as (Hn & Ha & NE). rewrite (norm_tr Z r OZ H2Z HOZ n W); auto; [|rewrite TZ; auto|rewrite AZ; auto]. apply rsum_ext_R. intros k Hk. rewrite EG; auto. }
    rewrite E. unfold kkn, kn. rewrite mrs_nth by apply Hn. rewrite Hm. cbn [min_opt].
    destruct (SVD (gn n) _ _ SG) as (_ & Ls & _). rewrite Nat.min_id in Ls.
    assert (Es : forall k, skipn (Nat.min k (csize Z n)) (snd (fst (svd (gn n)))) = skipn k (snd (fst (svd (gn n))))).
    { intros k. destruct (Nat.min_dec k (csize Z n)) as [->|E1]; auto. rewrite E1, !skipn_all2; auto; lia. }
    rewrite Es. apply (psd_tol svd SVD (gn n) (csize Z n) SG).
    - intros i j Hi Hj. rewrite !EG by auto. apply gm_sym.
    - intros v. rewrite (rsum_ext_R _ _ (fun i => rsum (csize Z n) (fun j => v i * v j * gm Z r n W [i] [j]))).
      + apply gm_psd.
      + intros i Hi. apply rsum_ext_R. intros j Hj. rewrite EG by auto. auto.
    - apply Rle_0_sqr.
    - apply csz_pos. auto.
  Qed.
  (** any order of the products *)
  Lemma mult_any L : NoDup L -> (forall n, In n L <-> okn n) -> exists l, ofold (fun l n => hsvd_mult tr (Fn n) l n) L (cores Z) = Some l /\
    tb_ok (TB tr l) r /\ (forall m, node tr m -> active (TB tr l) m = active X m) /\ tb_shape (TB tr l) = tb_shape X /\ exts (TB tr l) r = exts X r /\
    (forall m, okn m -> csize (TB tr l) m = kkn m) /\
    tdist Z r (tval Z r) (tval (TB tr l) r) <= lsum (filter (active Z) (hsvd_nodes tr)) (nerr Z (fun n i j => get (gn n) [i; j]) (fun n i c => get (Fn n) [i; c]) kkn).
  Proof.
    intros ND HL. destruct (mult_fold Fn kkn L Z r OZ ND) as (l & E & HA & HC & HS).
    { intros n Hn. apply HL in Hn. pose proof (Fn_shape n Hn). pose proof (kkn_pos n Hn). destruct Hn as (K1 & K2 & K3). rewrite TZ, AZ by auto. auto. }
    rewrite TZ in *. exists l. split; auto. set (Y := TB tr l) in *.
    specialize (HS (fun _ => None) (fun m Q E => ltac:(discriminate)) (fun _ _ => eq_refl)).
    assert (LY : length l = nbn tr).
    { clear HS HA HC Y. assert (G : forall L c c', ofold (fun l n => hsvd_mult tr (Fn n) l n) L c = Some c' -> length c' = length c).
      { induction L0 as [|n L0 IH]; intros c c'; cbn [ofold]; [congruence|]. destruct (hsvd_mult tr (Fn n) c n) as [c1|] eqn:E1; cbn [bind]; [|discriminate]. intros E2. rewrite (IH _ _ E2).
        unfold hsvd_mult in E1. destruct (np_transpose _ _); cbn [bind] in E1; [|discriminate]. destruct (ft_tensor_matrix_product _ _ _); cbn [bind] in E1; [|discriminate].
        destruct (ft_tensor_matrix_product _ _ _); cbn [bind] in E1; [|discriminate]. inversion E1. rewrite !setc_length. auto. }
      rewrite (G _ _ _ E). rewrite <- TZ. apply (ok_cores_length Z r OZ). }
    destruct HS as (OY' & TY' & SY & EY & VY).
    assert (OY : tb_ok Y r).
    { apply (ss_ok (insm (fun _ => None) Y) Y r OY'); auto.
      - unfold insm. cbn [cores]. unfold nodes. rewrite map_length, seq_length. auto.
      - intros m Hm. rewrite (insm_core Y (fun _ => None)); auto. }
    rewrite (insm_none Y r OY) in SY, EY, VY.
    set (I0 := insm (addL Fn kkn (fun _ => None) L) Z) in *.
    assert (SI : forall m, node (ttree Z) m -> shape (core I0 m) = shape (core Z m)) by (intros; apply insm_shape; auto).
    assert (S0 : tb_shape I0 = tb_shape Z) by (apply (ss_shape Z I0 r OZ); auto).
    assert (E0 : exts I0 r = exts Z r) by (apply (ss_exts Z I0); auto; rewrite TZ; apply T).
    split; auto. split; [intros m Hm; rewrite HA, AZ; auto|]. pose proof (proj1 (proj2 (proj2 SV))) as SVs. pose proof (proj1 (proj2 (proj2 (proj2 SV)))) as SVe. split; [congruence|]. split; [congruence|]. split.
    { intros m Hm. rewrite HC by apply Hm. rewrite (proj2 (inb_spec m L)); auto. apply HL. auto. }
    rewrite <- TZ. eapply Rle_trans; [|apply (err_all Z r OZ H2Z HOZ (fun n i j => get (gn n) [i; j]) (fun n i c => get (Fn n) [i; c]) kkn) with (l1 := [])]; auto.
    - apply Req_le. unfold tdist. apply bsum_ext_R. intros e He. apply bsum_ext_R. intros is Hi. rewrite VY by congruence.
      unfold I0. rewrite (insm_ext Z (addL Fn kkn (fun _ => None) L) (insl Z (fun n i c => get (Fn n) [i; c]) kkn (hsvd_nodes (ttree Z)))); auto.
      intros m Hm. unfold addL, insl. rewrite TZ in *. destruct (inb m L) eqn:EL.
      + apply inb_spec, HL in EL. destruct EL as (K1 & K2 & K3). rewrite AZ, K2 by auto. rewrite (proj2 (inb_spec m _)) by (apply (in_hsvd_nodes tr r T); auto). reflexivity.
      + apply inb_false in EL. destruct (inb m (hsvd_nodes tr)) eqn:Eh; cbn [andb]; auto. apply inb_spec, (in_hsvd_nodes tr r T) in Eh. destruct (active Z m) eqn:Ea; auto. exfalso. apply EL, HL. rewrite AZ in Ea by auto. split; tauto.
    - rewrite TZ. intros n Hn Ha NE. rewrite AZ in Ha by auto. destruct (gn_good n (conj Hn (conj Ha NE))) as (_ & W & HW & EG). exists W. split; auto.
    - rewrite TZ. intros n Hn Ha NE. rewrite AZ in Ha by auto. apply (Fn_orth n (conj Hn (conj Ha NE))).
  Qed.
End Main.
