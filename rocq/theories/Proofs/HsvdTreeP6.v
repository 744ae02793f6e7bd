(** hsvd of a tree-based tensor: the products of the cores by the frames. *)
From Coq Require Import List Arith Lia Bool Reals Lra Permutation.
From Verif.Base Require Import ListAux CRing Index RealAux.
From Verif.Model Require Import Sorting Numpy FullTensor Diagonal Canonical DimensionTree TreeBased Truncator HSVD HsvdTree.
From Verif.Spec Require Import TensorSpec TreeSpec TreeTensorSpec TruncatorSpec.
From Verif.Proofs Require Import NumpyP FullTensorP FullTensorP3 FullTensorP4 DimTreeP DimTreeP2 TreeTensorP TreeTensorP2 TreeTensorP3 TreeTensorP4 TreeTensorP6 TreeTensorP7 TreeTensorP12 TreeTensorP13 TreeTensorP14 TreeTensorP15 TreeTensorP29 PolyP5 SpectralP LapackP EckartP FunctionalP4 HsvdP2 HsvdP7 HsvdP9 HsvdTreeP1 HsvdTreeP2 HsvdTreeP3.
Import ListNotations.
Local Open Scope R_scope.

Definition supp (X : tbt R) (r : nat) (M : nat -> option (nat -> nat -> R)) : Prop := forall m Q, M m = Some Q -> node (ttree X) m /\ active X m = true /\ m <> r.
Definition adm (M : nat -> option (nat -> nat -> R)) (n : nat) (Q : nat -> nat -> R) (m : nat) : option (nat -> nat -> R) := if (m =? n)%nat then Some Q else M m.

Section Mult.
  Variables (X : tbt R) (r : nat).
  Hypothesis O : tb_ok X r.
  Local Notation t := (ttree X).
  Let V : dim_tree t r := proj1 O.
  Let T : rooted_tree t r := proj1 V.
  Variables (n a : nat) (U : nd R).
  Hypothesis Hn : node t n.
  Hypothesis Ha : active X n = true.
  Hypothesis NE : n <> r.
  Hypothesis SU : shape U = [csize X n; a].
  Hypothesis Ap : (0 < a)%nat.
  Lemma mult_gauge : exists l, hsvd_mult t U (cores X) n = Some l /\ length l = length (cores X) /\ active (TB t l) n = true /\
    forall M, supp X r M -> M n = None -> gauge (insm (adm M n (qf (fun i c => get U [i; c]) a)) X) (insm M (TB t l)) (parent t n) n a (csize X n) (fun i j => get U [j; i]).
  Proof.
    pose proof (parent_is_edge _ r T n Hn NE) as He. set (p := parent t n) in *. set (K := csize X n) in *.
    destruct (axis_of_child X r p n O He) as (s1 & s2 & L1 & Hsp). fold K in Hsp.
    assert (Ec : K = last (shape (core X n)) 0%nat) by (unfold K, csize; rewrite Ha; auto).
    assert (Hsn : shape (core X n) = heads X n ++ [K]) by (rewrite Ec, (ok_shape X n Hn Ha) at 1; f_equal; apply (ok_exts_rank X r O n Hn Ha NE)).
    destruct (np_transpose U [1%nat; 0%nat]) as [Ut|] eqn:EU; [|exfalso; unfold np_transpose in EU; unfold ndim in EU; rewrite SU in EU; cbn in EU; discriminate].
    assert (SUt : shape Ut = [a; K] /\ forall i j, get Ut [i; j] = get U [j; i]).
    { unfold np_transpose in EU. unfold ndim in EU. rewrite SU in EU. cbn in EU. inversion EU; subst Ut. cbn. split; auto. }
    destruct SUt as [SUt VUt].
    destruct (tmp_single (core X n) Ut (heads X n) [] K a Hsn SUt) as (Q & HQ & HsQ & HgQ).
    destruct (tmp_single (core X p) Ut s1 s2 K a Hsp SUt) as (P & HP & HsP & HgP).
    pose proof (ok_cores_length X r O) as LC.
    assert (Hpn : p <> n) by (intros E; pose proof (level_edge _ r T p n He) as HL; rewrite E in HL; lia).
    assert (Hpp : node t p) by apply He.
    exists (setc p P (setc n Q (cores X))). split.
    { unfold hsvd_mult. rewrite EU. cbn [bind]. change (nthc (cores X) n) with (core X n).
      replace (ndim (core X n) - 1)%nat with (length (heads X n)) by (unfold ndim; rewrite Hsn, app_length; simpl; lia). rewrite HQ. cbn [bind]. fold p.
      rewrite nthc_setc by (unfold node in *; lia). destruct (Nat.eqb_spec p n); [contradiction|]. change (nthc (cores X) p) with (core X p).
      rewrite (child_index X r O p n He), <- L1, HP. reflexivity. }
    set (Z := TB t (setc p P (setc n Q (cores X)))).
    assert (Hcore : forall m, node t m -> core Z m = if (m =? p)%nat then P else if (m =? n)%nat then Q else core X m).
    { intros m Hm. unfold core, Z. cbn [cores]. unfold node in *. rewrite nthc_setc by (rewrite ?setc_length; lia). destruct (Nat.eqb_spec m p); auto. apply nthc_setc; lia. }
    assert (Hcp : core Z p = P) by (rewrite Hcore, Nat.eqb_refl; auto).
    assert (Hcn : core Z n = Q) by (rewrite Hcore, Nat.eqb_refl by auto; destruct (Nat.eqb_spec n p); [congruence|auto]).
    split; [rewrite !setc_length; auto|]. split.
    { apply active_prod. change (prodn (shape (core Z n)) <> 0%nat). rewrite Hcn, HsQ, prodn_app. simpl. pose proof Ha as Ha'. apply active_prod in Ha'. rewrite Hsn, prodn_app in Ha'. simpl in Ha'.
      intros E. apply Ha'. destruct (prodn (heads X n)); simpl in *; lia. }
    intros M HM Mn. set (Qf := qf (fun i c => get U [i; c]) a). set (X' := insm (adm M n Qf) X). set (Z' := insm M Z).
    assert (Mneq : forall m, m <> n -> adm M n Qf m = M m) by (intros m Hm; unfold adm; destruct (Nat.eqb_spec m n); [contradiction|auto]).
    assert (Meq : adm M n Qf n = Some Qf) by (unfold adm; rewrite Nat.eqb_refl; auto).
    assert (cX : forall m, node t m -> core X' m = match adm M n Qf m with None => core X m | Some Q => insc (core X m) Q end) by (intros; apply insm_core; auto).
    assert (cZ : forall m, node t m -> core Z' m = match M m with None => core Z m | Some Q => insc (core Z m) Q end) by (intros; apply (insm_core Z M); auto).
    assert (cZn : core Z' n = Q) by (rewrite cZ, Mn by auto; auto).
    assert (shX : forall m, node t m -> shape (core X' m) = shape (core X m)) by (intros; apply insm_shape; auto).
    assert (hdX : heads X' n = heads X n) by (apply ss_heads; auto).
    assert (szX : tb_shape X' = tb_shape X) by (apply (ss_shape X X' r O); auto).
    assert (HaX : active X' n = true) by (rewrite (ss_active X X'); auto).
    assert (HaZ : active Z' n = true).
    { apply active_prod. rewrite cZn, HsQ, prodn_app. simpl. apply active_prod in Ha. rewrite Hsn, prodn_app in Ha. simpl in Ha.
      intros E. apply Ha. destruct (prodn (heads X n)); simpl in *; lia. }
    constructor; auto.
    - unfold Z', insm. cbn [cores]. unfold nodes. rewrite map_length, seq_length. auto.
    - intros m Hm Hne Hne2. change (ttree X') with t in Hm. rewrite cX, cZ, Mneq, Hcore by auto. destruct (Nat.eqb_spec m p); [contradiction|]. destruct (Nat.eqb_spec m n); [contradiction|auto].
    - exists s1, s2. change (ttree X') with t. split; auto. rewrite shX by auto. split; auto.
      assert (SZp : shape (core Z' p) = s1 ++ a :: s2) by (rewrite cZ by auto; destruct (M p); [cbn [insc shape]|]; rewrite Hcp; auto). split; auto.
      intros a1 i a2 V1 Hi V2. rewrite cX, cZ, (Mneq p) by auto. rewrite Hcp. destruct (M p) as [Qp|] eqn:EM.
      + (* p carries a matrix *) destruct (HM p Qp EM) as (_ & Hap & NEp).
        assert (E2 : exists s2' l2, s2 = s2' ++ [l2]).
        { destruct (exists_last (l := s2)) as (s2' & l2 & E); [|eauto]. intros ->. pose proof (ok_exts_rank X r O p Hpp Hap NEp) as Ex. pose proof (ok_shape X p Hpp Hap) as Es. rewrite Ex, Hsp in Es.
          assert (LL := f_equal (@length nat) Es). rewrite !app_length in LL. cbn [length] in LL.
          pose proof (int_of_edge X r O p n He) as Hlp. rewrite (heads_internal X r O p Hpp Hlp), map_length in LL. assert (Hin : In n (children t p)) by (apply in_children; auto). apply index_of_nth in Hin. lia. }
        destruct E2 as (s2' & l2 & ->). apply valid_app_inv in V2. destruct V2 as (b1 & b2 & -> & Vb1 & Vb2). destruct b2 as [|x [|]]; try (apply valid_length in Vb2; discriminate). assert (Hx : (x < l2)%nat) by (inversion Vb2; auto).
        assert (EL : forall y z, a1 ++ y :: b1 ++ [z] = (a1 ++ y :: b1) ++ [z]) by (intros; rewrite <- app_assoc; auto).
        rewrite EL, insc_get. assert (LP : last (shape P) 0%nat = l2) by (rewrite HsP; change (s1 ++ a :: s2' ++ [l2]) with (s1 ++ (a :: s2') ++ [l2]); rewrite app_assoc; apply last_last).
        assert (LX : last (shape (core X p)) 0%nat = l2) by (rewrite Hsp; change (s1 ++ K :: s2' ++ [l2]) with (s1 ++ (K :: s2') ++ [l2]); rewrite app_assoc; apply last_last).
        rewrite LP. transitivity (rsum l2 (fun l => rsum K (fun j => get U [j; i] * (get (core X p) ((a1 ++ j :: b1) ++ [l]) * Qp l x)))).
        * apply rsum_ext_R. intros l Hl. rewrite <- EL, HgP by (auto; apply valid_app; auto; constructor; auto; constructor).
          rewrite <- rsum_scal_r_R. apply rsum_ext_R. intros j _. rewrite VUt, EL. rcbn. ring.
        * rewrite LinAlg.rsum_swap_R. apply rsum_ext_R. intros j _. rewrite EL, insc_get, LX, rsum_scal_l_R. auto.
      + rewrite HgP by auto. apply rsum_ext_R. intros j _. rewrite VUt. auto.
    - split; auto. left. rewrite cZn, HsQ, hdX. auto.
    - intros is Hi j Hj. rewrite szX in Hi. assert (VZ : dim_tree (ttree Z') r) by exact V. set (X0 := insm M X).
      assert (VX : tval X' n is [j] = rsum K (fun l => tval X0 n is [l] * Qf l j)).
      { apply (insm_tval X r O (adm M n Qf) M Qf n is j); auto. }
      assert (Hs0 : forall m, node t m -> shape (core X0 m) = shape (core X m)) by (intros; apply insm_shape; auto).
      assert (A0 : active X0 n = true) by (rewrite (ss_active X X0); auto).
      assert (VZn : forall c, (c < a)%nat -> tval Z' n is [c] = rsum K (fun l => get U [l; c] * tval X0 n is [l])).
      { intros c Hc. destruct (is_leaf t n) eqn:Hl.
        - rewrite (tval_leaf Z' r VZ n) by auto. rewrite cZn. pose proof (heads_leaf X r O n Hl Ha) as Hh.
          assert (Hlt : (nth (index_of n (d2i t)) is 0 < tb_size X n)%nat) by (apply (valid_leaf_index X is n Hi Hl)).
          change (ttree Z') with t. change (?i :: [c]) with ([i] ++ c :: []). rewrite HgQ; auto; [| |constructor].
          + apply rsum_ext_R. intros l _. rewrite VUt. f_equal. rewrite (tval_leaf X0 r V n) by auto. unfold X0. rewrite insm_core, Mn by auto. reflexivity.
          + rewrite Hh. constructor; auto. unfold tb_size in Hlt. rewrite Ha in Hlt. auto.
        - rewrite (tval_internal Z' r VZ n) by auto.
          assert (Eh : heads Z' n = heads X n).
          { unfold heads at 1. rewrite cZn, HsQ. change (ttree Z') with t. rewrite <- (ok_heads_length X r O n Hn Ha), firstn_app, firstn_all, Nat.sub_diag. cbn. apply app_nil_r. }
          rewrite Eh. transitivity (bsum (heads X n) (fun ks => rsum K (fun l => get U [l; c] * (get (core X n) (ks ++ [l]) * lprod (combine (children t n) ks) (fun q => tval X0 (fst q) is [snd q]))))).
          + apply bsum_ext_R. intros ks Hks. rewrite cZn, HgQ by (auto; constructor). change (ttree Z') with t.
            replace (lprod (combine (children t n) ks) (fun q => tval Z' (fst q) is [snd q])) with (lprod (combine (children t n) ks) (fun q => tval X0 (fst q) is [snd q])).
            * rcbn. rewrite <- rsum_scal_r_R. apply rsum_ext_R. intros l _. rewrite VUt. ring.
            * apply lprod_ext. intros [x y] Hx. apply in_combine_l in Hx. apply in_children in Hx; auto. cbn [fst snd]. symmetry.
              apply (tval_same_below X0 Z' r x V eq_refl); [apply Hx|]. intros m Hm [d Hd].
              pose proof (level_below _ r T x m d (proj1 (proj2 Hx)) Hd) as HL1. rewrite (level_edge _ r T _ _ Hx) in HL1.
              pose proof (level_edge _ r T _ _ He) as HL2. rewrite cZ by auto. unfold X0. rewrite insm_core by auto. rewrite Hcore by auto.
              destruct (Nat.eqb_spec m p) as [->|]; [lia|]. destruct (Nat.eqb_spec m n) as [->|]; [lia|]. auto.
          + rewrite bsum_rsum_exchange_R. apply rsum_ext_R. intros l _. rewrite bsum_scal_l_R. f_equal. rewrite (tval_internal X0 r V n) by auto. rewrite (ss_heads X X0) by auto.
            apply bsum_ext_R. intros ks _. unfold X0. rewrite insm_core, Mn by auto. auto. }
      rewrite VX. rewrite (rsum_ext_R a _ (fun c => rsum K (fun l => tval X0 n is [l] * (get U [l; c] * get U [j; c])))).
      + rewrite LinAlg.rsum_swap_R. apply rsum_ext_R. intros l _. rewrite rsum_scal_l_R. auto.
      + intros c Hc. rewrite VZn by auto. rcbn. rewrite <- rsum_scal_r_R. apply rsum_ext_R. intros l _. ring.
  Qed.
End Mult.
