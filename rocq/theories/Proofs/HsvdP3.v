(** Truncator.hsvd of a FullTensor: the loop. *)
From Coq Require Import List Arith Lia Bool Reals Lra.
From Verif.Base Require Import ListAux CRing Index RealAux.
From Verif.Model Require Import Sorting Numpy FullTensor Diagonal Canonical DimensionTree TreeBased Truncator HSVD.
From Verif.Spec Require Import TensorSpec TreeSpec TreeTensorSpec TruncatorSpec.
From Verif.Proofs Require Import NumpyP FullTensorP FullTensorP4 DimTreeP TreeTensorP TreeTensorP3 TreeTensorP4 TreeTensorP14 TreeTensorP17 TruncatorP TruncatorP2 TruncatorP3 TruncatorP4 FunctionalP4 ProjP PolyP5 HsvdP HsvdP2.
Import ListNotations.
Local Open Scope R_scope.

Lemma frob2_nonneg (A : nd R) : 0 <= frob2 A.
Proof. apply bsum_nonneg_R. intros. nra. Qed.

Section Loop.
  Variable svd : nd R -> nd R * list R * nd R.
  Hypothesis SVD : svd_contract svd.
  Variables (tr : dtree) (r : nat).
  Hypothesis V : dim_tree tr r.
  Let T : rooted_tree tr r := proj1 V.
  Variables (act : list bool) (mr : list (option nat)) (ltol : R) (sA es : list nat).
  Hypothesis Hes : (length es <= 1)%nat.
  Hypothesis HPe : Forall (fun n => (0 < n)%nat) es.
  Hypothesis HPA : Forall (fun n => (0 < n)%nat) sA.
  Hypothesis LA : length sA = length (d2i tr).
  Hypothesis Lmr : length mr = nbn tr.
  Hypothesis HR : Forall (fun m => m <> Some 0%nat) mr.
  Notation an n := (nth (n - 1) act false).
  Hypothesis Hint : forall n, node tr n -> is_leaf tr n = false -> an n = true.

  Definition chs (n : nat) : list nat := if is_leaf tr n then [n] else children tr n.
  Definition mu (c : nat) : nat := index_of c (d2i tr).
  Definition hz (P : list nat) (cs : list (nd R)) (c : nat) : nat :=
    if inb c P && an c then last (shape (nthc cs c)) 0%nat else nth (mu c) sA 0%nat.
  Definition core_ok (P : list nat) (cs : list (nd R)) (n : nat) : Prop :=
    if an n then exists k, shape (nthc cs n) = map (fun c => if (c =? n)%nat then nth (mu n) sA 0%nat else hz P cs c) (chs n) ++ [k] /\ (0 < k)%nat /\
      Forall (fun x => (0 < x)%nat) (shape (nthc cs n)) /\ (match nth (n - 1) mr None with Some m => (k <= m)%nat | None => True end) /\ orth_cols (nthc cs n)
    else nthc cs n = no_core.
  Record Inv (l1 l2 : list nat) (st : hstate) : Prop := MkInv {
    i_thr : thresholding_parameter (hs_t st) = None \/ thresholding_parameter (hs_t st) = Some 0;
    i_nd : NoDup (hs_nx st);
    i_in : forall c, In c (hs_nx st) <-> node tr c /\ c <> r /\ (is_leaf tr c = true \/ In c l1) /\ (In (parent tr c) l2 \/ parent tr c = r);
    i_shape : shape (hs_Y st) = map (hz l1 (hs_c st)) (hs_nx st) ++ es;
    i_pos : Forall (fun x => (0 < x)%nat) (shape (hs_Y st));
    i_len : length (hs_c st) = nbn tr;
    i_cores : forall n, In n l1 -> core_ok l1 (hs_c st) n }.
  Notation step := (hsvd_step svd tr act mr (length es =? 1)%nat ltol).

  Lemma hz_step l1 cs n C c : length cs = nbn tr -> node tr n -> node tr c -> c <> n -> hz (l1 ++ [n]) (setc n C cs) c = hz l1 cs c.
  Proof.
    intros HL Hn Hc NE. unfold hz, node in *. rewrite nthc_setc by lia. rewrite (proj2 (Nat.eqb_neq c n)) by auto.
    replace (inb c (l1 ++ [n])) with (inb c l1); auto. destruct (inb c l1) eqn:E; symmetry.
    - apply inb_spec. apply inb_spec in E. apply in_or_app. auto.
    - apply inb_false. apply inb_false in E. rewrite in_app_iff. cbn [In]. intuition.
  Qed.
  Lemma edge_neq n c : edge tr n c -> c <> n.
  Proof. intros He ->. pose proof (level_edge tr r T n n He). lia. Qed.
  Lemma leaf_internal n : node tr n -> is_leaf tr n = false \/ is_leaf tr n = true.
  Proof. destruct (is_leaf tr n); auto. Qed.
  Lemma in_chs n c : node tr n -> In c (chs n) <-> (is_leaf tr n = true /\ c = n) \/ (is_leaf tr n = false /\ edge tr n c).
  Proof.
    intros Hn. unfold chs. destruct (is_leaf tr n) eqn:E.
    - cbn [In]. split; [intros [<-|[]]; auto|intros [[_ ->]|[K _]]; auto; discriminate].
    - rewrite in_children by auto. split; [auto|intros [[K _]|[_ K]]; auto; discriminate].
  Qed.
  Lemma NoDup_chs n : NoDup (chs n).
  Proof. unfold chs. destruct (is_leaf tr n); [constructor; [cbn; tauto|constructor]|apply NoDup_children]. Qed.
  Lemma core_ok_step l1 cs n C m : length cs = nbn tr -> node tr n -> node tr m -> m <> n -> (forall c, edge tr m c -> In c l1) -> ~ In n l1 ->
    core_ok l1 cs m -> core_ok (l1 ++ [n]) (setc n C cs) m.
  Proof.
    intros HL Hn Hm NE Hc Hni. unfold core_ok. unfold node in Hn, Hm. rewrite nthc_setc by lia. rewrite (proj2 (Nat.eqb_neq m n)) by auto.
    destruct (an m); auto. intros (k & HS & Hrest). exists k. split; auto. rewrite HS. f_equal. apply map_ext_in. intros c Hin.
    apply in_chs in Hin; [|auto]. destruct (Nat.eqb_spec c m); auto. destruct Hin as [[_ K]|[_ K]]; [contradiction|]. symmetry. apply hz_step; auto. apply K.
    intros ->. apply Hni, Hc. auto.
  Qed.

  Section OneStep.
    Variables (l1 l2 : list nat) (n : nat) (st : hstate).
    Hypothesis EL : hsvd_nodes tr = l1 ++ n :: l2.
    Hypothesis HI : Inv l1 (n :: l2) st.
    Lemma s_node : node tr n /\ n <> r.
    Proof. apply (in_hsvd_nodes tr r T). rewrite EL. apply in_or_app. simpl. auto. Qed.
    Lemma s_nd : ~ In n l1 /\ ~ In n l2.
    Proof.
      pose proof (NoDup_hsvd_nodes tr r T) as N. rewrite EL in N. apply NoDup_remove_2 in N. rewrite in_app_iff in N. tauto.
    Qed.
    Lemma s_l1 m : In m l1 -> node tr m /\ m <> r /\ forall c, edge tr m c -> In c l1.
    Proof.
      intros Hm. assert (K : In m (hsvd_nodes tr)) by (rewrite EL; apply in_or_app; auto). apply (in_hsvd_nodes tr r T) in K. split; [tauto|]. split; [tauto|].
      intros c Hc. apply in_split in Hm. destruct Hm as (a & b & E). rewrite E in EL. rewrite <- app_assoc in EL. cbn [app] in EL.
      pose proof (hsvd_topo tr r T a m _ c EL Hc). rewrite E. apply in_or_app. auto.
    Qed.
    Lemma s_child c : edge tr n c -> In c l1.
    Proof. intros He. apply (hsvd_topo tr r T l1 n l2 c EL He). Qed.
    Lemma s_chs c : In c (chs n) -> In c (hs_nx st).
    Proof.
      destruct s_node as [Hn Hr]. intros Hc. apply in_chs in Hc; auto. apply (i_in _ _ _ HI). destruct Hc as [[Hl ->]|[Hl He]].
      - split; auto. split; auto. split; auto. destruct (hsvd_topo' tr r T l1 n l2 EL); simpl; auto.
      - split; [apply He|]. split; [apply (edge_ne tr r T n c He)|]. split; [right; apply s_child; auto|]. left. rewrite (parent_edge tr r T n c He). simpl. auto.
    Qed.
    Lemma s_leaf_hz : is_leaf tr n = true -> hz l1 (hs_c st) n = nth (mu n) sA 0%nat.
    Proof. intros _. unfold hz. rewrite (proj2 (inb_false n l1)) by (apply s_nd). auto. Qed.

    Lemma step_inactive : an n = false -> exists st', step st n = Some st' /\ st' = HS (hs_t st) (hs_Y st) (hs_nx st) (setc n no_core (hs_c st)) /\ Inv (l1 ++ [n]) l2 st'.
    Proof.
      intros Ha. destruct s_node as [Hn Hr]. destruct s_nd as [N1 N2]. eexists. split; [unfold hsvd_step; rewrite Ha; reflexivity|]. split; [reflexivity|].
      assert (Hl : is_leaf tr n = true) by (destruct (is_leaf tr n) eqn:E; auto; rewrite (Hint n Hn E) in Ha; discriminate).
      assert (Hz : forall c, node tr c -> hz (l1 ++ [n]) (setc n no_core (hs_c st)) c = hz l1 (hs_c st) c).
      { intros c Hc. destruct (Nat.eq_dec c n) as [->|NE]; [|apply hz_step; auto; apply (i_len _ _ _ HI)]. unfold hz. rewrite Ha, !andb_false_r. auto. }
      split; cbn [hs_t hs_Y hs_nx hs_c].
      - apply (i_thr _ _ _ HI).
      - apply (i_nd _ _ _ HI).
      - intros c. rewrite (i_in _ _ _ HI c). rewrite in_app_iff. cbn [In]. split; intros (H1 & H2 & H3 & H4).
        + split; auto. split; auto. split; [tauto|]. destruct H4 as [[H4|H4]|H4]; auto. exfalso. pose proof (parent_is_edge tr r T c H1 H2) as He. rewrite <- H4 in He.
          apply (leaf_iff tr r V) in Hl. destruct Hl as [_ Hl]. apply (Hl c He).
        + split; auto. split; auto. split; [destruct H3 as [H3|[H3|[<-|[]]]]; auto|]. tauto.
      - rewrite (i_shape _ _ _ HI). f_equal. apply map_ext_in. intros c Hc. apply (i_in _ _ _ HI) in Hc. symmetry. apply Hz. tauto.
      - apply (i_pos _ _ _ HI).
      - rewrite setc_length. apply (i_len _ _ _ HI).
      - intros m Hm. apply in_app_or in Hm. destruct Hm as [Hm|[<-|[]]].
        + destruct (s_l1 m Hm) as (M1 & M2 & M3). apply core_ok_step; auto; [apply (i_len _ _ _ HI)|intros ->; auto|apply (i_cores _ _ _ HI); auto].
        + unfold core_ok. rewrite Ha. unfold node in Hn. rewrite nthc_setc by (rewrite ?(i_len _ _ _ HI); lia). rewrite Nat.eqb_refl. auto.
    Qed.

    Notation nx := (hs_nx st).
    Notation h := (hz l1 (hs_c st)).
    Notation rest := (filter (fun c => negb (inb c (chs n))) nx).
    Lemma s_rest_n : ~ In n rest.
    Proof.
      destruct s_node as [Hn Hr]. destruct s_nd as [N1 N2]. rewrite filter_In, negb_true_iff, inb_false. intros [H1 H2]. apply (i_in _ _ _ HI) in H1. destruct H1 as (_ & _ & [H1|H1] & _); [|auto].
      apply H2. apply in_chs; auto.
    Qed.
    Lemma step_active : an n = true -> exists C Y' k t',
      let st' := HS t' Y' (rest ++ [n]) (setc n C (hs_c st)) in
      step st n = Some st' /\ Inv (l1 ++ [n]) l2 st' /\
      shape C = map h (chs n) ++ [k] /\ shape Y' = map h rest ++ k :: es /\ (0 < k)%nat /\
      (forall a b, (a < k)%nat -> (b < k)%nat -> bsum (map h (chs n)) (fun ks => get C (ks ++ [a]) * get C (ks ++ [b])) = if (a =? b)%nat then 1 else 0) /\
      (forall kc a e, valid (map h rest) kc -> (a < k)%nat -> valid es e ->
         get Y' (kc ++ a :: e) = bsum (map h (chs n)) (fun ks => get C (ks ++ [a]) * get (hs_Y st) (asm (length nx) (map (fun c => index_of c nx) (chs n)) ks kc ++ e))) /\
      map (hz (l1 ++ [n]) (setc n C (hs_c st))) (rest ++ [n]) = map h rest ++ [k] /\
      frob2 Y' <= frob2 (hs_Y st) /\
      (nth (n - 1) mr None = None -> 0 < ltol -> frob2 (hs_Y st) - frob2 Y' <= ltol * ltol * frob2 (hs_Y st)) /\
      (nth (n - 1) mr None = None -> ltol <= 0 -> frob2 Y' = frob2 (hs_Y st)) /\
      t' = set_max_rank (hs_t st) (nth (n - 1) mr None) /\
      (forall g, rank_at_most (shape (hs_Y st)) (map (fun c => index_of c nx) (chs n)) k g -> frob2 (hs_Y st) - frob2 Y' <= err2 (hs_Y st) g).
    Proof.
      intros Ha. destruct s_node as [Hn Hr]. destruct s_nd as [N1 N2]. pose proof Hn as Hn'. unfold node in Hn'.
      assert (Hinc : incl (chs n) nx) by (intros c Hc; apply s_chs; auto).
      assert (NDx := i_nd _ _ _ HI). assert (NDL := NoDup_chs n). assert (HLc := i_len _ _ _ HI).
      set (t' := set_max_rank (hs_t st) (nth (n - 1) mr None)).
      destruct (hsvd_split_ok svd SVD t' ltol (nth (n - 1) mr None) eq_refl) with (Y := hs_Y st) (s := map h nx) (es := es) (rep := map (fun c => index_of c nx) (chs n))
        as (C & Y' & k & ES & SC & SY' & Pk & Hk & HO & HG & F1 & F2 & F3 & F4).
      - apply (proj1 (Forall_nth' _ _ None) HR). lia.
      - apply (i_thr _ _ _ HI).
      - apply (i_shape _ _ _ HI).
      - auto.
      - rewrite <- (i_shape _ _ _ HI). apply (i_pos _ _ _ HI).
      - apply pos_inj; auto.
      - rewrite map_length. apply pos_lt; auto.
      - rewrite map_length in ES, SY', HG.
        rewrite (srep nx (chs n) h Hinc) in SC, HO, HG. rewrite (scomp nx (chs n) h NDx Hinc) in SY', HG.
        exists C, Y', k, t'. cbv zeta.
        assert (Hzr : map (hz (l1 ++ [n]) (setc n C (hs_c st))) (rest ++ [n]) = map h rest ++ [k]).
        { rewrite map_app. cbn [map]. f_equal.
          - apply map_ext_in. intros c Hc. assert (Hx : In c nx) by (apply filter_In in Hc; tauto). apply (i_in _ _ _ HI) in Hx. apply hz_step; auto; [tauto|]. intros ->. apply s_rest_n. auto.
          - f_equal. unfold hz. rewrite Ha, andb_true_r. rewrite (proj2 (inb_spec n (l1 ++ [n]))) by (apply in_or_app; simpl; auto).
            rewrite nthc_setc by lia. rewrite Nat.eqb_refl, SC. apply last_last. }
        split; [|split; [|repeat (split; [assumption || reflexivity|]); exact F4]].
        + unfold hsvd_step. rewrite Ha. fold (chs n). rewrite (omap_some _ (fun c => index_of c nx)).
          2:{ intros c Hc. unfold find_pos. rewrite (proj2 (inb_spec c nx)); auto. }
          cbn [bind]. destruct (nth_error mr (n - 1)) as [m|] eqn:Em; [|apply nth_error_None in Em; lia]. cbn [bind].
          assert (E' : nth (n - 1) mr None = m) by (apply nth_error_nth; auto). unfold t' in ES. rewrite E' in ES. rewrite ES. cbn [bind fst snd]. unfold t'. rewrite E'.
          rewrite (sel_nx nx (chs n) NDx Hinc). reflexivity.
        + split; cbn [hs_t hs_Y hs_nx hs_c].
          * apply (i_thr _ _ _ HI).
          * apply ListAux.NoDup_app; [apply NoDup_filter; auto|constructor; [cbn; tauto|constructor]|]. intros x Hx [<-|[]]. apply s_rest_n. auto.
          * intros c. rewrite in_app_iff, filter_In, negb_true_iff, inb_false. rewrite (i_in _ _ _ HI c). cbn [In]. rewrite in_app_iff. cbn [In]. rewrite in_chs by auto. split.
            -- intros [[(H1 & H2 & H3 & H4) H5]|[<-|[]]].
               ++ split; auto. split; auto. split; [tauto|]. destruct H4 as [[H4|H4]|H4]; auto. exfalso. apply H5. right.
                  pose proof (parent_is_edge tr r T c H1 H2) as He. rewrite <- H4 in He. split; auto.
                  destruct (is_leaf tr n) eqn:E; auto. apply (leaf_iff tr r V) in E. exfalso. apply (proj2 E c He).
               ++ split; auto. split; auto. split; [auto|]. apply (hsvd_topo' tr r T l1 n l2 EL).
            -- intros (H1 & H2 & H3 & H4). destruct (Nat.eq_dec c n) as [->|NE]; [auto|]. left. split.
               ++ split; auto. split; auto. split; [destruct H3 as [H3|[H3|[H3|[]]]]; auto; congruence|]. tauto.
               ++ intros [[_ K]|[_ K]]; [auto|]. pose proof (parent_edge tr r T n c K) as E. rewrite E in H4. destruct H4; auto.
          * rewrite Hzr, <- app_assoc. auto.
          * rewrite SY'. apply Forall_app. assert (HPr := i_pos _ _ _ HI). rewrite (i_shape _ _ _ HI) in HPr. apply Forall_app in HPr. destruct HPr as [HPr _]. split.
            -- apply Forall_forall. intros x Hx. apply in_map_iff in Hx. destruct Hx as (c & <- & Hc). rewrite Forall_forall in HPr. apply HPr. apply in_map. apply filter_In in Hc. tauto.
            -- constructor; auto.
          * rewrite setc_length. auto.
          * intros m Hm. apply in_app_or in Hm. destruct Hm as [Hm|[<-|[]]].
            -- destruct (s_l1 m Hm) as (M1 & M2 & M3). apply core_ok_step; auto; [intros ->; auto|apply (i_cores _ _ _ HI); auto].
            -- unfold core_ok. rewrite Ha. rewrite nthc_setc by lia. rewrite Nat.eqb_refl. exists k. split.
               ++ rewrite SC. f_equal. apply map_ext_in. intros c Hc. destruct (Nat.eqb_spec c n) as [->|NE].
                  ** unfold hz. rewrite (proj2 (inb_false n l1)) by auto. auto.
                  ** symmetry. apply hz_step; auto. apply in_chs in Hc; auto. destruct Hc as [[_ K]|[_ K]]; [contradiction|apply K].
               ++ split; auto. split; [|split; auto].
                  ** rewrite SC. apply Forall_app. split; [|constructor; auto]. apply Forall_forall. intros x Hx. apply in_map_iff in Hx. destruct Hx as (c & <- & Hc).
                     assert (HPr := i_pos _ _ _ HI). rewrite (i_shape _ _ _ HI) in HPr. apply Forall_app in HPr. destruct HPr as [HPr _]. rewrite Forall_forall in HPr. apply HPr, in_map, Hinc. auto.
                  ** unfold orth_cols. rewrite SC, last_last, removelast_last. intros a b Hla Hlb. apply HO; auto.
    Qed.
  End OneStep.

  (** the value of a node of the frontier when the nodes l2 have not been processed *)
  Definition wv (l2 : list nat) (X : tbt R) (is : list nat) (c k : nat) : R :=
    if is_leaf tr c && inb c l2 then (if (k =? nth (mu c) is 0)%nat then 1 else 0) else tval X c is [k].
  Definition nact (l : list nat) : nat := length (filter (fun n => an n) l).

  Lemma hsvd_loop : forall l2 l1 st, hsvd_nodes tr = l1 ++ l2 -> Inv l1 l2 st ->
    exists st', ofold step l2 st = Some st' /\ Inv (l1 ++ l2) [] st' /\ (forall n, In n l1 -> nthc (hs_c st') n = nthc (hs_c st) n) /\
      frob2 (hs_Y st') <= frob2 (hs_Y st) /\
      ((forall n, In n l2 -> nth (n - 1) mr None = None) -> 0 < ltol -> frob2 (hs_Y st) - frob2 (hs_Y st') <= INR (nact l2) * (ltol * ltol) * frob2 (hs_Y st)) /\
      ((forall n, In n l2 -> nth (n - 1) mr None = None) -> ltol <= 0 -> frob2 (hs_Y st') = frob2 (hs_Y st)) /\
      exists G, bsum (shape (hs_Y st)) (fun z => (get (hs_Y st) z - G z) * (get (hs_Y st) z - G z)) = frob2 (hs_Y st) - frob2 (hs_Y st') /\
        forall X, ttree X = tr -> (forall n, In n (hsvd_nodes tr) -> core X n = nthc (hs_c st') n) -> (forall n, In n (hsvd_nodes tr) -> active X n = an n) ->
          forall is e, valid sA is -> 
          bsum (map (hz l1 (hs_c st)) (hs_nx st)) (fun ks => G (ks ++ e) * lprod (combine (hs_nx st) ks) (fun p => wv l2 X is (fst p) (snd p)))
          = bsum (map (hz (l1 ++ l2) (hs_c st')) (hs_nx st')) (fun ks => get (hs_Y st') (ks ++ e) * lprod (combine (hs_nx st') ks) (fun p => tval X (fst p) is [snd p])).
  Proof.
    induction l2 as [|n l2 IH]; intros l1 st EL HI.
    - exists st. cbn [ofold]. rewrite app_nil_r. split; auto. split; auto. split; auto. split; [lra|]. split; [intros _ _; cbn; lra|]. split; auto.
      exists (get (hs_Y st)). split.
      + rewrite (bsum_zero (shape (hs_Y st)) (fun z => (get (hs_Y st) z - get (hs_Y st) z) * (get (hs_Y st) z - get (hs_Y st) z))); [rcbn; ring|]. intros. rcbn. ring.
      + intros X _ _ _ is e _. apply bsum_ext_R. intros ks _. f_equal. apply lprod_ext. intros p _. unfold wv. cbn [inb existsb]. rewrite andb_false_r. auto.
    - assert (Hn := s_node l1 l2 n EL). destruct Hn as [Hn Hr]. destruct (s_nd l1 l2 n EL) as [N1 N2].
      assert (EL' : hsvd_nodes tr = (l1 ++ [n]) ++ l2) by (rewrite <- app_assoc; auto).
      assert (Hinn : In n (hsvd_nodes tr)) by (rewrite EL; apply in_or_app; simpl; auto).
      cbn [ofold]. destruct (an n) eqn:Ha.
      + destruct (step_active l1 l2 n st EL HI Ha) as (C & Y' & k & t' & ES & HI' & SC & SY' & Pk & HO & HG & Hz & F1 & F2 & F3 & _).
        rewrite ES. destruct (IH (l1 ++ [n]) _ EL' HI') as (st' & EF & HI2 & HC & G1 & G2 & G3 & G & HGe & HGv). cbn [hs_t hs_Y hs_nx hs_c] in *.
        exists st'. split; auto. rewrite <- app_assoc in HI2, HGv. cbn [app] in HI2, HGv. split; auto. split.
        { intros m Hm. rewrite HC by (apply in_or_app; auto). destruct (s_l1 l1 l2 n EL m Hm) as (M1 & _). unfold node in M1, Hn. rewrite nthc_setc by (rewrite ?(i_len _ _ _ HI); lia).
          destruct (Nat.eqb_spec m n); auto. subst. contradiction. }
        split; [lra|]. split; [|split].
        * intros Hm Ht. specialize (F2 (Hm n (or_introl eq_refl)) Ht). specialize (G2 (fun m Hm' => Hm m (or_intror Hm')) Ht).
          unfold nact in *. cbn [filter]. rewrite Ha. cbn [length]. rewrite S_INR. pose proof (pos_INR (length (filter (fun n0 => an n0) l2))) as P1. assert (0 <= ltol * ltol) by nra.
          assert (INR (length (filter (fun n0 => an n0) l2)) * (ltol * ltol) * frob2 Y' <= INR (length (filter (fun n0 => an n0) l2)) * (ltol * ltol) * frob2 (hs_Y st)).
          { apply Rmult_le_compat_l; auto. apply Rmult_le_pos; auto. }
          lra.
        * intros Hm Ht. rewrite (G3 (fun m Hm' => Hm m (or_intror Hm')) Ht). apply F3; auto. apply Hm. simpl. auto.
        * assert (NDx := i_nd _ _ _ HI). assert (Hinc : incl (chs n) (hs_nx st)) by (intros c Hc; apply (s_chs l1 l2 n st EL HI); auto).
          exists (lift (hs_nx st) (chs n) k C G). split.
          -- rewrite (err_step (hs_nx st) (chs n) (hz l1 (hs_c st)) es k (hs_Y st) Y' C G NDx (NoDup_chs n) Hinc (i_shape _ _ _ HI) SY' HO HG). rewrite HGe. ring.
          -- intros X EX HX HA is e Hv. rewrite <- (HGv X EX HX HA is e Hv).
             destruct (val_step (hs_nx st) (chs n) (hz l1 (hs_c st)) es k (hs_Y st) C G NDx (NoDup_chs n) Hinc (i_shape _ _ _ HI) (wv (n :: l2) X is) n e) as [E|K]; [|exfalso; apply (s_rest_n l1 l2 n st EL HI K)].
             rewrite E, Hz. apply bsum_ext_R. intros ks Hks. f_equal. apply lprod_ext. intros [c a] Hp. cbn [fst snd].
             assert (ECn : core X n = C).
             { rewrite HX by auto. rewrite HC by (apply in_or_app; simpl; auto). unfold node in Hn. rewrite nthc_setc by (rewrite ?(i_len _ _ _ HI); lia). rewrite Nat.eqb_refl. auto. }
             assert (VX : dim_tree (ttree X) r) by (rewrite EX; auto).
             destruct (Nat.eqb_spec c n) as [->|NE].
             ++ unfold wv at 2. rewrite (proj2 (inb_false n l2)) by auto. rewrite andb_false_r. unfold chs in *. destruct (is_leaf tr n) eqn:Hl.
                ** rewrite (tval_leaf X r VX) by (rewrite ?EX, ?HA; auto). rewrite EX. fold (mu n). rewrite ECn. cbn [map bsum].
                   assert (Hlt : (nth (mu n) is 0 < hz l1 (hs_c st) n)%nat).
                   { unfold hz. rewrite (proj2 (inb_false n l1)) by auto. cbn [andb]. apply valid_nth; auto. rewrite LA. unfold mu. destruct (leaf_index tr n Hl) as [Q _]. exact Q. }
                   rewrite (rsum_single _ (nth (mu n) is 0%nat)); auto.
                   --- cbn [combine lprod fst snd app]. unfold wv. rewrite Hl. rewrite (proj2 (inb_spec n (n :: l2))) by (simpl; auto). cbn [andb]. rewrite Nat.eqb_refl. rcbn. ring.
                   --- intros i Hi Hne. cbn [combine lprod fst snd app]. unfold wv. rewrite Hl. rewrite (proj2 (inb_spec n (n :: l2))) by (simpl; auto). cbn [andb]. rewrite (proj2 (Nat.eqb_neq i _)) by auto. rcbn. ring.
                ** rewrite (tval_internal X r VX) by (rewrite ?EX; auto). unfold heads, arity_at. rewrite EX, Hl, ECn, SC.
                   rewrite firstn_app, map_length, Nat.sub_diag, firstn_O, app_nil_r, firstn_all2 by (rewrite map_length; auto).
                   apply bsum_ext_R. intros ls Hls. rcbn. f_equal. apply lprod_ext. intros [d x] Hd. apply in_combine_l in Hd. cbn [fst snd]. unfold wv.
                   assert (Hdl : In d l1) by (apply (s_child l1 l2 n EL); apply in_children in Hd; auto).
                   rewrite (proj2 (inb_false d (n :: l2))); [rewrite andb_false_r; auto|]. intros [K|K]; [subst; auto|].
                   pose proof (NoDup_hsvd_nodes tr r T) as ND. rewrite EL in ND. apply in_split in Hdl. destruct Hdl as (u & v & ->). rewrite <- app_assoc in ND. cbn [app] in ND. apply NoDup_remove_2 in ND. apply ND.
                   apply in_or_app. right. apply in_or_app. right. simpl. auto.
             ++ apply in_combine_l in Hp. unfold wv. replace (inb c (n :: l2)) with (inb c l2); auto. destruct (inb c l2) eqn:E1; symmetry.
                ** apply inb_spec. apply inb_spec in E1. simpl. auto.
                ** apply inb_false. apply inb_false in E1. intros [K|K]; auto.
      + destruct (step_inactive l1 l2 n st EL HI Ha) as (st1 & ES & E1 & HI').
        rewrite ES. destruct (IH (l1 ++ [n]) _ EL' HI') as (st' & EF & HI2 & HC & G1 & G2 & G3 & G & HGe & HGv). subst st1. cbn [hs_t hs_Y hs_nx hs_c] in *.
        exists st'. split; auto. rewrite <- app_assoc in HI2, HGv. cbn [app] in HI2, HGv. split; auto. split.
        { intros m Hm. rewrite HC by (apply in_or_app; auto). destruct (s_l1 l1 l2 n EL m Hm) as (M1 & _). unfold node in M1, Hn. rewrite nthc_setc by (rewrite ?(i_len _ _ _ HI); lia).
          destruct (Nat.eqb_spec m n); auto. subst. contradiction. }
        split; [lra|]. split; [|split].
        * intros Hm Ht. unfold nact in *. cbn [filter]. rewrite Ha. apply (G2 (fun m Hm' => Hm m (or_intror Hm')) Ht).
        * intros Hm Ht. apply (G3 (fun m Hm' => Hm m (or_intror Hm')) Ht).
        * exists G. split; auto. intros X EX HX HA is e Hv. rewrite <- (HGv X EX HX HA is e Hv).
          assert (VX : dim_tree (ttree X) r) by (rewrite EX; auto).
          assert (Hl : is_leaf tr n = true) by (destruct (is_leaf tr n) eqn:E; auto; rewrite (Hint n Hn E) in Ha; discriminate).
          rewrite (map_ext_in (hz (l1 ++ [n]) (setc n no_core (hs_c st))) (hz l1 (hs_c st))).
          2:{ intros c Hc. destruct (Nat.eq_dec c n) as [->|NE]; [|apply hz_step; auto; [apply (i_len _ _ _ HI)|apply (i_in _ _ _ HI) in Hc; tauto]]. unfold hz. rewrite Ha, !andb_false_r. auto. }
          apply bsum_ext_R. intros ks Hks. f_equal. apply lprod_ext. intros [c a] Hp. cbn [fst snd]. unfold wv. destruct (Nat.eq_dec c n) as [->|NE].
          -- rewrite Hl. rewrite (proj2 (inb_spec n (n :: l2))) by (simpl; auto). rewrite (proj2 (inb_false n l2)) by auto. cbn [andb].
             rewrite (tval_inactive X r VX) by (rewrite ?EX, ?HA; auto). rewrite EX. fold (mu n). cbn [list_eqb]. rewrite andb_true_r. auto.
          -- replace (inb c (n :: l2)) with (inb c l2); auto. destruct (inb c l2) eqn:E1; symmetry.
             ++ apply inb_spec. apply inb_spec in E1. simpl. auto.
             ++ apply inb_false. apply inb_false in E1. intros [K|K]; auto.
  Qed.
End Loop.
