(** Variances of conditional expectations. *)
From Coq Require Import List Arith Bool ZArith Lia Sorted Permutation.
From Verif.Base Require Import ListAux CRing Index.
From Verif.Model Require Import Sorting MultiIndices Numpy FullTensor Diagonal Canonical Sparse DimensionTree Functions FunctionalBases FuncStats FuncSobol.
From Verif.Spec Require Import MultiIndicesSpec TensorSpec FunctionSpec FunctionalSpec.
From Verif.Proofs Require Import NumpyP FullTensorP FullTensorP3 SparseP CanonicalP CanonicalP2 MIMoreP FunctionsP FunctionsP2 FunctionsP3 TensorizerP FunctionalP FunctionalP2 FunctionalP3 FunctionalP4 FunctionalP5 TreeTensorP17 FunctionalP7 FuncStatsP1.
Import ListNotations.

Section P.
  Context {R : Type} {CR : CRing R} {A V : Type}.
  Add Ring Rfsob : rth.
  Local Open Scope cr_scope.
  Notation fb := (fbasis R A V).
  Lemma each3_sub {X Y Z} (P : X -> Y -> Z -> Prop) a b c dx dy dz (l : list nat) : each3 P a b c -> (forall k, In k l -> (k < length a)%nat) ->
    each3 P (map (fun k => nth k a dx) l) (map (fun k => nth k b dy) l) (map (fun k => nth k c dz) l).
  Proof.
    intros H. induction l as [|k l IH]; intros Hl; cbn [map each3]; [exact Logic.I|]. split; [apply each3_nth; auto; apply Hl; left; auto|]. apply IH. intros j Hj. apply Hl. right. auto.
  Qed.
  Section C.
    Variables (T : nd R) (bs : list fb) (dims : list nat) (G : list (list (list A))) (W : list (list R)).
    Hypothesis HN : NoDup dims.
    Hypothesis HF : Forall (fun k => (k < length bs)%nat) dims.
    Hypothesis HT : shape T = cards bs.
    Hypothesis HM : each3 mean_ok bs G W.
    Let d := length bs.
    Let b0 : fb := FB 0 0 (fun _ _ => r0) (fun _ => []) (scalar r0) false.
    Let sd := filter (fun k => inb k dims) (seq 0 d).
    Let cd := compl d dims.
    Let bs' := map (fun k => nth k bs b0) sd.
    Let M := map (fun b => fb_mean b None) bs.
    Lemma means_split is js : length is = length cd -> length js = length sd ->
      lfactors M (asm d cd is js) = lfactors (map (fun k => fb_mean (nth k bs b0) None) cd) is * lfactors (map (fun b => fb_mean b None) bs') js.
    Proof.
      intros Hi Hj. assert (LM : length M = d) by apply map_length.
      assert (ECS : compl d cd = sd) by apply compl_compl. assert (NCD : NoDup cd) by (apply NoDup_filter, seq_NoDup).
      assert (LCD : Forall (fun k => (k < d)%nat) cd) by (apply Forall_forall; intros k Hk; apply in_compl in Hk; apply Hk).
      rewrite (lfactors_seq M) by (rewrite asm_length; auto). rewrite LM.
      rewrite <- (lprod_perm (cd ++ sd) (seq 0 d)).
      2:{ rewrite <- ECS. apply app_compl_perm; auto. }
      rewrite lprod_app. f_equal.
      - rewrite lfactors_seq by (rewrite map_length; auto). rewrite map_length, (lprod_nth cd). apply lprod_ext. intros m Hm. apply in_seq in Hm. destruct Hm as [_ Hm]. cbn in Hm.
        rewrite map_nth_in with (da := 0%nat) by auto. rewrite Forall_forall in LCD. pose proof (LCD _ (nth_In _ 0%nat Hm)) as Hlt.
        unfold M. rewrite map_nth_in with (da := b0) by auto. f_equal. apply asm_nth_in; auto. apply Forall_forall; auto.
      - unfold bs'. rewrite map_map. rewrite lfactors_seq by (rewrite map_length; auto). rewrite map_length, (lprod_nth sd). apply lprod_ext. intros m Hm. apply in_seq in Hm. destruct Hm as [_ Hm]. cbn in Hm.
        rewrite map_nth_in with (da := 0%nat) by auto.
        assert (Hlt : (nth m sd 0 < d)%nat). { pose proof (nth_In sd 0%nat Hm) as Hin. apply filter_In in Hin. destruct Hin as [H1 _]. apply in_seq in H1. lia. }
        unfold M. rewrite map_nth_in with (da := b0) by auto. f_equal. rewrite <- ECS. apply asm_nth_out. rewrite ECS. auto.
    Qed.
    Theorem tower : exists t, fun_cond_full T bs dims MNone = Some (t, bs') /\ shape t = cards bs' /\
      tmean (map (fun k => nth k G []) sd) (map (fun k => nth k W []) sd) (expansion bs' (get t)) = tmean G W (expansion bs (get T)).
    Proof.
      destruct (cond_data T bs dims G W HN HF HT HM) as (t & Et & St & Gt). fold d in Et, St, Gt. fold b0 in Et, St, Gt. fold sd in Et, St. fold bs' in Et, St. fold cd in Gt.
      exists t. split; auto. split; auto. assert (LC : length (cards bs) = d) by apply map_length.
      assert (Hsd : forall k, In k sd -> (k < length bs)%nat) by (intros k Hk; apply filter_In in Hk; destruct Hk as [H1 _]; apply in_seq in H1; lia).
      assert (ECS : compl d cd = sd) by apply compl_compl. assert (NCD : NoDup cd) by (apply NoDup_filter, seq_NoDup).
      assert (LCD : Forall (fun k => (k < d)%nat) cd) by (apply Forall_forall; intros k Hk; apply in_compl in Hk; apply Hk).
      assert (Ecard : cards bs' = sel 0%nat (cards bs) sd).
      { unfold bs', cards, sel. rewrite map_map. apply map_ext_in. intros k Hk. rewrite map_nth_in with (da := b0) by (apply Hsd; auto). auto. }
      unfold expansion. rewrite !tmean_bsum.
      transitivity (bsum (cards bs') (fun js => get t js * lfactors (map (fun b => fb_mean b None) bs') js)).
      { apply bsum_ext. intros js Hj. f_equal. apply tmean_prod; auto. apply each3_sub; auto. }
      transitivity (bsum (cards bs) (fun is => get T is * lfactors M is)).
      2:{ apply bsum_ext. intros is Hi. f_equal. symmetry. apply tmean_prod; auto. }
      rewrite (bsum_asm (cards bs) cd) by (try rewrite LC; auto). rewrite LC, ECS, <- Ecard.
      rewrite bsum_exchange. apply bsum_ext. intros js Hj. rewrite Gt by (rewrite St; auto). rewrite <- bsum_scal_r. apply bsum_ext. intros is Hi.
      rewrite means_split.
      - fold b0. ring.
      - rewrite (valid_length _ _ Hi). apply sel_length.
      - rewrite (valid_length _ _ Hj), Ecard. apply sel_length.
    Qed.
    Hypothesis HG : each3 gram_ok bs G W.
    Theorem var_cond_ok : dims <> [] -> tmean (map (fun k => nth k G []) sd) (map (fun k => nth k W []) sd) (fun _ => r1) = r1 ->
      exists t, fun_cond_full T bs dims MNone = Some (t, bs') /\
      fun_var_cond_of (Some fbs_gram_matrices) T bs dims =
        Some (let g := expansion bs' (get t) in let m := tmean G W (expansion bs (get T)) in tmean (map (fun k => nth k G []) sd) (map (fun k => nth k W []) sd) (fun p => (g p - m) * (g p - m))).
    Proof.
      intros Hne H1. destruct tower as (t & Et & St & Tw). exists t. split; auto. unfold fun_var_cond_of.
      destruct (fun_mean_full_ok T bs G W HT HM) as (e & Ee & Se & Ge). rewrite Ee. cbn [bind]. destruct dims as [|u0 ul] eqn:Edims; [congruence|]. rewrite Et. cbn [bind fst snd].
      assert (Hsd : forall k, In k sd -> (k < length bs)%nat) by (intros k Hk; apply filter_In in Hk; destruct Hk as [H2 _]; apply in_seq in H2; lia).
      rewrite (fun_dot_ok t t bs' (map (fun k => nth k G []) sd) (map (fun k => nth k W []) sd) St St) by (apply each3_sub; auto).
      cbn [bind]. f_equal. rewrite Ge by constructor. cbv zeta. set (g := expansion bs' (get t)) in *. set (m := tmean G W (expansion bs (get T))) in *.
      set (G' := map (fun k => nth k G []) sd) in *. set (W' := map (fun k => nth k W []) sd) in *.
      symmetry. transitivity (tmean G' W' (fun p => g p * g p) - (r1 + r1) * m * tmean G' W' g + m * m * tmean G' W' (fun _ => r1)); [|rewrite H1, Tw; ring].
      unfold tmean. rewrite <- !bsum_scal_l.
      transitivity (bsum (map (@length _) G') (fun is => (lfactors W' is * (g (grid_point G' is) * g (grid_point G' is)) + (- ((r1 + r1) * m * (lfactors W' is * g (grid_point G' is))))) + m * m * (lfactors W' is * r1))).
      - apply bsum_ext. intros is Hi. ring.
      - rewrite !bsum_plus, bsum_opp. ring.
    Qed.
  End C.
End P.
