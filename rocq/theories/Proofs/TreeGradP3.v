(** tensordot_eval_diag with the core as first operand (eval_diag_below at a node with active and inactive children). *)
From Coq Require Import List Arith Lia Bool Sorted Ring Permutation.
From Verif.Base Require Import ListAux CRing Index.
From Verif.Model Require Import Numpy FullTensor TreeGrad.
From Verif.Spec Require Import TensorSpec.
From Verif.Proofs Require Import NumpyP FullTensorP FullTensorP3 FullTensorP4 FunctionsP EinsumP EinsumP2 TreeTensorP17 TreeTensorP18 TreeTensorP19 TreeGradP1 TreeGradP2.
Import ListNotations.

Section CoreFirst.
  Context {R : Type} {CR : CRing R}.
  Add Ring Rrtg4 : rth.
  Local Open Scope cr_scope.
  Variables (cs : list nat) (h : nat -> nat) (C : nd R) (ext : list nat) (q : nat).
  Hypothesis NDc : NoDup cs.
  Hypothesis HC : shape C = map h cs ++ ext.
  Let pos (c : nat) : nat := index_of c cs.
  Let nC : ndim C = (length cs + length ext)%nat.
  Proof. unfold ndim. rewrite HC, app_length, map_length. reflexivity. Qed.
  Variable f : nat -> bool.
  Let L : list nat := filter f cs.
  Let M : list nat := filter (fun c => negb (f c)) cs.
  Hypothesis HM : forall c, In c M -> h c = q.
  Hypothesis NE : M <> [].

  Lemma ted_core tmp : shape tmp = q :: map h L ->
    exists T, ft_tensordot_eval_diag C tmp (map pos L) (seq 1 (ndim tmp - 1)) (map pos M) [0%nat] false = Some T /\ shape T = q :: ext /\
      forall i e, length e = length ext -> get T (i :: e) = bsum (map h L) (fun ks => get tmp (i :: ks) * get C (map (ixf L ks (fun _ => i)) cs ++ e)).
  Proof.
    intros Hs. assert (nT : ndim tmp = S (length L)) by (unfold ndim; rewrite Hs; cbn; rewrite map_length; auto).
    assert (E1 : (ndim tmp - 1)%nat = length L) by lia. rewrite E1.
    assert (IM : incl M cs) by (intros x Hx; apply filter_In in Hx; apply Hx).
    assert (IL : incl L cs) by (intros x Hx; apply filter_In in Hx; apply Hx).
    assert (NM : NoDup M) by (apply NoDup_filter; auto). assert (NL : NoDup L) by (apply NoDup_filter; auto).
    pose proof (pos_sorted cs NDc f) as SL. fold pos L in SL. pose proof (pos_sorted cs NDc (fun c => negb (f c))) as SM. fold pos M in SM.
    assert (Hpl : forall N, incl N cs -> Forall (fun j => (j < ndim C)%nat) (map pos N)) by (intros N HN; eapply Forall_impl; [|apply pos_lt; exact HN]; cbn; rewrite nC; lia).
    assert (Dis : forall k, In k (map pos L) -> ~ In k (map pos M)).
    { intros k H1 H2. apply in_map_iff in H1. destruct H1 as (c & <- & Hc). apply (pos_in cs M) in H2; auto. unfold L, M in *. apply filter_In in H2. apply filter_In in Hc. destruct H2 as [_ H2], Hc as [_ Hc]. rewrite Hc in H2. discriminate. }
    assert (Hsz : forall k, In k (map pos M) -> nth k (shape C) 0%nat = q).
    { intros k Hk. apply in_map_iff in Hk. destruct Hk as (c & <- & Hc). rewrite HC, app_nth1 by (rewrite map_length; apply index_of_nth; auto). unfold pos. rewrite (nth_pos_map cs h c) by auto. auto. }
    assert (Cov : forall c, In c cs -> In c L \/ In c M).
    { intros c Hc. unfold L, M. rewrite !filter_In. destruct (f c) eqn:E; auto. }
    assert (NPM : NoDup (map pos M)) by (apply pos_inj; auto).
    assert (HIM : forall x, In x M <-> In x M) by tauto.
    destruct M as [|m0 M'] eqn:EM; [congruence|]. cbn [map]. set (d := pos m0).
    assert (Hm0 : In m0 cs) by (apply IM; simpl; auto). assert (Hd : (d < length cs)%nat) by (apply index_of_nth; auto).
    destruct (ted_spec C tmp (map pos L) (seq 1 (length L)) (map pos M') [0%nat] d) as (T & HT & Hsh & Hg); try rewrite nT; auto using seq_NoDup.
    - rewrite map_length, seq_length. auto.
    - apply Forall_app. split; auto. exact (Hpl (m0 :: M') IM).
    - apply Forall_app. split; [apply Forall_forall; intros x Hx; apply in_seq in Hx; lia|]. constructor; [lia|constructor].
    - cbn [map] in SM. inversion SM as [|? ? S1 S2]; subst. eapply Forall_impl; [|exact S2]. cbn. fold d. lia.
    - constructor; [intros []|constructor].
    - intros k Hk [E|[]]. apply in_seq in Hk. lia.
    - rewrite HC, Hs. transitivity (map h L); [apply (sel_pos cs h ext); auto|]. symmetry. rewrite <- (map_length h L) at 1. exact (sel_tail [q] (map h L)).
    - intros k Hk. rewrite (Hsz k) by (right; auto). symmetry. apply Hsz. left. auto.
    - intros k [<-|[]]. rewrite (Hsz d) by (left; auto). rewrite Hs. auto.
    - exists T. split; auto.
      assert (Edec : forall x, (x < length cs)%nat -> In x (map pos L) \/ x = d \/ In x (map pos M')).
      { intros x Hx. assert (Ex : x = pos (nth x cs 0%nat)) by (unfold pos; rewrite index_of_NoDup; auto). destruct (Cov (nth x cs 0%nat)) as [K|K]; [apply nth_In; auto|left; rewrite Ex; apply in_map; auto|].
        right. destruct K as [K|K]; [left; rewrite Ex, <- K; auto|right; rewrite Ex; apply in_map; auto]. }
      assert (F1 : ted_free1 C (map pos L) (map pos M') = d :: seq (length cs) (length ext)).
      { unfold ted_free1. rewrite nC, seq_app, filter_app. change (d :: seq (length cs) (length ext)) with ([d] ++ seq (length cs) (length ext)). f_equal.
        - apply sorted_same.
          + assert (G : forall l, StronglySorted lt l -> forall g, StronglySorted lt (filter g l)).
            { induction 1 as [|a l Hs' IH Hf]; intros g; cbn [filter]; [constructor|]. destruct (g a); auto. constructor; auto. rewrite Forall_forall in *. intros x Hx. apply filter_In in Hx. apply Hf, Hx. }
            apply G, sorted_seq.
          + repeat constructor.
          + intros x. rewrite filter_In, in_seq, negb_true_iff, inb_false, in_app_iff. split.
            * intros [H1 H2]. left. destruct (Edec x) as [K|[K|K]]; [lia|tauto|auto|tauto].
            * intros [<-|[]]. split; [lia|]. intros [K|K]; [apply (Dis d K); left; auto|]. cbn [map] in NPM. inversion NPM; auto.
        - apply filter_true. intros x Hx. apply in_seq in Hx. apply negb_true_iff, inb_false. intros K. apply in_app_or in K. destruct K as [K|K].
          + pose proof (pos_lt cs L IL) as P. rewrite Forall_forall in P. apply P in K. lia.
          + pose proof (pos_lt cs (m0 :: M') IM) as P. rewrite Forall_forall in P. assert (K' : In x (map pos (m0 :: M'))) by (right; auto). apply P in K'. lia. }
      assert (F2 : ted_free2 tmp (seq 1 (length L)) [0%nat] = []).
      { unfold ted_free2, compl. rewrite nT. apply filter_none. intros x Hx. apply in_seq in Hx. apply negb_false_iff, inb_spec, in_or_app. destruct x; [right; left; auto|left; apply in_seq; lia]. }
      split.
      + rewrite Hsh, F1, F2. cbn [sel map app]. rewrite app_nil_r. f_equal; [apply Hsz; left; auto|]. rewrite HC. rewrite <- (map_length h cs). exact (sel_tail (map h cs) ext).
      + intros i e Le. rewrite Hg. rewrite HC at 1. rewrite (sel_pos cs h ext) by auto. apply bsum_ext. intros ks Hks. assert (Lk : length ks = length L) by (rewrite (valid_length _ _ Hks), map_length; auto).
        assert (EA : ted_ixA C (map pos L) (map pos M') d (i :: e) ks = map (ixf L ks (fun _ => i)) cs ++ e).
        { unfold ted_ixA. rewrite F1. apply nth_ext' with (d := 0%nat); [rewrite app_length, !map_length, seq_length, nC; lia|]. rewrite map_length, seq_length. intros b Hb.
          rewrite nth_map_seq by auto. cbn [Nat.add]. destruct (Nat.lt_ge_cases b (length cs)) as [Q|Q].
          - assert (Eb : b = pos (nth b cs 0%nat)) by (unfold pos; rewrite index_of_NoDup; auto). set (c := nth b cs 0%nat) in *. assert (Hc : In c cs) by (apply nth_In; auto).
            rewrite (app_nth1 (map _ cs)) by (rewrite map_length; auto). rewrite Eb at 5. unfold pos at 3. rewrite (nth_pos_map cs _ c) by auto. unfold ixf.
            destruct (inb c L) eqn:EL.
            + apply inb_spec in EL. rewrite Eb. rewrite (proj2 (inb_spec _ _)) by (apply in_map; auto). destruct (index_of_nth L c EL) as [J1 J2].
              replace (index_of (pos c) (map pos L)) with (index_of c L); auto. rewrite <- J2 at 2. rewrite <- (map_nth_in pos L (index_of c L) 0%nat 0%nat) by auto. rewrite index_of_NoDup; auto; [apply pos_inj; auto|rewrite map_length; auto].
            + apply inb_false in EL. rewrite (proj2 (inb_false _ _)) by (rewrite Eb; intros K; apply (pos_in cs L) in K; auto).
              rewrite (proj2 (inb_spec b _)). { cbn [index_of]. rewrite Nat.eqb_refl. reflexivity. }
              destruct (Edec b Q) as [K|[K|K]]; [|left; auto|right; auto]. exfalso. rewrite Eb in K. apply (pos_in cs L) in K; auto.
          - rewrite (app_nth2 (map _ cs)) by (rewrite map_length; auto). rewrite map_length.
            assert (Hno : forall N, incl N cs -> inb b (map pos N) = false) by (intros N HN; apply inb_false; intros K; pose proof (pos_lt cs N HN) as P; rewrite Forall_forall in P; apply P in K; lia).
            rewrite Hno by auto. pose proof (Hno (m0 :: M') IM) as Hno2. cbn [map] in Hno2. fold d in Hno2. rewrite Hno2. cbn [index_of]. destruct (Nat.eqb_spec d b); [lia|]. rewrite index_of_seq by lia. reflexivity. }
        rewrite EA.
        assert (EB : ted_ixB C tmp (map pos L) (seq 1 (length L)) (map pos M') [0%nat] d (i :: e) ks = i :: ks).
        { unfold ted_ixB. rewrite F1, F2, nT. cbn [seq map]. rewrite inb_seq. cbn [Nat.leb andb inb existsb Nat.eqb orb index_of]. rewrite Nat.eqb_refl. cbn [nth]. f_equal.
          apply nth_ext' with (d := 0%nat); [rewrite map_length, seq_length; auto|]. rewrite map_length, seq_length. intros j Hj. rewrite map_nth_in with (da := 0%nat) by (rewrite seq_length; auto). rewrite seq_nth by auto.
          rewrite inb_seq. destruct (Nat.leb_spec 1 (1 + j)); [|lia]. destruct (Nat.ltb_spec (1 + j) (1 + length L)); [|lia]. cbn [andb]. rewrite index_of_seq by lia. f_equal. lia. }
        rewrite EB. ring.
  Qed.
End CoreFirst.
