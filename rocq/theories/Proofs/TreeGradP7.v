(** eval_diag_below and eval_diag_above: statements. *)
From Coq Require Import List Arith Lia Bool Sorted Ring Permutation.
From Verif.Base Require Import ListAux CRing Index.
From Verif.Model Require Import Utils Numpy FullTensor DimensionTree TreeBased TreeEval HsvdTree TreeGrad.
From Verif.Spec Require Import TensorSpec TreeSpec TreeTensorSpec GradSpec.
From Verif.Proofs Require Import NumpyP FullTensorP FunctionsP DimTreeP DimTreeP2 TreeTensorP TreeTensorP2 TreeTensorP3 TreeTensorP18 TreeGradP4 TreeGradP5 TreeGradP6.
Import ListNotations.

Section Public.
  Context {R : Type} {CR : CRing R}.
  Local Open Scope cr_scope.
  Variables (X : tbt R) (r q : nat).
  Hypothesis O : tb_ok X r.
  Hypothesis Hq : (0 < q)%nat.
  Local Notation t := (ttree X).
  Local Notation D := (tb_order X).

  Lemma in_excl alpha except n : (forall a, alpha = Some a -> node t a) -> node t n \/ In n except ->
    (In n (below_excl X alpha except) <-> excluded X r alpha except n) \/ (exists a, alpha = Some a /\ a <> r /\ ~ node t n).
  Proof.
    intros Ha Hn. pose proof (proj1 (proj1 O)) as T. unfold below_excl, excluded. destruct alpha as [a|].
    - rewrite (root_eq t r T). specialize (Ha a eq_refl). destruct (Nat.eqb_spec a r) as [->|NE].
      + left. split; [auto|]. intros [K|(a & E & NE & _)]; auto. inversion E; subst. congruence.
      + destruct (ascendants_spec t r T a Ha) as (_ & HA & _). destruct (Nat.leb_spec 1 n) as [L1|L1]; [destruct (Nat.leb_spec n (nbn t)) as [L2|L2]|].
        * left. rewrite filter_In, in_nodes, inb_spec. cbn [In]. rewrite in_app_iff, HA. split.
          -- intros [_ [<-|[(K1 & K2 & K3)|K]]]; [right|right|left; auto]; exists a; repeat split; auto; try lia. apply below_refl.
          -- intros K. split; [split; lia|]. destruct K as [K|(a' & E & _ & Hn' & Hb)]; auto. inversion E; subst a'. destruct (Nat.eq_dec a n) as [->|NE']; auto.
        * right. exists a. repeat split; auto. intros []. lia.
        * right. exists a. repeat split; auto. intros []. lia.
    - left. split; auto. intros [K|(a & E & _)]; [auto|discriminate].
  Qed.
  Lemma in_excl' alpha except n : (forall a, alpha = Some a -> node t a) -> node t n -> (In n (below_excl X alpha except) <-> excluded X r alpha except n).
  Proof. intros Ha Hn. destruct (in_excl alpha except n Ha (or_introl Hn)) as [K|(a & _ & _ & K)]; auto. contradiction. Qed.

  (** [excluded] is closed upward *)
  Lemma excluded_up alpha except : (forall p c, edge t p c -> In c except -> In p except) ->
    forall p c, edge t p c -> excluded X r alpha except c -> excluded X r alpha except p.
  Proof.
    intros HE p c He [K|(a & E & NE & Hn & Hb)]; [left; eauto|]. right. exists a. split; auto. split; auto. split; [apply He|]. apply (below_edge_below t p c a He Hb).
  Qed.

  Lemma diag_below_gen alpha except :
    (forall a, alpha = Some a -> node t a) -> (forall n, In n except -> node t n) -> (forall p c, edge t p c -> In c except -> In p except) ->
    (forall n, node t n -> active X n = true -> ~ excluded X r alpha except n -> n <> r -> forall mu, In mu (dims t n) -> nth mu (tb_shape X) 0%nat = q) ->
    (~ excluded X r alpha except r -> is_leaf t r = false -> (exists c, edge t r c /\ active X c = true) \/ (forall mu, In mu (dims t r) -> nth mu (tb_shape X) 0%nat = q)) ->
    (is_leaf t r = true -> excluded X r alpha except r) ->
    exists db, tb_diag_below X alpha except = Some db /\ length db = nbn t /\
      forall n, node t n -> ~ excluded X r alpha except n -> active X n = true -> (plain X r n -> is_diag X q n (nth (n - 1) db None)) /\
        exists B, nth (n - 1) db None = Some B /\ nth 0 (shape B) 0%nat = q.
  Proof.
    intros Ha Hex Hup HS HR HRl. pose proof (proj1 (proj1 O)) as T. assert (Hr : node t r) by apply T.
    assert (Hxn : forall n, In n (below_excl X alpha except) -> node t n).
    { intros n Hn. unfold below_excl in Hn. destruct alpha as [a|]; [|auto]. destruct (a =? root t)%nat; [auto|]. apply filter_In in Hn. apply in_nodes. apply Hn. }
    pose proof (fun n Hn => in_excl' alpha except n Ha Hn) as Ein.
    set (s0 := fold_left (fun s n => upd (n - 1) None s) (tl (below_excl X alpha except)) (map Some (cores X))).
    destruct (below_loop X r q O Hq (below_excl X alpha except)) with (s0 := s0) as (s & E & HL & HQ).
    - intros p c He Hc. apply Ein; [apply He|]. apply (excluded_up alpha except Hup p c He). apply Ein; [apply He|auto].
    - intros n Hn Hac Hne. apply HS; auto. intros K. apply Hne. apply Ein; auto.
    - intros Hne. apply HR. intros K. apply Hne. apply Ein; auto.
    - intros K. apply Ein; auto.
    - unfold s0. rewrite fold_none_len, map_length. apply O.
    - intros n Hn Hne. unfold s0. rewrite fold_none.
      + rewrite map_nth_in with (da := @no_core R CR); [reflexivity|]. destruct O as (_ & K & _). rewrite K. destruct Hn. lia.
      + intros K. apply Hne. destruct (below_excl X alpha except); [destruct K|simpl in *; auto].
      + apply Hn.
      + apply Forall_forall. intros m Hm. assert (Hm' : In m (below_excl X alpha except)) by (destruct (below_excl X alpha except); [destruct Hm|simpl in *; auto]). apply Hxn in Hm'. apply Hm'.
    - exists s. split; [exact E|]. split; auto. intros n Hn Hne Hac. apply HQ; auto. intros K. apply Hne. apply Ein; auto.
  Qed.

  Lemma diag_below_public alpha except :
    (forall a, alpha = Some a -> node t a) -> (forall n, In n except -> node t n) -> (forall p c, edge t p c -> In c except -> In p except) ->
    is_leaf t r = false ->
    (forall n mu, node t n -> active X n = true -> ~ excluded X r alpha except n -> In mu (dims t n) -> nth mu (tb_shape X) 0%nat = q) ->
    exists db, tb_diag_below X alpha except = Some db /\ length db = nbn t /\
      forall n, node t n -> active X n = true -> ~ excluded X r alpha except n ->
        n <> r \/ (forall c, edge t n c -> active X c = true) \/ (forall c, edge t n c -> active X c = false) ->
        exists A, nth (n - 1) db None = Some A /\ shape A = q :: exts X n /\
          forall i e, (i < q)%nat -> valid (exts X n) e -> get A (i :: e) = tval X n (repeat i D) e.
  Proof.
    intros Ha Hex Hup Hl HS. pose proof (proj1 (proj1 O)) as T. assert (Hr : node t r) by apply T.
    destruct (diag_below_gen alpha except Ha Hex Hup) as (db & E & HL & HQ).
    - intros n Hn Hac Hne _ mu Hmu. apply (HS n mu); auto.
    - intros Hne _. right. intros mu Hmu. apply (HS r mu); auto. exact (proj1 (proj2 (proj2 O))).
    - rewrite Hl. discriminate.
    - exists db. split; auto. split; auto. intros n Hn Hac Hne Hp. destruct (HQ n Hn Hne Hac) as [HD _]. destruct (HD Hp) as (A & E1 & E2 & E3). exists A. split; auto. split; auto.
      intros i e Hi He. apply E3; auto. intros mu Hmu. apply nth_rep. apply (in_dims t r (proj1 O) n mu Hn) in Hmu. apply Hmu.
  Qed.

  Lemma above_gen alpha db : (forall a, alpha = Some a -> node t a) ->
    (alpha = Some r -> exists B, nth (r - 1) db None = Some B) ->
    (forall p n, edge t p n -> (forall a, alpha = Some a -> below t n a) -> active X n = true ->
      (forall c, edge t p c -> c <> n -> active X c = true -> is_diag X q c (nth (c - 1) db None)) /\
      (forall c, edge t p c -> c <> n -> active X c = false -> csize X c = q) /\ (exists c, edge t p c /\ c <> n)) ->
    exists da, tb_diag_above X db alpha = Some da /\ length da = nbn t /\
      (forall B, alpha = Some r -> nth (r - 1) db None = Some B -> nth (r - 1) da None = Some (ND (shape B) (fun _ => r1))) /\
      forall n, node t n -> n <> r -> active X n = true -> (forall a, alpha = Some a -> below t n a) -> is_ctx X r q n (nth (n - 1) da None).
  Proof.
    intros Ha HB Hok. pose proof (proj1 (proj1 O)) as T. assert (Hr : node t r) by apply T. unfold tb_diag_above. rewrite (root_eq t r T).
    set (inc := match alpha with None => nodes t | Some a => a :: ascendants t a end).
    assert (Hin : forall n, node t n -> (In n inc <-> forall a, alpha = Some a -> below t n a)).
    { intros n Hn. unfold inc. destruct alpha as [a|].
      - specialize (Ha a eq_refl). destruct (ascendants_spec t r T a Ha) as (_ & HA & _). cbn [In]. rewrite HA. split.
        + intros [<-|(_ & _ & K)] a' E; inversion E; subst; auto. apply below_refl.
        + intros K. specialize (K a eq_refl). destruct (Nat.eq_dec a n); auto.
      - rewrite in_nodes. split; [intros _ a E; discriminate|auto]. }
    assert (H0 : exists da0, (match alpha with
                | Some a => if (a =? r)%nat
                            then let* B := nth (a - 1) db None in Some (upd (a - 1) (Some (ND (shape B) (fun _ => r1))) (repeat None (nbn t)))
                            else Some (repeat None (nbn t))
                | None => Some (repeat None (nbn t))
                end) = Some da0 /\ length da0 = nbn t /\ forall B, alpha = Some r -> nth (r - 1) db None = Some B -> nth (r - 1) da0 None = Some (ND (shape B) (fun _ : list nat => r1 : R))).
    { destruct alpha as [a|].
      - destruct (Nat.eqb_spec a r) as [->|NE].
        + destruct (HB eq_refl) as (B & EB). rewrite EB. cbn [bind]. eexists. split; [reflexivity|]. split; [rewrite upd_length, repeat_length; auto|].
          intros B' _ E. inversion E; subst B'. rewrite nth_upd_eq; auto. rewrite repeat_length. destruct Hr. lia.
        + eexists. split; [reflexivity|]. split; [apply repeat_length|]. intros B E. inversion E; congruence.
      - eexists. split; [reflexivity|]. split; [apply repeat_length|]. intros B E. discriminate. }
    destruct H0 as (da0 & E0 & L0 & V0). rewrite E0. cbn [bind].
    destruct (above_loop X r q O Hq db inc) with (da0 := da0) as (da & E & HL & Er & HQ); auto.
    - intros p n He Hi _. apply Hin; [apply He|]. intros a Ea. apply (below_edge_below t p n a He). revert a Ea. apply Hin; auto. apply He.
    - intros p n He Hi Hac. apply Hok; auto. apply Hin; auto. apply He.
    - exists da. split; auto. split; auto. split.
      + intros B EB1 EB2. rewrite Er. auto.
      + intros n Hn NE Hac K. apply HQ; auto. apply Hin; auto.
  Qed.

  Lemma sibling_ok db p n : edge t p n ->
    (forall c, edge t p c -> c <> n -> active X c = true -> is_diag X q c (nth (c - 1) db None)) ->
    (forall c, edge t p c -> c <> n -> forall mu, In mu (dims t c) -> nth mu (tb_shape X) 0%nat = q) ->
    (exists c, edge t p c /\ c <> n) ->
    (forall c, edge t p c -> c <> n -> active X c = true -> is_diag X q c (nth (c - 1) db None)) /\
      (forall c, edge t p c -> c <> n -> active X c = false -> csize X c = q) /\ (exists c, edge t p c /\ c <> n).
  Proof.
    intros He H1 H2 H3. split; auto. split; auto. intros c Hc NE Hac. apply (inactive_size X r q O c); auto; [apply (child_inactive X r O p c Hc Hac)|]. apply H2; auto.
  Qed.

  Lemma diag_above_public : is_leaf t r = false -> (forall mu, (mu < D)%nat -> nth mu (tb_shape X) 0%nat = q) ->
    (forall p c, edge t p c -> exists c', edge t p c' /\ c' <> c) ->
    exists db da, tb_diag_below X None [] = Some db /\ tb_diag_above X db None = Some da /\
      forall n, node t n -> n <> r -> active X n = true ->
        exists A, nth (n - 1) da None = Some A /\ shape A = q :: exts X n ++ exts X r /\
          forall Y i is e, differs_below X Y r n -> (i < q)%nat -> (forall mu, (mu < D)%nat -> ~ In mu (dims t n) -> nth mu is 0%nat = i) -> valid (exts X r) e ->
            tval Y r is e = bsum (exts X n) (fun k => tval Y n is k * get A (i :: k ++ e)).
  Proof.
    intros Hl Hs Hsib. pose proof (proj1 O) as V. pose proof (proj1 V) as T.
    assert (Hs' : forall n mu, node t n -> In mu (dims t n) -> nth mu (tb_shape X) 0%nat = q) by (intros n mu Hn Hmu; apply Hs; apply (in_dims t r V n mu Hn) in Hmu; apply Hmu).
    assert (Hne : forall n, ~ excluded X r None [] n) by (intros n [[]|(a & K & _)]; discriminate).
    destruct (diag_below_gen None []) as (db & E & HL & HQ).
    - discriminate.
    - intros n [].
    - intros p c _ [].
    - intros n Hn _ _ _ mu. apply Hs'. auto.
    - intros _ _. right. intros mu. apply Hs'. apply T.
    - rewrite Hl. discriminate.
    - destruct (above_gen None db) as (da & Ea & La & _ & HA).
      + discriminate.
      + discriminate.
      + intros p n He _ Hac. apply sibling_ok; auto.
        * intros c Hc NE Hcc. destruct (HQ c (proj1 (proj2 Hc)) (Hne c) Hcc) as [K _]. apply K. left. intros ->. apply (rt_no_edge t r T p Hc).
        * intros c Hc NE mu. apply Hs'. apply Hc.
      + exists db, da. split; auto. split; auto. intros n Hn NE Hac. destruct (HA n Hn NE Hac) as (A & E1 & E2 & E3); [discriminate|].
        assert (Ex : exts X n = [csize X n]) by (destruct (rt_has_parent t r T n Hn NE) as (p & Hp); apply (child_exts X r O p n); auto).
        exists A. split; auto. rewrite Ex. split; auto.
  Qed.
End Public.
