(** parameter_gradient_eval_diag with matrices. *)
From Coq Require Import List Arith Lia Bool Sorted Ring Permutation.
From Verif.Base Require Import ListAux CRing Index.
From Verif.Model Require Import Utils Numpy FullTensor DimensionTree TreeBased TreeEval HsvdTree TreeGrad.
From Verif.Spec Require Import TensorSpec TreeSpec TreeTensorSpec GradSpec.
From Verif.Proofs Require Import NumpyP FullTensorP FunctionsP DimTreeP DimTreeP2 TreeTensorP TreeTensorP2 TreeTensorP3 TreeTensorP17 TreeTensorP18 TreeTensorP19 TreeGradP1 TreeGradP4 TreeGradP5 TreeGradP6 TreeGradP7.
Import ListNotations.

(** selection of the entries of ks along the children that satisfy g *)
Definition fsel (g : nat -> bool) (cs ks : list nat) : list nat := map snd (filter (fun p => g (fst p)) (combine cs ks)).
Lemma fsel_sel g : forall cs ks, length ks = length cs -> sel 0 ks (filter (fun j => g (nth j cs 0)) (seq 0 (length cs))) = fsel g cs ks.
Proof.
  induction cs as [|c cs IH]; intros [|k ks] L; cbn [length] in L; try lia; auto. unfold fsel. cbn [combine filter fst length].
  assert (Es : filter (fun j => g (nth j (c :: cs) 0)) (seq 1 (length cs)) = map S (filter (fun j => g (nth j cs 0)) (seq 0 (length cs)))).
  { rewrite <- seq_shift. generalize (seq 0 (length cs)). intros l. induction l as [|x l IHl]; auto. cbn [map filter nth]. destruct (g (nth x cs 0)); cbn [map]; [f_equal|]; auto. }
  assert (Ey : sel 0 (k :: ks) (map S (filter (fun j => g (nth j cs 0)) (seq 0 (length cs)))) = fsel g cs ks).
  { rewrite <- IH by lia. unfold sel. rewrite map_map. reflexivity. }
  cbn [seq filter]. rewrite Es. change (nth 0 (c :: cs) 0) with c. destruct (g c); cbn [map snd].
  - unfold sel in *. cbn [map nth]. f_equal. exact Ey.
  - exact Ey.
Qed.
Lemma fsel_length g : forall cs ks, length ks = length cs -> length (fsel g cs ks) = length (filter g cs).
Proof. induction cs as [|c cs IH]; intros [|k ks] L; cbn [length] in L; try lia; auto. unfold fsel in *. cbn [combine filter fst]. destruct (g c); cbn [map length]; rewrite IH by lia; auto. Qed.
Lemma fsel_valid g (h : nat -> nat) : forall cs ks, valid (map h cs) ks -> valid (map h (filter g cs)) (fsel g cs ks).
Proof.
  induction cs as [|c cs IH]; intros ks Hv; inversion Hv as [|k ? ks' ? Hk Hv']; subst; [apply Forall2_nil|]. unfold fsel in *. cbn [combine filter fst]. specialize (IH ks' Hv').
  destruct (g c); cbn [map snd]; [apply Forall2_cons; auto|auto].
Qed.
Lemma fsel_combine g : forall cs ks, length ks = length cs -> combine (filter g cs) (fsel g cs ks) = filter (fun p => g (fst p)) (combine cs ks).
Proof. induction cs as [|c cs IH]; intros [|k ks] L; cbn [length] in L; try lia; auto. unfold fsel in *. cbn [combine filter fst]. destruct (g c); cbn [map combine snd]; rewrite IH by lia; auto. Qed.
Lemma fsel_map g (h : nat -> nat) cs : fsel g cs (map h cs) = map h (filter g cs).
Proof. induction cs as [|c cs IH]; auto. unfold fsel in *. cbn [combine filter map fst]. destruct (g c); cbn [map snd]; rewrite IH; auto. Qed.

Section FS.
  Context {R : Type} {CR : CRing R}.
  Add Ring Rrtg9 : rth.
  Local Open Scope cr_scope.
  Lemma lprod_filter2 (g : nat -> bool) (l : list (nat * nat)) (u : nat * nat -> R) :
    lprod l u = lprod (filter (fun p => g (fst p)) l) u * lprod (filter (fun p => negb (g (fst p))) l) u.
  Proof. induction l as [|p l IH]; [cbn; ring|]. cbn [lprod filter]. rewrite IH. destruct (g (fst p)); cbn [negb lprod]; ring. Qed.
  Lemma lprod_fsel g cs ks (u : nat * nat -> R) : length ks = length cs ->
    lprod (combine cs ks) u = lprod (combine (filter g cs) (fsel g cs ks)) u * lprod (combine (filter (fun c => negb (g c)) cs) (fsel (fun c => negb (g c)) cs ks)) u.
  Proof. intros L. rewrite (lprod_filter2 g). rewrite !fsel_combine by auto. reflexivity. Qed.
  (** product of Kronecker symbols *)
  Lemma lprod_delta : forall L ks js (w : nat -> nat -> nat), length ks = length L -> length js = length L ->
    (forall m, (m < length L)%nat -> w (nth m L 0%nat) (nth m ks 0%nat) = nth m js 0%nat) ->
    lprod (combine L ks) (fun p => if (snd p =? w (fst p) (snd p))%nat then r1 else r0) = if list_eqb ks js then r1 else r0 :> R.
  Proof.
    induction L as [|c L IH]; intros [|k ks] [|j js] w L1 L2 Hw; cbn [length] in *; try lia; auto. cbn [combine lprod fst snd list_eqb].
    pose proof (Hw 0%nat ltac:(lia)) as W0. cbn [nth] in W0. rewrite W0. rewrite (IH ks js w) by (try lia; intros m Hm; apply (Hw (S m)); lia). destruct (Nat.eqb_spec k j); cbn [andb]; [|ring]. destruct (list_eqb ks js); ring.
  Qed.
End FS.

Section Grad.
  Context {R : Type} {CR : CRing R}.
  Add Ring Rrtg10 : rth.
  Local Open Scope cr_scope.
  Variables (X : tbt R) (r q a : nat).
  Hypothesis O : tb_ok X r.
  Hypothesis Hq : (0 < q)%nat.
  Local Notation t := (ttree X).
  Local Notation D := (tb_order X).
  Local Notation own := (own_dims X a).
  Hypothesis Ha : node t a.
  Hypothesis Hac : active X a = true.
  Hypothesis Hsz : forall mu, (mu < D)%nat -> ~ In mu own -> nth mu (tb_shape X) 0%nat = q.
  Hypothesis Hsib : siblings_above t a.

  (** the own dimensions are not below the nodes outside the path from the root to a *)
  Lemma own_leaf c : In c (own_leaves X a) -> is_leaf t c = true /\ node t c /\ (c = a \/ edge t a c /\ active X c = false).
  Proof.
    unfold own_leaves. destruct (is_leaf t a) eqn:El.
    - intros [<-|[]]. auto.
    - intros Hc. apply filter_In in Hc. destruct Hc as [Hc Hn]. apply negb_true_iff in Hn. apply (kids_edge X) in Hc; auto. split; [apply (child_inactive X r O a c Hc Hn)|]. split; [apply Hc|auto].
  Qed.
  Lemma own_off n mu : node t n -> active X n = true -> ~ below t n a -> In mu (dims t n) -> ~ In mu own.
  Proof.
    intros Hn Hna Hb Hmu Ho. pose proof (proj1 O) as V. pose proof (proj1 V) as T. unfold own_dims in Ho. apply in_map_iff in Ho. destruct Ho as (c & <- & Hc). destruct (own_leaf c Hc) as (Hl & Hcn & Hc').
    apply (in_dims t r V n _ Hn) in Hmu. destruct Hmu as [_ Hmu].
    assert (Ec : nth (index_of c (d2i t)) (d2i t) 0%nat = c) by (apply index_of_nth; apply inb_spec; exact Hl). rewrite Ec in Hmu.
    destruct Hc' as [->|[He Hci]]; [contradiction|]. destruct Hmu as [k Hk]. inversion Hk as [|p c' k' Hp He']; subst; [congruence|].
    assert (p = a). { rewrite <- (parent_edge t r T p c He'). apply (parent_edge t r T a c He). } subst p. apply Hb. exists k'. auto.
  Qed.

  (** the tensors computed for the gradient *)
  Lemma grad_parts : is_leaf t r = false -> (a = r -> (exists c, edge t r c /\ active X c = true) \/ (forall mu, (mu < D)%nat -> nth mu (tb_shape X) 0%nat = q)) ->
    exists db da A, tb_diag_below X (Some a) [] = Some db /\ tb_diag_above X db (Some a) = Some da /\ nth (a - 1) da None = Some A /\ nth 0 (shape A) 0%nat = q /\
      (a <> r -> is_ctx X r q a (Some A)) /\
      forall c, edge t a c -> active X c = true -> is_diag X q c (nth (c - 1) db None).
  Proof.
    intros Hlr Hroot. pose proof (proj1 O) as V. pose proof (proj1 V) as T. assert (Hr : node t r) by apply T.
    assert (Hexc : forall n, node t n -> (excluded X r (Some a) [] n <-> a <> r /\ below t n a)).
    { intros n Hn. split; [intros [[]|(a' & E & NE & _ & Hb)]; inversion E; subst; auto|]. intros [NE Hb]. right. exists a. auto. }
    assert (Hdim : forall n mu, node t n -> In mu (dims t n) -> (mu < D)%nat) by (intros n mu Hn Hmu; apply (in_dims t r V n mu Hn) in Hmu; apply Hmu).
    assert (Hnr : forall n, node t n -> n <> r -> ~ below t n r).
    { intros n Hn NE [k Hk]. inversion Hk as [|p c k' Hp He]; subst; [congruence|]. apply (rt_no_edge t r T p He). }
    destruct (diag_below_gen X r q O Hq (Some a) []) as (db & E & HL & HQ).
    - intros a' Ea. inversion Ea; subst. auto.
    - intros n [].
    - intros p c _ [].
    - intros n Hn Hna Hne NEr mu Hmu. apply Hsz; [eauto|]. apply (own_off n mu Hn Hna); auto. intros Hb. destruct (Nat.eq_dec a r) as [Ear|NE]; [rewrite Ear in Hb; apply (Hnr n Hn NEr Hb)|]. apply Hne. apply Hexc; auto.
    - intros Hne _. destruct (Nat.eq_dec a r) as [Ear|NE].
      + destruct (Hroot Ear) as [K|K]; [left; auto|right; intros mu Hmu; apply K; eauto].
      + exfalso. apply Hne. apply Hexc; auto. split; auto. apply (rt_below t r T a Ha).
    - rewrite Hlr. discriminate.
    - destruct (above_gen X r q O Hq (Some a) db) as (da & Ea & La & Hda & HA).
      + intros a' E'. inversion E'; subst. auto.
      + intros E'. inversion E' as [Ear]. destruct (HQ r Hr) as [_ (B & EB & _)]; [rewrite (Hexc r Hr); tauto|apply (proj1 (proj2 (proj2 O)))|]. eauto.
      + intros p n He Hb Hna. specialize (Hb a eq_refl). apply (sibling_ok X r q O); auto.
        * intros c Hc NE Hcc. assert (Hcb : ~ below t c a) by (intros K; apply NE; apply (siblings_disjoint t r T p c n a Hc He K Hb)).
          assert (Hcx : ~ excluded X r (Some a) [] c) by (rewrite (Hexc c (proj1 (proj2 Hc))); tauto).
          destruct (HQ c (proj1 (proj2 Hc)) Hcx Hcc) as [K _]. apply K. left. intros ->. apply (rt_no_edge t r T p Hc).
        * intros c Hc NE mu Hmu. assert (Hcb : ~ below t c a) by (intros K; apply NE; apply (siblings_disjoint t r T p c n a Hc He K Hb)).
          apply Hsz; [apply (Hdim c mu (proj1 (proj2 Hc)) Hmu)|]. destruct (active X c) eqn:Ecc; [apply (own_off c mu (proj1 (proj2 Hc)) Ecc Hcb Hmu)|].
          intros Ho. assert (Hlc : is_leaf t c = true) by (apply (child_inactive X r O p c Hc Ecc)). unfold own_dims in Ho. apply in_map_iff in Ho. destruct Ho as (c' & Ec' & Hc'). destruct (own_leaf c' Hc') as (Hl' & Hcn' & Hc'').
          rewrite (dims_leaf t r V c Hlc) in Hmu. destruct Hmu as [Hmu|[]].
          assert (Ecc' : c = c').
          { rewrite <- (proj2 (index_of_nth (d2i t) c ltac:(apply inb_spec; exact Hlc))). rewrite Hmu, <- Ec'. apply index_of_nth. apply inb_spec. exact Hl'. }
          subst c'. destruct Hc'' as [->|[He' _]]; [apply Hcb; apply below_refl|].
          assert (p = a) by (rewrite <- (parent_edge t r T p c Hc); apply (parent_edge t r T a c He')). subst p. apply (edge_not_below X r q O Hq a n He Hb).
      + assert (Hroot' : a = r -> exists B, nth (r - 1) db None = Some B /\ nth 0 (shape B) 0%nat = q).
        { intros Ear. destruct (HQ r Hr) as [_ K]; [rewrite (Hexc r Hr); tauto|apply (proj1 (proj2 (proj2 O)))|]. auto. }
        assert (Hch : forall c, edge t a c -> active X c = true -> is_diag X q c (nth (c - 1) db None)).
        { intros c Hc Hcc. destruct (HQ c (proj1 (proj2 Hc))) as [K _]; auto.
          - rewrite (Hexc c (proj1 (proj2 Hc))). intros [_ K]. apply (edge_not_below X r q O Hq a c Hc K).
          - apply K. left. intros ->. apply (rt_no_edge t r T a Hc). }
        destruct (Nat.eq_dec a r) as [Ear|NE].
        * destruct (Hroot' Ear) as (B & EB & SB). exists db, da, (ND (shape B) (fun _ => r1)). split; auto. split; auto. split; [rewrite Ear; apply Hda; [rewrite Ear|]; auto|]. split; auto. split; auto. intros; contradiction.
        * destruct (HA a Ha NE Hac) as (A & EA & SA & GA); [intros a' E'; inversion E'; apply below_refl|]. exists db, da, A. split; auto. split; auto. split; auto. split; [rewrite SA; auto|]. split; auto.
          intros _. exists A. auto.
  Qed.
End Grad.
