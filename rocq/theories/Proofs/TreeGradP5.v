(** eval_diag_above: one step of the loop. *)
From Coq Require Import List Arith Lia Bool Sorted Ring Permutation.
From Verif.Base Require Import ListAux CRing Index.
From Verif.Model Require Import Utils Numpy FullTensor DimensionTree TreeBased TreeEval TreeGrad.
From Verif.Spec Require Import TensorSpec TreeSpec TreeTensorSpec.
From Verif.Proofs Require Import NumpyP FullTensorP FullTensorP3 FullTensorP4 FunctionsP DimTreeP TreeTensorP TreeTensorP2 TreeTensorP3 TreeTensorP7 EinsumP EinsumP2 TreeTensorP17 TreeTensorP18 TreeTensorP19 TreeGradP1 TreeGradP2 TreeGradP3 TreeGradP4.
Import ListNotations.

Section Pick.
  Context {R : Type} {CR : CRing R}.
  Add Ring Rrtg6 : rth.
  Local Open Scope cr_scope.
  Lemma lprod_pick' n (u : nat -> nat -> R) : forall cs ms, NoDup cs -> In n cs -> length ms = length cs ->
    lprod (combine cs ms) (fun p => u (fst p) (snd p)) =
    u n (nth (index_of n cs) ms 0%nat) * lprod (combine cs ms) (fun p => if (fst p =? n)%nat then r1 else u (fst p) (snd p)).
  Proof.
    induction cs as [|c cs IH]; intros [|m ms] ND Hi L; cbn [length] in L; try lia; [destruct Hi|]. inversion ND as [|? ? Hn ND']; subst. cbn [combine lprod fst snd index_of].
    destruct (Nat.eqb_spec c n) as [->|NE].
    - cbn [nth]. rewrite (lprod_ext (combine cs ms) (fun p => if (fst p =? n)%nat then r1 else u (fst p) (snd p)) (fun p => u (fst p) (snd p))); [ring|].
      intros [c' m'] Hp. apply in_combine_l in Hp. cbn [fst snd]. destruct (Nat.eqb_spec c' n) as [->|]; [contradiction|auto].
    - destruct Hi as [->|Hi]; [congruence|]. cbn [nth]. rewrite IH by (auto; lia). ring.
  Qed.
  Definition vset (v : nat -> R) (u : nat -> nat -> R) (n : nat) : nat -> nat -> R := fun c y => if (c =? n)%nat then v y else u c y.
  Definition dl (x : nat) : nat -> R := fun y => if (y =? x)%nat then r1 else r0.
  (** a contraction is linear in the vector of each child *)
  Lemma kval_lin cs h (C : nd R) (u : nat -> nat -> R) n i e : NoDup cs -> In n cs ->
    kval cs h C (fun c _ y => u c y) i e = rsum (h n) (fun x => u n x * kval cs h C (fun c _ y => vset (dl x) u n c y) i e).
  Proof.
    intros ND Hn. unfold kval.
    transitivity (rsum (h n) (fun x => bsum (map h cs) (fun ms => u n x * (get C (ms ++ e) * lprod (combine cs ms) (fun p => vset (dl x) u n (fst p) (snd p)))))); [|apply rsum_ext; intros x Hx; apply bsum_scal_l].
    rewrite <- bsum_rsum_exchange. apply bsum_ext. intros ms Hms.
    assert (Lm : length ms = length cs) by (rewrite (valid_length _ _ Hms), map_length; auto).
    set (y := nth (index_of n cs) ms 0%nat). destruct (index_of_nth cs n Hn) as [J1 J2].
    assert (Hy : (y < h n)%nat). { unfold y. pose proof (valid_nth _ _ (index_of n cs) Hms) as K. rewrite map_length in K. specialize (K J1). rewrite map_nth_in with (da := 0%nat) in K by auto. rewrite J2 in K. auto. }
    rewrite (rsum_single _ y); auto.
    - rewrite (lprod_pick' n u cs ms ND Hn Lm). fold y. rewrite (lprod_pick' n (vset (dl y) u n) cs ms ND Hn Lm). fold y. unfold vset at 1. rewrite Nat.eqb_refl. unfold dl at 1. rewrite Nat.eqb_refl.
      rewrite (lprod_ext (combine cs ms) (fun p => if (fst p =? n)%nat then r1 else vset (dl y) u n (fst p) (snd p)) (fun p => if (fst p =? n)%nat then r1 else u (fst p) (snd p))); [ring|].
      intros [c m] _. cbn [fst snd]. unfold vset. destruct (c =? n)%nat; auto.
    - intros x Hx Hne. rewrite (lprod_pick' n (vset (dl x) u n) cs ms ND Hn Lm). fold y. unfold vset at 1. rewrite Nat.eqb_refl. unfold dl at 1. destruct (Nat.eqb_spec y x); [congruence|]. ring.
  Qed.

  (** the product with the tensor of the parent *)
  Lemma ted_up (P T : nd R) q m x E : shape P = q :: m :: E -> shape T = [q; x; m] -> (length E <= 1)%nat ->
    exists U, (let* U := ft_tensordot_eval_diag P T [1%nat] [2%nat] [0%nat] [0%nat] false in
               if (ndim U =? 3)%nat then ft_transpose U [0%nat; 2%nat; 1%nat] else Some U) = Some U /\
      shape U = q :: x :: E /\
      forall i k e, (i < q)%nat -> (k < x)%nat -> valid E e -> get U (i :: k :: e) = rsum m (fun j => get P (i :: j :: e) * get T [i; k; j]).
  Proof.
    intros HP HT LE. assert (nP : ndim P = (2 + length E)%nat) by (unfold ndim; rewrite HP; auto). assert (nT : ndim T = 3%nat) by (unfold ndim; rewrite HT; auto).
    destruct (ted_spec P T [1%nat] [2%nat] [] [0%nat] 0%nat) as (C & HC & Hs & Hg); try rewrite nP; try rewrite nT; auto.
    - repeat constructor.
    - constructor; [intros []|constructor].
    - constructor; [cbn; lia|constructor; [cbn; lia|constructor]].
    - constructor; [cbn; lia|constructor; [cbn; lia|constructor]].
    - constructor; [intros []|constructor].
    - constructor; [intros []|constructor].
    - intros k [<-|[]] [K|[]]. lia.
    - intros k [<-|[]] [K|[]]. lia.
    - rewrite HP, HT. reflexivity.
    - intros k [].
    - intros k [<-|[]]. rewrite HP, HT. auto.
    - rewrite HC. cbn [bind]. destruct E as [|y [|z E]]; [| |cbn [length] in LE; lia].
      + assert (F1 : ted_free1 P [1%nat] [] = [0%nat]) by (unfold ted_free1; rewrite nP; reflexivity).
        assert (F2 : ted_free2 T [2%nat] [0%nat] = [1%nat]) by (unfold ted_free2; rewrite nT; reflexivity).
        rewrite F1, F2, HP, HT in Hs. cbn [sel map nth app] in Hs. assert (nC : ndim C = 2%nat) by (unfold ndim; rewrite Hs; auto). rewrite nC. cbn [Nat.eqb]. exists C. split; auto. split; auto.
        intros i k e Hi Hk He. inversion He; subst. rewrite Hg. rewrite HP. cbn [sel map nth bsum]. apply rsum_ext. intros j Hj. unfold ted_ixA, ted_ixB. rewrite F1, F2, nP, nT. reflexivity.
      + assert (F1 : ted_free1 P [1%nat] [] = [0%nat; 2%nat]) by (unfold ted_free1; rewrite nP; reflexivity).
        assert (F2 : ted_free2 T [2%nat] [0%nat] = [1%nat]) by (unfold ted_free2; rewrite nT; reflexivity).
        rewrite F1, F2, HP, HT in Hs. cbn [sel map nth app] in Hs. assert (nC : ndim C = 3%nat) by (unfold ndim; rewrite Hs; auto). rewrite nC. cbn [Nat.eqb].
        destruct (ft_transpose_spec C [0%nat; 2%nat; 1%nat]) as (U & EU & SU & GU & _).
        { rewrite nC. unfold is_perm. cbn [seq]. constructor. apply perm_swap. }
        exists U. split; auto. rewrite Hs in SU. split; auto. intros i k e Hi Hk He. inversion He as [|e0 ? e' ? He0 He']; subst. inversion He'; subst.
        change (i :: k :: [e0]) with (sel 0%nat [i; e0; k] [0%nat; 2%nat; 1%nat]). rewrite GU by (rewrite Hs; apply Forall2_cons; [auto|apply Forall2_cons; [auto|apply Forall2_cons; [auto|apply Forall2_nil]]]).
        rewrite Hg. rewrite HP. cbn [sel map nth bsum]. apply rsum_ext. intros j Hj. unfold ted_ixA, ted_ixB. rewrite F1, F2, nP, nT. reflexivity.
  Qed.
End Pick.

Section Above.
  Context {R : Type} {CR : CRing R}.
  Add Ring Rrtg7 : rth.
  Local Open Scope cr_scope.
  Variables (X : tbt R) (r q : nat).
  Hypothesis O : tb_ok X r.
  Hypothesis Hq : (0 < q)%nat.
  Local Notation t := (ttree X).
  Local Notation D := (tb_order X).

  (** Y differs from X only in the sub-tree of n *)
  Definition same_off (Y : tbt R) (n : nat) : Prop := tb_ok Y r /\ ttree Y = t /\ forall m, node t m -> ~ below t n m -> core Y m = core X m.
  Definition is_ctx (n : nat) (a : option (nd R)) : Prop :=
    exists A, a = Some A /\ shape A = q :: csize X n :: exts X r /\
      forall Y i is e, same_off Y n -> (i < q)%nat -> (forall mu, (mu < D)%nat -> ~ In mu (dims t n) -> nth mu is 0%nat = i) -> valid (exts X r) e ->
        tval Y r is e = rsum (csize X n) (fun k => tval Y n is [k] * get A (i :: k :: e)).

  Lemma edge_not_below p n : edge t p n -> ~ below t n p.
  Proof.
    intros He K. pose proof (level_edge t r (proj1 (proj1 O)) p n He) as L. pose proof (level_below t r (proj1 (proj1 O)) n p) as L2.
    destruct K as [k K]. specialize (L2 k (proj1 (proj2 He)) K). lia.
  Qed.

  Variable db : list (option (nd R)).
  Variables (p n : nat).
  Hypothesis He : edge t p n.
  Hypothesis Hdb : forall c, edge t p c -> c <> n -> active X c = true -> is_diag X q c (nth (c - 1) db None).
  Hypothesis Hsz : forall c, edge t p c -> c <> n -> active X c = false -> csize X c = q.
  Hypothesis Hsib : exists c, edge t p c /\ c <> n.
  Let cs := children t p.
  Let ch := filter (fun c => negb (c =? n)%nat) cs.
  Let L := act_of X ch.
  Let M := inact_of X ch.

  Lemma p_internal : is_leaf t p = false.
  Proof.
    destruct (is_leaf t p) eqn:E; auto. exfalso. apply (leaf_iff t r (proj1 O) p) in E. destruct E as [_ E]. apply (E n). apply He.
  Qed.

  (** lines 2181-2219 *)
  Definition local_up : option (nd R) :=
    match L with
    | _ :: _ => let* tmp := diag_acc db L in
                match M with
                | _ :: _ => ft_tensordot_eval_diag tmp (core X p) (seq 1 (ndim tmp - 1)) (map (chpos t) L) [0%nat] (map (chpos t) M) false
                | [] => ft_tensordot tmp (core X p) (seq 1 (ndim tmp - 1)) (map (chpos t) L)
                end
    | [] => diag_front (core X p) (map (chpos t) M)
    end.

  Lemma local_ok : exists T, local_up = Some T /\ shape T = q :: csize X n :: exts X p /\
    forall i is x e, (i < q)%nat -> (forall mu, (mu < D)%nat -> ~ In mu (dims t n) -> nth mu is 0%nat = i) -> (x < csize X n)%nat -> valid (exts X p) e ->
      get T (i :: x :: e) = kval cs (csize X) (core X p) (fun c _ y => vset (dl x) (fun c y => tval X c is [y]) n c y) 0 e.
  Proof.
    pose proof (proj1 O) as V. pose proof (proj1 V) as T0. pose proof p_internal as Hl. assert (Hp : node t p) by apply He.
    pose proof (core_kids X r O p Hp Hl) as HC. fold cs in HC. assert (NDc : NoDup cs) by apply NoDup_children.
    assert (Hncs : In n cs) by (apply in_children; auto; apply He).
    assert (Eed : forall c, In c cs -> edge t p c) by (intros c Hc; apply (kids_edge X); auto).
    assert (Hch : forall c, In c ch <-> In c cs /\ c <> n) by (intros c; unfold ch; rewrite filter_In, negb_true_iff, Nat.eqb_neq; tauto).
    assert (HLin : forall c, In c L <-> In c cs /\ c <> n /\ active X c = true) by (intros c; unfold L, act_of; rewrite filter_In, Hch; tauto).
    assert (HMin : forall c, In c M <-> In c cs /\ c <> n /\ active X c = false) by (intros c; unfold M, inact_of; rewrite filter_In, Hch, negb_true_iff; tauto).
    assert (IL : incl L cs) by (intros c Hc; apply HLin in Hc; apply Hc). assert (IM : incl M cs) by (intros c Hc; apply HMin in Hc; apply Hc).
    assert (NL : NoDup L) by (apply NoDup_filter, NoDup_filter; auto). assert (NM : NoDup M) by (apply NoDup_filter, NoDup_filter; auto).
    assert (Zn : forall g, (forall c, In c cs -> g c = (c =? n)%nat) -> filter g cs = [n]).
    { intros g Hg. rewrite (filter_ext_in g (fun c => (c =? n)%nat)) by auto. clear - NDc Hncs. induction cs as [|c l IH]; [destruct Hncs|]. inversion NDc as [|? ? Hni ND']; subst. cbn [filter]. destruct (Nat.eqb_spec c n) as [->|NE].
      - f_equal. apply filter_none. intros x Hx. apply Nat.eqb_neq. intros ->. auto.
      - destruct Hncs as [->|Hi]; [congruence|]. auto. }
    assert (HMq : forall c, In c M -> csize X c = q) by (intros c Hc; apply HMin in Hc; apply Hsz; try apply Hc; apply Eed; apply Hc).
    assert (Hdis : forall c mu, In c cs -> c <> n -> In mu (dims t c) -> (mu < D)%nat /\ ~ In mu (dims t n)).
    { intros c mu Hc NE Hmu. assert (Hnc : node t c) by (apply (Eed c Hc)). pose proof (proj1 (in_dims t r V c mu Hnc) Hmu) as [K1 K2]. split; [apply K1|].
      intros K. pose proof (proj1 (in_dims t r V n mu (proj1 (proj2 He))) K) as [_ K3]. apply NE. apply (siblings_disjoint t r T0 p c n _ (Eed c Hc) He K2 K3). }
    assert (EpL : map (chpos t) L = map (fun c => index_of c cs) L) by (apply (chpos_index X r O p); auto).
    assert (EpM : map (chpos t) M = map (fun c => index_of c cs) M) by (apply (chpos_index X r O p); auto).
    assert (Gg : forall Lx i is x e, (Lx = L \/ (Lx = [] /\ L = [])) -> (i < q)%nat -> (forall mu, (mu < D)%nat -> ~ In mu (dims t n) -> nth mu is 0%nat = i) -> (x < csize X n)%nat -> valid (exts X p) e ->
      kval cs (csize X) (core X p) (fun c _ y => vset (dl x) (fun c y => tval X c is [y]) n c y) 0 e
      = bsum (map (csize X) L) (fun ks => lprod (combine L ks) (fun p => tval X (fst p) is [snd p]) * get (core X p) (map (ixf L ks (gof M [n] i [x])) cs ++ e))).
    { intros _ i is x e _ Hi Hm Hx Hv.
      rewrite (kval_delta cs (csize X) (core X p) (exts X p) (fun c (_ : nat) y => vset (dl x) (fun c y => tval X c is [y]) n c y) NDc HC 0 e L (gof M [n] i [x])); auto.
      - apply bsum_ext. intros ks _. f_equal. apply lprod_ext. intros [c y] Hc. cbn [fst snd]. apply in_combine_l in Hc. apply HLin in Hc. unfold vset. destruct (Nat.eqb_spec c n); [tauto|auto].
      - apply (valid_length _ _ Hv).
      - intros c Hc. apply filter_In in Hc. destruct Hc as [Hc1 Hc2]. apply negb_true_iff, inb_false in Hc2. unfold gof. destruct (Nat.eq_dec c n) as [->|NE].
        + rewrite (proj2 (inb_false n M)) by (rewrite HMin; tauto). cbn [index_of]. rewrite Nat.eqb_refl. cbn [nth]. split; auto. intros y. unfold vset. rewrite Nat.eqb_refl. reflexivity.
        + assert (Ha : active X c = false) by (destruct (active X c) eqn:Ea; auto; exfalso; apply Hc2, HLin; auto). assert (HcM : In c M) by (apply HMin; auto).
          rewrite (proj2 (inb_spec c M) HcM). rewrite (HMq c HcM). split; auto. intros y. unfold vset. destruct (Nat.eqb_spec c n); [contradiction|].
          apply (inactive_val X r O c is i y); auto; [apply (child_inactive X r O p); auto|]. intros mu Hmu. destruct (Hdis c mu Hc1 NE Hmu) as [K1 K2]. auto. }
    unfold local_up. destruct L as [|a0 L'] eqn:EL.
    - assert (Zc : filter (fun c => negb (inb c M)) cs = [n]).
      { apply Zn. intros c Hc. destruct (Nat.eqb_spec c n) as [->|NE]; [apply negb_true_iff, inb_false; rewrite HMin; tauto|]. apply negb_false_iff, inb_spec, HMin. split; auto. split; auto. destruct (active X c) eqn:Ea; auto. exfalso. apply (proj2 (HLin c)); auto. }
      assert (EMf : M = filter (fun c => negb (c =? n)%nat && negb (active X c)) cs).
      { unfold M, inact_of, ch. clear. induction cs as [|c l IH]; auto. cbn [filter]. destruct (negb (c =? n)%nat); cbn [filter andb]; [destruct (negb (active X c)); [f_equal|]; auto|auto]. }
      destruct (front_ok cs (csize X) (core X p) (exts X p) q NDc HC Hq (fun c => negb (c =? n)%nat && negb (active X c))) as (A & EA & SA & GA).
      { intros c Hc. apply HMq. rewrite EMf. auto. }
      { rewrite <- EMf. destruct Hsib as (c & Hc & NE). assert (K : In c M); [|intros K'; rewrite K' in K; destruct K]. assert (Hcc : In c cs) by (apply in_children; auto).
        apply HMin. split; auto. split; auto. destruct (active X c) eqn:Ea; auto. exfalso. apply (proj2 (HLin c)); auto. }
      rewrite <- EMf in EA, SA, GA. rewrite EpM, EA. exists A. split; auto. rewrite Zc in SA, GA. cbn [map app] in SA. split; auto.
      intros i is x e Hi Hm Hx Hv. rewrite (Gg [] i is x e) by auto. cbn [map bsum combine lprod].
      pose proof (GA i [x] e Hi) as G0. cbn [map app] in G0. rewrite G0; [|apply Forall2_cons; [auto|apply Forall2_nil]|auto].
      replace (map (ixf [] [] (gof M [n] i [x])) cs) with (map (gof M [n] i [x]) cs) by (apply map_ext; intros c; reflexivity). ring.
    - rewrite <- EL in *. assert (NEL : L <> []) by (rewrite EL; discriminate).
      destruct (diag_acc_ok X r q O db L p) as (tmp & Et & St & Gt); auto.
      { intros c Hc. apply HLin in Hc. destruct Hc as (H1 & H2 & H3). split; auto. }
      rewrite Et. cbn [bind].
      assert (Gt' : forall i is ks, (i < q)%nat -> valid (map (csize X) L) ks -> (forall mu, (mu < D)%nat -> ~ In mu (dims t n) -> nth mu is 0%nat = i) -> get tmp (i :: ks) = lprod (combine L ks) (fun p => tval X (fst p) is [snd p])).
      { intros i is ks Hi Hk Hm. apply Gt; auto. intros c mu Hc Hmu. apply HLin in Hc. destruct (Hdis c mu) as [K1 K2]; auto; apply Hc. }
      destruct M as [|b0 M'] eqn:EM.
      + assert (Zc : filter (fun c => negb (inb c L)) cs = [n]).
        { apply Zn. intros c Hc. destruct (Nat.eqb_spec c n) as [->|NE]; [apply negb_true_iff, inb_false; rewrite HLin; tauto|]. apply negb_false_iff, inb_spec, HLin. split; auto. split; auto. destruct (active X c) eqn:Ea; auto. exfalso. apply (proj2 (HMin c)); auto. }
        destruct (td_pos cs (csize X) (core X p) (exts X p) q (fun c i x => tval X c (repeat i D) [x]) NDc HC L tmp NL IL St) as (A & EA & SA & GA).
        { intros i ks Hi Hk. apply Gt'; auto. intros mu Hmu _. apply nth_rep. auto. }
        rewrite Zc in SA, GA. rewrite EpL, EA. exists A. split; auto. cbn [map app] in SA. split; auto.
        intros i is x e Hi Hm Hx Hv. rewrite (Gg L i is x e) by auto.
        pose proof (GA i [x] e Hi) as G0. cbn [map app] in G0. rewrite G0; [|apply Forall2_cons; [auto|apply Forall2_nil]|auto].
        apply bsum_ext. intros ks Hks. rewrite <- (Gt' i is ks) by auto. rewrite <- (Gt' i (repeat i D) ks); auto; [|intros mu Hmu _; apply nth_rep; auto]. f_equal. f_equal.
        pose proof (asm_fun cs (csize X) (core X p) (exts X p) NDc HC L ks (gof [] [n] i [x]) e NL IL (valid_length _ _ Hv)) as Q1. cbv beta in Q1. rewrite Zc in Q1. cbn [map] in Q1.
        rewrite <- Q1. unfold gof. cbn [inb existsb index_of]. rewrite Nat.eqb_refl. reflexivity.
      + rewrite <- EM in *. assert (Zc : filter (fun c => negb (inb c (L ++ M))) cs = [n]).
        { apply Zn. intros c Hc. destruct (Nat.eqb_spec c n) as [->|NE]; [apply negb_true_iff, inb_false; rewrite in_app_iff, HLin, HMin; tauto|]. apply negb_false_iff, inb_spec, in_or_app. rewrite HLin, HMin. destruct (active X c); tauto. }
        destruct (ted_kids cs (csize X) (core X p) (exts X p) q NDc HC L M tmp) as (A & EA & SA & GA); auto.
        { intros c H1 H2. apply HLin in H1. apply HMin in H2. destruct H1 as (_ & _ & H1), H2 as (_ & _ & H2). congruence. }
        rewrite Zc in SA, GA. rewrite EpL, EpM, EA. exists A. split; auto. cbn [map app] in SA. split; auto.
        intros i is x e Hi Hm Hx Hv. rewrite (Gg L i is x e) by auto. pose proof (GA i [x] e) as G0. cbn [app] in G0. rewrite G0; [|auto|apply (valid_length _ _ Hv)].
        apply bsum_ext. intros ks Hks. rewrite (Gt' i is ks) by auto. reflexivity.
  Qed.
End Above.
