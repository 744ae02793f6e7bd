(** Decision procedures for the examples about ranks. *)
From Coq Require Import List Arith Lia Bool Permutation Reals.
From Verif.Base Require Import ListAux CRing Index RealAux.
From Verif.Model Require Import Numpy FullTensor DimensionTree TreeBased RankAdapt.
From Verif.Spec Require Import TensorSpec TreeSpec TreeTensorSpec RankSpec.
From Verif.Proofs Require Import NumpyP DimTreeP TreeTensorP RankP1 RankP2 RankP3.
Import ListNotations.
Section RankP6.
  Context {K : Type} {CR : CRing K}.
  Definition admb (X : tbt K) (r : nat) (v : list nat) : bool :=
    let t := ttree X in
    forallb (fun n => (active X n || (rk v n =? 0)) && (negb (active X n) || negb (is_leaf t n) || (axis_size X r v n <=? leaf_size X n)) &&
                      (is_leaf t n || (axis_size X r v n <=? prodn (map (axis_size X r v) (children t n)))) &&
                      forallb (fun c => negb (active X c) || (axis_size X r v c <=? axis_size X r v n * prodn (map (axis_size X r v) (filter (fun c' => negb (c' =? c)) (children t n))))) (children t n)) (nodes t).
  Lemma admb_ok X r v : admb X r v = true <-> admissible X r v.
  Proof.
    unfold admb. rewrite forallb_forall. split.
    - intros H. assert (G : forall n, node (ttree X) n -> _) by (intros n Hn; apply (H n); apply in_nodes; exact Hn). cbv beta in G. clear H.
      repeat split; intros n.
      + intros Hn Ha. specialize (G n Hn). rewrite !andb_true_iff in G. destruct G as [[[G _] _] _]. rewrite Ha in G. apply Nat.eqb_eq. auto.
      + intros Hn Ha Hl. specialize (G n Hn). rewrite !andb_true_iff in G. destruct G as [[[_ G] _] _]. rewrite Ha, Hl in G. apply Nat.leb_le. auto.
      + intros Hn Hl. specialize (G n Hn). rewrite !andb_true_iff in G. destruct G as [[_ G] _]. rewrite Hl in G. apply Nat.leb_le. auto.
      + intros c He Ha. assert (Hn : node (ttree X) n) by apply He. specialize (G n Hn). rewrite !andb_true_iff in G. destruct G as [_ G]. rewrite forallb_forall in G. specialize (G c (proj2 (in_children (ttree X) n c Hn) He)). rewrite Ha in G. apply Nat.leb_le. auto.
    - intros (A1 & A2 & A3 & A4) n Hn. apply in_nodes in Hn. rewrite !andb_true_iff. repeat split.
      + destruct (active X n) eqn:Ha; auto. rewrite (A1 n Hn Ha). auto.
      + destruct (active X n) eqn:Ha; auto. destruct (is_leaf (ttree X) n) eqn:Hl; auto. apply Nat.leb_le. auto.
      + destruct (is_leaf (ttree X) n) eqn:Hl; auto. apply Nat.leb_le. auto.
      + rewrite forallb_forall. intros c Hc. apply (proj1 (in_children (ttree X) n c Hn)) in Hc. destruct (active X c) eqn:Ha; auto. apply Nat.leb_le. auto.
  Qed.
  (** all the nodes are active *)
  Lemma sorted_all_active X : forallb (active X) (nodes (ttree X)) = true -> inactive_sorted X.
  Proof. intros H. right. intros n m Hn _ Ha _. rewrite forallb_forall in H. rewrite (H n) in Ha; [discriminate|]. apply in_nodes. auto. Qed.
End RankP6.
(** the make_ranks_admissible of a tensor whose cores have full rank *)
Lemma make_ranks_full (X : tbt R) r rank sh : tb_ok X r -> exts X r = [] \/ exts X r = [1] -> inactive_sorted X -> (forall i l, Permutation (sh i l) l) -> full_rank_cores X r ->
  exists v d, make_ranks X sh rank = Some (v, d) /\ length v = nbn (ttree X) /\ between X rank v /\ admissible X r v /\
    d = filter (fun n => negb (rk v n =? tb_rank X n)) (nodes (ttree X)) /\ forall w, between X rank w -> admissible X r w -> refused X rank v <= refused X rank w.
Proof.
  intros O HX HS HSH FR. destruct (make_ranks_spec X r rank sh O HX HS HSH) as (v & d & E & L & H1 & _). exists v, d. split; auto. split; auto. apply H1.
  exists (tb_ranks X). split; [|apply ranks_admissible; auto]. split; [apply ranks_len|]. intros n Hn. left. apply ranks_nth; auto.
Qed.
