(** C35: penalised model selection and the slope heuristic (tensap.ModelSelection). *)
From Coq Require Import List Arith Lia Reals Lra Bool.
From Verif.Base Require Import ListAux.
From Verif.Model Require Import DensityL2 ModelSelection.
From Verif.Spec Require Import ModelSelectionSpec.
From Verif.Proofs Require Import ModelSelectionP.
Import ListNotations.
Local Open Scope R_scope.

(** C35: m_lambda(l) is a minimiser of the penalised risk, for every l *)
Theorem c35_m_lambda : forall risk pen l0, length pen = length risk -> (0 < length risk)%nat -> optimal risk pen l0 (m_lambda risk pen l0).
Proof. intros. apply m_lambda_optimal; auto. Qed.
Print Assumptions c35_m_lambda.

(** C35: lambda_path terminates for every list of models *)
Theorem c35_lambda_path_terminates : forall risk pen, length pen = length risk -> (0 < length risk)%nat -> exists r, lambda_path risk pen = Some r.
Proof. exact lambda_path_total. Qed.
Print Assumptions c35_lambda_path_terminates.

(** C35: for models in general position the computed path is the exact description of the selected model as a function of lambda
    (and there is no breakpoint only if one model is always selected).  Partial: without the general position hypothesis it is false, see below *)
Theorem c35_lambda_path_partial : forall risk pen r, length pen = length risk -> generic risk pen -> (0 < length risk)%nat -> lambda_path risk pen = Some r ->
  match r with
  | LScalar => exists i, forall lam, 0 <= lam -> optimal risk pen lam i
  | LPath path m => describes risk pen path m
  end.
Proof.
  intros risk pen r Hl Hg Hn H. assert (HC := lambda_path_correct risk pen Hl Hg r Hn H). destruct r; auto. exists (rargmin risk). exact HC.
Qed.
Print Assumptions c35_lambda_path_partial.

(** C35: the slope heuristic picks gap_factor times the breakpoint with the largest complexity jump, and a minimiser of the risk penalised with it *)
Theorem c35_slope_heuristic_partial : forall gap risk comp pen path m, generic risk pen -> length pen = length risk -> (0 < length risk)%nat -> length comp = length risk ->
  (exists i, (S i < length risk)%nat /\ nth (S i) comp 0 <> nth i comp 0) -> lambda_path risk pen = Some (LPath path m) ->
  exists lh mh i, slope_heuristic gap risk comp pen = Some (lh, mh) /\ (1 <= i)%nat /\ (S i < length path)%nat /\ lh = gap * nth i path 0 /\
    (forall j, (1 <= j)%nat -> (S j < length path)%nat ->
       nth (nth (j - 1) m 0%nat) comp 0 - nth (nth j m 0%nat) comp 0 <= nth (nth (i - 1) m 0%nat) comp 0 - nth (nth i m 0%nat) comp 0) /\
    optimal risk pen lh mh.
Proof. intros gap risk comp pen path m Hg Hl Hn Hc Hne E. exact (slope_correct risk pen Hl Hg gap comp Hn Hc Hne path m E). Qed.
Print Assumptions c35_slope_heuristic_partial.

(** evaluation of the model on literals *)
Ltac rdec := repeat (match goal with
  | |- context [Rlt_dec ?a ?b] => first [destruct (Rlt_dec a b) as [_|?]; [|exfalso; lra] | destruct (Rlt_dec a b) as [?|_]; [exfalso; lra|]]
  | |- context [Rle_dec ?a ?b] => first [destruct (Rle_dec a b) as [_|?]; [|exfalso; lra] | destruct (Rle_dec a b) as [?|_]; [exfalso; lra|]]
  | |- context [Req_EM_T ?a ?b] => first [destruct (Req_EM_T a b) as [_|?]; [|exfalso; lra] | destruct (Req_EM_T a b) as [?|_]; [exfalso; lra|]]
  end; cbn).

(** a generic family with two breakpoints *)
Example c35_generic_ex : generic [0; 2; 6] [5; 1; 0].
Proof.
  split.
  - intros [|[|[|i]]] [|[|[|j]]]; cbn; intros; try lia; try lra.
  - intros lam [|[|[|i]]] [|[|[|j]]] [|[|[|k]]]; unfold prisk; cbn; intros; try lia; exfalso; lra.
Qed.
Example c35_path_ex : lambda_path [0; 2; 6] [5; 1; 0] = Some (LPath [1/4; 1/2; 4; 8] [0; 1; 2; 2]%nat).
Proof.
  unfold lambda_path, lambda_step, rargmin. cbn. unfold lambda_entry. cbn. rdec. repeat (f_equal; try lra).
Qed.
(** the heuristic applied to it, with gap factor 2: the largest complexity jump is 5 - 1 at lambda = 1/2 *)
Example c35_slope_ex : slope_heuristic 2 [0; 2; 6] [5; 1; 0] [5; 1; 0] = Some (1, 1%nat).
Proof.
  unfold slope_heuristic. cbn. rdec. rewrite c35_path_ex. unfold m_lambda, rargmin. cbn. rdec. repeat (f_equal; try lra).
Qed.

(** without general position the path is wrong: at lambda = 1 three models tie, and the path goes on with the wrong one,
    so that model 2, the only minimiser for lambda > 1, is never reported *)
Theorem c35_ties_refuted : exists risk pen path m, lambda_path risk pen = Some (LPath path m) /\ length pen = length risk /\
  (forall i j, (i < length risk)%nat -> (j < length risk)%nat -> i <> j -> nth i risk 0 <> nth j risk 0 /\ nth i pen 0 <> nth j pen 0) /\
  (forall lam, nth (length path - 2) path 0 < lam -> ~ optimal risk pen lam (last m 0%nat)).
Proof.
  exists [0; 1; 2], [2; 1; 0], [1/2; 1; 2], [0; 1; 1]%nat. split; [|split; [reflexivity|split]].
  - unfold lambda_path, lambda_step, rargmin. cbn. unfold lambda_entry. cbn. rdec. repeat (f_equal; try lra).
  - intros [|[|[|i]]] [|[|[|j]]]; cbn; intros; try lia; lra.
  - cbn. intros lam Hl [_ H]. specialize (H 2%nat). unfold prisk in H. cbn in H. assert (1 + lam * 1 <= 2 + lam * 0) by (apply H; lia). lra.
Qed.
(** when there is no breakpoint the scalar path says "model 0", which need not ever be optimal *)
Theorem c35_no_breakpoint_refuted : exists risk pen, generic risk pen /\ length pen = length risk /\ lambda_path risk pen = Some LScalar /\
  forall lam, 0 <= lam -> ~ optimal risk pen lam 0%nat.
Proof.
  exists [2; 1], [5; 1]. split; [|split; [reflexivity|split]].
  - split.
    + intros [|[|i]] [|[|j]]; cbn; intros; try lia; lra.
    + intros lam [|[|i]] [|[|j]] [|[|k]]; unfold prisk; cbn; intros; lia.
  - unfold lambda_path, lambda_step, rargmin. cbn. unfold lambda_entry. cbn. rdec. reflexivity.
  - intros lam Hl [_ H]. specialize (H 1%nat). unfold prisk in H. cbn in H. assert (2 + lam * 5 <= 1 + lam * 1) by (apply H; lia). lra.
Qed.
Print Assumptions c35_no_breakpoint_refuted.
(** and the slope heuristic then raises (it indexes the scalar), although the complexities differ *)
Theorem c35_slope_raises_refuted : exists risk pen comp, generic risk pen /\ length pen = length risk /\ length comp = length risk /\
  nth 0 comp 0 <> nth 1 comp 0 /\ forall gap, slope_heuristic gap risk comp pen = None.
Proof.
  exists [2; 1], [5; 1], [5; 1]. split; [|split; [reflexivity|split; [reflexivity|split]]].
  - split.
    + intros [|[|i]] [|[|j]]; cbn; intros; try lia; lra.
    + intros lam [|[|i]] [|[|j]] [|[|k]]; unfold prisk; cbn; intros; lia.
  - cbn. lra.
  - intros gap. unfold slope_heuristic. cbn. rdec. unfold lambda_path, lambda_step, rargmin. cbn. unfold lambda_entry. cbn. rdec. reflexivity.
Qed.
Print Assumptions c35_slope_raises_refuted.
Print Assumptions c35_ties_refuted.
