(** Proofs about functional bases: evaluation of bases and of tensor-product bases. *)
From Coq Require Import List Arith Bool ZArith Lia.
From Verif.Base Require Import ListAux CRing Index.
From Verif.Model Require Import Sorting MultiIndices Numpy FullTensor Diagonal Canonical Sparse Functions FunctionalBases.
From Verif.Spec Require Import MultiIndicesSpec TensorSpec FunctionSpec FunctionalSpec.
From Verif.Proofs Require Import NumpyP FullTensorP SparseP CanonicalP MIMoreP FunctionsP FunctionsP2 FunctionsP3 TensorizerP.
Import ListNotations.

Lemma omap_seq_nth {B} (l : list B) : omap (nth_error l) (seq 0 (length l)) = Some l.
Proof.
  destruct l as [|b0 l0]; [reflexivity|]. set (l := b0 :: l0).
  rewrite (omap_some _ (fun k => nth k l b0)); [|intros k Hk; apply in_seq in Hk; apply nth_error_nth'; lia].
  f_equal. apply map_seq_nth.
Qed.

Lemma ofold_app' {A S} (f : S -> A -> option S) l l' s : ofold f (l ++ l') s = match ofold f l s with Some s' => ofold f l' s' | None => None end.
Proof. revert s. induction l as [|a l IH]; intros s; simpl; auto. destruct (f s a); auto. Qed.

Section P.
  Context {R : Type} {CR : CRing R} {A V : Type}.
  Add Ring Rfb : rth.
  Local Open Scope cr_scope.
  Notation fb := (fbasis R A V).

  Fixpoint splitc (acc : nat) (ns : list nat) (x : list (list A)) : list (list (list A)) :=
    match ns with
    | [] => [map (skipn acc) x]
    | n :: ns' => match ns' with [] => [map (skipn acc) x] | _ => map (fun r => firstn n (skipn acc r)) x :: splitc (acc + n) ns' x end
    end.
  Lemma hsplit_splitc ns x : forall acc,
    map (fun p => map (cut_row p) x) (combine (acc :: removelast (np_cumsum acc ns)) (map Some (removelast (np_cumsum acc ns)) ++ [None])) = splitc acc ns x.
  Proof.
    induction ns as [|n ns IH]; intros acc; [reflexivity|]. destruct ns as [|m ns]; [reflexivity|].
    change (splitc acc (n :: m :: ns) x) with (map (fun r => firstn n (skipn acc r)) x :: splitc (acc + n) (m :: ns) x). rewrite <- IH.
    change (np_cumsum acc (n :: m :: ns)) with ((acc + n)%nat :: np_cumsum (acc + n) (m :: ns)).
    remember (np_cumsum (acc + n) (m :: ns)) as cs eqn:E. assert (Hc : cs <> []) by (rewrite E; discriminate).
    change (removelast ((acc + n)%nat :: cs)) with (match cs with [] => [] | _ :: _ => (acc + n)%nat :: removelast cs end).
    destruct cs as [|c0 cs]; [congruence|]. cbn [map app combine]. f_equal. apply map_ext. intros r. unfold cut_row. cbn [fst snd].
    f_equal. lia.
  Qed.
  Lemma splitc_length ns acc x : ns <> [] -> length (splitc acc ns x) = length ns.
  Proof. revert acc. induction ns as [|n ns IH]; intros acc H; [congruence|]. destruct ns as [|m ns]; [reflexivity|]. change (S (length (splitc (acc + n) (m :: ns) x)) = S (length (m :: ns))). f_equal. apply IH. discriminate. Qed.
  Lemma splitc_rows ns x : forall acc, Forall (fun y => length y = length x) (splitc acc ns x).
  Proof. induction ns as [|n ns IH]; intros acc; [repeat constructor; apply map_length|]. destruct ns as [|m ns]; [repeat constructor; apply map_length|]. change (splitc acc (n :: m :: ns) x) with (map (fun r => firstn n (skipn acc r)) x :: splitc (acc + n) (m :: ns) x). constructor; [apply map_length|apply IH]. Qed.

  (** evaluation of the bases on an array of points *)
  Definition evals (bs : list fb) (x : list (list A)) : list (nd R) :=
    map (fun p => fb_eval (fst p) (snd p)) (combine bs (splitc 0 (map fb_ndim bs) x)).
  Lemma fbs_eval_some bs dims b x : omap (nth_error bs) (dims_or bs dims) = Some b -> fbs_eval bs dims x = Some (evals b x).
  Proof. intros E. unfold fbs_eval, fbs_eval_list. rewrite E. cbn [bind]. unfold np_hsplit. rewrite hsplit_splitc. reflexivity. Qed.
  Lemma fbs_eval_all bs x : fbs_eval bs None x = Some (evals bs x).
  Proof. apply fbs_eval_some. cbn [dims_or]. apply omap_seq_nth. Qed.
  Lemma evals_length (bs : list fb) x : length (evals bs x) = length bs.
  Proof.
    unfold evals. rewrite map_length, combine_length. destruct bs as [|b bs]; [reflexivity|].
    rewrite splitc_length by discriminate. rewrite map_length. apply Nat.min_id.
  Qed.
  Lemma evals_shape_gen (bs : list fb) : forall xs n, length xs = length bs -> Forall (fun y => length y = n) xs ->
    forall j, (j < length bs)%nat -> shape (nth j (map (fun p => fb_eval (fst p) (snd p)) (combine bs xs)) (scalar r0)) = [n; nth j (cards bs) 0%nat].
  Proof.
    induction bs as [|b bs IH]; intros [|y xs] n HL HF j Hj; cbn [length] in *; try lia. inversion HF; subst. destruct j; [reflexivity|].
    cbn [combine map nth cards]. apply IH; auto; lia.
  Qed.
  Lemma evals_shape (bs : list fb) x j : (j < length bs)%nat -> shape (nth j (evals bs x) (scalar r0)) = [length x; nth j (cards bs) 0%nat].
  Proof.
    intros Hj. unfold evals. apply evals_shape_gen; auto; [|apply splitc_rows]. rewrite splitc_length; [apply map_length|]. destruct bs; [cbn in Hj; lia|discriminate].
  Qed.
  Lemma skipn_skipn' {B} (l : list B) a b : skipn b (skipn a l) = skipn (a + b) l.
  Proof. revert l; induction a as [|a IH]; intros l; [reflexivity|]. destruct l; [now rewrite !skipn_nil|]. apply IH. Qed.
  Lemma evals_factors (bs : list fb) : forall acc x p is, (p < length x)%nat -> length is = length bs -> bs <> [] ->
    length (nth p x []) = (acc + sumn (map fb_ndim bs))%nat ->
    factors (map (fun q => fb_eval (fst q) (snd q)) (combine bs (splitc acc (map fb_ndim bs) x))) (repeat p (length bs)) is = prod_fun bs is (skipn acc (nth p x [])).
  Proof.
    induction bs as [|b bs IH]; intros acc x p [|i is] Hp HL Hn Hx; cbn [length] in HL; try lia; [congruence|].
    cbn [map sumn] in Hx. cbn [prod_fun map length repeat]. destruct bs as [|b2 bs].
    - destruct is; [|cbn in HL; lia]. cbn [map splitc combine factors prod_fun fb_eval get nth fst snd repeat length]. f_equal.
      rewrite map_nth_in with (da := []) by auto. rewrite firstn_all2; auto. rewrite skipn_length. cbn in Hx. lia.
    - change (splitc acc (fb_ndim b :: map fb_ndim (b2 :: bs)) x) with (map (fun r => firstn (fb_ndim b) (skipn acc r)) x :: splitc (acc + fb_ndim b) (map fb_ndim (b2 :: bs)) x).
      cbn [combine map factors fst snd]. cbn [fb_eval get nth]. f_equal.
      + rewrite map_nth_in with (da := []) by auto. auto.
      + etransitivity; [apply (IH (acc + fb_ndim b)%nat x p is); auto; [discriminate|lia]|]. rewrite skipn_skipn'. auto.
  Qed.
  Lemma evals_prod (bs : list fb) x p is : bs <> [] -> (p < length x)%nat -> length is = length bs -> point_ok bs (nth p x []) ->
    factors (evals bs x) (repeat p (length bs)) is = prod_fun bs is (nth p x []).
  Proof. intros Hn Hp HL Hx. unfold evals. rewrite evals_factors; auto. Qed.

  (** columns of index sets *)
  Lemma mi_col_nat I l j : mi_rows I = map (map Z.of_nat) l -> (j < mi_dim I)%nat -> Forall (fun r => (j < length r)%nat) l ->
    mi_col I j = Some (map (fun r => Z.of_nat (nth j r 0%nat)) l).
  Proof.
    intros Hr Hj HF. unfold mi_col. rewrite (proj2 (Nat.ltb_lt _ _) Hj), Hr, omap_map.
    apply omap_some. intros r Hin. rewrite Forall_forall in HF. specialize (HF r Hin). rewrite nth_error_map.
    rewrite (nth_error_nth' _ 0%nat) by auto. reflexivity.
  Qed.
  Lemma take_cols_nat (M : nd R) n m ks : shape M = [n; m] -> Forall (fun k => (k < m)%nat) ks ->
    exists Y, take_cols M (map Z.of_nat ks) = Some Y /\ shape Y = [n; length ks] /\
      forall p k, (k < length ks)%nat -> get Y [p; k] = get M [p; nth k ks 0%nat].
  Proof.
    intros HS HF. unfold take_cols. rewrite HS. cbn [nth]. rewrite omap_map. rewrite (omap_some _ (fun k => k)).
    - cbn [bind]. eexists. split; [reflexivity|]. cbn [shape get nth]. rewrite map_length. split; auto. intros p k Hk. rewrite map_id. auto.
    - intros k Hk. rewrite Forall_forall in HF. apply py_index_nat. auto.
  Qed.
  Lemma np_imul_ok (Y T : nd R) : shape Y = shape T -> exists Z, np_imul Y T = Some Z /\ shape Z = shape Y /\ forall is, valid (shape Y) is -> get Z is = get Y is * get T is.
  Proof.
    intros HS. unfold np_imul. destruct (np_binop_same rmul Y T HS) as (Z & E & SZ & GZ). rewrite E. cbn [bind]. rewrite SZ, list_eqb_refl. eauto.
  Qed.
  Lemma lprod_snoc {B} (l : list B) a f : lprod (l ++ [a]) f = lprod l f * f a.
  Proof. rewrite lprod_app. cbn [lprod]. ring. Qed.

  Theorem sb_eval_with_ok (I : mi) (l : list (list nat)) (cs : list nat) (Hx : list (nd R)) n :
    Hx <> [] -> mi_dim I = length Hx -> length cs = length Hx -> mi_rows I = map (map Z.of_nat) l -> Forall (valid cs) l ->
    (forall j, (j < length Hx)%nat -> shape (nth j Hx (scalar r0)) = [n; nth j cs 0%nat]) ->
    returns (sb_eval_with I Hx) [n; length l] (fun ix => factors Hx (repeat (nth 0 ix 0%nat) (length Hx)) (nth (nth 1 ix 0%nat) l [])).
  Proof.
    intros Hn Hd Lc Hr HF HS.
    assert (HFl : forall j, (j < length Hx)%nat -> Forall (fun r => (j < length r)%nat) l).
    { intros j Hj. eapply Forall_impl; [|exact HF]. intros r Vr. rewrite (valid_length _ _ Vr). lia. }
    assert (HT : forall j, (j < length Hx)%nat -> exists ks Y, mi_col I j = Some ks /\ take_cols (nth j Hx (scalar r0)) ks = Some Y /\ shape Y = [n; length l] /\
       forall p k, (k < length l)%nat -> get Y [p; k] = get (nth j Hx (scalar r0)) [p; nth j (nth k l []) 0%nat]).
    { intros j Hj. rewrite (mi_col_nat I l j); auto; [|lia].
      destruct (take_cols_nat (nth j Hx (scalar r0)) n (nth j cs 0%nat) (map (fun r => nth j r 0%nat) l)) as (Y & E & SY & GY); auto.
      - apply Forall_forall. intros k Hk. apply in_map_iff in Hk. destruct Hk as (r & <- & Hr2). rewrite Forall_forall in HF. apply (valid_nth cs r j); auto; lia.
      - rewrite map_map in E. eexists. exists Y. split; [reflexivity|]. split; [exact E|]. rewrite map_length in SY, GY. split; auto.
        intros p k Hk. rewrite GY by auto. rewrite map_nth_in with (da := []) by auto. auto. }
    unfold sb_eval_with. destruct Hx as [|H0 Hx']; [congruence|]. set (Hx := H0 :: Hx') in *.
    destruct (HT 0%nat) as (k0 & Y0 & E1 & E2 & S0 & G0); [cbn; lia|]. rewrite E1. cbn [bind]. change (nth 0 Hx (scalar r0)) with H0 in E2. rewrite E2. cbn [bind].
    assert (IND : forall m, (m <= length Hx - 1)%nat -> exists Y, ofold (fun y i => let* k := mi_col I i in let* t := take_cols (nth i Hx (scalar r0)) k in np_imul y t) (seq 1 m) Y0 = Some Y /\
       shape Y = [n; length l] /\ forall p k, (p < n)%nat -> (k < length l)%nat -> get Y [p; k] = lprod (seq 0 (S m)) (fun j => get (nth j Hx (scalar r0)) [p; nth j (nth k l []) 0%nat])).
    { induction m as [|m IHm]; intros Hm.
      - exists Y0. split; [reflexivity|]. split; auto. intros p k Hp Hk. rewrite G0 by auto. cbn [seq lprod]. ring.
      - destruct IHm as (Y & EY & SY & GY); [lia|]. rewrite seq_S. destruct (HT (S m)) as (ks & T & E3 & E4 & ST & GT); [lia|].
        destruct (np_imul_ok Y T) as (Z & EZ & SZ & GZ); [congruence|]. exists Z. split.
        + rewrite ofold_app'. rewrite EY. cbn [ofold Nat.add]. rewrite E3. cbn [bind]. rewrite E4. cbn [bind]. rewrite EZ. auto.
        + split; [congruence|]. intros p k Hp Hk. rewrite GZ by (rewrite SY; constructor; [auto|constructor; [auto|constructor]]). rewrite GY, GT by auto.
          rewrite (seq_S (S m)). rewrite lprod_snoc. reflexivity. }
    destruct (IND (length Hx - 1)%nat) as (Y & EY & SY & GY); [lia|]. exists Y. split; [exact EY|]. split; auto.
    intros ix Hix. inversion Hix as [|p ? ix' ? Hp Hix2]; subst. inversion Hix2 as [|k ? ix'' ? Hk Hix3]; subst. inversion Hix3; subst.
    rewrite GY by auto. cbn [nth]. rewrite factors_seq.
    - replace (S (length Hx - 1)) with (length Hx) by (cbn; lia). reflexivity.
    - rewrite Forall_forall in HF. rewrite (valid_length _ _ (HF (nth k l []) (nth_In _ _ Hk))). auto.
  Qed.

  Theorem sb_eval_ok (bs : list fb) (I : mi) l x : bs <> [] -> mi_dim I = length bs -> mi_rows I = map (map Z.of_nat) l -> Forall (valid (cards bs)) l ->
    Forall (point_ok bs) x ->
    returns (sb_eval bs I x) [length x; length l] (fun ix => prod_fun bs (nth (nth 1 ix 0%nat) l []) (nth (nth 0 ix 0%nat) x [])).
  Proof.
    intros Hn Hd Hr HF Hx. unfold sb_eval. rewrite fbs_eval_all. cbn [bind].
    destruct (sb_eval_with_ok I l (cards bs) (evals bs x) (length x)) as (Y & E & SY & GY); rewrite ?evals_length; auto.
    - intros K. pose proof (evals_length bs x) as L. rewrite K in L. destruct bs; [congruence|cbn in L; lia].
    - apply map_length.
    - apply evals_shape.
    - exists Y. split; auto. split; auto. intros ix Hix. rewrite GY by auto. rewrite evals_length.
      inversion Hix as [|p ? ix' ? Hp Hix2]; subst. inversion Hix2 as [|k ? ix'' ? Hk Hix3]; subst. cbn [nth].
      rewrite Forall_forall in HF, Hx. apply evals_prod; auto.
      + rewrite (valid_length _ _ (HF _ (nth_In _ [] Hk))). apply map_length.
      + apply Hx, nth_In. auto.
  Qed.
End P.
