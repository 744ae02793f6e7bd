(** Penalised model selection. *)
From Coq Require Import List Arith Lia Reals Lra Bool.
From Verif.Base Require Import ListAux CRing Index RealAux LinAlg.
From Verif.Model Require Import DensityL2 ModelSelection.
From Verif.Spec Require Import ModelSelectionSpec.
From Verif.Proofs Require Import DensityP.
Import ListNotations.
Local Open Scope R_scope.

Lemma rargmin_first l : l <> [] -> forall j, (j < rargmin l)%nat -> nth (rargmin l) l 0 < nth j l 0.
Proof.
  assert (G : forall l full best k e, (best < k)%nat -> nth best full 0 = e -> skipn k full = l -> (k <= length full)%nat ->
     (forall j, (j < k)%nat -> e <= nth j full 0) -> (forall j, (j < best)%nat -> e < nth j full 0) ->
     let m := rargmin_from best k e l in forall j, (j < m)%nat -> nth m full 0 < nth j full 0).
  { clear l. induction l as [|x l IH]; intros full best k e Hb He Hs Hk Hle Hlt; cbn [rargmin_from].
    - cbv zeta. rewrite He. auto.
    - assert (Hkl : (k < length full)%nat). { assert (length (skipn k full) = S (length l)) by (rewrite Hs; auto). rewrite skipn_length in H. lia. }
      assert (Hx : nth k full 0 = x). { rewrite <- (firstn_skipn k full), app_nth2; rewrite firstn_length, Nat.min_l by lia; [|lia]. rewrite Nat.sub_diag, Hs. auto. }
      assert (Hs' : skipn (S k) full = l). { clear - Hs. revert full Hs. induction k as [|k IHk]; intros [|z full] Hs; try discriminate; cbn [skipn] in *; [congruence|auto]. }
      destruct (Rlt_dec x e) as [E|E]; apply IH; auto; try lia.
      + intros j Hj. destruct (Nat.eq_dec j k) as [->|]; [lra|]. assert (e <= nth j full 0) by (apply Hle; lia). lra.
      + intros j Hj. assert (e <= nth j full 0) by (apply Hle; lia). lra.
      + intros j Hj. destruct (Nat.eq_dec j k) as [->|]; [lra|]. apply Hle; lia. }
  destruct l as [|x l]; [congruence|]. intros _. apply (G l (x :: l) 0%nat 1%nat x); auto; cbn [length]; try lia.
  intros j Hj. replace j with 0%nat by lia. cbn. lra.
Qed.

Section Selection.
Variables (risk pen : list R).
Hypothesis Hlen : length pen = length risk.
Let n := length risk.
Lemma m_entries l0 j : (j < n)%nat -> nth j (map (fun rp => fst rp + l0 * snd rp) (combine risk pen)) 0 = prisk risk pen l0 j.
Proof.
  intros Hj. rewrite (nth_indep _ _ ((fun rp => fst rp + l0 * snd rp) (0, 0))) by (rewrite map_length, combine_length; unfold n in *; lia).
  rewrite (map_nth (fun rp => fst rp + l0 * snd rp)). rewrite combine_nth by auto. auto.
Qed.
Lemma m_lambda_optimal l0 : (0 < n)%nat -> optimal risk pen l0 (m_lambda risk pen l0).
Proof.
  intros Hn. unfold m_lambda. set (l := map _ _). assert (Ll : length l = n) by (unfold l; rewrite map_length, combine_length; unfold n; lia).
  destruct (rargmin_spec l) as [H1 H2]; [intros E; rewrite E in Ll; cbn in Ll; lia|]. split; [fold n; lia|]. intros j Hj.
  rewrite <- !m_entries by (fold n in Hj; lia). apply H2. fold n in Hj. lia.
Qed.
(** ** one step *)
Definition is_best (l : list (option R)) (b : option (R * nat)) : Prop :=
  match b with
  | None => forall j, (j < length l)%nat -> nth j l None = None
  | Some (x, k) => (k < length l)%nat /\ nth k l None = Some x /\ forall j y, (j < length l)%nat -> nth j l None = Some y -> x <= y
  end.
Lemma nanmin_from_spec l : forall full best k, skipn k full = l -> (k <= length full)%nat -> is_best (firstn k full) best -> is_best full (nanmin_from best k l).
Proof.
  induction l as [|x l IH]; intros full best k Hs Hk HB; cbn [nanmin_from].
  - assert (k = length full). { assert (length (skipn k full) = 0%nat) by (rewrite Hs; auto). rewrite skipn_length in H. lia. }
    subst k. rewrite firstn_all in HB. auto.
  - assert (Hkl : (k < length full)%nat). { assert (length (skipn k full) = S (length l)) by (rewrite Hs; auto). rewrite skipn_length in H. lia. }
    assert (Hs' : skipn (S k) full = l). { clear - Hs. revert full Hs. induction k as [|k IHk]; intros [|z full] Hs; try discriminate; cbn [skipn] in *; [congruence|auto]. }
    assert (EF : firstn (S k) full = firstn k full ++ [x]).
    { clear - Hs. revert full Hs. induction k as [|k IHk]; intros [|z full] Hs; try discriminate; cbn [skipn] in *; [injection Hs as -> _; reflexivity|]. change (firstn (S (S k)) (z :: full)) with (z :: firstn (S k) full). rewrite (IHk full Hs). reflexivity. }
    assert (LF : length (firstn k full) = k) by (rewrite firstn_length; lia).
    assert (G : forall best', is_best (firstn k full ++ [x]) best' -> is_best full (nanmin_from best' (S k) l)) by (intros; apply IH; auto; rewrite EF; auto).
    assert (EN : forall j, (j < length (firstn k full ++ [x]))%nat -> (j < k)%nat /\ nth j (firstn k full ++ [x]) None = nth j (firstn k full) None \/ j = k /\ nth j (firstn k full ++ [x]) None = x).
    { intros j Hj. rewrite app_length, LF in Hj. cbn in Hj. destruct (Nat.eq_dec j k) as [->|]; [right; split; auto; rewrite app_nth2 by lia; rewrite LF, Nat.sub_diag; auto|].
      left. split; [lia|]. apply app_nth1. lia. }
    destruct x as [x|]; apply G.
    + destruct best as [[b m]|]; cbn [is_best] in HB.
      * destruct HB as (H1 & H2 & H3). destruct (Rlt_dec x b) as [L|L]; cbn [is_best].
        -- split; [rewrite app_length, LF; cbn; lia|]. split; [rewrite app_nth2 by lia; rewrite LF, Nat.sub_diag; auto|]. intros j y Hj Ey.
           destruct (EN j Hj) as [[Hjk E]|[-> E]]; rewrite E in Ey; [|injection Ey as <-; lra]. assert (b <= y) by (apply (H3 j y); auto; rewrite LF; auto). lra.
        -- split; [rewrite app_length, LF; cbn; lia|]. split; [rewrite app_nth1 by auto; auto|]. intros j y Hj Ey.
           destruct (EN j Hj) as [[Hjk E]|[-> E]]; rewrite E in Ey; [apply (H3 j y); auto; rewrite LF; auto|injection Ey as <-; lra].
      * cbn [is_best]. split; [rewrite app_length, LF; cbn; lia|]. split; [rewrite app_nth2 by lia; rewrite LF, Nat.sub_diag; auto|]. intros j y Hj Ey.
        destruct (EN j Hj) as [[Hjk E]|[-> E]]; rewrite E in Ey; [rewrite HB in Ey by lia; discriminate|injection Ey as <-; lra].
    + destruct best as [[b m]|]; cbn [is_best] in *.
      * destruct HB as (H1 & H2 & H3). split; [rewrite app_length; lia|]. split; [rewrite app_nth1 by auto; auto|]. intros j y Hj Ey.
        destruct (EN j Hj) as [[Hjk E]|[-> E]]; rewrite E in Ey; [apply (H3 j y); auto; rewrite LF; auto|discriminate].
      * intros j Hj. destruct (EN j Hj) as [[Hjk E]|[-> E]]; rewrite E; auto. apply HB. lia.
Qed.
Lemma lambda_step_spec ind l0 :
  match lambda_step risk pen ind l0 with
  | None => forall j, (j < n)%nat -> lambda_entry risk pen ind l0 j = None
  | Some (l, k) => (k < n)%nat /\ lambda_entry risk pen ind l0 k = Some l /\ forall j y, (j < n)%nat -> lambda_entry risk pen ind l0 j = Some y -> l <= y
  end.
Proof.
  unfold lambda_step. set (L := map _ _). assert (LL : length L = n) by (unfold L; rewrite map_length, seq_length; auto).
  assert (EL : forall j, (j < n)%nat -> nth j L None = lambda_entry risk pen ind l0 j).
  { intros j Hj. unfold L. rewrite (nth_indep _ _ (lambda_entry risk pen ind l0 (nth j (seq 0 n) 0%nat))) by (rewrite map_length, seq_length; auto).
    replace (lambda_entry risk pen ind l0 (nth j (seq 0 n) 0%nat)) with (lambda_entry risk pen ind l0 j) by (rewrite seq_nth by auto; auto).
    rewrite (nth_indep _ _ (lambda_entry risk pen ind l0 0%nat)) by (rewrite map_length, seq_length; auto). rewrite map_nth. rewrite seq_nth by auto. auto. }
  assert (H := nanmin_from_spec L L None 0 eq_refl ltac:(lia) ltac:(cbn; intros; lia)). destruct (nanmin_from None 0 L) as [[l k]|]; cbn [is_best] in H.
  - destruct H as (H1 & H2 & H3). rewrite LL in *. rewrite EL in H2 by auto. repeat split; auto. intros j y Hj Ey. apply (H3 j y Hj). rewrite EL by auto. auto.
  - intros j Hj. rewrite <- EL by auto. apply H. lia.
Qed.

(** ** termination: the breakpoints are distinct crossing values *)
Definition crossings : list R := flat_map (fun i => map (fun j => (nth j risk 0 - nth i risk 0) / (nth i pen 0 - nth j pen 0)) (seq 0 n)) (seq 0 n).
Lemma crossings_length : length crossings = (n * n)%nat.
Proof.
  unfold crossings. assert (G : forall l, length (flat_map (fun i => map (fun j => (nth j risk 0 - nth i risk 0) / (nth i pen 0 - nth j pen 0)) (seq 0 n)) l) = (length l * n)%nat).
  { induction l as [|a l IH]; [reflexivity|]. cbn [flat_map length]. rewrite app_length, map_length, seq_length, IH. lia. }
  rewrite G, seq_length. auto.
Qed.
Lemma entry_crossing ind l0 j l : (ind < n)%nat -> (j < n)%nat -> lambda_entry risk pen ind l0 j = Some l -> In l crossings /\ l0 < l.
Proof.
  intros Hi Hj H. unfold lambda_entry in H. destruct (Req_EM_T _ 0); [discriminate|]. destruct (Rle_dec _ _); [discriminate|]. injection H as <-.
  split; [|lra]. unfold crossings. apply in_flat_map. exists ind. split; [apply in_seq; lia|]. apply in_map_iff. exists j. split; auto. apply in_seq; lia.
Qed.
Lemma lambda_loop_total fuel : forall ind l0 path m, (ind < n)%nat -> NoDup path -> incl path crossings -> (forall x, In x path -> x <= l0) ->
  (n * n < fuel + length path)%nat -> exists r, lambda_loop fuel risk pen ind l0 path m = Some r.
Proof.
  induction fuel as [|fuel IH]; intros ind l0 path m Hi ND HI HM HF; cbn [lambda_loop].
  - exfalso. assert (length path <= length crossings)%nat by (apply NoDup_incl_length; auto). rewrite crossings_length in H. lia.
  - assert (HS := lambda_step_spec ind l0). destruct (lambda_step risk pen ind l0) as [[l k]|]; [|eauto].
    destruct HS as (Hk & He & _). destruct (entry_crossing ind l0 k l Hi Hk He) as [HC HL].
    apply IH; auto.
    + apply NoDup_app; [auto|repeat constructor; auto|]. intros x Hx [<-|[]]. specialize (HM _ Hx). lra.
    + intros x Hx. apply in_app_iff in Hx as [Hx|[<-|[]]]; auto.
    + intros x Hx. apply in_app_iff in Hx as [Hx|[<-|[]]]; [specialize (HM _ Hx); lra|lra].
    + rewrite app_length. cbn. lia.
Qed.
Lemma lambda_path_total : (0 < n)%nat -> exists r, lambda_path risk pen = Some r.
Proof.
  intros Hn. unfold lambda_path. assert (Hi : (rargmin risk < n)%nat) by (apply rargmin_spec; intros E; unfold n in Hn; rewrite E in Hn; cbn in Hn; lia).
  destruct (lambda_loop_total (S (length risk * length risk)) (rargmin risk) 0 [] []) as [[[|p path] m] E]; auto; try (rewrite E; eauto).
  - constructor.
  - intros x [].
  - intros x [].
  - fold n. cbn. lia.
Qed.

(** ** correctness in general position *)
Hypothesis Hgen : generic risk pen.
Definition inv (ind : nat) (l0 : R) : Prop := (ind < n)%nat /\ 0 <= l0 /\ optimal risk pen l0 ind /\ forall j, (j < n)%nat -> prisk risk pen l0 j = prisk risk pen l0 ind -> nth ind pen 0 <= nth j pen 0.
Lemma entry_spec ind l0 j : inv ind l0 -> (j < n)%nat ->
  match lambda_entry risk pen ind l0 j with
  | None => nth ind pen 0 <= nth j pen 0
  | Some l => nth j pen 0 < nth ind pen 0 /\ l0 < l /\ prisk risk pen l j = prisk risk pen l ind
  end.
Proof.
  intros (Hi & H0 & (_ & Ho) & Ht) Hj. unfold lambda_entry. fold n in Ho. specialize (Ho j Hj). specialize (Ht j Hj). unfold prisk in *.
  set (a := nth j risk 0) in *. set (b := nth ind risk 0) in *. set (p := nth ind pen 0) in *. set (q := nth j pen 0) in *.
  destruct (Req_EM_T (p - q) 0) as [E|E]; [lra|]. destruct (Rle_dec ((a - b) / (p - q)) l0) as [Y|Y].
  - destruct (Rle_dec p q) as [?|Hpq]; auto. exfalso. assert (0 < p - q) by lra.
    assert (a - b <= l0 * (p - q)). { replace (a - b) with ((a - b) / (p - q) * (p - q)) by (field; lra). apply Rmult_le_compat_r; lra. }
    assert (p <= q) by (apply Ht; lra). lra.
  - assert (Hpq : q < p).
    { destruct (Rlt_dec q p) as [?|Hn]; auto. exfalso. assert (0 < q - p) by lra. apply Y.
      replace ((a - b) / (p - q)) with ((b - a) / (q - p)) by (field; lra). apply Rmult_le_reg_r with (q - p); [lra|]. unfold Rdiv. rewrite Rmult_assoc, Rinv_l by lra. lra. }
    split; auto. split; [lra|]. field. lra.
Qed.
Lemma step_none ind l0 : inv ind l0 -> lambda_step risk pen ind l0 = None -> forall lam, l0 <= lam -> optimal risk pen lam ind.
Proof.
  intros HI E lam Hl. assert (HS := lambda_step_spec ind l0). rewrite E in HS. split; [apply HI|]. intros j Hj. fold n in Hj. assert (HE := entry_spec ind l0 j HI Hj). rewrite HS in HE by auto.
  destruct HI as (Hi & H0 & (_ & Ho) & _). specialize (Ho j Hj). unfold prisk in *.
  assert (0 <= (lam - l0) * (nth j pen 0 - nth ind pen 0)) by (apply Rmult_le_pos; lra). lra.
Qed.
Lemma step_some ind l0 l k : inv ind l0 -> lambda_step risk pen ind l0 = Some (l, k) ->
  l0 < l /\ (forall lam, l0 <= lam -> lam <= l -> optimal risk pen lam ind) /\ inv k l /\ nth k pen 0 < nth ind pen 0.
Proof.
  intros HI E. assert (HS := lambda_step_spec ind l0). rewrite E in HS. destruct HS as (Hk & He & Hmin).
  assert (HE := entry_spec ind l0 k HI Hk). rewrite He in HE. destruct HE as (Hp & Hl & Hv). split; auto.
  assert (Hopt : forall lam, l0 <= lam -> lam <= l -> optimal risk pen lam ind).
  { intros lam H1 H2. split; [apply HI|]. intros j Hj. fold n in Hj. assert (HE := entry_spec ind l0 j HI Hj). destruct (lambda_entry risk pen ind l0 j) as [y|] eqn:Ey.
    - destruct HE as (Hq & Hly & Hvy). assert (l <= y) by (eapply Hmin; eauto). unfold prisk in *.
      assert (0 <= (y - lam) * (nth ind pen 0 - nth j pen 0)) by (apply Rmult_le_pos; lra). lra.
    - destruct HI as (Hi & H0 & (_ & Ho) & _). specialize (Ho j Hj). unfold prisk in *.
      assert (0 <= (lam - l0) * (nth j pen 0 - nth ind pen 0)) by (apply Rmult_le_pos; lra). lra. }
  split; auto. assert (Hol := Hopt l ltac:(lra) ltac:(lra)). assert (0 <= l0) by apply HI. split; auto. split; [auto|]. split; [lra|]. split.
  - split; auto. intros j Hj. rewrite Hv. apply Hol; auto.
  - intros j Hj Ej. destruct Hgen as [_ G]. destruct (G l j k ind) as [EE|[EE|EE]]; auto; try lra; try (rewrite EE in *; lra). apply HI.
Qed.
Lemma last_cons {A} (l : list A) : forall x d, last (x :: l) d = last l x.
Proof. induction l as [|y l IH]; intros x d; [reflexivity|]. change (last (x :: y :: l) d) with (last (y :: l) d). rewrite !IH. reflexivity. Qed.
Definition good_tail ind l0 (path' : list R) (m' : list nat) : Prop :=
  length m' = length path' /\
  (forall i, (i < length path')%nat -> nth i (l0 :: path') 0 < nth i path' 0) /\
  (forall i lam, (i < length path')%nat -> nth i (l0 :: path') 0 <= lam -> lam <= nth i path' 0 -> optimal risk pen lam (nth i (ind :: m') 0%nat)) /\
  (forall lam, last path' l0 <= lam -> optimal risk pen lam (last m' ind)).
Lemma loop_correct fuel : forall ind l0 path m r, inv ind l0 -> lambda_loop fuel risk pen ind l0 path m = Some r ->
  exists path' m', r = (path ++ path', m ++ m') /\ good_tail ind l0 path' m'.
Proof.
  induction fuel as [|fuel IH]; intros ind l0 path m r HI; cbn [lambda_loop]; [discriminate|].
  destruct (lambda_step risk pen ind l0) as [[l k]|] eqn:E.
  - intros H. destruct (step_some ind l0 l k HI E) as (H1 & H2 & H3 & _). destruct (IH _ _ _ _ _ H3 H) as (path' & m' & -> & Lm & P1 & P2 & P3).
    exists (l :: path'), (k :: m'). rewrite <- !app_assoc. split; [reflexivity|]. split; [cbn [length]; lia|]. split; [|split].
    + intros [|i] Hi; [cbn; auto|]. cbn [length] in Hi. change (nth i (l :: path') 0 < nth i path' 0). apply P1. lia.
    + intros [|i] lam Hi Ha Hb; cbn [length] in Hi; [apply H2; auto|]. apply (P2 i lam); auto; lia.
    + intros lam Hl. rewrite last_cons in Hl. rewrite last_cons. auto.
  - intros H. injection H as <-. exists [], []. rewrite !app_nil_r. split; auto. split; [auto|]. split; [intros i Hi; cbn in Hi; lia|].
    split; [intros i lam Hi; cbn in Hi; lia|]. intros lam Hl. apply (step_none ind l0); auto.
Qed.
Lemma inv_init : (0 < n)%nat -> inv (rargmin risk) 0.
Proof.
  intros Hn. assert (HR : risk <> []) by (intros E; unfold n in Hn; rewrite E in Hn; cbn in Hn; lia). destruct (rargmin_spec risk HR) as [H1 H2].
  split; [auto|]. split; [lra|]. split.
  - split; auto. intros j Hj. unfold prisk. rewrite !Rmult_0_l, !Rplus_0_r. auto.
  - intros j Hj E. unfold prisk in E. rewrite !Rmult_0_l, !Rplus_0_r in E. destruct (Nat.eq_dec j (rargmin risk)) as [->|N]; [lra|].
    destruct Hgen as [G _]. exfalso. apply (G j (rargmin risk)); auto.
Qed.
Lemma last_nth' {A} (l : list A) d : l <> [] -> last l d = nth (length l - 1) l d.
Proof. intros H. induction l as [|x l IH]; [congruence|]. destruct l as [|y l]; [reflexivity|]. change (last (x :: y :: l) d) with (last (y :: l) d). rewrite IH by congruence. cbn [length]. replace (S (S (length l)) - 1)%nat with (S (S (length l) - 1)) by lia. reflexivity. Qed.
Theorem lambda_path_correct r : (0 < n)%nat -> lambda_path risk pen = Some r ->
  match r with
  | LScalar => forall lam, 0 <= lam -> optimal risk pen lam (rargmin risk)
  | LPath path m => describes risk pen path m
  end.
Proof.
  intros Hn. unfold lambda_path. destruct (lambda_loop _ risk pen (rargmin risk) 0 [] []) as [[path m]|] eqn:E; [|discriminate].
  destruct (loop_correct _ _ _ _ _ _ (inv_init Hn) E) as (path' & m' & E2 & Lm & P1 & P2 & P3). cbn [app] in E2. injection E2 as -> ->.
  destruct path' as [|l path'].
  - intros H. injection H as <-. destruct m'; [|discriminate]. cbn in P3. auto.
  - intros H. injection H as <-. set (P := l :: path') in *. assert (LP : (0 < length P)%nat) by (unfold P; cbn; lia). assert (HP : P <> []) by (unfold P; congruence).
    assert (HH : hd 0 P = nth 0 P 0) by reflexivity. change (describes risk pen ((hd 0 P / 2) :: (P ++ [last P 0 * 2])) (rargmin risk :: (m' ++ [last m' 0%nat]))). clearbody P.
    assert (Hpos : forall i, (i < length P)%nat -> 0 < nth i P 0).
    { induction i as [|i IHi]; intros Hi; [apply (P1 0%nat); auto|]. assert (H := P1 _ Hi). change (nth i P 0 < nth (S i) P 0) in H. assert (0 < nth i P 0) by (apply IHi; lia). lra. }
    assert (LASTP : last P 0 = nth (length P - 1) P 0) by (apply last_nth'; exact HP).
    assert (LASTM : forall d, last m' d = nth (length P - 1) m' 0%nat).
    { intros d. assert (m' <> []) by (intros ->; cbn in Lm; lia). rewrite last_nth' by auto. rewrite Lm. apply nth_indep. lia. }
    assert (NP : forall i, (i < length P)%nat -> nth i (P ++ [last P 0 * 2]) 0 = nth i P 0) by (intros; apply app_nth1; auto).
    assert (NL : nth (length P) (P ++ [last P 0 * 2]) 0 = last P 0 * 2) by (rewrite app_nth2 by lia; rewrite Nat.sub_diag; auto).
    assert (NM : forall i, (i < length P)%nat -> nth i (m' ++ [last m' 0%nat]) 0%nat = nth i m' 0%nat) by (intros; apply app_nth1; lia).
    assert (NLM : nth (length P) (m' ++ [last m' 0%nat]) 0%nat = last m' 0%nat) by (rewrite app_nth2 by lia; rewrite Lm, Nat.sub_diag; auto).
    assert (HL := Hpos (length P - 1)%nat ltac:(lia)). rewrite <- LASTP in HL.
    assert (HD : 0 < hd 0 P) by (rewrite HH; apply (Hpos 0%nat); auto).
    assert (LT : length (P ++ [last P 0 * 2]) = S (length P)) by (rewrite app_length; cbn; lia).
    unfold describes. cbn [length hd]. rewrite LT. split; [lia|]. split; [rewrite !app_length; cbn; lia|]. split; [lra|]. split; [|split; [|split]].
    + intros [|i] Hi; cbn [nth].
      * rewrite NP by auto. rewrite <- HH. lra.
      * destruct (Nat.eq_dec (S i) (length P)) as [Ei|Ni].
        -- rewrite Ei, NL, NP by lia. replace i with (length P - 1)%nat by lia. rewrite <- LASTP. lra.
        -- rewrite !NP by lia. apply (P1 (S i)). lia.
    + intros lam H0 H1. cbn [nth] in H1. rewrite NP in H1 by auto. apply (P2 0%nat); auto.
    + intros [|i] lam Hi1 Hi Ha Hb; [lia|]. cbn [nth] in *. destruct (Nat.eq_dec (S i) (length P)) as [Ei|Ni].
      * rewrite NP in Ha by lia. rewrite NM by lia. replace i with (length P - 1)%nat by lia. rewrite <- (LASTM (rargmin risk)). apply P3.
        rewrite last_nth' by (exact HP). replace (length P - 1)%nat with i by lia. auto.
      * rewrite NP in Ha, Hb by lia. rewrite NM by lia. apply (P2 (S i) lam); auto; lia.
    + intros lam Hl. replace (S (S (length P)) - 2)%nat with (S (length P - 1)) in Hl by lia. replace (S (S (length P)) - 1)%nat with (S (length P)) by lia. cbn [nth] in *.
      rewrite NP in Hl by lia. rewrite NLM, LASTM, <- (LASTM (rargmin risk)). apply P3. rewrite last_nth' by (exact HP). auto.
Qed.
(** ** the slope heuristic *)
Lemma unique_inside a b lam i j : a < lam < b -> 0 <= a -> (forall x, a <= x -> x <= b -> optimal risk pen x i) -> optimal risk pen lam j -> j = i.
Proof.
  intros Hl Ha Hi [Hj1 Hj2]. destruct (Nat.eq_dec j i) as [|N]; auto. exfalso. destruct (Hi lam) as [Hi1 Hi2]; try lra.
  assert (E1 := Hi2 j Hj1). assert (E2 := Hj2 i Hi1). destruct (Hi a) as [_ A]; try lra. destruct (Hi b) as [_ B]; try lra. specialize (A j Hj1). specialize (B j Hj1).
  destruct Hgen as [G _]. apply (G j i Hj1 Hi1 N). unfold prisk in *.
  assert (P0 : nth j pen 0 = nth i pen 0).
  { set (d := nth j pen 0 - nth i pen 0). set (e := nth j risk 0 - nth i risk 0). assert (Z : e + lam * d = 0) by (unfold e, d; lra).
    assert (A' : 0 <= e + a * d) by (unfold e, d; lra). assert (B' : 0 <= e + b * d) by (unfold e, d; lra).
    assert (A2 : 0 <= (lam - a) * - d) by lra. assert (B2 : 0 <= (b - lam) * d) by lra.
    assert (d = 0); [|unfold d in *; lra]. destruct (Rtotal_order d 0) as [Hd|[Hd|Hd]]; auto; exfalso.
    - assert (0 < (b - lam) * - d) by (apply Rmult_lt_0_compat; lra). lra.
    - assert (0 < (lam - a) * d) by (apply Rmult_lt_0_compat; lra). lra. }
  rewrite P0 in *. lra.
Qed.
Lemma nth_map_seq_R {A} (f : nat -> A) k i d : (i < k)%nat -> nth i (map f (seq 0 k)) d = f i.
Proof. intros Hi. rewrite (nth_indep _ _ (f 0%nat)) by (rewrite map_length, seq_length; auto). rewrite map_nth, seq_nth by auto. auto. Qed.
Theorem slope_correct gap comp : (0 < n)%nat -> length comp = n -> (exists i, (S i < n)%nat /\ nth (S i) comp 0 <> nth i comp 0) ->
  forall path m, lambda_path risk pen = Some (LPath path m) ->
  exists lh mh i, slope_heuristic gap risk comp pen = Some (lh, mh) /\ (1 <= i)%nat /\ (S i < length path)%nat /\ lh = gap * nth i path 0 /\
    (forall j, (1 <= j)%nat -> (S j < length path)%nat ->
       nth (nth (j - 1) m 0%nat) comp 0 - nth (nth j m 0%nat) comp 0 <= nth (nth (i - 1) m 0%nat) comp 0 - nth (nth i m 0%nat) comp 0) /\
    optimal risk pen lh mh.
Proof.
  intros Hn Lc (i0 & Hi0 & Hne) path m E. assert (HD := lambda_path_correct _ Hn E). cbn in HD. destruct HD as (L3 & Lm & Hp & Hs & D0 & D1 & D2).
  unfold slope_heuristic. replace (forallb _ _) with false.
  2:{ symmetry. apply not_true_is_false. intros T. rewrite forallb_forall in T. specialize (T i0). rewrite Lc in T. destruct (Req_EM_T (nth (S i0) comp 0 - nth i0 comp 0) 0) as [Z|Z].
      - apply Hne. lra.
      - assert (false = true) by (apply T; apply in_seq; lia). discriminate. }
  rewrite E. cbv zeta. set (N := length path) in *. set (mid := map (fun i => (nth i path 0 + nth (S i) path 0) / 2) (seq 0 (N - 1))).
  assert (Lmid : length mid = (N - 1)%nat) by (unfold mid; rewrite map_length, seq_length; auto). rewrite Lmid.
  assert (Emid : forall i, (i < N - 1)%nat -> nth i mid 0 = (nth i path 0 + nth (S i) path 0) / 2) by (intros; unfold mid; rewrite nth_map_seq_R by auto; auto).
  assert (Hpos : forall i, (i < N)%nat -> 0 < nth i path 0).
  { induction i as [|i IHi]; intros Hi; [destruct path; auto|]. assert (nth i path 0 < nth (S i) path 0) by (apply Hs; auto). assert (0 < nth i path 0) by (apply IHi; lia). lra. }
  assert (EM : forall i, (i < N - 1)%nat -> m_lambda risk pen (nth i mid 0) = nth i m 0%nat).
  { intros i Hi. rewrite Emid by auto. assert (H1 := Hs i ltac:(lia)). assert (H0 := Hpos i ltac:(lia)).
    apply (unique_inside (nth i path 0) (nth (S i) path 0) ((nth i path 0 + nth (S i) path 0) / 2)); try lra; [|apply m_lambda_optimal; auto].
    intros x Hx1 Hx2. destruct i as [|i]; [apply D0; lra|apply D1; auto; lia]. }
  set (gaps := map _ (seq 0 (N - 1 - 1))). assert (Lg : length gaps = (N - 2)%nat) by (unfold gaps; rewrite map_length, seq_length; lia).
  assert (Eg : forall i, (i < N - 2)%nat -> nth i gaps 0 = nth (nth i m 0%nat) comp 0 - nth (nth (S i) m 0%nat) comp 0).
  { intros i Hi. unfold gaps. rewrite nth_map_seq_R by lia. rewrite !EM by lia. auto. }
  clearbody gaps. set (ng := map (fun g => - g) gaps). destruct (rargmin_spec ng) as [R1 R2].
  { intros Z. assert (length ng = 0%nat) by (rewrite Z; auto). unfold ng in H. rewrite map_length in H. lia. }
  assert (Eng : forall i, nth i ng 0 = - nth i gaps 0). { intros i. unfold ng. replace 0 with (- 0) at 1 by lra. rewrite map_nth. auto. }
  assert (Lng : length ng = (N - 2)%nat) by (unfold ng; rewrite map_length; auto). rewrite Lng in *.
  exists (gap * nth (S (rargmin ng)) path 0), (m_lambda risk pen (gap * nth (S (rargmin ng)) path 0)), (S (rargmin ng)).
  split; [auto|]. split; [lia|]. split; [lia|]. split; [auto|]. split; [|apply m_lambda_optimal; auto].
  intros j Hj1 Hj2. replace (S (rargmin ng) - 1)%nat with (rargmin ng) by lia. specialize (R2 (j - 1)%nat ltac:(lia)). rewrite !Eng, !Eg in R2 by lia.
  replace (S (j - 1)) with j in R2 by lia. lra.
Qed.
End Selection.
