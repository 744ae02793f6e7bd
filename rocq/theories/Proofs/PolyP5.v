(** Jacobi matrices: their eigenvalues are the roots, and the Gauss rule is exact up to degree 2n-1. *)
From Coq Require Import List Arith Reals Bool Lia Lra.
From Verif.Base Require Import ListAux CRing RealAux Poly.
From Verif.Model Require Import Polynomials.
From Verif.Spec Require Import PolySpec.
From Verif.Proofs Require Import PolyP PolyP3 PolyP4.
Import ListNotations.
Local Open Scope R_scope.

Lemma rsum_ext_R n (f g : nat -> R) : (forall i, (i < n)%nat -> f i = g i) -> rsum n f = rsum n g.
Proof. exact (rsum_ext n f g). Qed.
Lemma rsum_exchange_R n m (f : nat -> nat -> R) : rsum n (fun i => rsum m (fun j => f i j)) = rsum m (fun j => rsum n (fun i => f i j)).
Proof. exact (rsum_exchange n m f). Qed.
Lemma rsum_pick n k (f : nat -> R) : rsum n (fun j => if (j =? k)%nat then f j else 0) = if (k <? n)%nat then f k else 0.
Proof.
  destruct (Nat.ltb_spec k n) as [H|H].
  - exact (rsum_delta n k f H).
  - apply rsum_zero_R. intros i Hi. destruct (Nat.eqb_spec i k); [lia|auto].
Qed.
Lemma rsum_zero_iff n (f : nat -> R) : (forall i, (i < n)%nat -> 0 <= f i) -> rsum n f = 0 -> forall i, (i < n)%nat -> f i = 0.
Proof.
  intros H E i Hi. pose proof (rsum_term_le n f i H Hi). pose proof (H i Hi). lra.
Qed.

Lemma NoDup_map_in {A B} (f : A -> B) l : (forall x y, In x l -> In y l -> f x = f y -> x = y) -> NoDup l -> NoDup (map f l).
Proof.
  intros H ND. induction ND as [|x l Hx ND IH]; cbn; constructor.
  - intros C. apply in_map_iff in C. destruct C as [y [E Hy]]. apply Hx. rewrite (H x y); cbn; auto.
  - apply IH. intros; apply H; cbn; auto.
Qed.

(** a square matrix with orthonormal columns has orthonormal rows *)
Section Square.
Variable n : nat.
Variable V : nat -> nat -> R.
Hypothesis HO : forall k l, (k < n)%nat -> (l < n)%nat -> rsum n (fun i => V i k * V i l) = kron_delta k l.
Let G i i' := rsum n (fun k => V i k * V i' k).
Lemma G_sq i : (i < n)%nat -> rsum n (fun i' => G i i' ^ 2) = G i i.
Proof.
  intros Hi.
  transitivity (rsum n (fun i' => rsum n (fun k => rsum n (fun l => V i k * V i l * (V i' k * V i' l))))).
  - apply rsum_ext_R. intros i' Hi'. unfold G. cbn [pow]. rewrite Rmult_1_r, rmul_rsum_R.
    apply rsum_ext_R. intros k Hk. apply rsum_ext_R. intros l Hl. ring.
  - rewrite rsum_exchange_R. unfold G. apply rsum_ext_R. intros k Hk. rewrite rsum_exchange_R.
    rewrite (rsum_ext_R n _ (fun l => if (l =? k)%nat then V i k * V i l else 0)).
    + rewrite (rsum_pick n k (fun l => V i k * V i l)). destruct (Nat.ltb_spec k n); [auto|lia].
    + intros l Hl. rewrite rsum_scal_l_R, HO by auto. unfold kron_delta. rewrite (Nat.eqb_sym k l).
      destruct (Nat.eqb_spec l k); lra.
Qed.
Lemma D_sq i : (i < n)%nat -> rsum n (fun i' => (kron_delta i i' - G i i') ^ 2) = 1 - G i i.
Proof.
  intros Hi.
  rewrite (rsum_ext_R n _ (fun i' => (if (i' =? i)%nat then 1 - 2 * G i i' else 0) + G i i' ^ 2)).
  - rewrite rsum_plus_R, (rsum_pick n i (fun i' => 1 - 2 * G i i')), G_sq by auto. destruct (Nat.ltb_spec i n); [lra|lia].
  - intros i' Hi'. unfold kron_delta. rewrite (Nat.eqb_sym i i'). destruct (Nat.eqb_spec i' i); ring.
Qed.
Lemma rows_orthonormal i i' : (i < n)%nat -> (i' < n)%nat -> rsum n (fun k => V i k * V i' k) = kron_delta i i'.
Proof.
  assert (T : rsum n (fun i => 1 - G i i) = 0).
  { rewrite (rsum_minus_R n (fun _ => 1)). unfold G. rewrite rsum_exchange_R.
    rewrite (rsum_ext_R n (fun j => rsum n (fun i0 => V i0 j * V i0 j)) (fun _ => 1)); [lra|]. intros k Hk. rewrite HO by auto. unfold kron_delta. rewrite Nat.eqb_refl. auto. }
  intros Hi Hi'.
  assert (Z : 1 - G i i = 0).
  { apply (rsum_zero_iff n (fun i => 1 - G i i)); auto. intros j Hj. rewrite <- D_sq by auto.
    apply rsum_nonneg. intros. apply pow2_ge_0. }
  rewrite <- D_sq in Z by auto.
  assert (E : (kron_delta i i' - G i i') ^ 2 = 0).
  { apply (rsum_zero_iff n (fun i' => (kron_delta i i' - G i i') ^ 2)); auto. intros. apply pow2_ge_0. }
  cbn in E. change (rsum n (fun k => V i k * V i' k)) with (G i i').
  assert (kron_delta i i' - G i i' = 0) by (destruct (Rmult_integral _ _ E); lra). lra.
Qed.
End Square.

Lemma pmul_length p q : q <> [] -> length (pmul p q) = match p with [] => 0%nat | _ => (length p + length q - 1)%nat end.
Proof.
  intros Hq. assert (Lq : (1 <= length q)%nat) by (destruct q; [congruence|cbn; lia]). clear Hq.
  induction p as [|u p IH]; auto. cbn [pmul length]. rewrite padd_length, pscal_length. cbn [length]. rewrite IH.
  destruct p; cbn [length]; lia.
Qed.
Lemma pmul_lead p q m l : length p = S m -> length q = S l -> nth (m + l) (pmul p q) 0 = nth m p 0 * nth l q 0.
Proof.
  revert m. induction p as [|u p IH]; intros m Lp Lq; [discriminate|]. cbn [pmul]. rewrite nth_padd, nth_pscal.
  destruct m as [|m].
  - destruct p; [|discriminate]. cbn. destruct l; cbn; try lra. destruct l; lra.
  - rewrite (nth_overflow q) by (cbn in *; lia). cbn [Nat.add nth]. rewrite IH by (cbn in *; lia). ring.
Qed.

(** eigenvectors of the Jacobi matrix *)
Section Jacobi.
Variables a b : nat -> R.
Variable n : nat.
Hypothesis Hn : (1 <= n)%nat.
Hypothesis Hb : forall k, (1 <= k <= n)%nat -> 0 < b k.

Lemma jacobi_row i v : (i < n)%nat -> rsum n (fun j => jacobi a b i j * v j) =
  a i * v i + (if (S i <? n)%nat then sqrt (b (S i)) * v (S i) else 0) + match i with O => 0 | S i' => sqrt (b i) * v i' end.
Proof.
  intros Hi.
  rewrite (rsum_ext_R n _ (fun j => (if (j =? i)%nat then a i * v j else 0) + (if (j =? S i)%nat then sqrt (b (S i)) * v j else 0)
    + (match i with O => 0 | S i' => if (j =? i')%nat then sqrt (b i) * v j else 0 end))).
  - rewrite !rsum_plus_R, (rsum_pick n i (fun j => a i * v j)), (rsum_pick n (S i) (fun j => sqrt (b (S i)) * v j)).
    destruct (Nat.ltb_spec i n); [|lia]. f_equal. destruct i as [|i']; [apply rsum_zero_R; auto|].
    rewrite (rsum_pick n i' (fun j => sqrt (b (S i')) * v j)). destruct (Nat.ltb_spec i' n); [auto|lia].
  - intros j Hj. unfold jacobi.
    destruct (Nat.eqb_spec i j) as [->|H1].
    + rewrite Nat.eqb_refl. destruct (Nat.eqb_spec j (S j)); [lia|]. destruct j as [|j]; [lra|].
      destruct (Nat.eqb_spec (S j) j); [lia|lra].
    + destruct (Nat.eqb_spec j i); [lia|]. rewrite (Nat.eqb_sym (S i) j). destruct (Nat.eqb_spec j (S i)) as [->|H2].
      * destruct i as [|i]; [lra|]. destruct (Nat.eqb_spec (S (S i)) i); [lia|lra].
      * destruct (Nat.eqb_spec i (S j)) as [->|H3].
        -- rewrite Nat.eqb_refl. lra.
        -- destruct i as [|i]; [lra|]. destruct (Nat.eqb_spec j i); [lia|lra].
Qed.

Lemma sqb k : (1 <= k <= n)%nat -> sqrt (b k) <> 0.
Proof. intros H. pose proof (sqrt_lt_R0 _ (Hb k H)). lra. Qed.

Lemma pval_rec i x : (i < n)%nat -> sqrt (b (S i)) * pval a b (S i) x =
  (x - a i) * pval a b i x - match i with O => 0 | S i' => sqrt (b i) * pval a b i' x end.
Proof.
  intros Hi. destruct i as [|i].
  - rewrite pval_1, pval_0. field. apply sqb. lia.
  - rewrite pval_SS. field. apply sqb. lia.
Qed.

Lemma eigvec_form lam v : (forall i, (i < n)%nat -> rsum n (fun j => jacobi a b i j * v j) = lam * v i) ->
  (forall i, (i < n)%nat -> v i = v 0%nat * pval a b i lam) /\ v 0%nat * pval a b n lam = 0.
Proof.
  intros H.
  assert (K : forall i, (i < n)%nat -> v i = v 0%nat * pval a b i lam).
  { enough (K2 : forall i, ((i < n)%nat -> v i = v 0%nat * pval a b i lam) /\ ((S i < n)%nat -> v (S i) = v 0%nat * pval a b (S i) lam)) by apply K2.
    induction i as [|i [IH1 IH2]].
    - split; intros Hi; [rewrite pval_0; lra|].
      pose proof (H 0%nat ltac:(lia)) as E. rewrite jacobi_row in E by lia. destruct (Nat.ltb_spec 1 n); [|lia].
      rewrite pval_1. field_simplify_eq; [lra|apply sqb; lia].
    - split; auto. intros Hi. pose proof (H (S i) ltac:(lia)) as E. rewrite jacobi_row in E by lia.
      destruct (Nat.ltb_spec (S (S i)) n); [|lia]. rewrite pval_SS.
      rewrite IH1, IH2 in E by lia. apply (Rmult_eq_reg_l (sqrt (b (S (S i))))); [|apply sqb; lia].
      field_simplify; [|apply sqb; lia]. lra. }
  split; auto.
  pose proof (H (n - 1)%nat ltac:(lia)) as E. rewrite jacobi_row in E by lia.
  destruct (Nat.ltb_spec (S (n - 1)) n); [lia|]. pose proof (pval_rec (n - 1) lam ltac:(lia)) as P.
  apply (Rmult_eq_reg_l (sqrt (b n))); [|apply sqb; lia]. replace (S (n - 1)) with n in P by lia.
  transitivity (v 0%nat * (sqrt (b n) * pval a b n lam)); [ring|]. rewrite P.
  rewrite (K (n - 1)%nat) in E by lia. destruct (n - 1)%nat as [|m] eqn:En; [nra|].
  rewrite (K m) in E by lia. nra.
Qed.

Variables (lam : nat -> R) (V : nat -> nat -> R).
Hypothesis HE : eig_contract n (jacobi a b) lam V.

Lemma V_form k i : (k < n)%nat -> (i < n)%nat -> V i k = V 0%nat k * pval a b i (lam k).
Proof.
  intros Hk Hi. destruct HE as [H1 _]. apply (eigvec_form (lam k) (fun i => V i k)); auto.
Qed.
Lemma V0_nz k : (k < n)%nat -> V 0%nat k <> 0.
Proof.
  intros Hk E. destruct HE as [_ [H2 _]]. specialize (H2 k Hk).
  rewrite (rsum_ext_R n _ (fun _ => 0)) in H2; [rewrite rsum_zero_R in H2; auto; lra|].
  intros i Hi. rewrite V_form, E by auto. ring.
Qed.
Lemma lam_root k : (k < n)%nat -> pval a b n (lam k) = 0.
Proof.
  intros Hk. destruct HE as [H1 _]. destruct (eigvec_form (lam k) (fun i => V i k)) as [_ E]; [auto|].
  apply Rmult_integral in E. destruct E as [E|E]; auto. exfalso. apply (V0_nz k Hk E).
Qed.
Lemma lam_inj k l : (k < n)%nat -> (l < n)%nat -> lam k = lam l -> k = l.
Proof.
  intros Hk Hl E. destruct (Nat.eq_dec k l) as [|Hne]; auto. exfalso.
  destruct HE as [_ [_ H3]].
  pose (c := fun j => if (j =? k)%nat then V 0%nat l else if (j =? l)%nat then - V 0%nat k else 0).
  assert (C : c k = 0).
  { apply H3; auto. intros i Hi.
    rewrite (rsum_ext_R n _ (fun j => (if (j =? k)%nat then V 0%nat l * V i j else 0) + (if (j =? l)%nat then - V 0%nat k * V i j else 0))).
    - rewrite rsum_plus_R, (rsum_pick n k (fun j => V 0%nat l * V i j)), (rsum_pick n l (fun j => - V 0%nat k * V i j)).
      destruct (Nat.ltb_spec k n); [|lia]. destruct (Nat.ltb_spec l n); [|lia].
      rewrite (V_form k i), (V_form l i), E by auto. ring.
    - intros j Hj. unfold c. destruct (Nat.eqb_spec j k); destruct (Nat.eqb_spec j l); try lia; ring. }
  unfold c in C. rewrite Nat.eqb_refl in C. apply (V0_nz l Hl C).
Qed.
Lemma jacobi_sym i j : jacobi a b i j = jacobi a b j i.
Proof.
  unfold jacobi. rewrite (Nat.eqb_sym j i). destruct (Nat.eqb_spec i j) as [->|H]; auto.
  rewrite (Nat.eqb_sym (S j) i), (Nat.eqb_sym j (S i)).
  destruct (Nat.eqb_spec (S i) j); destruct (Nat.eqb_spec i (S j)); subst; try lia; auto.
Qed.
Lemma V_orth k l : (k < n)%nat -> (l < n)%nat -> rsum n (fun i => V i k * V i l) = kron_delta k l.
Proof.
  intros Hk Hl. destruct HE as [H1 [H2 _]]. unfold kron_delta. destruct (Nat.eqb_spec k l) as [->|Hne].
  - rewrite <- (H2 l Hl). apply rsum_ext_R. intros; ring.
  - assert (E : lam k * rsum n (fun i => V i k * V i l) = lam l * rsum n (fun i => V i k * V i l)).
    { rewrite <- !rsum_scal_l_R.
      transitivity (rsum n (fun i => rsum n (fun j => jacobi a b i j * V j k * V i l))).
      - apply rsum_ext_R. intros i Hi. rewrite <- Rmult_assoc, <- H1 by auto. rewrite <- rsum_scal_r_R. auto.
      - rewrite rsum_exchange_R. apply rsum_ext_R. intros j Hj.
        transitivity (V j k * (lam l * V j l)); [|ring]. rewrite <- (H1 l j) by auto. rewrite <- rsum_scal_l_R.
        apply rsum_ext_R. intros i Hi. rewrite (jacobi_sym j i). ring. }
    assert (Hd : lam k - lam l <> 0) by (intros C; apply Hne; apply lam_inj; auto; lra).
    apply (Rmult_eq_reg_l (lam k - lam l)); auto. lra.
Qed.

Lemma roots_iff x : pval a b n x = 0 <-> exists k, (k < n)%nat /\ x = lam k.
Proof.
  split.
  - intros Hx. destruct (in_dec Req_EM_T x (map lam (seq 0 n))) as [Hin|Hout].
    { apply in_map_iff in Hin. destruct Hin as [k [<- Hk]]. apply in_seq in Hk. exists k. split; auto; lia. }
    exfalso.
    assert (L : (length (x :: map lam (seq 0 n)) < length (monic a b n))%nat).
    { apply roots_bound.
      - constructor; auto. apply NoDup_map_in; [|apply seq_NoDup].
        intros k l Hk Hl E. apply in_seq in Hk. apply in_seq in Hl. apply lam_inj; auto; lia.
      - assert (Z : forall r, pval a b n r = 0 -> peval (monic a b n) r = 0).
        { intros r Hr. rewrite pval_monic in Hr by auto. assert (0 < cprod b n) by (apply cprod_pos; auto).
          apply (Rmult_eq_reg_r (/ cprod b n)); [|apply Rinv_neq_0_compat; lra]. unfold Rdiv in Hr. lra. }
        intros r [<-|Hr]; auto. apply in_map_iff in Hr. destruct Hr as [k [<- Hk]]. apply in_seq in Hk. apply Z. apply lam_root. lia.
      - assert (Ln := monic_length a b n). assert (Le := monic_lead a b n). 
        assert (X : forall (l : list R) m, length l = S m -> last l 0 = nth m l 0).
        { clear. induction l as [|u l IH]; intros m E; [discriminate|]. destruct l as [|u' l]; [destruct m; [auto|discriminate]|].
          destruct m as [|m]; [discriminate|]. change (last (u' :: l) 0 = nth m (u' :: l) 0). apply IH. cbn in *; lia. }
        rewrite (X _ n Ln), Le. lra. }
    rewrite monic_length in L. cbn [length] in L. rewrite map_length, seq_length in L. lia.
  - intros [k [Hk ->]]. apply lam_root; auto.
Qed.

(** the Gauss rule *)
Lemma gauss_weight_eq k : (k < n)%nat -> gauss_weight n V k = V 0%nat k ^ 2.
Proof. intros Hk. unfold gauss_weight. destruct HE as [_ [H2 _]]. rewrite H2, sqrt_1 by auto. lra. Qed.
Lemma gauss_weight_pos k : (k < n)%nat -> 0 < gauss_weight n V k.
Proof. intros Hk. rewrite gauss_weight_eq by auto. pose proof (V0_nz k Hk). cbn [pow]. rewrite Rmult_1_r. apply Rsqr_pos_lt in H. exact H. Qed.

Definition Q (p : list R) : R := rsum n (fun k => gauss_weight n V k * peval p (lam k)).
Lemma Q_functional : functional Q.
Proof.
  constructor.
  - intros p q H. apply rsum_ext_R. intros. rewrite H. auto.
  - intros p q. unfold Q. rewrite <- rsum_plus_R. apply rsum_ext_R. intros. rewrite peval_padd. ring.
  - intros c p. unfold Q. rewrite <- rsum_scal_l_R. apply rsum_ext_R. intros. rewrite peval_pscal. ring.
Qed.
Lemma Q_orth i j : (i <= n)%nat -> (j < n)%nat -> ip Q (monic a b i) (monic a b j) = if (i =? j)%nat then cprod b i * cprod b j else 0.
Proof.
  intros Hi Hj. unfold ip, Q.
  assert (M : forall i x, (i <= n)%nat -> peval (monic a b i) x = cprod b i * pval a b i x).
  { intros m x Hm. rewrite pval_monic by (intros; apply Hb; lia). assert (0 < cprod b m) by (apply cprod_pos; intros; apply Hb; lia). field. lra. }
  destruct (Nat.eq_dec i n) as [->|Hne].
  - destruct (Nat.eqb_spec n j); [lia|]. apply rsum_zero_R. intros k Hk. rewrite peval_pmul, M, lam_root by (auto; lia). ring.
  - rewrite (rsum_ext_R n _ (fun k => cprod b i * cprod b j * (V i k * V j k))).
    + rewrite rsum_scal_l_R, (rows_orthonormal n V V_orth) by lia. unfold kron_delta. destruct (Nat.eqb_spec i j); ring.
    + intros k Hk. rewrite gauss_weight_eq, peval_pmul, !M, (V_form k i), (V_form k j) by (auto; lia). ring.
Qed.

Variable L : list R -> R.
Hypothesis HL : functional L.
Hypothesis L1 : L [1] = 1.
Hypothesis HLO : orth_upto L a b n.
Hypothesis HLN : forall m, (m <= n)%nat -> forall k, m = S k -> ip L (monic a b m) (monic a b m) = b m * ip L (monic a b k) (monic a b k).

Lemma QL_basis i j : (i <= n)%nat -> (j < n)%nat -> ip Q (monic a b i) (monic a b j) = ip L (monic a b i) (monic a b j).
Proof.
  intros Hi Hj. rewrite Q_orth by auto. destruct (Nat.eqb_spec i j) as [->|Hne].
  - rewrite (norm_prod L HL a b n) by auto. rewrite L1. ring.
  - symmetry. apply HLO; auto. lia.
Qed.

Lemma QL_agree p : (length p <= 2 * n)%nat -> Q p = L p.
Proof.
  remember (length p) as d eqn:Ed. revert p Ed. induction d as [|d IH]; intros p Ed Hd.
  - assert (p = []) by (destruct p; [auto|discriminate]). subst p.
    assert (Z : forall L, functional L -> L [] = 0).
    { clear. intros L HL. pose proof (L_scal L HL 0 []) as E. cbn in E. lra. }
    rewrite (Z Q Q_functional), (Z L HL). auto.
  - set (j := (d / 2)%nat). set (i := (d - j)%nat).
    assert (Hj : (2 * j <= d < 2 * j + 2)%nat).
    { unfold j. pose proof (Nat.div_mod d 2 ltac:(lia)). pose proof (Nat.mod_upper_bound d 2 ltac:(lia)). lia. }
    set (q := pmul (monic a b i) (monic a b j)).
    set (c := nth d p 0).
    set (r := padd p (pscal (- c) q)).
    assert (Lq : length q = S d).
    { unfold q. pose proof (monic_length a b i) as LI. pose proof (monic_length a b j) as LJ.
      rewrite pmul_length by (intros C; rewrite C in LJ; discriminate).
      destruct (monic a b i); [discriminate|]. rewrite LI, LJ. unfold i. lia. }
    assert (Lr : length r = S d) by (unfold r; rewrite padd_length, pscal_length, Lq, <- Ed; lia).
    assert (Zr : nth d r 0 = 0).
    { unfold r. rewrite nth_padd, nth_pscal. unfold q. replace d with (i + j)%nat at 2 by (unfold i; lia).
      rewrite pmul_lead by apply monic_length. rewrite !monic_lead. unfold c. ring. }
    assert (Er : forall x, peval (removelast r) x = peval r x) by (intros x; apply removelast_peval with (m := d); auto).
    assert (EQ : Q (removelast r) = L (removelast r)).
    { apply IH; [|lia]. rewrite removelast_firstn_len, firstn_length, Lr. cbn. lia. }
    rewrite (L_ext Q Q_functional _ r Er), (L_ext L HL _ r Er) in EQ.
    unfold r in EQ. rewrite (L_add Q Q_functional), (L_add L HL), (L_scal Q Q_functional), (L_scal L HL) in EQ.
    assert (EB : Q q = L q) by (apply (QL_basis i j); unfold i; lia).
    rewrite EB in EQ. lra.
Qed.
End Jacobi.
