(** orth_at_node: the contracts of matrix_rank, pinv and inv are satisfiable. *)
From Coq Require Import List Arith Lia Bool Reals Lra Classical IndefiniteDescription.
From Verif.Base Require Import ListAux CRing Index RealAux LinAlg.
From Verif.Model Require Import Numpy.
From Verif.Spec Require Import TensorSpec TruncatorSpec LearningSpec FunctionalSpec OrthNodeSpec.
From Verif.Proofs Require Import PolyP5 SpectralP SpectralP2 LapackP EckartP HsvdP9.
Import ListNotations.
Local Open Scope R_scope.

Lemma comb2 N k q (x y : nat -> R) : orthonormal N k q -> rsum N (fun i => rsum k (fun c => x c * q i c) * rsum k (fun d => y d * q i d)) = rsum k (fun c => x c * y c).
Proof.
  intros HO. rewrite (rsum_ext_R' N _ (fun i => rsum k (fun c => rsum k (fun d => (x c * y d) * (q i c * q i d))))).
  - rewrite rsum_swap_R. apply rsum_ext_R'. intros c Hc. rewrite rsum_swap_R. rewrite (rsum_ext_R' k _ (fun d => if (d =? c)%nat then x c * y d else 0)); [apply rsum_delta_R; auto|].
    intros d Hd. rewrite rsum_scal_l_R, (HO c d Hc Hd). unfold delta_ij. rewrite Nat.eqb_sym. destruct (d =? c)%nat; ring.
  - intros i Hi. rewrite <- rsum_scal_r_R. apply rsum_ext_R'. intros c _. rewrite <- rsum_scal_l_R. apply rsum_ext_R'. intros; ring.
Qed.
Lemma rank_exists : exists f, rank_contract f.
Proof.
  destruct (functional_choice (fun (M : nd R) (v : nat) => forall m n, shape M = [m; n] -> forall k, (v <= k)%nat <-> rank_at_most [m; n] [0%nat] k (get M))) as [f Hf].
  - intros M. destruct (shape M) as [|m [|n [|? ?]]] eqn:ES; try (exists 0%nat; intros; congruence).
    assert (H0 : rank_at_most [m; n] [0%nat] m (get M)).
    { exists (fun c x => if (c =? nth 0 x 0)%nat then 1 else 0), (fun c y => get M [c; nth 0 y 0%nat]). intros is Hv. destruct is as [|i [|j [|]]]; try (apply valid_length in Hv; discriminate).
      inversion Hv as [|i0 ? js ? Hi Hv']; subst. cbn. rewrite (rsum_ext_R' m _ (fun c => if (c =? i)%nat then get M [c; j] else 0)); [symmetry; apply rsum_delta_R; auto|]. intros c _. destruct (c =? i)%nat; ring. }
    assert (Mn : forall b, rank_at_most [m; n] [0%nat] b (get M) -> exists v, (v <= b)%nat /\ rank_at_most [m; n] [0%nat] v (get M) /\ forall k, rank_at_most [m; n] [0%nat] k (get M) -> (v <= k)%nat).
    { induction b as [b IH] using (well_founded_induction lt_wf). intros Hb. destruct (classic (exists k, (k < b)%nat /\ rank_at_most [m; n] [0%nat] k (get M))) as [(k & Lk & Hk)|NK].
      - destruct (IH k Lk Hk) as (v & L & R1 & R2). exists v. split; [lia|auto].
      - exists b. split; auto. split; auto. intros k Hk. destruct (le_lt_dec b k); auto. exfalso. apply NK. exists k. auto. }
    destruct (Mn m H0) as (v & _ & R1 & R2). exists v. intros m' n' E k. injection E as <- <-. split; auto. intros L. apply (rank_le_mono _ _ v); auto.
  - exists f. intros M m n E. apply (Hf M m n E).
Qed.
Lemma pinv_exists : exists f, pinv_contract f.
Proof.
  destruct svd_contract_exists as [svd SVD].
  set (tt := fun x : R => if Req_EM_T x 0 then 0 else / x).
  assert (T1 : forall x, x * tt x * x = x) by (intros x; unfold tt; destruct (Req_EM_T x 0); [subst; ring|field; auto]).
  assert (T2 : forall x, tt x * x * tt x = tt x) by (intros x; unfold tt; destruct (Req_EM_T x 0); [subst; ring|field; auto]).
  set (f := fun M : nd R => let U := fst (fst (svd M)) in let s := snd (fst (svd M)) in let V := snd (svd M) in
     ND [nth 1 (shape M) 0%nat; nth 0 (shape M) 0%nat] (fun is => rsum (length s) (fun c => get V [c; nth 0 is 0%nat] * tt (nth c s 0) * get U [nth 1 is 0%nat; c]))).
  exists f. intros M m n E. destruct (SVD M m n E) as (SU & Ls & SV & Sp & Sd & OU & OV & EM).
  set (U := fst (fst (svd M))) in *. set (s := snd (fst (svd M))) in *. set (V := snd (svd M)) in *. set (k := Nat.min m n) in *.
  assert (UO : orthonormal m k (fun i c => get U [i; c])) by (intros a b Ha Hb; exact (OU a b Ha Hb)).
  assert (VO : orthonormal n k (fun j c => get V [c; j])) by (intros a b Ha Hb; exact (OV a b Ha Hb)).
  assert (EP : forall i j, get (f M) [i; j] = rsum k (fun c => get V [c; i] * tt (nth c s 0) * get U [j; c])) by (intros; unfold f; cbn [get nth]; fold s U V; rewrite Ls; auto).
  assert (MP : forall i j, (i < m)%nat -> (j < m)%nat -> rsum n (fun k => get M [i; k] * get (f M) [k; j]) = rsum k (fun c => get U [i; c] * nth c s 0 * (tt (nth c s 0) * get U [j; c]))).
  { intros i j Hi Hj. rewrite <- (comb2 n k _ (fun c => get U [i; c] * nth c s 0) (fun c => tt (nth c s 0) * get U [j; c]) VO). apply rsum_ext_R'. intros y Hy. rewrite EM, EP by auto. f_equal. apply rsum_ext_R'. intros; ring. }
  assert (PM : forall i j, (i < n)%nat -> (j < n)%nat -> rsum m (fun k => get (f M) [i; k] * get M [k; j]) = rsum k (fun c => get V [c; i] * tt (nth c s 0) * (nth c s 0 * get V [c; j]))).
  { intros i j Hi Hj. rewrite <- (comb2 m k _ (fun c => get V [c; i] * tt (nth c s 0)) (fun c => nth c s 0 * get V [c; j]) UO). apply rsum_ext_R'. intros y Hy. rewrite EM, EP by auto. f_equal. apply rsum_ext_R'. intros; ring. }
  split; [unfold f; cbn [shape]; rewrite E; auto|]. cbv zeta. split; [|split; [|split]].
  - intros i j Hi Hj. rewrite EM by auto. transitivity (rsum m (fun q => rsum k (fun c => (get U [i; c] * nth c s 0 * tt (nth c s 0)) * get U [q; c]) * rsum k (fun d => (nth d s 0 * get V [d; j]) * get U [q; d]))).
    + apply rsum_ext_R'. intros q Hq. rewrite MP, EM by auto. f_equal; apply rsum_ext_R'; intros; ring.
    + rewrite (comb2 m k _ _ _ UO). apply rsum_ext_R'. intros c _. rewrite <- (T1 (nth c s 0)) at 4. ring.
  - intros i j Hi Hj. rewrite EP. transitivity (rsum n (fun q => rsum k (fun c => (get V [c; i] * tt (nth c s 0) * nth c s 0) * get V [c; q]) * rsum k (fun d => (tt (nth d s 0) * get U [j; d]) * get V [d; q]))).
    + apply rsum_ext_R'. intros q Hq. rewrite PM, EP by auto. f_equal; apply rsum_ext_R'; intros; ring.
    + rewrite (comb2 n k (fun q c => get V [c; q]) _ _ VO). apply rsum_ext_R'. intros c _. rewrite <- (T2 (nth c s 0)) at 3. ring.
  - intros i j Hi Hj. rewrite !MP by auto. apply rsum_ext_R'. intros; ring.
  - intros i j Hi Hj. rewrite !PM by auto. apply rsum_ext_R'. intros; ring.
Qed.
Lemma inv_exists : exists f, inv_contract f /\ inv_complete f.
Proof.
  set (both := fun (M N : nd R) => exists n, shape M = [n; n] /\ shape N = [n; n] /\
    identity n (fun i j => rsum n (fun k => get M [i; k] * get N [k; j])) /\ identity n (fun i j => rsum n (fun k => get N [i; k] * get M [k; j]))).
  destruct (functional_choice (fun (M : nd R) (o : option (nd R)) => match o with Some N => both M N | None => forall N, ~ both M N end)) as [f Hf].
  - intros M. destruct (classic (exists N, both M N)) as [(N & HN)|NN]; [exists (Some N); auto|exists None]. intros N HN. apply NN. exists N. auto.
  - exists f. split.
    + intros M N E. pose proof (Hf M) as Q. rewrite E in Q. exact Q.
    + intros M n N E HN. pose proof (Hf M) as Q. destruct (f M) as [P|]; [exists P; auto|]. exfalso.
      assert (HI : inj n n (fun i j => get M [i; j])).
      { intros x Hx j Hj. transitivity (mv n N (fun i => mv n (fun i j => get M [i; j]) x i) j).
        - rewrite mv_mv. unfold mv. rewrite (rsum_ext_R' n _ (fun k => if (k =? j)%nat then x k else 0)); [symmetry; apply rsum_delta_R; auto|].
          intros k Hk. etransitivity; [apply f_equal2; [exact (HN j k Hj Hk)|reflexivity]|]. rewrite Nat.eqb_sym. destruct (k =? j)%nat; ring.
        - unfold mv at 1. apply rsum_zero_R. intros k Hk. rewrite Hx by auto. ring. }
      destruct (functional_choice (fun (j : nat) (x : nat -> R) => forall i, (i < n)%nat -> mv n (fun i j => get M [i; j]) x i = if (i =? j)%nat then 1 else 0)) as [g Hg].
      { intros j. apply (inj_surj n _ HI (fun i => if (i =? j)%nat then 1 else 0)). }
      assert (EN : forall i j, (i < n)%nat -> (j < n)%nat -> N i j = g j i).
      { intros i j Hi Hj. transitivity (mv n N (fun a => mv n (fun i j => get M [i; j]) (g j) a) i).
        - unfold mv at 1. rewrite (rsum_ext_R' n _ (fun a => if (a =? j)%nat then N i a else 0)); [symmetry; apply rsum_delta_R; auto|]. intros a Ha. rewrite Hg by auto. destruct (a =? j)%nat; ring.
        - rewrite mv_mv. unfold mv. rewrite (rsum_ext_R' n _ (fun k => if (k =? i)%nat then g j k else 0)); [apply rsum_delta_R; auto|].
          intros k Hk. etransitivity; [apply f_equal2; [exact (HN i k Hi Hk)|reflexivity]|]. rewrite Nat.eqb_sym. destruct (k =? i)%nat; ring. }
      apply (Q (ND [n; n] (fun is => g (nth 1 is 0%nat) (nth 0 is 0%nat)))). exists n. split; auto. split; auto. split.
      * intros i j Hi Hj. cbn [get nth]. exact (Hg j i Hi).
      * intros i j Hi Hj. cbn [get nth]. etransitivity; [|exact (HN i j Hi Hj)]. apply rsum_ext_R'. intros k Hk. rewrite EN by auto. auto.
Qed.
