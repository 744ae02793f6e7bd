(** Tree-based tensors: Kronecker and Hadamard products. *)
From Coq Require Import List Arith Lia Bool ZArith Ring Permutation.
From Verif.Base Require Import ListAux CRing Index.
From Verif.Model Require Import Sorting Numpy FullTensor DimensionTree TreeBased.
From Verif.Spec Require Import TensorSpec TreeSpec TreeTensorSpec.
From Verif.Proofs Require Import NumpyP FullTensorP FullTensorP2 FullTensorP3 FullTensorP4 DimTreeP DimTreeP2 DimTreeP3 TreeTensorP TreeTensorP2 TreeTensorP3 TreeTensorP4 TreeTensorP5 TreeTensorP6 TreeTensorP7 TreeTensorP8 TreeTensorP9.
Import ListNotations.

(** quotients and remainders of a list of indices *)
Definition divs (is s : list nat) : list nat := map (fun p => (fst p / snd p)%nat) (combine is s).
Definition mods (is s : list nat) : list nat := map (fun p => (fst p mod snd p)%nat) (combine is s).
Definition muls (s1 s2 : list nat) : list nat := map (fun p => (fst p * snd p)%nat) (combine s1 s2).
Lemma divs_app a b c d : length a = length c -> divs (a ++ b) (c ++ d) = divs a c ++ divs b d.
Proof. intros L. unfold divs. rewrite combine_app, map_app by auto. auto. Qed.
Lemma mods_app a b c d : length a = length c -> mods (a ++ b) (c ++ d) = mods a c ++ mods b d.
Proof. intros L. unfold mods. rewrite combine_app, map_app by auto. auto. Qed.
Lemma muls_app a b c d : length a = length c -> muls (a ++ b) (c ++ d) = muls a c ++ muls b d.
Proof. intros L. unfold muls. rewrite combine_app, map_app by auto. auto. Qed.
Lemma muls_length a b : length a = length b -> length (muls a b) = length a.
Proof. intros L. unfold muls. rewrite map_length, combine_length. lia. Qed.
Lemma nth_divs is s k : length is = length s -> nth k (divs is s) 0%nat = (nth k is 0 / nth k s 0)%nat.
Proof.
  intros L. destruct (le_lt_dec (length is) k) as [H|H].
  - rewrite !nth_overflow; auto; try lia. unfold divs. rewrite map_length, combine_length. lia.
  - unfold divs. rewrite map_nth_in with (da := (0%nat, 0%nat)) by (rewrite combine_length; lia). rewrite combine_nth by auto. auto.
Qed.
Lemma nth_mods is s k : length is = length s -> (k < length is)%nat -> nth k (mods is s) 0%nat = (nth k is 0 mod nth k s 0)%nat.
Proof.
  intros L H. unfold mods. rewrite map_nth_in with (da := (0%nat, 0%nat)) by (rewrite combine_length; lia). rewrite combine_nth by auto. auto.
Qed.
Lemma valid_divs s1 s2 is : length s1 = length s2 -> valid (muls s1 s2) is -> valid s1 (divs is s2) /\ valid s2 (mods is s2).
Proof.
  revert s2 is. induction s1 as [|a s1 IH]; intros [|b s2] is L Hv; try discriminate.
  - inversion Hv. split; constructor.
  - unfold muls in Hv. cbn in Hv. inversion Hv as [|x y l l' H1 H2]; subst. cbn in L. destruct (IH s2 l ltac:(lia) H2) as [A B].
    assert (b <> 0)%nat by nia. split; constructor; auto; cbn.
    + apply Nat.div_lt_upper_bound; lia.
    + apply Nat.mod_upper_bound. auto.
Qed.

Section Kron.
  Context {R : Type} {CR : CRing R}.
  Add Ring Rrkr : rth.
  Local Open Scope cr_scope.

  Lemma rsum_divmod a b (F : nat -> nat -> R) : rsum (a * b) (fun k => F (k / b)%nat (k mod b)%nat) = rsum a (fun i => rsum b (fun j => F i j)).
  Proof.
    rewrite Nat.mul_comm, rsum_mul. apply rsum_ext. intros i Hi. apply rsum_ext. intros j Hj.
    f_equal; [symmetry; apply (Nat.div_unique (j + b * i) b i j); lia|symmetry; apply (Nat.mod_unique (j + b * i) b i j); lia].
  Qed.
  Lemma bsum_kron (a b : nat -> nat) cs : forall (F : list nat -> list nat -> R),
    bsum (map (fun c => (a c * b c)%nat) cs) (fun ks => F (divs ks (map b cs)) (mods ks (map b cs))) =
    bsum (map a cs) (fun is => bsum (map b cs) (fun js => F is js)).
  Proof.
    induction cs as [|c cs IH]; intros F; [cbn; auto|]. cbn [map bsum].
    etransitivity.
    { apply rsum_ext. intros k Hk. unfold divs, mods. cbn [combine map fst snd].
      apply (IH (fun u v => F ((k / b c)%nat :: u) ((k mod b c)%nat :: v))). }
    rewrite (rsum_divmod (a c) (b c) (fun x y => bsum (map a cs) (fun is => bsum (map b cs) (fun js => F (x :: is) (y :: js))))).
    apply rsum_ext. intros x Hx. symmetry. apply bsum_rsum_exchange.
  Qed.
  Lemma bsum_mul ns ms (f g : list nat -> R) : bsum ns f * bsum ms g = bsum ns (fun is => bsum ms (fun js => f is * g js)).
  Proof. rewrite <- bsum_scal_r. apply bsum_ext. intros is _. rewrite <- bsum_scal_l. auto. Qed.

  Variables (X Y : tbt R) (r : nat).
  Hypothesis OX : tb_ok X r.
  Hypothesis OY : tb_ok Y r.
  Hypothesis HT : ttree Y = ttree X.
  Hypothesis HE : length (exts Y r) = length (exts X r).
  Hypothesis HA : forall n, node (ttree X) n -> active Y n = active X n.
  Hypothesis H2 : (2 <= tb_order X)%nat.
  Let t := ttree X.
  Let V : dim_tree t r := proj1 OX.
  Let T : rooted_tree t r := proj1 V.

  Lemma kr_exts_length n : node t n -> active X n = true -> length (exts Y n) = length (exts X n).
  Proof.
    intros Hn Ha. destruct (Nat.eq_dec n r) as [E|Hr]; [rewrite E, HE; auto|].
    rewrite (ok_exts X r OX n Hn Ha Hr), (ok_exts Y r OY n); rewrite ?HT, ?HA; auto.
  Qed.
  Lemma kr_heads_length n : node t n -> active X n = true -> length (heads Y n) = length (heads X n).
  Proof.
    intros Hn Ha. rewrite (ok_heads_length X r OX n Hn Ha), (ok_heads_length Y r OY n); rewrite ?HT, ?HA; auto.
  Qed.
  Lemma kr_shapes n : node t n -> active X n = true ->
    shape (core X n) = heads X n ++ exts X n /\ shape (core Y n) = heads Y n ++ exts Y n.
  Proof.
    intros Hn Ha. split; apply ok_shape; rewrite ?HT, ?HA; auto.
  Qed.
  Lemma kr_core n : node t n -> active X n = true -> exists C, ft_kron (core X n) (core Y n) = Some C /\
    shape C = muls (heads X n) (heads Y n) ++ muls (exts X n) (exts Y n) /\
    forall ks e, valid (muls (heads X n) (heads Y n)) ks -> valid (muls (exts X n) (exts Y n)) e ->
      get C (ks ++ e) = get (core X n) (divs ks (heads Y n) ++ divs e (exts Y n)) * get (core Y n) (mods ks (heads Y n) ++ mods e (exts Y n)).
  Proof.
    intros Hn Ha. destruct (kr_shapes n Hn Ha) as [SX SY]. pose proof (kr_exts_length n Hn Ha) as LE. pose proof (kr_heads_length n Hn Ha) as LH.
    assert (L : ndim (core X n) = ndim (core Y n)) by (unfold ndim; rewrite SX, SY, !app_length; lia).
    destruct (ft_kron_spec (core X n) (core Y n) L) as (C & HC & HsC & HgC).
    change (map (fun p => (fst p * snd p)%nat) (combine (shape (core X n)) (shape (core Y n)))) with (muls (shape (core X n)) (shape (core Y n))) in HsC, HgC.
    exists C. split; auto. rewrite SX, SY, muls_app in HsC by auto. split; auto.
    intros ks e Hk He. assert (Lk : length ks = length (heads Y n)) by (rewrite (valid_length _ _ Hk), muls_length by auto; auto).
    rewrite HgC by (rewrite SX, SY, muls_app by auto; apply valid_app; auto).
    change (get (core X n) (divs (ks ++ e) (shape (core Y n))) * get (core Y n) (mods (ks ++ e) (shape (core Y n))) =
      get (core X n) (divs ks (heads Y n) ++ divs e (exts Y n)) * get (core Y n) (mods ks (heads Y n) ++ mods e (exts Y n))).
    rewrite SY, divs_app, mods_app by auto. auto.
  Qed.

  Definition kr_sz (c : nat) : nat := (csize X c * csize Y c)%nat.
  Definition kr_m (c : nat) : nat := (tb_size X c * tb_size Y c)%nat.
  Variable Z : tbt R.
  Hypothesis ZT : ttree Z = t.
  Hypothesis ZL : length (cores Z) = nbn t.
  Hypothesis ZC : forall n, node t n -> (if active X n then ft_kron (core X n) (core Y n) else Some (core X n)) = Some (core Z n).

  Lemma muls_map a b (l : list nat) : muls (map a l) (map b l) = map (fun c => (a c * b c)%nat) l.
  Proof. unfold muls. induction l; cbn; auto. f_equal. auto. Qed.
  Lemma kr_core_Z n : node t n -> active X n = true -> shape (core Z n) = muls (heads X n) (heads Y n) ++ muls (exts X n) (exts Y n) /\
    forall ks e, valid (muls (heads X n) (heads Y n)) ks -> valid (muls (exts X n) (exts Y n)) e ->
      get (core Z n) (ks ++ e) = get (core X n) (divs ks (heads Y n) ++ divs e (exts Y n)) * get (core Y n) (mods ks (heads Y n) ++ mods e (exts Y n)).
  Proof.
    intros Hn Ha. destruct (kr_core n Hn Ha) as (C & HC & H). pose proof (ZC n Hn) as HZ. rewrite Ha, HC in HZ. injection HZ as <-. auto.
  Qed.
  Lemma prodn_muls a b : length a = length b -> prodn (muls a b) = (prodn a * prodn b)%nat.
  Proof.
    revert b. induction a as [|x a IH]; intros [|y b] L; try discriminate; auto. unfold muls in *. cbn. rewrite IH by (cbn in L; lia). lia.
  Qed.
  Lemma kr_active n : node t n -> active Z n = active X n.
  Proof.
    intros Hn. destruct (active X n) eqn:Ha.
    - apply active_prod. destruct (kr_core_Z n Hn Ha) as [-> _]. destruct (kr_shapes n Hn Ha) as [SX SY].
      assert (HaY : active Y n = true) by (rewrite HA; auto). apply active_prod in Ha as PX. apply active_prod in HaY. rewrite SX in PX. rewrite SY in HaY.
      rewrite prodn_app in *. rewrite !prodn_muls by (symmetry; apply kr_heads_length || apply kr_exts_length; auto). nia.
    - rewrite <- Ha. apply active_shape_eq. pose proof (ZC n Hn) as HZ. rewrite Ha in HZ. injection HZ as <-. auto.
  Qed.
  Lemma kr_heads n : node t n -> is_leaf t n = false -> heads X n = map (csize X) (children t n) /\ heads Y n = map (csize Y) (children t n).
  Proof.
    intros Hn Hl. split; [apply (heads_internal X r OX n Hn Hl)|]. rewrite (heads_internal Y r OY n); rewrite HT; auto.
  Qed.
  Lemma kr_exts_n n : node t n -> active X n = true -> n <> r -> exts X n = [csize X n] /\ exts Y n = [csize Y n].
  Proof.
    intros Hn Ha Hne. assert (HaY : active Y n = true) by (rewrite HA; auto).
    rewrite (ok_exts_rank X r OX n Hn Ha Hne), (ok_exts_rank Y r OY n) by (rewrite ?HT; auto). unfold csize. rewrite Ha, HaY. auto.
  Qed.
  Lemma kr_leaf_heads n : is_leaf t n = true -> active X n = true -> heads X n = [tb_size X n] /\ heads Y n = [tb_size Y n].
  Proof.
    intros Hl Ha. pose proof (leaf_node t r V n Hl) as Hn. assert (HaY : active Y n = true) by (rewrite HA; auto).
    rewrite (heads_leaf X r OX n Hl Ha), (heads_leaf Y r OY n) by (rewrite ?HT; auto). unfold tb_size. rewrite Ha, HaY. auto.
  Qed.
  Lemma kr_leaf_ne n : is_leaf t n = true -> n <> r.
  Proof. intros Hl E. pose proof (root_not_leaf X r OX H2) as E'. rewrite <- E in E'. fold t in E'. congruence. Qed.
  Lemma kr_facts : tb_ok Z r /\ tb_shape Z = muls (tb_shape X) (tb_shape Y) /\ exts Z r = muls (exts X r) (exts Y r) /\
    (forall n, node t n -> is_leaf t n = false -> heads Z n = map kr_sz (children t n)).
  Proof.
    assert (P1 : dim_tree (ttree Z) r) by (rewrite ZT; exact V).
    assert (P2 : length (cores Z) = nbn (ttree Z)) by (rewrite ZT; exact ZL).
    assert (P3 : is_leaf (ttree Z) r = false) by (rewrite ZT; apply (root_not_leaf X r OX H2)).
    assert (P4 : (length (muls (exts X r) (exts Y r)) <= 1)%nat) by (rewrite muls_length by auto; apply (ok_exts_root X r OX)).
    assert (P5 : forall n, node (ttree Z) n -> is_leaf (ttree Z) n = false ->
      shape (core Z n) = map kr_sz (children (ttree Z) n) ++ (if n =? r then muls (exts X r) (exts Y r) else [kr_sz n]) /\ active Z n = true).
    { rewrite ZT. intros n Hn Hl. pose proof (ok_internal X r OX n Hn Hl) as Ha. rewrite kr_active by auto. split; auto.
      destruct (kr_core_Z n Hn Ha) as [-> _]. destruct (kr_heads n Hn Hl) as [-> ->]. rewrite muls_map. f_equal.
      destruct (Nat.eqb_spec n r) as [E|Hne]; [rewrite E; auto|]. destruct (kr_exts_n n Hn Ha Hne) as [-> ->]. auto. }
    assert (P6 : forall n, is_leaf (ttree Z) n = true -> active Z n = true -> shape (core Z n) = [kr_m n; kr_sz n]).
    { rewrite ZT. intros n Hl Ha. pose proof (leaf_node t r V n Hl) as Hn. rewrite kr_active in Ha by auto.
      destruct (kr_core_Z n Hn Ha) as [-> _]. destruct (kr_leaf_heads n Hl Ha) as [-> ->]. destruct (kr_exts_n n Hn Ha (kr_leaf_ne n Hl)) as [-> ->]. auto. }
    assert (P7 : forall n, is_leaf (ttree Z) n = true -> active Z n = false -> kr_sz n = kr_m n).
    { rewrite ZT. intros n Hl Ha. pose proof (leaf_node t r V n Hl) as Hn. rewrite kr_active in Ha by auto.
      unfold kr_sz, kr_m, csize. rewrite HA, Ha by auto. auto. }
    assert (Hr : node (ttree Z) r) by (rewrite ZT; apply T).
    split; [exact (build_ok Z r kr_sz kr_m _ P1 P2 P3 P4 P5 P6)|].
    split; [rewrite (build_shape Z r kr_sz kr_m _ P1 P2 P3 P4 P5 P6 P7), ZT; unfold tb_shape; rewrite HT, muls_map; auto|].
    split; [rewrite (build_exts Z r kr_sz _ P5 r Hr P3), Nat.eqb_refl; auto|].
    intros n Hn Hl. rewrite (build_heads Z r kr_sz _ P5 n) by (rewrite ZT; auto). rewrite ZT. auto.
  Qed.
  Definition kval n is e : Prop :=
    tval Z n is e = tval X n (divs is (tb_shape Y)) (divs e (exts Y n)) * tval Y n (mods is (tb_shape Y)) (mods e (exts Y n)).
  Lemma kr_internal n is e : node t n -> is_leaf t n = false ->
    (forall c k, edge t n c -> (k < kr_sz c)%nat -> tval Z c is [k] =
       tval X c (divs is (tb_shape Y)) [(k / csize Y c)%nat] * tval Y c (mods is (tb_shape Y)) [(k mod csize Y c)%nat]) ->
    valid (muls (exts X n) (exts Y n)) e -> kval n is e.
  Proof.
    intros Hn Hl HC He. unfold kval. destruct kr_facts as (OZ & SZ & EZ & HZh).
    assert (VZ : dim_tree (ttree Z) r) by (rewrite ZT; exact V). assert (VY : dim_tree (ttree Y) r) by (rewrite HT; exact V).
    rewrite (tval_internal Z r VZ n is e) by (rewrite ZT; auto). rewrite (tval_internal X r V n) by auto.
    rewrite (tval_internal Y r VY n) by (rewrite HT; auto). rewrite HT, ZT. fold t.
    destruct (kr_heads n Hn Hl) as [HX HY]. rewrite (HZh n Hn Hl).
    pose proof (ok_internal X r OX n Hn Hl) as Ha. destruct (kr_core_Z n Hn Ha) as [_ HgZ].
    rewrite bsum_mul, HX, HY. unfold kr_sz.
    rewrite <- (bsum_kron (csize X) (csize Y) (children t n) (fun is0 js =>
      get (core X n) (is0 ++ divs e (exts Y n)) * lprod (combine (children t n) is0) (fun p => tval X (fst p) (divs is (tb_shape Y)) [snd p]) *
      (get (core Y n) (js ++ mods e (exts Y n)) * lprod (combine (children t n) js) (fun p => tval Y (fst p) (mods is (tb_shape Y)) [snd p])))).
    apply bsum_ext. intros ks Hks. rewrite HgZ; [|rewrite HX, HY, muls_map; exact Hks|auto]. rewrite HY.
    assert (EP : lprod (combine (children t n) ks) (fun p => tval Z (fst p) is [snd p]) =
      lprod (combine (children t n) (divs ks (map (csize Y) (children t n)))) (fun p => tval X (fst p) (divs is (tb_shape Y)) [snd p]) *
      lprod (combine (children t n) (mods ks (map (csize Y) (children t n)))) (fun p => tval Y (fst p) (mods is (tb_shape Y)) [snd p])); [|rewrite EP; ring].
    assert (HC' : forall c k, In c (children t n) -> (k < kr_sz c)%nat -> tval Z c is [k] =
       tval X c (divs is (tb_shape Y)) [(k / csize Y c)%nat] * tval Y c (mods is (tb_shape Y)) [(k mod csize Y c)%nat]).
    { intros c k Hc Hk. apply HC; auto. apply in_children' in Hc. split; auto. }
    revert HC'. generalize (divs is (tb_shape Y)) (mods is (tb_shape Y)). intros ia ib HC'. clear - Hks HC'. revert ks Hks HC'. unfold kr_sz. induction (children t n) as [|c cs IH]; intros ks Hks HC'.
    - cbn. ring.
    - cbn [map] in Hks. inversion Hks as [|k ? ks' ? Hk Hks']; subst. unfold divs, mods. cbn [map combine lprod fst snd].
      fold (divs ks' (map (csize Y) cs)). fold (mods ks' (map (csize Y) cs)).
      rewrite (IH ks' Hks') by (intros; apply HC'; cbn; auto). rewrite HC' by (cbn; auto). ring.
  Qed.
  Lemma kr_tval n : node t n -> n <> r -> forall is k, valid (muls (tb_shape X) (tb_shape Y)) is -> (k < kr_sz n)%nat ->
    tval Z n is [k] = tval X n (divs is (tb_shape Y)) [(k / csize Y n)%nat] * tval Y n (mods is (tb_shape Y)) [(k mod csize Y n)%nat].
  Proof.
    revert n. apply (tree_up_ind t r T (fun n => n <> r -> forall is k, valid (muls (tb_shape X) (tb_shape Y)) is -> (k < kr_sz n)%nat ->
      tval Z n is [k] = tval X n (divs is (tb_shape Y)) [(k / csize Y n)%nat] * tval Y n (mods is (tb_shape Y)) [(k mod csize Y n)%nat])).
    intros n Hn IH Hne is k Hi Hk. destruct kr_facts as (OZ & SZ & EZ & HZh).
    assert (VZ : dim_tree (ttree Z) r) by (rewrite ZT; exact V). assert (VY : dim_tree (ttree Y) r) by (rewrite HT; exact V).
    assert (LS : length (tb_shape X) = length (tb_shape Y)) by (unfold tb_shape; rewrite !map_length, HT; auto).
    assert (Li : length is = length (tb_shape Y)) by (rewrite (valid_length _ _ Hi), muls_length; auto).
    destruct (is_leaf t n) eqn:Hl.
    - destruct (leaf_index t n Hl) as [Hi1 Hi2].
      assert (HlY : is_leaf (ttree Y) n = true) by (rewrite HT; auto).
      assert (Es : nth (index_of n (d2i t)) (tb_shape Y) 0%nat = tb_size Y n) by (unfold t; rewrite <- HT; apply tb_shape_leaf; auto).
      assert (Hlt : (index_of n (d2i t) < length is)%nat) by (rewrite Li, tb_shape_length, HT; exact Hi1).
      destruct (active X n) eqn:Ha.
      + rewrite (tval_leaf Z r VZ) by (rewrite ?ZT, ?kr_active; auto). rewrite (tval_leaf X r V) by auto. rewrite (tval_leaf Y r VY) by (rewrite ?HT, ?HA; auto).
        rewrite ZT, HT. fold t. rewrite nth_divs, nth_mods, Es by auto.
        destruct (kr_core_Z n Hn Ha) as [_ HgZ]. destruct (kr_leaf_heads n Hl Ha) as [HhX HhY]. destruct (kr_exts_n n Hn Ha Hne) as [HeX HeY].
        rewrite HhX, HhY, HeX, HeY in HgZ. unfold muls, divs, mods in HgZ. cbn in HgZ.
        specialize (HgZ [nth (index_of n (d2i t)) is 0%nat] [k]). cbn in HgZ. apply HgZ.
        * constructor; [|constructor].
          assert (Hv : (nth (index_of n (d2i t)) is 0 < nth (index_of n (d2i t)) (muls (tb_shape X) (tb_shape Y)) 0)%nat) by (apply valid_nth; auto; rewrite muls_length by auto; lia).
          unfold muls in Hv. rewrite map_nth_in with (da := (0%nat, 0%nat)) in Hv by (rewrite combine_length; lia). rewrite combine_nth in Hv by auto. cbn in Hv.
          rewrite Es in Hv. unfold t in Hv. rewrite (tb_shape_leaf X n Hl) in Hv. exact Hv.
        * constructor; [exact Hk|constructor].
      + rewrite (tval_inactive Z r VZ) by (rewrite ?ZT, ?kr_active; auto). rewrite (tval_inactive X r V) by auto. rewrite (tval_inactive Y r VY) by (rewrite ?HT, ?HA; auto).
        rewrite ZT, HT. fold t. rewrite nth_divs, nth_mods, Es by auto. cbn [list_eqb].
        assert (Ec : csize Y n = tb_size Y n) by (unfold csize; rewrite HA, Ha; auto). rewrite Ec. unfold kr_sz in Hk. rewrite Ec in Hk.
        set (i := nth (index_of n (d2i t)) is 0%nat). set (b := tb_size Y n) in *. assert (Hb : b <> 0%nat) by nia.
        rewrite !andb_true_r. destruct (Nat.eqb_spec k i) as [E|Hki].
        * rewrite E, !Nat.eqb_refl. ring.
        * destruct (Nat.eqb_spec (k / b) (i / b)) as [E1|]; [|ring]. destruct (Nat.eqb_spec (k mod b) (i mod b)) as [E3|]; [|ring].
          exfalso. apply Hki. rewrite (Nat.div_mod k b Hb), (Nat.div_mod i b Hb). congruence.
    - pose proof (ok_internal X r OX n Hn Hl) as Ha. destruct (kr_exts_n n Hn Ha Hne) as [HeX HeY].
      pose proof (kr_internal n is [k] Hn Hl) as HK. unfold kval in HK. rewrite HeX, HeY in HK. unfold muls, divs at 3, mods at 3 in HK. cbn [map combine fst snd] in HK. apply HK.
      + intros c k' Hc Hk'. apply IH; auto. intros E. rewrite E in Hc. apply (rt_no_edge t r T n Hc).
      + constructor; [exact Hk|constructor].
  Qed.
  Lemma kr_tval_root is e : valid (muls (tb_shape X) (tb_shape Y)) is -> valid (muls (exts X r) (exts Y r)) e -> kval r is e.
  Proof.
    intros Hi He. apply kr_internal; auto.
    - apply T.
    - apply (root_not_leaf X r OX H2).
    - intros c k Hc Hk. apply kr_tval; auto; [apply Hc|]. intros E. rewrite E in Hc. apply (rt_no_edge t r T r Hc).
  Qed.
End Kron.
