(** Property C08: base-b digits (tensap/tools/utils.py). *)
From Coq Require Import List Arith Lia.
From Verif.Base Require Import ListAux Index.
From Verif.Model Require Import Utils.
From Verif.Spec Require Import MultiIndicesSpec.
From Verif.Proofs Require MIMoreP.
Import ListNotations.

Theorem c08_integer2baseb : forall i b d,
  (i < b ^ d -> exists l, integer2baseb i b d = Some l) /\
  (forall l, integer2baseb i b d = Some l ->
     length l = d /\ Forall (fun x => x < b) l /\ digits_value b l = i /\ baseb2integer l b = Some i).
Proof. exact MIMoreP.integer2baseb_full. Qed.
Print Assumptions c08_integer2baseb.

Theorem c08_baseb2integer : forall l b,
  (Forall (fun x => x < b) l -> exists i, baseb2integer l b = Some i) /\
  (forall i, baseb2integer l b = Some i ->
     i = digits_value b l /\ i < b ^ length l /\ integer2baseb i b (length l) = Some l).
Proof. exact MIMoreP.baseb2integer_full. Qed.
Print Assumptions c08_baseb2integer.

(** default number of digits: enough for every integer of the list *)
Theorem c08_default_digits : forall is b, 2 <= b ->
  exists ls, integer2baseb_default is b = Some ls /\
    Forall2 (fun i l => baseb2integer l b = Some i) is ls.
Proof. exact MIMoreP.integer2baseb_default_ok. Qed.
Print Assumptions c08_default_digits.

Example c08_ex : integer2baseb 11 2 5 = Some [0;1;0;1;1] /\ baseb2integer [0;1;0;1;1] 2 = Some 11 /\
  integer2baseb 8 2 3 = None /\ baseb2integer [2] 2 = None /\ integer2baseb_default [5;0;7] 2 = Some [[1;0;1];[0;0;0];[1;1;1]].
Proof. repeat split. Qed.

(** fast_setdiff and fast_intersect compute set difference and intersection of duplicate-free arrays *)
Theorem c08_fast_setdiff : forall a b x, In x (fast_setdiff a b) <-> In x a /\ ~ In x b.
Proof. exact MIMoreP.fast_setdiff_spec. Qed.
Print Assumptions c08_fast_setdiff.
Theorem c08_fast_intersect : forall a b, NoDup a -> NoDup b ->
  forall x, In x (fast_intersect a b) <-> In x a /\ In x b.
Proof. exact MIMoreP.fast_intersect_spec. Qed.
Print Assumptions c08_fast_intersect.
Example c08_sets_ex : fast_setdiff [3;1;2] [1] = [3;2] /\ fast_intersect [3;1;2] [2;5;3] = [2;3] /\ NoDup [3;1;2].
Proof. repeat split. repeat constructor; simpl; lia. Qed.
