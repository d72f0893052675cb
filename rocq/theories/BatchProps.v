(* Property theorems C11-C13 (batched evaluation). *)
From Coq Require Import Reals Arith Lia.
From Verif Require Import Tensor BatchModel BatchSpec BatchProofs PrincipalModel PrincipalSpec.
Open Scope nat_scope.

(* C11: the column index is a bijection onto the allocated columns ... *)
Theorem C11_column_bijection : forall n m, column_bijection n m (colIdx n).
Proof. exact column_bij. Qed.
Print Assumptions C11_column_bijection.

(* ... and the loop never writes out of range, sets every column, and equals pointwise evaluation. *)
Theorem C11_batch_is_pointwise : forall A n m (F : nat -> nat -> A), exists r, eval3D_full n m F = Ok r /\ pointwise n m F r.
Proof. exact @batch_pointwise. Qed.
Print Assumptions C11_batch_is_pointwise.

(* C12: what the principal stress / strain loops really compute: every column uses the metric of the last pair ... *)
Theorem C12_last_metric : forall G V W (metric : nat -> nat -> G) (S : nat -> nat -> G -> V) (P : G -> V -> W) n m g0,
  0 < n -> 0 < m ->
  exists r, eval3D_two_pass metric S P n m g0 = Ok r /\
    pointwise n m (fun k j => P (metric (n - 1) (m - 1)) (S k j (metric k j))) r.
Proof. exact @two_pass_stale. Qed.
Print Assumptions C12_last_metric.

(* ... hence they are right when all pairs share one metric ... *)
Theorem C12_uniform_metric : forall G V W (metric : nat -> nat -> G) (S : nat -> nat -> G -> V) (P : G -> V -> W) n m g0,
  (forall k j, k < n -> j < m -> metric k j = metric (n - 1) (m - 1)) ->
  exists r, eval3D_two_pass metric S P n m g0 = Ok r /\ pointwise n m (fun k j => P (metric k j) (S k j (metric k j))) r.
Proof. exact @two_pass_uniform. Qed.
Print Assumptions C12_uniform_metric.

(* ... the stretch evaluations, which refresh the metric, are right always ... *)
Theorem C12_stretch_pointwise : forall G V W (metric : nat -> nat -> G) (S : nat -> nat -> G -> V) (P : G -> V -> W) n m g0,
  exists r, eval3D_refreshed metric S P n m g0 = Ok r /\ pointwise n m (fun k j => P (metric k j) (S k j (metric k j))) r.
Proof. exact @refreshed_pointwise. Qed.
Print Assumptions C12_stretch_pointwise.

(* ... and in a batch of two points with different metrics the largest principal strain reported for the first is wrong. *)
Theorem C12_principal_batch_refuted :
  exists (metric : nat -> nat -> nat -> vec) (S : nat -> nat -> (nat -> vec) -> mat),
    forall g0, exists r B, eval3D_two_pass metric S (fun g X => Bten X g) 2 1 g0 = Ok r /\ r 0 = Some B /\
    forall vals vecs vals' vecs', eigen_decomposition B vals vecs ->
      eigen_decomposition (Bten (S 0 0 (metric 0 0)) (metric 0 0)) vals' vecs' -> vals 2 <> vals' 2.
Proof. exact two_pass_refuted. Qed.
Print Assumptions C12_principal_batch_refuted.

(* C13: the evaluations that allocate one column per point are in range exactly for one thickness coordinate. *)
Theorem C13_in_range : forall A n m (F : nat -> nat -> A), n = 0 \/ m <= 1 ->
  exists r, eval3D_short n m F = Ok r /\ pointwise n m F r.
Proof. exact @short_ok. Qed.
Print Assumptions C13_in_range.
Theorem C13_out_of_range_refuted : forall A n m (F : nat -> nat -> A), n <> 0 -> 1 < m -> eval3D_short n m F = UB.
Proof. exact @short_ub. Qed.
Print Assumptions C13_out_of_range_refuted.

Example C11_case : exists r, eval3D_full 3 2 (fun k j => (k, j)) = Ok r /\ r 4 = Some (1, 1).
Proof. eexists. split; reflexivity. Qed.
Example C13_case : eval3D_short 3 2 (fun k j => (k, j)) = UB /\ exists r, eval3D_short 3 1 (fun k j => (k, j)) = Ok r /\ r 2 = Some (2, 0).
Proof. split; [reflexivity|]. eexists. split; reflexivity. Qed.
