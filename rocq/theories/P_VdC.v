(** C43: van der Corput nodes. *)
From Coq Require Import List NArith QArith Lia Lqa.
From Verif Require Import M_VdC L_VdC.
Import ListNotations.

(** The loop terminates and computes the radical inverse (bit reversal about
    the binary point). *)
Theorem C43_radical_inverse : forall k fuel n, (k <= fuel)%nat -> (n < 2 ^ N.of_nat k)%N ->
  exists v, vdc fuel n = Some v /\ v == radical_inverse k n
    /\ v * inject_Z (2 ^ Z.of_nat k) == inject_Z (Z.of_N (rev k n)).
Proof. exact vdc_rev. Qed.
Print Assumptions C43_radical_inverse.

(** For every sequence of batch sizes the nodes are those of one batch. *)
Theorem C43_batch_independent : forall fuel a b bs,
  vdc_run fuel a b bs [] = vdc_policy fuel a b (list_sum bs) 0.
Proof. exact run_batches_nil. Qed.
Print Assumptions C43_batch_independent.

(** All nodes are defined, lie strictly inside the domain and are the affine
    images of the consecutive elements of the sequence. *)
Theorem C43_interior : forall fuel a b k m i,
  (i < k)%nat -> (m + k <= fuel)%nat -> a < b ->
  exists v, nth_error (vdc_policy fuel a b k m) i = Some (Some v)
    /\ a < v /\ v < b
    /\ exists u, vdc fuel (N.of_nat (m + 1 + i)) = Some u /\ v = u * (b - a) + a.
Proof. exact policy_nodes. Qed.
Print Assumptions C43_interior.

(** Nodes of a whole run are pairwise distinct. *)
Theorem C43_distinct : forall fuel a b bs i j v w,
  (list_sum bs <= fuel)%nat -> a < b -> i <> j ->
  nth_error (vdc_run fuel a b bs []) i = Some (Some v) ->
  nth_error (vdc_run fuel a b bs []) j = Some (Some w) -> ~ v == w.
Proof. exact run_distinct. Qed.
Print Assumptions C43_distinct.

(** The first [2^k - 1] nodes together with 0 are exactly the grid of spacing
    [2^-k]: every grid point occurs. *)
Theorem C43_equidistributed : forall k fuel j, (k <= fuel)%nat -> (j < 2 ^ N.of_nat k)%N ->
  exists n v, (n < 2 ^ N.of_nat k)%N /\ vdc fuel n = Some v
    /\ v == inject_Z (Z.of_N j) / inject_Z (2 ^ Z.of_nat k).
Proof. exact vdc_equidistributed. Qed.
Print Assumptions C43_equidistributed.

Example ex_vdc : map (option_map Qred) (vdc_sequence 4 1 6)
  = [Some (1#2); Some (1#4); Some (3#4); Some (1#8); Some (5#8); Some (3#8)].
Proof. reflexivity. Qed.
Example ex_run : map (option_map Qred) (vdc_run 4 1 3 [2; 1]%nat [])
  = [Some (2#1); Some (3#2); Some (5#2)].
Proof. reflexivity. Qed.
