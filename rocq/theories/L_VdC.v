From Coq Require Import List NArith QArith Lia Lqa Qfield.
From Verif Require Import M_VdC.
Import ListNotations.

(** Specification: the radical inverse in base 2, from the bits of [n]. *)
Definition bit (n : N) (i : nat) : Q := if N.testbit_nat n i then 1 else 0.
Definition half_pow (i : nat) : Q := 1 / inject_Z (2 ^ Z.of_nat i).
Fixpoint radical_inverse (k : nat) (n : N) : Q :=
  match k with
  | O => 0
  | S k' => radical_inverse k' n + bit n k' * half_pow (S k')
  end.

(** Bit reversal of the [k] lowest bits, from the low end. *)
Fixpoint rev (k : nat) (n : N) : N :=
  match k with
  | O => 0
  | S k' => ((n mod 2) * 2 ^ N.of_nat k' + rev k' (n / 2))%N
  end.

Lemma rev_bound k : forall n, (rev k n < 2 ^ N.of_nat k)%N.
Proof.
  induction k as [|k IH]; intros n; simpl rev; [simpl; lia|].
  specialize (IH (n / 2)%N). rewrite Nat2N.inj_succ, N.pow_succ_r'.
  pose proof (N.mod_lt n 2 ltac:(lia)). nia.
Qed.

Lemma rev_inj k : forall n m, (n < 2 ^ N.of_nat k)%N -> (m < 2 ^ N.of_nat k)%N ->
  rev k n = rev k m -> n = m.
Proof.
  induction k as [|k IH]; intros n m Hn Hm E; [simpl in *; lia|].
  simpl rev in E. rewrite Nat2N.inj_succ, N.pow_succ_r' in Hn, Hm.
  pose proof (rev_bound k (n / 2)) as Bn. pose proof (rev_bound k (m / 2)) as Bm.
  pose proof (N.mod_lt n 2 ltac:(lia)) as Ln. pose proof (N.mod_lt m 2 ltac:(lia)) as Lm.
  assert (n mod 2 = m mod 2)%N as Em.
  { set (P := (2 ^ N.of_nat k)%N) in *. clearbody P. clear IH Hn Hm.
    revert E Bn Bm Ln Lm. generalize (n mod 2)%N, (m mod 2)%N, (rev k (n / 2)), (rev k (m / 2)).
    intros a b c d E Bn Bm Ln Lm.
    assert (a = 0 \/ a = 1)%N as [X|X] by lia;
    assert (b = 0 \/ b = 1)%N as [Y|Y] by lia; subst a b; lia. }
  rewrite Em in E.
  assert (n / 2 = m / 2)%N as Ed.
  { apply IH; [apply N.div_lt_upper_bound; lia|apply N.div_lt_upper_bound; lia|lia]. }
  rewrite (N.div_mod n 2), (N.div_mod m 2) by lia. congruence.
Qed.

Lemma two_pow_pos k : 0 < inject_Z (2 ^ Z.of_nat k).
Proof. unfold Qlt, inject_Z. simpl. pose proof (Z.pow_pos_nonneg 2 (Z.of_nat k)). lia. Qed.

Lemma two_pow_S k : inject_Z (2 ^ Z.of_nat (S k)) == 2 * inject_Z (2 ^ Z.of_nat k).
Proof.
  rewrite Nat2Z.inj_succ, Z.pow_succ_r by lia. rewrite inject_Z_mult. reflexivity.
Qed.

Lemma half_pow_S k : half_pow (S k) == half_pow k / 2.
Proof.
  unfold half_pow. rewrite two_pow_S. field. pose proof (two_pow_pos k). lra.
Qed.

Lemma half_pow_pos k : 0 < half_pow k.
Proof.
  unfold half_pow, Qdiv. rewrite Qmult_1_l. apply Qinv_lt_0_compat. apply two_pow_pos.
Qed.

Lemma bit_S n i : bit n (S i) = bit (n / 2) i.
Proof.
  unfold bit. rewrite <- N.div2_div. destruct n as [|[p|p|]]; reflexivity.
Qed.

Lemma bit_0 n : bit n 0 == inject_Z (Z.of_N (n mod 2)).
Proof.
  unfold bit. destruct n as [|[p|p|]]; simpl N.testbit_nat.
  - reflexivity.
  - replace (N.pos p~1 mod 2)%N with 1%N; [reflexivity|].
    apply N.mod_unique with (q := N.pos p); lia.
  - replace (N.pos p~0 mod 2)%N with 0%N; [reflexivity|].
    apply N.mod_unique with (q := N.pos p); lia.
  - reflexivity.
Qed.

(** Low-end recursion for the specification. *)
Lemma radical_inverse_low k : forall n,
  radical_inverse (S k) n == (bit n 0 + radical_inverse k (n / 2)) / 2.
Proof.
  induction k as [|k IH]; intros n.
  - simpl. unfold half_pow. change (inject_Z (2 ^ Z.of_nat 1)) with 2. field.
  - change (radical_inverse (S (S k)) n)
      with (radical_inverse (S k) n + bit n (S k) * half_pow (S (S k))).
    rewrite IH, bit_S, half_pow_S. simpl radical_inverse. field.
Qed.

Lemma div2_bound k n : (n < 2 ^ N.of_nat (S k))%N -> (n / 2 < 2 ^ N.of_nat k)%N.
Proof.
  intros H. rewrite Nat2N.inj_succ, N.pow_succ_r' in H. apply N.div_lt_upper_bound; lia.
Qed.

Lemma radical_inverse_zero k : radical_inverse k 0 == 0.
Proof.
  induction k as [|k IH]; simpl; [reflexivity|]. rewrite IH. unfold bit.
  replace (N.testbit_nat 0 k) with false by (destruct k; reflexivity). ring.
Qed.

Lemma vdc_loop_spec k : forall fuel n q b, (k <= fuel)%nat -> (n < 2 ^ N.of_nat k)%N ->
  exists v, vdc_loop fuel q b n = Some v /\ v == q + 2 * b * radical_inverse k n.
Proof.
  induction k as [|k IH]; intros fuel n q b Hf Hn.
  - assert (n = 0)%N as -> by (simpl in Hn; lia).
    exists q. split; [destruct fuel; reflexivity|]. simpl. ring.
  - destruct fuel as [|fuel]; [lia|]. simpl vdc_loop.
    destruct (N.eqb_spec n 0) as [->|Hne].
    + exists q. split; [reflexivity|]. rewrite radical_inverse_zero. ring.
    + destruct (IH fuel (n / 2)%N (q + inject_Z (Z.of_N (n mod 2)) * b) (b / 2)) as (v & E & Hv).
      { lia. } { apply div2_bound. assumption. }
      exists v. split; [exact E|]. rewrite Hv, radical_inverse_low, bit_0. field.
Qed.

Lemma radical_inverse_rev k : forall n,
  radical_inverse k n * inject_Z (2 ^ Z.of_nat k) == inject_Z (Z.of_N (rev k n)).
Proof.
  induction k as [|k IH]; intros n; [reflexivity|].
  rewrite radical_inverse_low, two_pow_S, bit_0. simpl rev.
  rewrite N2Z.inj_add, N2Z.inj_mul, inject_Z_plus, inject_Z_mult.
  rewrite <- IH. rewrite N2Z.inj_pow, nat_N_Z. change (Z.of_N 2) with 2%Z. field.
Qed.

Lemma radical_inverse_stable k j : forall n, (n < 2 ^ N.of_nat k)%N ->
  radical_inverse (k + j) n == radical_inverse k n.
Proof.
  revert j. induction k as [|k IH]; intros j n Hn.
  - assert (n = 0)%N as -> by (simpl in Hn; lia). rewrite !radical_inverse_zero. reflexivity.
  - change (S k + j)%nat with (S (k + j)). rewrite !radical_inverse_low.
    rewrite IH; [reflexivity|]. apply div2_bound; assumption.
Qed.

(** For numbers below [2^k], in terms of [rev]. *)
Lemma vdc_rev k fuel n : (k <= fuel)%nat -> (n < 2 ^ N.of_nat k)%N ->
  exists v, vdc fuel n = Some v /\ v == radical_inverse k n
    /\ v * inject_Z (2 ^ Z.of_nat k) == inject_Z (Z.of_N (rev k n)).
Proof.
  intros Hf Hn. destruct (vdc_loop_spec k fuel n 0 (1#2) Hf Hn) as (v & E & Hv).
  exists v. split; [exact E|].
  assert (v == radical_inverse k n) as Hv' by (rewrite Hv; field).
  split; [exact Hv'|]. rewrite Hv'. apply radical_inverse_rev.
Qed.

Lemma rev_zero k n : (n < 2 ^ N.of_nat k)%N -> rev k n = 0%N -> n = 0%N.
Proof.
  intros Hn E. apply (rev_inj k); auto.
  - lia.
  - rewrite E. clear. induction k as [|k IH]; [reflexivity|]. simpl. exact IH.
Qed.

Lemma vdc_interior k fuel n v : (k <= fuel)%nat -> (n < 2 ^ N.of_nat k)%N -> n <> 0%N ->
  vdc fuel n = Some v -> 0 < v /\ v < 1.
Proof.
  intros Hf Hn Hne E. destruct (vdc_rev k fuel n Hf Hn) as (v' & E' & _ & Hr).
  rewrite E in E'. injection E' as <-.
  pose proof (two_pow_pos k) as Hp. pose proof (rev_bound k n) as Hb.
  set (P := inject_Z (2 ^ Z.of_nat k)) in *.
  assert (0 < rev k n)%N as H0.
  { destruct (N.eq_dec (rev k n) 0) as [Z|Z]; [|lia]. exfalso. apply Hne. eapply rev_zero; eauto. }
  assert (0 < v * P) as A.
  { rewrite Hr. unfold Qlt, inject_Z; simpl. lia. }
  assert (v * P < 1 * P) as B.
  { rewrite Hr. rewrite Qmult_1_l. unfold P, Qlt, inject_Z; simpl.
    rewrite Z.mul_1_r, Z.mul_1_r. 
    apply N2Z.inj_lt in Hb. rewrite N2Z.inj_pow, nat_N_Z in Hb. exact Hb. }
  split.
  - apply Qmult_lt_r with P; [assumption|]. rewrite Qmult_0_l. assumption.
  - apply Qmult_lt_r with P; assumption.
Qed.

Lemma vdc_injective k fuel n m v w : (k <= fuel)%nat ->
  (n < 2 ^ N.of_nat k)%N -> (m < 2 ^ N.of_nat k)%N ->
  vdc fuel n = Some v -> vdc fuel m = Some w -> v == w -> n = m.
Proof.
  intros Hf Hn Hm En Em E.
  destruct (vdc_rev k fuel n Hf Hn) as (v' & E1 & _ & R1). rewrite En in E1. injection E1 as <-.
  destruct (vdc_rev k fuel m Hf Hm) as (w' & E2 & _ & R2). rewrite Em in E2. injection E2 as <-.
  apply (rev_inj k); auto. rewrite E in R1. rewrite R1 in R2.
  unfold Qeq, inject_Z in R2; simpl in R2. lia.
Qed.

(** Equidistribution: the first [2^k] elements (0 included) are the multiples
    of [2^-k] in [0, 1). *)
Lemma rev_surj k : forall j, (j < 2 ^ N.of_nat k)%N ->
  exists n, (n < 2 ^ N.of_nat k)%N /\ rev k n = j.
Proof.
  induction k as [|k IH]; intros j Hj.
  - exists 0%N. simpl in *. lia.
  - rewrite Nat2N.inj_succ, N.pow_succ_r' in *.
    set (P := (2 ^ N.of_nat k)%N) in *.
    assert (P <> 0)%N as HP by (apply N.pow_nonzero; lia).
    destruct (IH (j mod P)%N) as (n & Hn & En); [apply N.mod_lt; assumption|].
    exists (2 * n + j / P)%N.
    assert (j / P < 2)%N as Hq by (apply N.div_lt_upper_bound; lia).
    assert ((2 * n + j / P) / 2 = n)%N as Ed.
    { symmetry. apply N.div_unique with (r := (j / P)%N); lia. }
    assert ((2 * n + j / P) mod 2 = j / P)%N as Em.
    { symmetry. apply N.mod_unique with (q := n); lia. }
    split; [lia|]. cbn [rev]. fold P. rewrite Ed, Em, En.
    rewrite (N.div_mod j P) at 3 by assumption. lia.
Qed.

Lemma vdc_equidistributed k fuel j : (k <= fuel)%nat -> (j < 2 ^ N.of_nat k)%N ->
  exists n v, (n < 2 ^ N.of_nat k)%N /\ vdc fuel n = Some v
    /\ v == inject_Z (Z.of_N j) / inject_Z (2 ^ Z.of_nat k).
Proof.
  intros Hf Hj. destruct (rev_surj k j Hj) as (n & Hn & En).
  destruct (vdc_rev k fuel n Hf Hn) as (v & Ev & _ & Hr).
  exists n, v. split; [assumption|split; [assumption|]]. rewrite <- En, <- Hr. field.
  pose proof (two_pow_pos k). lra.
Qed.

(** Sequences and runs. *)
Lemma range_app l1 : forall s l2,
  range s (l1 + l2) = range s l1 ++ range (s + N.of_nat l1) l2.
Proof.
  induction l1 as [|l1 IH]; intros s l2; simpl; [f_equal; lia|].
  rewrite IH. do 3 f_equal. lia.
Qed.

Lemma range_length l : forall s, length (range s l) = l.
Proof. induction l; intros; simpl; auto. Qed.

Lemma range_In l : forall s x, In x (range s l) <-> (s <= x < s + N.of_nat l)%N.
Proof.
  induction l as [|l IH]; intros s x; simpl range; simpl In; [lia|].
  rewrite IH. lia.
Qed.

Lemma range_nodup l : forall s, NoDup (range s l).
Proof.
  induction l as [|l IH]; intros s; simpl; constructor; auto. rewrite range_In. lia.
Qed.

Lemma policy_length fuel a b k m : length (vdc_policy fuel a b k m) = k.
Proof. unfold vdc_policy, vdc_sequence. rewrite !map_length. apply range_length. Qed.

Lemma policy_app fuel a b k1 k2 m :
  vdc_policy fuel a b (k1 + k2) m = vdc_policy fuel a b k1 m ++ vdc_policy fuel a b k2 (m + k1).
Proof.
  unfold vdc_policy, vdc_sequence. rewrite range_app, !map_app. do 4 f_equal. lia.
Qed.

Lemma run_batches fuel a b bs : forall m,
  vdc_run fuel a b bs (vdc_policy fuel a b m 0) =
  vdc_policy fuel a b (m + list_sum bs) 0.
Proof.
  induction bs as [|k bs IH]; intros m; simpl.
  - rewrite Nat.add_0_r. reflexivity.
  - rewrite policy_length.
    replace (vdc_policy fuel a b k m) with (vdc_policy fuel a b k (0 + m)) by reflexivity.
    rewrite <- policy_app, IH. f_equal. lia.
Qed.

Lemma run_batches_nil fuel a b bs :
  vdc_run fuel a b bs [] = vdc_policy fuel a b (list_sum bs) 0.
Proof. apply (run_batches fuel a b bs 0). Qed.

Lemma pow_gt_nat k : (N.of_nat k < 2 ^ N.of_nat k)%N.
Proof. apply N.pow_gt_lin_r. lia. Qed.

(** [fuel >= number of nodes] is always enough. *)
Lemma policy_nodes fuel a b k m i : (i < k)%nat -> (m + k <= fuel)%nat -> a < b ->
  exists v, nth_error (vdc_policy fuel a b k m) i = Some (Some v)
    /\ a < v /\ v < b
    /\ exists u, vdc fuel (N.of_nat (m + 1 + i)) = Some u /\ v = u * (b - a) + a.
Proof.
  intros Hi Hf Hab. unfold vdc_policy, vdc_sequence.
  assert (nth_error (range (N.of_nat m + 1) k) i = Some (N.of_nat (m + 1 + i))) as En.
  { clear Hf. revert i m Hi. induction k as [|k IH]; intros i m Hi; [lia|].
    destruct i as [|i]; simpl; [f_equal; lia|].
    replace (N.succ (N.of_nat m + 1)) with (N.of_nat (S m) + 1)%N by lia.
    rewrite IH by lia. f_equal. lia. }
  rewrite map_map. rewrite (map_nth_error _ _ _ En).
  assert ((N.of_nat (m + 1 + i) < 2 ^ N.of_nat fuel)%N) as Hb.
  { eapply N.le_lt_trans; [|apply pow_gt_nat]. lia. }
  destruct (vdc_rev fuel fuel (N.of_nat (m + 1 + i)) (le_n _) Hb) as (u & Eu & _).
  rewrite Eu. simpl.
  destruct (vdc_interior fuel fuel _ u (le_n _) Hb) as [U1 U2]; [lia|assumption|].
  eexists. split; [reflexivity|]. split; [|split; [|eauto]].
  - nra.
  - nra.
Qed.

Lemma run_distinct fuel a b bs i j v w :
  (list_sum bs <= fuel)%nat -> a < b -> i <> j ->
  nth_error (vdc_run fuel a b bs []) i = Some (Some v) ->
  nth_error (vdc_run fuel a b bs []) j = Some (Some w) -> ~ v == w.
Proof.
  intros Hf Hab Hij Hi Hj E. rewrite run_batches_nil in Hi, Hj.
  assert (i < list_sum bs)%nat as Li.
  { rewrite <- (policy_length fuel a b (list_sum bs) 0). apply nth_error_Some. congruence. }
  assert (j < list_sum bs)%nat as Lj.
  { rewrite <- (policy_length fuel a b (list_sum bs) 0). apply nth_error_Some. congruence. }
  destruct (policy_nodes fuel a b (list_sum bs) 0 i Li Hf Hab) as (v' & E1 & _ & _ & u & Eu & Ev).
  destruct (policy_nodes fuel a b (list_sum bs) 0 j Lj Hf Hab) as (w' & E2 & _ & _ & x & Ex & Ew).
  rewrite E1 in Hi. rewrite E2 in Hj. injection Hi as <-. injection Hj as <-. subst v' w'.
  assert (u == x) as Hux.
  { apply Qplus_inj_r in E. apply Qmult_inj_r in E; [assumption|]. lra. }
  assert (N.of_nat (0 + 1 + i) = N.of_nat (0 + 1 + j)) as En.
  { eapply (vdc_injective fuel fuel); try eassumption; auto;
      (eapply N.le_lt_trans; [|apply pow_gt_nat]; lia). }
  lia.
Qed.
