(** Sampling: specification and lemmas. *)
From mathcomp Require Import all_ssreflect all_algebra.
From Verif Require Import L_Zmod M_Gauss L_Kalman L_Filter L_Smooth M_Sample.
Set Implicit Arguments.
Unset Strict Implicit.
Unset Printing Implicit Defensive.
Import Order.Theory GRing.Theory Num.Theory.
Local Open Scope ring_scope.

Section Spec.
Variables (R : realFieldType) (n : nat).
(** The map [f] turns [N] independent standard normal vectors into jointly Gaussian
    vectors with means [mu] and covariances [C]. *)
Definition pushes_to N (f : (nat -> 'cV[R]_n) -> nat -> option 'cV[R]_n)
    (mu : nat -> 'cV[R]_n) (C : nat -> nat -> 'M[R]_n) : Prop :=
  exists A : nat -> nat -> 'M[R]_n,
    (forall base k, (k < N)%N -> f base k = Some (mu k + \sum_(j < N) A k j *m base j))
    /\ (forall k l, (k < N)%N -> (l < N)%N -> \sum_(j < N) A k j *m (A l j)^T = C k l).

(** Linear Gaussian Markov chains. *)
Record chain K N (T : nat -> lingauss R n n) (init : normal R n)
    (X W : nat -> rvec R K n) : Prop := Chain {
  ch_mean0 : Mean (X 0%N) = mean init;
  ch_cov0 : Cov (X 0%N) (X 0%N) = cov init;
  ch_meanW : forall k, (k.+1 < N)%N -> Mean (W k) = shift (T k);
  ch_covW : forall k, (k.+1 < N)%N -> Cov (W k) (W k) = ncov (T k);
  ch_XW : forall k, (k.+1 < N)%N -> Cov (X 0%N) (W k) = 0;
  ch_WW : forall k l, (k.+1 < N)%N -> (l.+1 < N)%N -> k != l -> Cov (W k) (W l) = 0;
  ch_step : forall k, (k.+1 < N)%N -> X k.+1 = tmat (T k) *m X k + W k }.

(** A square root of every covariance matrix. *)
Definition chol_ok (chol : 'M[R]_n -> 'M[R]_n) :=
  forall C, psd C -> chol C *m (chol C)^T = C.

(** ** Families of coefficients *)
Definition ip N (A B : nat -> 'M[R]_n) := \sum_(j < N) A j *m (B j)^T.
Definition app N (A : nat -> 'M[R]_n) (b : nat -> 'cV[R]_n) := \sum_(j < N) A j *m b j.
Definition add_at k (L : 'M[R]_n) (A : nat -> 'M[R]_n) j := A j + (if j == k then L else 0).

Lemma sum_at N k (F : nat -> 'M[R]_n) : (k < N)%N ->
  \sum_(j < N) (if j == k :> nat then F j else 0) = F k.
Proof.
move=> lt; rewrite (bigD1 (Ordinal lt)) //= eqxx big1 ?addr0 // => j ne.
by case: eqP => // e; case/eqP: ne; apply: val_inj.
Qed.
Lemma ip_step N k G L A B : (k < N)%N ->
  ip N (add_at k L (fun j => G *m A j)) B = G *m ip N A B + L *m (B k)^T.
Proof.
move=> lt; rewrite /ip mulmx_sumr -(sum_at (fun j => L *m (B j)^T) lt) -big_split /=.
apply: eq_bigr => j _; rewrite /add_at mulmxDl mulmxA; congr (_ + _).
by case: ifP => // _; rewrite mul0mx.
Qed.
Lemma ip_sym N A B : (ip N A B)^T = ip N B A.
Proof.
rewrite /ip (big_morph _ (@trmxD _ _ _) (trmx0 _ _ _)); apply: eq_bigr => j _.
by rewrite trmx_mul trmxK.
Qed.
Lemma app_step N k G L A b : (k < N)%N ->
  app N (add_at k L (fun j => G *m A j)) b = G *m app N A b + L *m b k.
Proof.
move=> lt; rewrite /app mulmx_sumr; have := lt => lt'.
have -> : L *m b k = \sum_(j < N) (if j == k :> nat then L *m b j else 0).
  rewrite (bigD1 (Ordinal lt)) //= eqxx big1 ?addr0 // => j ne.
  by case: eqP => // e; case/eqP: ne; apply: val_inj.
rewrite -big_split /=; apply: eq_bigr => j _; rewrite /add_at mulmxDl mulmxA; congr (_ + _).
by case: ifP => // _; rewrite mul0mx.
Qed.
End Spec.

(** ** Forward *)
Section Forward.
Variables (R : realFieldType) (n K N : nat) (chol : 'M[R]_n -> 'M[R]_n).
Hypothesis HC : chol_ok chol.
Variables (tr : R -> R -> lingauss R n n) (t : nat -> R) (init : normal R n).
Let T k := tr (t k) (t k.+1 - t k).
Variables (X W : nat -> rvec R K n).
Hypothesis H : chain N T init X W.
Hypothesis init0 : cov init = 0.

Fixpoint coef k : nat -> 'M[R]_n :=
  if k is k'.+1 then add_at k' (chol (ncov (T k'))) (fun j => tmat (T k') *m coef k' j)
  else fun _ => 0.

Lemma chol0 : chol 0 = 0.
Proof. by apply: gram_eq0; apply: HC; apply: psd0. Qed.
Lemma coef_late k j : (k <= j)%N -> coef k j = 0.
Proof.
elim: k => //= k IH lt; rewrite /add_at IH ?(ltnW lt) // mulmx0 add0r.
by rewrite gtn_eqF.
Qed.
Lemma X_W k l : (k < N)%N -> (k <= l)%N -> (l.+1 < N)%N -> Cov (X k) (W l) = 0.
Proof.
elim: k => [|k IH] lt le ltl; first exact: (ch_XW H).
rewrite (ch_step H lt) !CovE IH ?(ltnW lt) ?(ltnW le) // mulmx0 add0r.
by apply: (ch_WW H) => //; rewrite neq_ltn le.
Qed.
Lemma fwd_affine base k : (k < N)%N ->
  fwd_sample chol tr t init base k = Mean (X k) + app N (coef k) base.
Proof.
elim: k => [|k IH] lt /=.
  rewrite /draw init0 chol0 mul0mx addr0 (ch_mean0 H) /app big1 ?addr0 // => j _.
  by rewrite mul0mx.
rewrite /draw IH ?(ltnW lt) //= /fwd_crosscov /= mul0mx mulmx0 add0r scale1r -/(T k).
rewrite (ch_step H lt) !MeanE (ch_meanW H lt).
have -> : app N (add_at k (chol (ncov (T k))) (fun j => tmat (T k) *m coef k j)) base
   = tmat (T k) *m app N (coef k) base + chol (ncov (T k)) *m base k.
  by rewrite app_step // ltnW.
by mx_ring.
Qed.
Lemma coef_ip k l : (k < N)%N -> (l < N)%N -> (l <= k)%N -> ip N (coef k) (coef l) = Cov (X k) (X l).
Proof.
elim: k l => [|k IH] l ltk ltl le.
  move: le; rewrite leqn0 => /eqP ->.
  rewrite (ch_cov0 H) init0 /ip big1 // => j _; by rewrite mul0mx.
have psdW : psd (ncov (T k)) by rewrite -(ch_covW H ltk); apply: psd_Cov.
move: (le); rewrite leq_eqVlt => /predU1P[->|lt].
- rewrite /= ip_step ?(ltnW ltk) // -/(coef k.+1) {3}/coef -/coef.
  rewrite -[ip N (coef k) _]ip_sym ip_step ?(ltnW ltk) // IH ?(ltnW ltk) //.
  rewrite coef_late // trmx0 mulmx0 addr0 trmx_mul CovT.
  rewrite /add_at eqxx coef_late // mulmx0 add0r HC //.
  rewrite (ch_step H ltk) !CovE (ch_covW H ltk).
  have XW := X_W (ltnW ltk) (leqnn k) ltk.
  by rewrite XW (Cov0_sym XW) ?(mul0mx, mulmx0, add0r, addr0) ?mulmxA.
- rewrite /= ip_step ?(ltnW ltk) // IH ?(ltnW ltk) // coef_late // trmx0 mulmx0 addr0.
  rewrite (ch_step H ltk) !CovE; have XW := X_W ltl lt ltk.
  by rewrite (Cov0_sym XW) addr0.
Qed.
Lemma forward_joint :
  pushes_to N (fun base k => Some (fwd_sample chol tr t init base k))
    (fun k => Mean (X k)) (fun k l => Cov (X k) (X l)).
Proof.
exists coef; split=> [base k lt|k l ltk ltl]; first by rewrite fwd_affine.
have [le|lt] := leqP l k; first exact: coef_ip.
by rewrite -/(ip N (coef k) (coef l)) -ip_sym coef_ip ?CovT // ltnW.
Qed.
End Forward.

(** ** Backward *)
Section Backward.
Variables (R : realFieldType) (K n : nat) (m : nat -> nat) (chol : 'M[R]_n -> 'M[R]_n).
Hypothesis HC : chol_ok chol.
Variables (M : ssm R n m) (N : nat).
Variables (Z W : nat -> rvec R K n) (V Y : forall k, rvec R K (m k)).
Hypothesis HR : realises M N Z W V Y.
Hypothesis TI : time_invariant M.
Hypothesis sorted : sorted_locs M N.
Variable y0 : forall k, 'cV[R]_(m k).

Definition err (k0 : nat -> 'cV[R]_n) (Kc : nat -> forall j, 'M[R]_(n, m j)) i : rvec R K n :=
  Z (N - i) - predictor_rv N (k0 i) (Kc i) Y.
(** Base realisations counted from the end. *)
Definition rev_base (b : nat -> 'cV[R]_n) j := b (N.-1 - j)%N.

Definition bwd_inv p k0 Kc (P : nat -> 'M[R]_n) (A : nat -> nat -> 'M[R]_n) : Prop :=
  [/\ forall i, (i <= p)%N -> smooth_inv M N Z Y i (k0 i) (Kc i) (P i),
      forall i j, (i <= p)%N -> (i < j)%N -> A i j = 0,
      forall y base i, (i <= p)%N -> bwd_sample chol M y N base i
        = Some (predictor N (k0 i) (Kc i) y + app N (A i) (rev_base base))
    & forall i l, (l <= i)%N -> (i <= p)%N ->
        ip N (A i) (A l) = Cov (err k0 Kc i) (err k0 Kc l)].

Definition fupd (T : Type) (f : nat -> T) p (v : T) i := if i == p then v else f i.
Lemma fupd_new T (f : nat -> T) p v : fupd f p v p = v.
Proof. by rewrite /fupd eqxx. Qed.
Lemma fupd_old T (f : nat -> T) p v i : (i <= p)%N -> fupd f p.+1 v i = f i.
Proof. by rewrite /fupd -ltnS => lt; rewrite ltn_eqF. Qed.

Lemma bwd_joint_inv p : (p < N)%N -> smoothed_back M y0 N p ->
  exists k0 Kc P A, bwd_inv p k0 Kc P A.
Proof.
elim: p => [|p IH] lt ok.
  have [k0 [Kc [P [F ME CE PE]]]] := filter_correct HR TI (leqnn N) ok.
  exists (fun _ => k0), (fun _ => Kc), (fun _ => P),
    (fun _ => add_at 0%N (chol P) (fun j => 0 *m (0 : 'M[R]_n))).
  have pP : psd P by rewrite -PE; apply: psd_Cov.
  split.
  - move=> i; rewrite leqn0 => /eqP ->; rewrite /smooth_inv subn0; split=> //.
  - by move=> i [|j] _ //; rewrite /add_at mul0mx add0r.
  - move=> y base i; rewrite leqn0 => /eqP -> /=.
    rewrite F /= /draw /= (@app_step _ _ _ _ 0 _ (fun _ => 0)) // /rev_base subn0 mul0mx add0r.
    by [].
  - move=> i l le; rewrite leqn0 => /eqP i0; move: le; rewrite i0 leqn0 => /eqP ->.
    rewrite (@ip_step _ _ _ _ 0 _ (fun _ => 0)) // mul0mx add0r /add_at mul0mx add0r /= HC // -PE /err.
    by rewrite subn0.
have okp : smoothed_back M y0 N p by move: ok => /=; case: (smoothed_back M y0 N p).
have [k0 [Kc [P [A [I1 I2 I3 I4]]]]] := IH (ltnW lt) okp.
have [k0' [Kc' [P' [I' [a [Ka [G [Pf [Ff gE EE DD [DZ DY]]]]]]]]]] :=
  smooth_step HR TI sorted lt (I1 p (leqnn p)) ok.
move DR: (resid M Z W Y (N - p.+1) a Ka G) EE DD DZ DY => D EE DD DZ DY.
set k := (N - p.+1)%N in Ff gE EE DD DZ.
have kE : (N.-1 - p)%N = k by rewrite /k; case: (N) lt => // N' _; rewrite subSS.
have lt0 : (0 < k)%N by rewrite /k subn_gt0.
have trE : trans M (loc M k.-1) (loc M k - loc M k.-1) = tr M k.
  by rewrite /tr; case: (k) lt0.
pose C := Pf - G *m cov (fwd_classic (tr M k) 1 (Normal 0 Pf)) *m G^T.
have pC : psd C by rewrite /C -DD; apply: psd_Cov.
pose new := add_at p.+1 (chol C) (fun j => G *m A p j).
exists (fupd k0 p.+1 k0'), (fupd Kc p.+1 Kc'), (fupd P p.+1 P'), (fupd A p.+1 new).
have eold i : (i <= p)%N -> err (fupd k0 p.+1 k0') (fupd Kc p.+1 Kc') i = err k0 Kc i.
  by move=> le; rewrite /err !fupd_old.
have enew : err (fupd k0 p.+1 k0') (fupd Kc p.+1 Kc') p.+1 = D + G *m err k0 Kc p.
  by rewrite /err !fupd_new; apply: EE.
have De i : (i <= p)%N -> Cov D (err k0 Kc i) = 0.
  move=> le; rewrite /err (CovBr D) (Cov_predictor0 _ _ DY) DZ ?subr0 // leq_subr andbT.
  by rewrite /k ltn_subRL -{2}(subnKC (ltnW lt)) ltn_add2r ltnS.
split.
- move=> i; rewrite leq_eqVlt => /predU1P[->|le]; first by rewrite !fupd_new.
  by rewrite !fupd_old //; apply: I1.
- move=> i j; rewrite leq_eqVlt => /predU1P[->|le] ltj.
    rewrite fupd_new /new /add_at I2 // ?(ltnW ltj) // mulmx0 add0r gtn_eqF //.
  by rewrite fupd_old //; apply: I2.
- move=> y base i; rewrite leq_eqVlt => /predU1P[->|le]; last by rewrite !fupd_old //; apply: I3.
  rewrite /= (I3 y base p) //= kE Ff /= trE gE /= !fupd_new /new app_step //.
  have := I'; rewrite /smooth_inv => -[/(_ y) Sy _ _ _].
  move: Sy; rewrite /= kE; case: (I1 p (leqnn p)) => -> _ _ _.
  rewrite Ff /= trE gE /= => -[<- _]; congr Some.
  rewrite /draw /=.
  have -> : Pf + G *m (0 - (tmat (tr M k) *m fwd_crosscov (tr M k)
      (Normal (predictor k a Ka y) Pf) + 1 *: ncov (tr M k))) *m G^T = C.
    by rewrite /C sub0r mulmxN mulNmx.
  have -> : rev_base base p.+1 = base k.-1 by rewrite /rev_base subnS kE.
  move: (predictor k a Ka y) (predictor N (k0 p) (Kc p) y) (app N (A p) (rev_base base)) => q1 q2 q3.
  by mx_ring.
- move=> i l le; rewrite leq_eqVlt => /predU1P[ei|lei]; last first.
    have lel := leq_trans le lei.
    by rewrite !fupd_old // !eold //; apply: I4.
  rewrite ei in le *; rewrite fupd_new enew.
  have NA i' : (i' <= p)%N -> A i' p.+1 = 0 by move=> le'; apply: I2; rewrite ?ltnS.
  have N1 i' : (i' <= p)%N -> ip N new (A i') = G *m Cov (err k0 Kc p) (err k0 Kc i').
    by move=> le'; rewrite /new ip_step // NA // trmx0 mulmx0 addr0 I4.
  move: le; rewrite leq_eqVlt => /predU1P[->|le].
    rewrite fupd_new enew {1}/new ip_step // -ip_sym N1 //.
    rewrite {1}/new /add_at eqxx NA // mulmx0 add0r HC // trmx_mul CovT.
    have DDC : Cov D D = C by [].
    move: (De p (leqnn p)); move: (err k0 Kc p) => e De0.
    by rewrite !CovE De0 (Cov0_sym De0) DDC ?(mulmx0, mul0mx, addr0, add0r) addrC.
  rewrite fupd_old // eold // N1 //.
  move: (De l le); move: (err k0 Kc p) (err k0 Kc l) => e1 e2 De0.
  by rewrite !CovE De0 add0r.
Qed.

Lemma rev_sum (F : nat -> 'M[R]_n) : \sum_(j < N) F (N.-1 - j)%N = \sum_(j < N) F j.
Proof.
rewrite [RHS](reindex_inj rev_ord_inj) /=; apply: eq_bigr => j _.
by case: (N) j => [[]//|N' j]; rewrite subSS.
Qed.
Lemma rev_sum_v (F : nat -> 'cV[R]_n) : \sum_(j < N) F (N.-1 - j)%N = \sum_(j < N) F j.
Proof.
rewrite [RHS](reindex_inj rev_ord_inj) /=; apply: eq_bigr => j _.
by case: (N) j => [[]//|N' j]; rewrite subSS.
Qed.

Lemma backward_joint : (0 < N)%N -> smoothed_back M y0 N N.-1 ->
  exists k0 Kc P, (forall i, (i < N)%N -> smooth_inv M N Z Y i (k0 i) (Kc i) (P i))
    /\ forall y, pushes_to N (fun base i => bwd_sample chol M y N base i)
         (fun i => predictor N (k0 i) (Kc i) y) (fun i l => Cov (err k0 Kc i) (err k0 Kc l)).
Proof.
move=> N0 ok; have ltN : (N.-1 < N)%N by rewrite prednK.
have leP i : (i < N)%N -> (i <= N.-1)%N by move: N0; case: (N).
have [k0 [Kc [P [A [I1 I2 I3 I4]]]]] := bwd_joint_inv ltN ok.
exists k0, Kc, P; split; first by move=> i /leP; apply: I1.
move=> y; exists (fun i j => A i (N.-1 - j)%N); split.
  move=> base i /leP le; rewrite I3 //; congr (Some (_ + _)); rewrite /app /rev_base.
  rewrite -(rev_sum_v (fun j => A i j *m base (N.-1 - j)%N)); apply: eq_bigr => j _.
  by rewrite subKn //; apply: leP.
move=> i l lti ltl; rewrite (rev_sum (fun j => A i j *m (A l j)^T)) -/(ip N (A i) (A l)).
have [le|/ltnW le] := leqP l i; first by apply: I4 => //; apply: leP.
by rewrite -ip_sym I4 ?CovT //; apply: leP.
Qed.
End Backward.
