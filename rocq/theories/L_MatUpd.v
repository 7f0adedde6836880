(** Specification and lemmas for matrix-based belief updates (M_MatUpd.v). *)
From mathcomp Require Import all_ssreflect all_algebra.
From Verif Require Import L_Zmod L_Ring M_LinSolve L_Kalman L_LinSolve M_MatUpd.
Set Implicit Arguments.
Unset Strict Implicit.
Unset Printing Implicit Defensive.
Import Order.Theory GRing.Theory Num.Theory.
Local Open Scope ring_scope.

Section Down.
Variables (R : rcfType) (n : nat).
Local Notation vec := 'cV[R]_n.
Local Notation mat := 'M[R]_n.
Implicit Types (W M T : mat) (s y v : vec).

Definition gain W s : vec := M_MatUpd.pinv (dt s (W *m s)) *: (W *m s).
Definition down W s : mat := W - gain W s *m (W *m s)^T.

Lemma gainP W s : psd W ->
  (W *m s = 0 /\ gain W s = 0) \/
  (dt s (W *m s) != 0 /\ gain W s = (dt s (W *m s))^-1 *: (W *m s)).
Proof.
move=> pW; rewrite /gain /M_MatUpd.pinv; case: ifP => g; first by right; rewrite gt_eqF // div1r.
left; split; last by rewrite scale0r.
apply: psd_ker => //; apply/eqP; rewrite eq_le (pW.2 s) andbT qform_dt leNgt g //.
Qed.
Lemma downE W s v : down W s *m v = W *m (v - dt (gain W s) v *: s).
Proof.
rewrite /down mulmxBl outerE mulmxBr -scalemxAr; congr (_ - _).
by rewrite /gain scalerA dtZl mulrC.
Qed.
Lemma gain_self W s : psd W -> W *m s = 0 \/ dt (gain W s) s = 1.
Proof.
move=> pW; case: (gainP s pW) => -[g0 gE]; [by left | right].
by rewrite gE dtZl [dt (W *m s) s]dtC mulVf.
Qed.
Lemma down_kills W s : psd W -> down W s *m s = 0.
Proof.
move=> pW; rewrite downE; case: (gain_self s pW) => e; last by rewrite e scale1r subrr mulmx0.
by rewrite mulmxBr -scalemxAr e scaler0 subr0.
Qed.
Lemma gain_ker W s v : psd W -> W *m v = 0 -> dt (gain W s) v = 0.
Proof. by move=> pW e; rewrite /gain dtZl dtMl pW.1 e dt0r mulr0. Qed.
Lemma down_keeps W s v : psd W -> W *m v = 0 -> down W s *m v = 0.
Proof. by move=> pW e; rewrite downE (gain_ker s pW e) scale0r subr0. Qed.
Lemma down_sym W s : psd W -> (down W s)^T = down W s.
Proof.
move=> [sW _]; rewrite /down linearB /= sW trmx_mul trmxK; congr (_ - _).
by rewrite /gain linearZ /= -scalemxAl -scalemxAr.
Qed.
Lemma down_psd W s : psd W -> psd (down W s).
Proof.
move=> pW; split; first exact: down_sym.
move=> v; have := pW.2 (v - dt (gain W s) v *: s); rewrite !qform_dt downE.
set c := dt _ v; rewrite [dt (v - _) _]dtC dtBr dtZr [dt _ v]dtC [dt _ s]dtC mulmxBr -scalemxAr !dtBr !dtZr.
suff -> : c * (dt s (W *m v) - c * dt s (W *m s)) = 0 by rewrite subr0.
have wv : dt s (W *m v) = dt (W *m s) v by rewrite dtMl pW.1.
rewrite wv /c; case: (gainP s pW) => -[g0 gE]; first by rewrite gE [dt 0 v]dtC dt0r mul0r.
have f (a g : R) : g != 0 -> g^-1 * a * (a - g^-1 * a * g) = 0 by move=> h; mfield.
by rewrite gE dtZl f.
Qed.
Lemma down_le W s : psd W -> loewner (down W s) W.
Proof.
move=> pW; rewrite /loewner /down opprB addrCA subrr addr0 /gain -scalemxAl.
apply: psdZ; last exact: psd_gram.
by rewrite /M_MatUpd.pinv; case: ifP => // g; rewrite div1r invr_ge0 ltW.
Qed.

(** ** Agreement with a matrix on the explored directions *)
Definition agree M W T : Prop := forall v, W *m v = 0 -> M *m v = T *m v.
Lemma kron_agree p s T : psd (k_B p) -> agree (k_mean p) (k_B p) T ->
  agree (k_mean (kron_update p s (T *m s))) (k_B (kron_update p s (T *m s))) T.
Proof.
case: p => M V W /= pW ag v; rewrite -/(gain W s) -/(down W s) downE => /ag.
rewrite !mulmxBr mulmxDl outerE -!scalemxAr => e.
by rewrite scalerBr addrCA addrC e subrK.
Qed.
Lemma sym_agree p s T : T^T = T -> (s_mean p)^T = s_mean p -> psd (s_A p) -> agree (s_mean p) (s_A p) T ->
  agree (s_mean (sym_update p s (T *m s))) (s_A (sym_update p s (T *m s))) T.
Proof.
case: p => M W /= sT sM pW ag v; rewrite -/(gain W s) -/(down W s) downE => /ag.
set c := dt _ v; set r := T *m s - M *m s; set u := gain W s => e.
have e2 : M *m v + c *: r = T *m v.
  by move: e; rewrite !mulmxBr -!scalemxAr /r scalerBr => e; rewrite addrCA addrC e subrK.
have rv : dt r v = c * dt s r.
  have : dt s (M *m (v - c *: s)) = dt s (T *m (v - c *: s)) by rewrite e.
  rewrite !mulmxBr -!scalemxAr !dtBr !dtZr /r [dt (_ - _) v]dtC !dtBr [dt v _]dtC [dt v (M *m s)]dtC.
  rewrite !dtMl sT sM => e3; rewrite mulrBr.
  have f (a b d h : R) : a - b = d - h -> d - a = h - b.
    by move=> e4; apply/eqP; rewrite subr_eq; apply/eqP; rewrite -[d](subrK h) -e4; zmod_eq.
  exact: f.
clearbody r; rewrite trmx_mul trmxK mulmxBl !mulmxDl !outerE -/c -e2 rv.
have -> : u *m (s^T *m (r *m u^T)) *m v = (c * dt s r) *: u.
  rewrite -!mulmxA [u^T *m v]mx11_scalar mul_mx_scalar -!scalemxAr [s^T *m r]mx11_scalar mul_mx_scalar.
  by rewrite scalerA.
by rewrite addrK.
Qed.
Lemma sym_sym p s y : (s_mean p)^T = s_mean p -> psd (s_A p) ->
  (s_mean (sym_update p s y))^T = s_mean (sym_update p s y).
Proof.
case: p => M W /= sM pW; rewrite -/(gain W s); set u := gain W s; set r := y - M *m s.
clearbody u r; rewrite !linearB !linearD /= !trmx_mul !trmxK sM.
rewrite -[u *m r^T *m s]mulmxA.
have -> : u *m (r^T *m s) *m u^T = u *m (s^T *m (r *m u^T)).
  rewrite -[LHS]mulmxA; congr (_ *m _); rewrite [RHS]mulmxA; congr (_ *m _).
  by rewrite [LHS]mx11_scalar [RHS]mx11_scalar; congr (_%:M); exact: dtC.
by congr (_ - _); rewrite addrAC.
Qed.
End Down.

(** ** Runs of updates *)
Section Runs.
Variables (R : rcfType) (n : nat).
Local Notation vec := 'cV[R]_n.
Local Notation mat := 'M[R]_n.
Implicit Types (T : mat) (s y : nat -> vec).

(** The belief after the first [k] actions [s] and observations [y]. *)
Definition upto P (upd : P -> vec -> vec -> P) (p : P) s y k : P :=
  foldl (fun p j => upd p (s j) (y j)) p (iota 0 k).
Lemma uptoS P (upd : P -> vec -> vec -> P) p s y k :
  upto upd p s y k.+1 = upd (upto upd p s y k) (s k) (y k).
Proof. by rewrite /upto iota_last -cats1 foldl_cat. Qed.
(** Only the first [k] observations matter. *)
Lemma upto_ext P (upd : P -> vec -> vec -> P) p s y y' k : (forall j, (j < k)%N -> y j = y' j) ->
  upto upd p s y k = upto upd p s y' k.
Proof.
elim: k => [|k IH] e //; rewrite !uptoS IH => [|j lj]; first by rewrite e.
by apply: e; apply: ltnW.
Qed.

Fixpoint downs (W : mat) s k : mat := if k is k'.+1 then down (downs W s k') (s k') else W.
Lemma kron_B p s y k : k_B (upto (@kron_update R n) p s y k) = downs (k_B p) s k.
Proof. by elim: k => [|k IH] //; rewrite uptoS /= IH. Qed.
Lemma kron_A p s y k : k_A (upto (@kron_update R n) p s y k) = k_A p.
Proof. by elim: k => [|k IH] //; rewrite uptoS /= IH. Qed.
Lemma sym_A p s y k : s_A (upto (@sym_update R n) p s y k) = downs (s_A p) s k.
Proof. by elim: k => [|k IH] //; rewrite uptoS /= IH. Qed.
Lemma downs_psd W s k : psd W -> psd (downs W s k).
Proof. by move=> pW; elim: k => [|k IH] //=; apply: down_psd. Qed.
Lemma downs_kill W s k j : psd W -> (j < k)%N -> downs W s k *m s j = 0.
Proof.
move=> pW; elim: k => [|k IH] //; rewrite ltnS leq_eqVlt => /orP[/eqP ->|lt] /=.
  by apply: down_kills; apply: downs_psd.
by apply: down_keeps; [apply: downs_psd | apply: IH].
Qed.
Lemma downs_le W s k : psd W -> loewner (downs W s k.+1) (downs W s k).
Proof. by move=> pW; apply: down_le; apply: downs_psd. Qed.

Lemma pd_agree M W T : pd W -> agree M W T.
Proof.
move=> pW v Wv; suff -> : v = 0 by rewrite !mulmx0.
apply/eqP/negPn/negP => nz; have := pW.2 v nz.
by rewrite /qform -mulmxA Wv mulmx0 mxE ltxx.
Qed.
Lemma kron_agrees p s T k : pd (k_B p) ->
  let q := upto (@kron_update R n) p s (fun j => T *m s j) k in agree (k_mean q) (k_B q) T.
Proof.
move=> pW /=; elim: k => [|k IH]; first exact: pd_agree.
rewrite uptoS; apply: kron_agree => //; rewrite kron_B; apply: downs_psd; exact: pd_psd.
Qed.
Lemma sym_mean_sym p s y k : psd (s_A p) -> (s_mean p)^T = s_mean p ->
  let q := upto (@sym_update R n) p s y k in (s_mean q)^T = s_mean q.
Proof.
move=> pW sM /=; elim: k => [|k IH] //; rewrite uptoS; apply: sym_sym => //.
by rewrite sym_A; apply: downs_psd.
Qed.
Lemma sym_agrees p s T k : T^T = T -> (s_mean p)^T = s_mean p -> pd (s_A p) ->
  let q := upto (@sym_update R n) p s (fun j => T *m s j) k in agree (s_mean q) (s_A q) T.
Proof.
move=> sT sM pW /=; elim: k => [|k IH]; first exact: pd_agree.
have ps : psd (s_A p) by apply: pd_psd.
rewrite uptoS; apply: sym_agree => //; first exact: sym_mean_sym.
by rewrite sym_A; apply: downs_psd.
Qed.

(** *** The belief after [calls] *)
Lemma callsE P (upd : P -> vec -> vec -> P) A p acts :
  let s := nth 0 acts in
  calls upd A p acts = Belief (upto upd (b_A p) s (fun j => A *m s j) (size acts))
                              (upto upd (b_Ainv p) (fun j => A *m s j) s (size acts)).
Proof.
rewrite /=; elim/last_ind: acts => [|acts a IH]; first by case: p.
rewrite /calls -cats1 foldl_cat /= -/(calls upd A p acts) IH size_cat addn1 !uptoS /call /=.
rewrite nth_cat ltnn subnn /=.
congr Belief; congr (upd _ _ _).
- have E (f g h : nat -> vec) (q : P) k : (forall j, (j < k)%N -> f j = g j) ->
    upto upd q f (fun j => A *m f j) k = upto upd q g (fun j => A *m g j) k.
    by elim: k => [|k IHk] e //; rewrite !uptoS IHk => [|j lj]; [rewrite e | apply: e; apply: ltnW].
  by apply: E => // j lj; rewrite nth_cat lj.
- have E (f g h : nat -> vec) (q : P) k : (forall j, (j < k)%N -> f j = g j) ->
    upto upd q (fun j => A *m f j) f k = upto upd q (fun j => A *m g j) g k.
    by elim: k => [|k IHk] e //; rewrite !uptoS IHk => [|j lj]; [rewrite e | apply: e; apply: ltnW].
  by apply: E => // j lj; rewrite nth_cat lj.
Qed.
End Runs.

(** ** Random matrices
    A Gaussian random matrix is an affine function [Z |-> X 0 + sum_l Z_l * X (l+1)] of [K]
    independent standard normal variables; a measurement of it is a vector of the same kind. *)
Section RMat.
Variables (R : rcfType) (n K : nat).
Local Notation vec := 'cV[R]_n.
Local Notation mat := 'M[R]_n.
Record rmat := RMat { rm_mean : mat; rm_part : 'I_K -> mat }.
Implicit Types (X E : rmat) (s y : nat -> vec).
(** Covariance of [a^T X b] and [c^T Y d]. *)
Definition cov_form X E (a b c d : vec) : R :=
  \sum_(l < K) dt a (rm_part X l *m b) * dt c (rm_part E l *m d).
(** [a^T X b] and [c^T X d] have covariance [(a^T V c) (b^T W d)]: the covariance of [X] is the
    Kronecker product of [V] and [W]; the symmetric Kronecker product of [W]. *)
Definition kron_cov X (V W : mat) := forall a b c d,
  cov_form X X a b c d = dt a (V *m c) * dt b (W *m d).
Definition symkron_cov X (W : mat) := forall a b c d,
  cov_form X X a b c d =
    (dt a (W *m c) * dt b (W *m d) + dt a (W *m d) * dt b (W *m c)) / 2%:R.
(** [mu y] predicts the random matrix from the measurements [y j = X s j]: it is affine in the
    data, the prediction error is centred and uncorrelated with the data. *)
Definition affine (mu : (nat -> vec) -> mat) : Prop := forall a y y',
  mu (fun j => a *: y j + y' j) - mu (fun _ => 0) =
    a *: (mu y - mu (fun _ => 0)) + (mu y' - mu (fun _ => 0)).
Definition pred_error X s (mu : (nat -> vec) -> mat) : rmat :=
  RMat (rm_mean X - mu (fun j => rm_mean X *m s j))
       (fun l => rm_part X l - (mu (fun j => rm_part X l *m s j) - mu (fun _ => 0))).
Definition predicts X s k (mu : (nat -> vec) -> mat) : Prop :=
  [/\ affine mu, (forall y y', (forall j, (j < k)%N -> y j = y' j) -> mu y = mu y'),
      rm_mean (pred_error X s mu) = 0
    & forall a b c j, (j < k)%N -> cov_form (pred_error X s mu) X a b c (s j) = 0].
End RMat.


(** Sums over the parts of a random matrix. *)
Section Sums.
Variables (R : rcfType) (n K : nat).
Local Notation vec := 'cV[R]_n.
(** [Z] is uncorrelated with the linear functionals [F]. *)
Definition unc (Z F : 'I_K -> R) : Prop := \sum_(l < K) Z l * F l = 0.
Lemma uncD Z F G : unc Z F -> unc Z G -> unc Z (fun l => F l + G l).
Proof.
rewrite /unc => e1 e2; rewrite -[RHS]addr0 -[X in _ = X + _]e1 -[X in _ = _ + X]e2 -big_split /=.
by apply: eq_bigr => l _; rewrite mulrDr.
Qed.
Lemma uncZ Z F a : unc Z F -> unc Z (fun l => a * F l).
Proof.
rewrite /unc => e; transitivity (a * \sum_(l < K) Z l * F l); last by rewrite e mulr0.
by rewrite mulr_sumr; apply: eq_bigr => l _; rewrite mulrCA.
Qed.
Lemma unc_ext Z F G : F =1 G -> unc Z F -> unc Z G.
Proof. by move=> e; rewrite /unc => h; rewrite -[RHS]h; apply: eq_bigr => l _; rewrite e. Qed.
End Sums.

Lemma form_red (R : rcfType) (n : nat) (U : 'M[R]_n) sk b d c : U^T = U -> U *m sk = 0 ->
  dt (b - c *: sk) (U *m d) = dt b (U *m d).
Proof.
move=> sU z; have e x : dt x (U *m d) = dt (U *m x) d by rewrite dtMl sU.
by rewrite !e mulmxBr -scalemxAr z scaler0 subr0.
Qed.

Section Red.
Variables (R : rcfType) (n : nat) (s : nat -> 'cV[R]_n) (W : 'M[R]_n).
Hypothesis pW : psd W.
Local Notation Wk k := (downs W s k).
Definition red k (b : 'cV[R]_n) : 'cV[R]_n := b - dt (gain (Wk k) (s k)) b *: s k.
Lemma down_form k b d : dt (red k b) (Wk k *m red k d) = dt b (Wk k.+1 *m d).
Proof.
have pk : psd (Wk k) by apply: downs_psd.
have pk1 : psd (Wk k.+1) by apply: downs_psd.
have z : Wk k.+1 *m s k = 0 by apply: downs_kill.
have -> : Wk k *m red k d = Wk k.+1 *m d by rewrite /red -downE.
exact: (form_red _ _ _ pk1.1 z).
Qed.
Lemma red_kill k b : dt (red k b) (Wk k *m s k) = 0.
Proof.
have pk : psd (Wk k) by apply: downs_psd.
have pk1 : psd (Wk k.+1) by apply: downs_psd.
have z : Wk k.+1 *m s k = 0 by apply: downs_kill.
have f (U : 'M[R]_n) x y : U^T = U -> dt x (U *m y) = dt (U *m x) y by move=> sU; rewrite dtMl sU.
rewrite (f _ _ _ pk.1); have -> : Wk k *m red k b = Wk k.+1 *m b by rewrite /red -downE.
by rewrite -(f _ _ _ pk1.1) z dt0r.
Qed.
End Red.

Section KronLaw.
Variables (R : rcfType) (n K : nat) (X : rmat R n K) (s : nat -> 'cV[R]_n) (V W : 'M[R]_n).
Hypothesis pW : psd W.
Local Notation vec := 'cV[R]_n.
Definition kmu k (y : nat -> vec) := k_mean (upto (@kron_update R n) (KBel (rm_mean X) V W) s y k).
Local Notation Wk k := (downs W s k).
Local Notation g k := (gain (Wk k) (s k)).

Lemma kron_muS k y : kmu k.+1 y = kmu k y + (y k - kmu k y *m s k) *m (g k)^T.
Proof. by rewrite /kmu uptoS /= kron_B. Qed.
Lemma kron_mu_affine k : affine (kmu k).
Proof.
elim: k => [|k IH] a y y'; first by rewrite /kmu /upto /= !subrr scaler0 addr0.
move: (IH a y y'); rewrite !kron_muS.
move: (kmu k y) (kmu k y') (kmu k (fun _ => 0)) (kmu k _) (y k) (y' k) (s k) (g k) => m1 m2 m0 m3 y1 y2 sk gk e.
have -> : m3 = a *: (m1 - m0) + (m2 - m0) + m0 by rewrite -e subrK.
rewrite !(mulmxBl, mulmxDl, scalerBr, scalerDr, mulNmx, scalerN, opprD, opprB) -?scalemxAl.
by rewrite !mul0mx ?scaler0 !oppr0 ?add0r; zmod_eq.
Qed.
Lemma kmu_ext k y y' : (forall j, (j < k)%N -> y j = y' j) -> kmu k y = kmu k y'.
Proof. by move=> e; rewrite /kmu (upto_ext _ _ _ e). Qed.

(** The error after [k] updates. *)
Local Notation err k := (pred_error X s (kmu k)).
Lemma kron_errS k : rm_mean (err k.+1) = rm_mean (err k) *m (1%:M - s k *m (g k)^T)
  /\ forall l, rm_part (err k.+1) l = rm_part (err k) l *m (1%:M - s k *m (g k)^T).
Proof.
split=> [|l] /=; rewrite !kron_muS !mulmxBr !mulmx1 !mulmxA !mulmxBl.
  by zmod_eq.
by rewrite mul0mx sub0r; zmod_eq.
Qed.
Lemma kron_err0 : rm_mean (err 0) = 0 /\ forall l, rm_part (err 0) l = rm_part X l.
Proof. by split=> [|l] /=; rewrite /kmu /upto /= ?subrr ?subr0. Qed.
Lemma kron_err_mean k : rm_mean (err k) = 0.
Proof. by elim: k => [|k IH]; [apply kron_err0.1 | rewrite (kron_errS k).1 IH mul0mx]. Qed.
Lemma kron_form k l a b : dt a (rm_part (err k.+1) l *m b) = dt a (rm_part (err k) l *m red s W k b).
Proof. by rewrite (kron_errS k).2 -mulmxA mulmxBl mul1mx outerE. Qed.
Hypothesis cX : kron_cov X V W.
Lemma kron_err_cov k : kron_cov (err k) V (Wk k).
Proof.
elim: k => [|k IH] a b c d.
  rewrite -[RHS]cX; apply: eq_bigr => l _; congr (_ * _); by rewrite kron_err0.2.
rewrite -(down_form s pW k b d) -(IH a _ c _); apply: eq_bigr => l _.
by congr (_ * _); apply: kron_form.
Qed.
(** What is uncorrelated with the data is uncorrelated with the prediction. *)
Lemma kron_unc k Z : (forall c j, (j < k)%N -> unc Z (fun l => dt c (rm_part X l *m s j))) ->
  forall c d, unc Z (fun l => dt c ((rm_part X l - rm_part (err k) l) *m d)).
Proof.
elim: k => [|k IH] u c d.
  rewrite /unc big1 // => l _; by rewrite kron_err0.2 subrr mul0mx dt0r mulr0.
have {}IH := IH (fun c j lj => u c j (ltnW lj)).
have e l : dt c ((rm_part X l - rm_part (err k.+1) l) *m d) =
    dt c ((rm_part X l - rm_part (err k) l) *m d) +
    dt (g k) d * (dt c (rm_part X l *m s k) + (-1) * dt c ((rm_part X l - rm_part (err k) l) *m s k)).
  rewrite (kron_errS k).2; move: (rm_part (err k) l) (rm_part X l) => e x.
  rewrite !mulmxBl -mulmxA mulmxBl mul1mx outerE mulmxBr -scalemxAr.
  rewrite !dtBr dtZr; have e4 (a b c' d' f : R) : a - (b - c' * d') = a - b + c' * (f + (-1) * (f - d')).
    by mring.
  exact: e4.
apply: unc_ext (fun l => esym (e l)) _; apply: uncD; first exact: IH.
by apply: uncZ; apply: uncD; [apply: u | apply: uncZ].
Qed.
Lemma kron_err_unc k a b c j : (j < k)%N -> cov_form (err k) X a b c (s j) = 0.
Proof.
elim: k a b c j => [|k IH] a b c j //; rewrite ltnS leq_eqVlt => /orP[/eqP ->|lt]; last first.
  by rewrite -[RHS](IH a (red s W k b) c j lt); apply: eq_bigr => l _; congr (_ * _); apply: kron_form.
have u0 c' j' : (j' < k)%N -> unc (fun l => dt a (rm_part (err k.+1) l *m b)) (fun l => dt c' (rm_part X l *m s j')).
  move=> lt; rewrite /unc -[RHS](IH a (red s W k b) c' j' lt); apply: eq_bigr => l _; congr (_ * _); exact: kron_form.
have e l : dt c (rm_part X l *m s k) =
    dt c ((rm_part X l - rm_part (err k) l) *m s k) + dt c (rm_part (err k) l *m s k).
  by rewrite -dtDr -mulmxDl subrK.
rewrite /cov_form; apply: unc_ext (fun l => esym (e l)) _; apply: uncD; first exact: kron_unc.
rewrite /unc; transitivity (cov_form (err k) (err k) a (red s W k b) c (s k)).
  by apply: eq_bigr => l _; congr (_ * _); apply: kron_form.
by rewrite kron_err_cov red_kill // mulr0.
Qed.
Lemma kron_predicts k : predicts X s k (kmu k).
Proof. by split; [exact: kron_mu_affine | exact: kmu_ext | exact: kron_err_mean | exact: kron_err_unc]. Qed.
End KronLaw.

Section SymLaw.
Variables (R : rcfType) (n K : nat) (X : rmat R n K) (s : nat -> 'cV[R]_n) (W : 'M[R]_n).
Hypothesis pW : psd W.
Local Notation vec := 'cV[R]_n.
Definition smu k (y : nat -> vec) := s_mean (upto (@sym_update R n) (SymBel (rm_mean X) W) s y k).
Local Notation Wk k := (downs W s k).
Local Notation g k := (gain (Wk k) (s k)).

(** The symmetric update, linear in the residual [r]. *)
Definition sup (u sk r : vec) : 'M[R]_n := r *m u^T + u *m r^T - dt sk r *: (u *m u^T).
Lemma sup_lin u sk a r r' : sup u sk (a *: r + r') = a *: sup u sk r + sup u sk r'.
Proof.
rewrite /sup dtDr dtZr mulmxDl -scalemxAl !scalerDl -scalerA scalerBr scalerDr.
have -> : (a *: r + r')^T = a *: r^T + r'^T by apply/matrixP => i j; rewrite !mxE.
rewrite mulmxDr -scalemxAr.
by move: (r *m _) (u *m r^T) (dt sk r *: _) (r' *m _) (u *m _) (dt sk r' *: _) => *; zmod_eq.
Qed.
Lemma sup0 u sk : sup u sk 0 = 0.
Proof. by rewrite /sup trmx0 mul0mx mulmx0 dt0r scale0r addr0 subr0. Qed.
Lemma sym_muS k y : smu k.+1 y = smu k y + sup (g k) (s k) (y k - smu k y *m s k).
Proof.
have e (m : 'M[R]_n) (u sk r : vec) : m + r *m u^T + (r *m u^T)^T - u *m (sk^T *m (r *m u^T)) = m + sup u sk r.
  rewrite /sup trmx_mul trmxK [sk^T *m _]mulmxA [sk^T *m r]mx11_scalar mul_scalar_mx -scalemxAr.
  by rewrite -!addrA.
by rewrite /smu uptoS -e /= sym_A.
Qed.
Lemma smu_affine k : affine (smu k).
Proof.
elim: k => [|k IH] a y y'; first by rewrite /smu /upto /= !subrr scaler0 addr0.
move: (IH a y y'); rewrite !sym_muS.
move: (smu k y) (smu k y') (smu k (fun _ => 0)) (smu k _) (y k) (y' k) (s k) (g k) => m1 m2 m0 m3 y1 y2 sk gk e.
have -> : a *: y1 + y2 - m3 *m sk =
    a *: (y1 - m1 *m sk) + ((y2 - m2 *m sk) + ((- a) *: (0 - m0 *m sk) + 0)).
  have -> : m3 = a *: (m1 - m0) + (m2 - m0) + m0 by rewrite -e subrK.
  rewrite !(mulmxBl, mulmxDl) -?scalemxAl !(mulmxBl, mulmxDl) !(scalerBr, scalerDr) ?scalerN !scaleNr.
  by rewrite scaler0; zmod_eq.
rewrite !sup_lin; have -> : sup gk sk (y2 - m2 *m sk + (- a *: (0 - m0 *m sk) + 0)) = 
  sup gk sk (y2 - m2 *m sk) + (- a) *: sup gk sk (0 - m0 *m sk).
  by rewrite -[y2 - _]scale1r sup_lin sup_lin sup0 !scale1r addr0.
have -> : m3 = a *: (m1 - m0) + (m2 - m0) + m0 by rewrite -e subrK.
move: (sup _ _ _) (sup _ _ _) (sup _ _ _) => z1 z2 z3.
rewrite !(scalerBr, scalerDr) !scaleNr.
by zmod_eq.
Qed.
Lemma smu_ext k y y' : (forall j, (j < k)%N -> y j = y' j) -> smu k y = smu k y'.
Proof. by move=> e; rewrite /smu (upto_ext _ _ _ e). Qed.

Local Notation err k := (pred_error X s (smu k)).
Lemma sup_sub u sk r r' : sup u sk r - sup u sk r' = sup u sk (r - r').
Proof.
have := sup_lin u sk (-1) r' r; rewrite !scaleN1r [- r' + r]addrC => ->; exact: addrC.
Qed.
Lemma sym_errS k : rm_mean (err k.+1) = rm_mean (err k) - sup (g k) (s k) (rm_mean (err k) *m s k)
  /\ forall l, rm_part (err k.+1) l = rm_part (err k) l - sup (g k) (s k) (rm_part (err k) l *m s k).
Proof.
split=> [|l] /=; rewrite !sym_muS.
  by rewrite mulmxBl opprD addrA.
move: (rm_part X l) (smu k (fun _ => 0)) (smu k _) => x m0 m1.
have <- : x *m s k - m1 *m s k - (0 - m0 *m s k) = (x - (m1 - m0)) *m s k.
  by rewrite !mulmxBl; zmod_eq.
rewrite -[sup _ _ (_ - (0 - _))]sup_sub; move: (sup _ _ _) (sup _ _ _) => z1 z2.
by zmod_eq.
Qed.
Lemma sym_err0 : rm_mean (err 0) = 0 /\ forall l, rm_part (err 0) l = rm_part X l.
Proof. by split=> [|l] /=; rewrite /smu /upto /= ?subrr ?subr0. Qed.
Lemma sym_err_mean k : rm_mean (err k) = 0.
Proof. by elim: k => [|k IH]; [apply sym_err0.1 | rewrite (sym_errS k).1 IH mul0mx sup0 subr0]. Qed.
Hypothesis cX : symkron_cov X W.
Lemma X_sym l : (rm_part X l)^T = rm_part X l.
Proof.
apply/matrixP => i j; rewrite mxE; apply/eqP; rewrite -subr_eq0 -sqrf_eq0; apply/eqP.
have : \sum_(l < K) (rm_part X l j i - rm_part X l i j) ^+ 2 = 0.
  have d a b (M : 'M[R]_n) : dt (delta_mx a 0) (M *m delta_mx b 0) = M a b.
    by rewrite /dt trmx_delta -rowE -colE /= [LHS]mxE mxE.
  have e a b c d' : cov_form X X (delta_mx a 0) (delta_mx b 0) (delta_mx c 0) (delta_mx d' 0) =
     \sum_(l < K) rm_part X l a b * rm_part X l c d' by apply: eq_bigr => l' _; rewrite !d.
  transitivity (\sum_(l < K) rm_part X l j i * rm_part X l j i +
     (-2%:R) * (\sum_(l < K) rm_part X l j i * rm_part X l i j) + \sum_(l < K) rm_part X l i j * rm_part X l i j).
    rewrite mulr_sumr -!big_split /=; apply: eq_bigr => l' _; by mring.
  rewrite -!e !cX !d; have -> : W i j = W j i by rewrite -{1}pW.1 mxE.
  have n2 : 2%:R != 0 :> R by rewrite pnatr_eq0.
  by mfield.
move/eqP; rewrite psumr_eq0 => [/allP h|l' _]; last exact: sqr_ge0.
by have /eqP := h l (mem_index_enum l).
Qed.
Lemma sup_tr u sk r : (sup u sk r)^T = sup u sk r.
Proof.
rewrite /sup; have -> : (r *m u^T + u *m r^T - dt sk r *: (u *m u^T))^T =
  (r *m u^T)^T + (u *m r^T)^T - dt sk r *: (u *m u^T)^T by apply/matrixP => i j; rewrite !mxE.
by rewrite !trmx_mul !trmxK [_ + r *m _]addrC.
Qed.
Lemma err_sym k l : (rm_part (err k) l)^T = rm_part (err k) l.
Proof.
elim: k => [|k IH]; first by rewrite sym_err0.2 X_sym.
rewrite (sym_errS k).2; move: (rm_part (err k) l) IH => e IH.
have -> : (e - sup (g k) (s k) (e *m s k))^T = e^T - (sup (g k) (s k) (e *m s k))^T
  by apply/matrixP => i j; rewrite !mxE.
by rewrite IH sup_tr.
Qed.
Lemma sym_form k l a b : dt a (rm_part (err k.+1) l *m b) =
  dt (red s W k a) (rm_part (err k) l *m red s W k b).
Proof.
rewrite (sym_errS k).2; move: (rm_part (err k) l) (err_sym k l) => e se.
have f x y : dt x (e *m y) = dt y (e *m x) by rewrite dtC dtMl se.
rewrite /red /sup; move: (s k) (g k) => sk u.
rewrite !(mulmxBl, mulmxDl, mulNmx, mulmxBr) -?scalemxAl -?scalemxAr !outerE.
rewrite !(dtBr, dtDr, dtZr) ![dt (a - _) _]dtC !(dtBr, dtZr).
rewrite [dt (e *m b) a]dtC [dt (e *m b) sk]dtC [dt (e *m sk) a]dtC [dt (e *m sk) sk]dtC.
rewrite [dt (e *m sk) b]dtC [dt b _]f [dt a u]dtC.
move: (dt a (e *m b)) (dt a (e *m sk)) (dt sk (e *m b)) (dt sk (e *m sk)) (dt u a) (dt u b) => x1 x2 x3 x4 x5 x6.
by mring.
Qed.
Lemma sym_err_cov k : symkron_cov (err k) (Wk k).
Proof.
elim: k => [|k IH] a b c d.
  rewrite -[RHS]cX; apply: eq_bigr => l _; congr (_ * _); by rewrite sym_err0.2.
rewrite -(down_form s pW k b d) -(down_form s pW k a d) -(down_form s pW k b c) -(down_form s pW k a c).
rewrite -(IH (red s W k a) _ (red s W k c) _); apply: eq_bigr => l _.
by congr (_ * _); apply: sym_form.
Qed.
Lemma sym_unc k Z : (forall c j, (j < k)%N -> unc Z (fun l => dt c (rm_part X l *m s j))) ->
  forall c d, unc Z (fun l => dt c ((rm_part X l - rm_part (err k) l) *m d)).
Proof.
elim: k => [|k IH] u c d.
  rewrite /unc big1 // => l _; by rewrite sym_err0.2 subrr mul0mx dt0r mulr0.
have {}IH := IH (fun c j lj => u c j (ltnW lj)).
have r x : unc Z (fun l => dt x (rm_part (err k) l *m s k)).
  apply: (unc_ext _ (uncD (u x k (leqnn _)) (uncZ (-1) (IH x (s k))))) => l /=.
  by move: (rm_part (err k) l) (rm_part X l) => e y; rewrite mulmxBl dtBr; mring.
have e l : dt c ((rm_part X l - rm_part (err k.+1) l) *m d) =
    dt c ((rm_part X l - rm_part (err k) l) *m d) + (dt (g k) d * dt c (rm_part (err k) l *m s k) +
      (dt (g k) c * dt d (rm_part (err k) l *m s k) +
       (- (dt (g k) c * dt (g k) d)) * dt (s k) (rm_part (err k) l *m s k))).
  rewrite (sym_errS k).2; move: (rm_part (err k) l) (rm_part X l) => e x.
  rewrite opprB addrCA [_ + (x - e)]addrC mulmxDl dtDr; congr (_ + _).
  move: (s k) (g k) => sk w.
  rewrite /sup !(mulmxBl, mulmxDl, mulNmx) -?scalemxAl !outerE !(dtBr, dtDr, dtZr).
  rewrite [dt (e *m sk) d]dtC [dt c w]dtC.
  by move: (dt _ _) (dt _ _) (dt _ _) (dt _ _) (dt _ _) => *; mring.
apply: unc_ext (fun l => esym (e l)) _; apply: uncD; first exact: IH.
by apply: uncD; last apply: uncD; apply: uncZ; apply: r.
Qed.
Lemma sym_err_unc k a b c j : (j < k)%N -> cov_form (err k) X a b c (s j) = 0.
Proof.
elim: k a b c j => [|k IH] a b c j //; rewrite ltnS leq_eqVlt => /orP[/eqP ->|lt]; last first.
  by rewrite -[RHS](IH (red s W k a) (red s W k b) c j lt); apply: eq_bigr => l _; congr (_ * _); apply: sym_form.
have u0 c' j' : (j' < k)%N -> unc (fun l => dt a (rm_part (err k.+1) l *m b)) (fun l => dt c' (rm_part X l *m s j')).
  move=> lt; rewrite /unc -[RHS](IH (red s W k a) (red s W k b) c' j' lt); apply: eq_bigr => l _; congr (_ * _); exact: sym_form.
have e l : dt c (rm_part X l *m s k) =
    dt c ((rm_part X l - rm_part (err k) l) *m s k) + dt c (rm_part (err k) l *m s k).
  by rewrite -dtDr -mulmxDl subrK.
rewrite /cov_form; apply: unc_ext (fun l => esym (e l)) _; apply: uncD; first exact: sym_unc.
rewrite /unc; transitivity (cov_form (err k) (err k) (red s W k a) (red s W k b) c (s k)).
  by apply: eq_bigr => l _; congr (_ * _); apply: sym_form.
by rewrite sym_err_cov !red_kill // mulr0 mul0r addr0 mul0r.
Qed.
Lemma sym_predicts k : predicts X s k (smu k).
Proof. by split; [exact: smu_affine | exact: smu_ext | exact: sym_err_mean | exact: sym_err_unc]. Qed.
End SymLaw.
