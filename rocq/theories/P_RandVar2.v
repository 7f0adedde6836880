(** C26, continued: matrix products with normal random variables. *)
From mathcomp Require Import all_ssreflect all_algebra.
From Verif Require Import L_Ring M_CovFunc L_CovFunc M_RandVar L_RandVar L_RandVar2 P_RandVar.
Set Implicit Arguments.
Unset Strict Implicit.
Unset Printing Implicit Defensive.
Import Order.Theory GRing.Theory Num.Theory.
Local Open Scope ring_scope.

(** [cholesky_update(S)] is a square root of [S S^T]; for a vector [S] it is an array of shape [(1, 1)]. *)
Definition chol_spec (R : rcfType) (cu : arr R -> arr R) : Prop := forall S u n, wf S -> shp S = rcons u n -> (size u <= 1)%N ->
  [/\ wf (cu S), shp (cu S) = [:: prodn u; prodn u] & forall i j, (i < prodn u)%N -> (j < prodn u)%N ->
     \sum_(k < prodn u) fl (cu S) (i * prodn u + k) * fl (cu S) (j * prodn u + k) = \sum_(k < n) fl S (i * n + k) * fl S (j * n + k)].

Section Matmul.
Variables (R : rcfType) (K : nat).
Notation arr := (arr R).
Notation get := (get (0 : R)).
Implicit Types (X Y : rarr R K) (x : normal R) (c : arr).

Lemma splitP u w b : valid (u ++ w) b -> exists b1 b2, [/\ b = b1 ++ b2, valid u b1, valid w b2, take (size u) b = b1 & drop (size u) b = b2].
Proof.
move=> /valid_cat_split [b1 [b2 [-> v1 v2]]]; exists b1, b2; split=> //.
  by rewrite -(valid_size v1) take_size_cat.
by rewrite -(valid_size v1) drop_size_cat.
Qed.
Lemma valid_rcons u n b l : valid u b -> (l < n)%N -> valid (rcons u n) (rcons b l).
Proof. by move=> v ln; rewrite -!cats1 valid_cat ?(valid_size v) // v /= ln. Qed.
Lemma prodn_rcons u n : prodn (rcons u n) = (prodn u * n)%N.
Proof. by rewrite -cats1 prodn_cat /= muln1. Qed.
Lemma law_nc u n w X x c x' : law (rcons u n) X (Nrm x) -> shp c = n :: w -> nwf x' -> chol_ok x' -> shp (mean x') = u ++ w ->
  (forall i j, (i < prodn u)%N -> (j < prodn w)%N ->
     fl (mean x') (i * prodn w + j) = \sum_(l < n) fl (mean x) (i * n + l) * fl c (l * prodn w + j)) ->
  (forall i j i2 j2, (i < prodn u)%N -> (j < prodn w)%N -> (i2 < prodn u)%N -> (j2 < prodn w)%N ->
     fl (cov x') ((i * prodn w + j) * (prodn u * prodn w) + (i2 * prodn w + j2)) =
     \sum_(l < n) \sum_(k < n) fl c (l * prodn w + j) * fl (cov x) ((i * n + l) * (prodn u * n) + (i2 * n + k)) * fl c (k * prodn w + j2)) ->
  law (u ++ w) (fun b => \sum_(l < n) get c (nat_of_ord l :: drop (size u) b) *: X (rcons (take (size u) b) l)) (Nrm x').
Proof.
move=> [[wm wv s2 ev] ck es [mX cX]] ec wx' ck' es' hm hv; split=> //; case: wx' => wm' wv' s2' ev'; split=> [b vb|a b va vb].
  have [b1 [b2 [eb v1 v2 -> ->]]] := splitP vb.
  rewrite Exsum (get_fl (mean x')) es' eb ravel_cat ?(valid_size v1) // hm ?ravel_lt //; apply: eq_bigr => l _.
  by rewrite ExZ mX ?valid_rcons // mulrC !get_fl es ravel_rcons ?(valid_size v1) // ec.
have [a1 [a2 [ea va1 va2 -> ->]]] := splitP va; have [b1 [b2 [eb v1 v2 -> ->]]] := splitP vb.
have ev2 : shp (cov x') = cov_shape (u ++ w) by rewrite ev' es'.
rewrite covfE ?es' // ea eb !ravel_cat ?(valid_size va1) ?(valid_size v1) // prodn_cat -/(fl (cov x') _) hv ?ravel_lt //.
rewrite Cosum; apply: eq_bigr => l _; rewrite Cosumr; apply: eq_bigr => k _.
have E (p q r : R) : p * (q * r) = p * r * q by mring.
rewrite CoZ CoZr cX ?valid_rcons // E covfE ?es ?valid_rcons //; last by rewrite ev es.
by rewrite prodn_rcons !ravel_rcons ?(valid_size va1) ?(valid_size v1) // !get_fl ec.
Qed.
Lemma law_cn u n w X x c x' : law (n :: w) X (Nrm x) -> shp c = rcons u n -> nwf x' -> chol_ok x' -> shp (mean x') = u ++ w ->
  (forall i j, (i < prodn u)%N -> (j < prodn w)%N ->
     fl (mean x') (i * prodn w + j) = \sum_(l < n) fl c (i * n + l) * fl (mean x) (l * prodn w + j)) ->
  (forall i j i2 j2, (i < prodn u)%N -> (j < prodn w)%N -> (i2 < prodn u)%N -> (j2 < prodn w)%N ->
     fl (cov x') ((i * prodn w + j) * (prodn u * prodn w) + (i2 * prodn w + j2)) =
     \sum_(l < n) \sum_(k < n) fl c (i * n + l) * fl (cov x) ((l * prodn w + j) * (n * prodn w) + (k * prodn w + j2)) * fl c (i2 * n + k)) ->
  law (u ++ w) (fun b => \sum_(l < n) get c (rcons (take (size u) b) l) *: X (nat_of_ord l :: drop (size u) b)) (Nrm x').
Proof.
move=> [[wm wv s2 ev] ck es [mX cX]] ec wx' ck' es' hm hv; split=> //; case: wx' => wm' wv' s2' ev'; split=> [b vb|a b va vb].
  have [b1 [b2 [eb v1 v2 -> ->]]] := splitP vb.
  rewrite Exsum (get_fl (mean x')) es' eb ravel_cat ?(valid_size v1) // hm ?ravel_lt //; apply: eq_bigr => l _.
  by rewrite ExZ mX /= ?ltn_ord // !get_fl es ec ravel_rcons ?(valid_size v1).
have [a1 [a2 [ea va1 va2 -> ->]]] := splitP va; have [b1 [b2 [eb v1 v2 -> ->]]] := splitP vb.
have ev2 : shp (cov x') = cov_shape (u ++ w) by rewrite ev' es'.
rewrite covfE ?es' // ea eb !ravel_cat ?(valid_size va1) ?(valid_size v1) // prodn_cat -/(fl (cov x') _) hv ?ravel_lt //.
rewrite Cosum; apply: eq_bigr => l _; rewrite Cosumr; apply: eq_bigr => k _.
have E (p q r : R) : p * (q * r) = p * r * q by mring.
have V l' b' : valid w b' -> (l' < n)%N -> valid (n :: w) (l' :: b') by move=> v /= ->.
rewrite CoZ CoZr cX ?V // E covfE ?es ?V //; last by rewrite ev es.
by rewrite !get_fl ec !ravel_rcons ?(valid_size va1) ?(valid_size v1).
Qed.

Variable cu : arr -> arr.
Hypothesis cuP : chol_spec cu.
(** [A^T (V A)] and the factor, for [A] with entries in C order. *)
Lemma quad_c (c v t z : arr) n w : wf c -> shp c = n :: w -> shp v = [:: n; n] ->
  np_matmul v c = Some t -> np_matmul (np_T c) t = Some z ->
  [/\ shp z = w ++ w, wf z, (size w <= 1)%N & forall j j2, (j < prodn w)%N -> (j2 < prodn w)%N ->
    fl z (j * prodn w + j2) = \sum_(l < n) \sum_(k < n) fl c (l * prodn w + j) * fl v (l * n + k) * fl c (k * prodn w + j2)].
Proof.
move=> wc ec ev /matmul_fl [u1 [n1 [w1 [e1 e2 e3 wt [s1 s2 ht]]]]] /matmul_fl [u2 [n2 [w2 [f1 f2 f3 wz [r1 r2 hz]]]]].
have [? ?] : n1 = n /\ w1 = w by move: e2; rewrite ec => -[-> ->].
subst n1 w1; have u1E : u1 = [:: n] by rewrite ev -[[:: n; n]]/(rcons [:: n] n) in e1; case: (rcons_inj e1) => ->.
subst u1; have [? ?] : n2 = n /\ w2 = w by move: f2; rewrite e3 => -[-> ->].
subst n2 w2; have ? : u2 = w by rewrite shp_T ec rev_cons in f1; case: (rcons_inj f1) => <-; case: (w) s2 => [|? [|? ?]].
subst u2; split=> // j j2 jp jp2; rewrite hz //; apply: eq_bigr => l _.
rewrite (T_fl wc ec) // ht /= ?muln1 ?ltn_ord // mulr_sumr; apply: eq_bigr => k _; rewrite mulrA //.
Qed.
Lemma T_fl2 (c : arr) u n i l : wf c -> shp c = rcons u n -> (size u <= 1)%N -> (i < prodn u)%N -> (l < n)%N ->
  fl (np_T c) (l * prodn u + i) = fl c (i * n + l).
Proof.
case: u => [|k [|? ?]] // wc ec _ ik ln.
  by case: i ik => // _; rewrite muln1 addn0 -[l]add0n -[X in (X + l)%N](mul0n n) (T_fl wc ec) // mul0n add0n muln1 addn0.
by rewrite /= !muln1 in ik *; rewrite (T_fl wc ec) //= muln1.
Qed.
(** [A (V A^T)] *)
Lemma quad_r (c v t z : arr) n u : wf c -> shp c = rcons u n -> shp v = [:: n; n] ->
  np_matmul v (np_T c) = Some t -> np_matmul c t = Some z ->
  [/\ shp z = u ++ u, wf z, (size u <= 1)%N & forall i i2, (i < prodn u)%N -> (i2 < prodn u)%N ->
    fl z (i * prodn u + i2) = \sum_(l < n) fl c (i * n + l) * \sum_(k < n) fl v (l * n + k) * fl c (i2 * n + k)].
Proof.
move=> wc ec ev /matmul_fl [u1 [n1 [w1 [e1 e2 e3 wt [s1 s2 ht]]]]] /matmul_fl [u2 [n2 [w2 [f1 f2 f3 wz [r1 r2 hz]]]]].
have u1E : u1 = [:: n] /\ n1 = n by rewrite ev -[[:: n; n]]/(rcons [:: n] n) in e1; case: (rcons_inj e1) => -> ->.
case: u1E => ? ?; subst u1 n1; have [? ?] : u2 = u /\ n2 = n by rewrite ec in f1; case: (rcons_inj f1) => -> ->.
subst u2 n2; have ? : w1 = u.
  by move: e2; rewrite shp_T ec rev_rcons => -[<-]; case: (u) r1 => [|? [|? ?]].
subst w1; have ? : w2 = u by move: f2; rewrite e3 => -[->].
subst w2; split=> // i i2 ip ip2; rewrite hz //; apply: eq_bigr => l _; congr (_ * _).
by rewrite ht /= ?muln1 ?ltn_ord //; apply: eq_bigr => k _; rewrite (T_fl2 wc ec).
Qed.
(** Rows of the Kronecker products. *)
Lemma row_nc m n p c2 U (G : nat -> R) i j : wf c2 -> shp c2 = [:: n; p] -> np_kron (np_eye R m) (np_T c2) = Some U ->
  (i < m)%N -> (j < p)%N ->
  \sum_(q < m * n) fl U ((i * p + j) * (m * n) + q) * G q = \sum_(l < n) fl c2 (l * p + j) * G (i * n + l)%N.
Proof.
move=> wc ec EU im jp; have eT : shp (np_T c2) = [:: p; n] by rewrite shp_T ec.
have [eU wU hU] := kron_fl (erefl : shp (np_eye R m) = [:: m; m]) eT EU.
rewrite (sum_pair m n (fun q => fl U ((i * p + j) * (m * n) + q) * G q)).
rewrite -(sum_delta (fun i' => \sum_(l < n) fl c2 (l * p + j) * G (i' * n + l)%N) im); apply: eq_bigr => i' _.
rewrite mulr_sumr; apply: eq_bigr => l _; rewrite hU // eye_fl // (T_fl wc ec) //= ?muln1 //.
by rewrite mulrA.
Qed.
Lemma row_cn k n p c2 U (G : nat -> R) i j : wf c2 -> shp c2 = [:: k; n] -> np_kron c2 (np_eye R p) = Some U ->
  (i < k)%N -> (j < p)%N ->
  \sum_(q < n * p) fl U ((i * p + j) * (n * p) + q) * G q = \sum_(l < n) fl c2 (i * n + l) * G (l * p + j)%N.
Proof.
move=> wc ec EU ik jp; have [eU wU hU] := kron_fl ec (erefl : shp (np_eye R p) = [:: p; p]) EU.
rewrite (sum_pair n p (fun q => fl U ((i * p + j) * (n * p) + q) * G q)); apply: eq_bigr => l _.
rewrite -(sum_delta (fun j' => fl c2 (i * n + l) * G (l * p + j')%N) jp); apply: eq_bigr => j' _.
by rewrite hU // eye_fl // mulrA [_ * fl c2 _]mulrC.
Qed.
Lemma sum_sq n (a b : nat -> R) (L : nat -> nat -> R) :
  \sum_(k < n) (\sum_(l < n) a l * L l k) * (\sum_(l < n) b l * L l k) =
  \sum_(l < n) \sum_(m < n) a l * (\sum_(k < n) L l k * L m k) * b m.
Proof.
under eq_bigr => k _ do rewrite mulr_suml; rewrite exchange_big /=; apply: eq_bigr => l _.
under eq_bigr => k _ do rewrite mulr_sumr; rewrite exchange_big /=; apply: eq_bigr => m _.
rewrite mulr_sumr mulr_suml; apply: eq_bigr => k _.
have E (p q r t : R) : p * q * (r * t) = p * (q * t) * r by mring.
exact: E.
Qed.
(** ** [X @ c] *)
Theorem C26_matmul_nc s X x c x' : law s X (Nrm x) -> wf c -> matmul_nc cu x c = Some x' ->
  exists u n w, [/\ s = rcons u n, shp c = n :: w &
    law (u ++ w) (fun b => \sum_(l < n) get c (nat_of_ord l :: drop (size u) b) *: X (rcons (take (size u) b) l)) (Nrm x')].
Proof.
move=> lX wc; case: lX (lX) => [[wm wv s2 ev] ck es _] lX; rewrite /matmul_nc es; case: ifP => [s1|_].
  case El : (ochol _ _ _ _) => [l|] //; case Em : (np_matmul (mean x) c) => [m|] //.
  case Et : (np_matmul (cov x) c) => [t|] //; rewrite [obind _ _]/=; case Ez : (np_matmul (np_T c) t) => [z|] // E.
  have [u [n [w [e1 e2 e3 wm' [su sw hm]]]]] := matmul_fl Em; rewrite es in e1; move: es; subst s; move=> es; exists u, n, w; split=> //.
  have u1 : prodn u = 1%N.
    by clear -s1 su; case: u s1 su => [|d [|? ?]] //=; case: eqP => //= ->.
  have pn : prodn (rcons u n) = n by rewrite prodn_rcons u1 mul1n.
  have evn : shp (cov x) = [:: n; n] by rewrite ev es -{2 3}pn; case: (u).
  have [ez wz _ hz] := quad_c wc e2 evn Et Ez.
  have [E1 E2 E3 E4 E5] := mk_normalP E; case: E1 => E1; subst m.
  have dv : dat (cov x') = dat z /\ wf (cov x').
    move: E2; case: ifP => [/andP[_ _]|_ [<-]] //; rewrite /np_reshape; case: ifP => // /eqP pz [<-] /=; split=> //.
    by move: wz; rewrite /wf -pz.
  have pw : prodn (shp (mean x')) = prodn w by rewrite e3 prodn_cat u1 mul1n.
  apply: (law_nc lX e2) => //.
  - by split=> //; exact: dv.2.
  - move: ck El; rewrite /chol_ok E3 {E3}; case: (chol x) => [l0|]; last by move=> _ [<-].
    case=> [[wl pl hl]] [|eL]; first by rewrite es; case: (u).
    rewrite /ochol; case ES : (np_matmul _ l0) => [S|] //= [eq]; subst l; split; last exact: mk_normal_chol E.
    have [u3 [n3 [w3 [g1 g2 g3 wS [r1 r2 hS]]]]] := matmul_fl ES.
    move: g2; rewrite eL evn => -[? ?]; subst n3 w3.
    have ? : u3 = w by rewrite shp_T e2 rev_cons in g1; case: (rcons_inj g1) => <-; case: (w) sw => [|? [|? ?]].
    subst u3; rewrite cats1 in g3; have [wcu ecu hcu] := cuP wS g3 r1.
    rewrite pw; split=> //; first by rewrite ecu /= muln1.
    move=> j j2 jp jp2; rewrite -/(fl (cu S) _) -/(fl (cov x') _).
    have -> : fl (cov x') (j * prodn w + j2) = fl z (j * prodn w + j2) by rewrite /fl dv.1.
    rewrite hz // -[LHS]/(\sum_(k < prodn w) fl (cu S) (j * prodn w + k) * fl (cu S) (j2 * prodn w + k)) hcu //.
    have hS2 j' (k : 'I_n) : (j' < prodn w)%N -> fl S (j' * n + k) = \sum_(l < n) fl c (l * prodn w + j') * fl l0 (l * n + k).
      move=> jp'; have := hS j' k jp'; rewrite /= muln1 => -> //; apply: eq_bigr => l _; by rewrite (T_fl wc e2).
    under eq_bigr => k _ do rewrite !hS2 //.
    rewrite (sum_sq n (fun l => fl c (l * prodn w + j)) (fun l => fl c (l * prodn w + j2)) (fun l k => fl l0 (l * n + k))).
    apply: eq_bigr => l _; apply: eq_bigr => k _; congr (_ * _ * _).
    by move: (hl l k); rewrite es pn => -> //.
  - move=> i j i2 j2; rewrite u1 => i1 jp i21 jp2; case: i i1 => // _; case: i2 i21 => // _.
    by rewrite !mul0n !mul1n !add0n /fl dv.1 -/(fl z _) hz.
case: s es s2 lX => [|m [|n [|? ?]]] // es s2 lX.
case Ec : (if _ then _ else _) => [c2|] //; case EU : (np_kron _ _) => [U|] // E.
have [E1 E2 E3 E4 E5] := mk_normalP E.
have [u [n' [w [e1 e2 e3 wm' [su sw hm]]]]] := matmul_fl E1; rewrite es in e1.
have [? ?] : u = [:: m] /\ n' = n by rewrite -[[:: m; n]]/(rcons [:: m] n) in e1; case: (rcons_inj e1) => -> ->.
subst u n'; exists [:: m], n, w; split=> //; move: E2; case Et : (np_matmul _ _) => [t|] //= Ez.
have [d2 wc2 ec2] : [/\ dat c2 = dat c, wf c2 & shp c2 = [:: n; prodn w]].
  move: Ec; rewrite e2 /=; case: (w) sw e2 => [|p [|? ?]] //= _ e2; last by move=> [<-]; rewrite muln1.
  rewrite /np_reshape e2 /= eqxx => -[<-] /=; split=> //; by move: wc; rewrite /wf e2.
have eT : shp (np_T c2) = [:: prodn w; n] by rewrite shp_T ec2.
have [eU wU hU] := kron_fl (erefl : shp (np_eye R m) = [:: m; m]) eT EU.
have eU' : shp U = rcons [:: (m * prodn w)%N] (m * n)%N by [].
have evn : shp (cov x) = [:: (m * n)%N; (m * n)%N] by rewrite ev es /= muln1.
have [ez wz _ hz] := quad_r wU eU' evn Et Ez.
apply: (@law_nc [:: m] n w X x c x' lX e2) => //.
- by rewrite /chol_ok E3.
move=> i j i2 j2 ip jp ip2 jp2; rewrite /= !muln1 in ip ip2 hz *; rewrite hz ?pair_lt //.
rewrite (row_nc (fun q => \sum_(k < m * n) fl (cov x) (q * (m * n) + k) * fl U ((i2 * prodn w + j2) * (m * n) + k)) wc2 ec2 EU) //.
apply: eq_bigr => l _; under [RHS]eq_bigr => k _ do rewrite -mulrA [_ * fl c _]mulrC.
rewrite -mulr_sumr; congr (_ * _); first by rewrite /fl d2.
under [LHS]eq_bigr => k _ do rewrite mulrC.
have := row_nc (fun k => fl (cov x) ((i * n + l) * (m * n) + k)) wc2 ec2 EU ip2 jp2; rewrite /= => ->.
by apply: eq_bigr => k _; rewrite /fl d2.
Qed.
(** ** [c @ X] *)
Theorem C26_matmul_cn s X x c x' : law s X (Nrm x) -> wf c -> matmul_cn cu c x = Some x' ->
  exists u n w, [/\ shp c = rcons u n, s = n :: w &
    law (u ++ w) (fun b => \sum_(l < n) get c (rcons (take (size u) b) l) *: X (nat_of_ord l :: drop (size u) b)) (Nrm x')].
Proof.
move=> lX wc; case: lX (lX) => [[wm wv s2 ev] ck es _] lX; rewrite /matmul_cn es; case: ifP => [s1|_].
  case El : (ochol _ _ _ _) => [l|] // E.
  have [E1 E2 E3 E4 E5] := mk_normalP E; move: E2; case Et : (np_matmul (cov x) _) => [t|] //= Ez.
  have [u [n [w [e1 e2 e3 wm' [su sw hm]]]]] := matmul_fl E1; rewrite es in e2; move: es; subst s; move=> es; exists u, n, w; split=> //.
  have w1 : prodn w = 1%N by clear -s1 sw; case: w s1 sw => [|d [|? ?]] //=; case: eqP => //= ->.
  have pn : prodn (n :: w) = n by rewrite /= w1 muln1.
  have evn : shp (cov x) = [:: n; n] by rewrite ev es /cov_shape pn.
  have [ez wz _ hz] := quad_r wc e1 evn Et Ez.
  have pw : prodn (shp (mean x')) = prodn u by rewrite e3 prodn_cat w1 muln1.
  apply: (law_cn lX e1) => //.
  - move: ck El; rewrite /chol_ok E3 {E3}; case: (chol x) => [l0|]; last by move=> _ [<-].
    case=> [[wl pl hl]] [|eL]; first by rewrite es.
    rewrite /ochol; case ES : (np_matmul _ l0) => [S|] //= [eq]; subst l; split; last exact: mk_normal_chol E.
    have [u3 [n3 [w3 [g1 g2 g3 wS [r1 r2 hS]]]]] := matmul_fl ES.
    move: g2; rewrite eL evn => -[? ?]; subst n3 w3; have ? : u3 = u by rewrite e1 in g1; case: (rcons_inj g1).
    subst u3; rewrite cats1 in g3; have [wcu ecu hcu] := cuP wS g3 r1.
    rewrite pw; split=> //; first by rewrite ecu /= muln1.
    move=> j j2 jp jp2; rewrite -/(fl (cov x') _) hz //.
    rewrite -[LHS]/(\sum_(k < prodn u) fl (cu S) (j * prodn u + k) * fl (cu S) (j2 * prodn u + k)) hcu //.
    have hS2 j' (k : 'I_n) : (j' < prodn u)%N -> fl S (j' * n + k) = \sum_(l < n) fl c (j' * n + l) * fl l0 (l * n + k).
      by move=> jp'; have := hS j' k jp'; rewrite /= muln1 => ->.
    under eq_bigr => k _ do rewrite !hS2 //.
    rewrite (sum_sq n (fun l => fl c (j * n + l)) (fun l => fl c (j2 * n + l)) (fun l k => fl l0 (l * n + k))).
    apply: eq_bigr => l _; rewrite mulr_sumr; apply: eq_bigr => k _; rewrite -mulrA; congr (_ * (_ * _)).
    by move: (hl l k); rewrite es pn => -> //.
  - move=> i j i2 j2; rewrite w1 => i1 jp i21 jp2; case: j jp => // _; case: j2 jp2 => // _.
    rewrite !muln1 !addn0 hz //; apply: eq_bigr => l1 _; rewrite mulr_sumr; apply: eq_bigr => k _.
    by rewrite !muln1 !addn0 mulrA.
case: s es s2 lX => [|n [|p [|? ?]]] // es s2 lX.
case Ec : (if _ then _ else _) => [c2|] //; case EU : (np_kron _ _) => [U|] // E.
have [E1 E2 E3 E4 E5] := mk_normalP E.
have [u [n' [w [e1 e2 e3 wm' [su sw hm]]]]] := matmul_fl E1; rewrite es in e2.
case: e2 => ? ?; subst n' w; exists u, n, [:: p]; split=> //; move: E2; case Et : (np_matmul _ _) => [t|] //= Ez.
have [d2 wc2 ec2] : [/\ dat c2 = dat c, wf c2 & shp c2 = [:: prodn u; n]].
  move: Ec; rewrite e1; case: (u) su e1 => [|k [|? ?]] //= _ e1; last by move=> [<-]; rewrite muln1.
  rewrite /np_reshape e1 /= mul1n eqxx => -[<-] /=; split=> //; by move: wc; rewrite /wf e1 /= mul1n.
have [eU wU hU] := kron_fl ec2 (erefl : shp (np_eye R p) = [:: p; p]) EU.
have eU' : shp U = rcons [:: (prodn u * p)%N] (n * p)%N by [].
have evn : shp (cov x) = [:: (n * p)%N; (n * p)%N] by rewrite ev es /= muln1.
have [ez wz _ hz] := quad_r wU eU' evn Et Ez.
apply: (law_cn lX e1) => //.
- by rewrite /chol_ok E3.
move=> i j i2 j2 ip jp ip2 jp2; rewrite /= !muln1 in jp jp2 hz *; rewrite hz ?pair_lt //.
rewrite (row_cn (fun q => \sum_(k < n * p) fl (cov x) (q * (n * p) + k) * fl U ((i2 * p + j2) * (n * p) + k)) wc2 ec2 EU) //.
apply: eq_bigr => l _; under [RHS]eq_bigr => k _ do rewrite -mulrA [_ * fl c _]mulrC.
rewrite -mulr_sumr; congr (_ * _); first by rewrite /fl d2.
under [LHS]eq_bigr => k _ do rewrite mulrC.
have := row_cn (fun k => fl (cov x) ((l * p + j) * (n * p) + k)) wc2 ec2 EU ip2 jp2; rewrite /= => ->.
by apply: eq_bigr => k _; rewrite /fl d2.
Qed.
End Matmul.
Print Assumptions C26_matmul_nc.
Print Assumptions C26_matmul_cn.
