(** Expressions of linear operators: the matrix they denote (the specification) and their
    evaluation by the library. *)
From mathcomp Require Import all_ssreflect all_algebra.
From Verif Require Import L_Kalman L_Chol M_DMx L_DMx M_LinOps M_LinOps2 L_LinOps L_LinOps2 L_LinOps3
  L_LinOps4 L_LinOps5 L_LinOps6 L_LinOps7 L_LinOps8 L_LinOps9 L_LinOps10 L_LinOps11 L_LinOps12 L_LinOps13.
Set Implicit Arguments.
Unset Strict Implicit.
Unset Printing Implicit Defensive.
Import Order.Theory GRing.Theory Num.Theory.
Local Open Scope ring_scope.

Section Exp.
Variable R : rcfType.
Local Notation dmx := (dmx R).
Local Notation op := (op R).

Inductive lexp : Type :=
| EMat of flags & dmx            (* Matrix(A), with structure flags assigned by the user *)
| ELam of flags & dmx            (* LambdaLinearOperator of a matrix *)
| EIdn of nat                    (* Identity(n) *)
| EScC of nat & R                (* Scaling(c, shape=(n, n)) *)
| EScV of seq R                  (* Scaling(factors) *)
| EZer of nat & nat              (* Zero((m, n)) *)
| ESel of nat & seq nat          (* Selection(indices, (len(indices), n)) *)
| EEmb of nat & seq nat          (* Embedding(range(len(put)), put, (m, len(put))) *)
| ESyz of nat                    (* Symmetrize(n) *)
| EKro of lexp & lexp            (* Kronecker(a, b) *)
| EIdK of nat & lexp             (* IdentityKronecker(n, b) *)
| ESyK of lexp                   (* SymmetricKronecker(a) *)
| EBlk of lexps                  (* BlockDiagonalMatrix(a, ...) *)
| ETra of lexp                   (* a.T *)
| EInv of lexp                   (* a.inv() *)
| ESca of R & lexp               (* c * a *)
| ENeg of lexp                   (* -a *)
| EAdd of lexp & lexp            (* a + b *)
| ESub of lexp & lexp            (* a - b *)
| EPrd of lexp & lexp            (* a @ b *)
with lexps : Type := LOne of lexp | LCons of lexp & lexps.
Scheme lexp_mut := Induction for lexp Sort Prop
with lexps_mut := Induction for lexps Sort Prop.
Combined Scheme lexp_ind2 from lexp_mut, lexps_mut.

(** Flags a user may assign to a fresh operator with the matrix [A]: those asserted hold;
    triangularity of a symmetric matrix is asserted for both triangles or none. *)
Definition admissible (f : flags) (A : dmx) : bool :=
  [&& (drow A != dcol A) ==> (f_sym f == Some false) && (f_pd f == None),
      (f_pd f == Some true) ==> (f_sym f == Some true),
      (f_sym f == Some true) ==> (f_low f == f_upp f) &&  deq (dtr A) A,
      (f_low f == Some true) ==> dlow A,
      (f_upp f == Some true) ==> dupp A & (f_pd f == Some true) ==> dpd A].

(** ** Specification: the matrix an expression denotes, if it is well-shaped. With [strict]
    block diagonal matrices must have square blocks. *)
Definition oif (T : Type) (b : bool) (x : T) : option T := if b then Some x else None.
Section Denote.
Variable strict : bool.
Definition get2 (a b : option dmx) (p : dmx -> dmx -> bool) (f : dmx -> dmx -> dmx) : option dmx :=
  if a is Some A then if b is Some B then oif (p A B) (f A B) else None else None.
Fixpoint denote (e : lexp) : option dmx :=
  match e with
  | EMat f A | ELam f A => oif [&& (0 < drow A)%N, (0 < dcol A)%N & admissible f A] A
  | EIdn n => oif (0 < n)%N (did R n)
  | EScC n c => oif (0 < n)%N (dscale c (did R n))
  | EScV d => oif (0 < size d)%N (ddiag d)
  | EZer m n => oif ((0 < m)%N && (0 < n)%N) (dzero R m n)
  | ESel n idx => oif (idx_ok n idx)
      (mk (size idx) n (fun i j => (nth 0%N idx i == j)%:R))
  | EEmb m put => oif (idx_ok m put) (mk m (size put) (fun i j => (nth 0%N put j == i)%:R))
  | ESyz n => oif (0 < n)%N (mk (n * n) (n * n) (fun i j =>
      ((i == j)%:R + (i == j %% n * n + j %/ n)%N%:R) / 2%:R))
  | EKro a b => get2 (denote a) (denote b) (fun _ _ => true) (@dkron R)
  | EIdK n b => if (0 < n)%N then omap (dkron (did R n)) (denote b) else None
  | ESyK a => if denote a is Some A then oif (drow A == dcol A) (dkron A A) else None
  | EBlk l => if denotes l is Some s then oif (strict ==> all (@dsq R) s) (dblock s) else None
  | ETra a => omap (@dtr R) (denote a)
  | EInv a => if denote a is Some A then oif (dunit A) (dinv A) else None
  | ESca c a => omap (dscale c) (denote a)
  | ENeg a => omap (@dopp R) (denote a)
  | EAdd a b => get2 (denote a) (denote b) (fun A B => dshape A == dshape B) (@dadd R)
  | ESub a b => get2 (denote a) (denote b) (fun A B => dshape A == dshape B) (@dsub R)
  | EPrd a b => get2 (denote a) (denote b) (fun A B => dcol A == drow B) (@dmul R)
  end
with denotes (l : lexps) : option (seq dmx) :=
  match l with
  | LOne a => omap (fun A => [:: A]) (denote a)
  | LCons a l => if denote a is Some A then omap (cons A) (denotes l) else None
  end.
End Denote.

(** ** Evaluation by the library *)
Section Run.
Variable same : op -> op -> bool.
Variable lazy : bool.
Definition op2 (a b : option op) (f : op -> op -> option op) : option op := obind2 a b f.
Fixpoint run (e : lexp) : option op :=
  match e with
  | EMat f A => Some (Mat f A)
  | ELam f A => Some (Lam f A)
  | EIdn n => Some (idn R n)
  | EScC n c => Some (scC n c)
  | EScV d => Some (scV d)
  | EZer m n => Some (zer R m n)
  | ESel n idx => Some (sel R n idx)
  | EEmb m put => Some (emb m (iota 0 (size put)) put 0)
  | ESyz n => Some (syz R n)
  | EKro a b => obind2 (run a) (run b) (fun a b => Some (kro a b))
  | EIdK n b => omap (idk n) (run b)
  | ESyK a => omap (fun a => syk a a true) (run a)
  | EBlk l => omap (@blk R) (runs l)
  | ETra a => obind (@transpose R) (run a)
  | EInv a => obind (@inv R) (run a)
  | ESca c a => omap (mul c) (run a)
  | ENeg a => omap (@neg R) (run a)
  | EAdd a b => obind2 (run a) (run b) (add same)
  | ESub a b => obind2 (run a) (run b) (sub same)
  | EPrd a b => obind2 (run a) (run b) (matmul lazy)
  end
with runs (l : lexps) : option (seq op) :=
  match l with
  | LOne a => omap (fun a => [:: a]) (run a)
  | LCons a l => if run a is Some x then omap (cons x) (runs l) else None
  end.

(** [LambdaLinearOperator]s occur outside Kronecker factors only. *)
Fixpoint lamok (k : bool) (e : lexp) : bool :=
  match e with
  | ELam _ _ => ~~ k
  | EKro a b => lamok true a && lamok true b
  | EIdK _ b => lamok true b
  | ESyK a | ETra a | EInv a | ESca _ a | ENeg a => lamok k a
  | EBlk l => lamoks k l
  | EAdd a b | ESub a b | EPrd a b => lamok k a && lamok k b
  | _ => true
  end
with lamoks (k : bool) (l : lexps) : bool :=
  match l with LOne a => lamok k a | LCons a l => lamok k a && lamoks k l end.
Fixpoint invs (e : lexp) : bool :=
  match e with
  | EInv _ => true
  | EKro a b | EAdd a b | ESub a b | EPrd a b => invs a || invs b
  | EIdK _ a | ESyK a | ETra a | ESca _ a | ENeg a => invs a
  | EBlk l => invss l
  | _ => false
  end
with invss (l : lexps) : bool :=
  match l with LOne a => invs a | LCons a l => invs a || invss l end.

Hypothesis same_ok : forall a b, same a b -> a = b.
Variable trk : bool.
Local Notation ok := (@L_LinOps2.ok R trk).

Definition good (k : bool) (e : lexp) (D : dmx) : Prop :=
  if run e is Some o then ok k o /\ dense o = D else invs e.
Definition goods (k : bool) (l : lexps) (s : seq dmx) : Prop :=
  if runs l is Some t then [/\ all (ok k) t, (0 < size t)%N & map (@dense R) t = s] else invss l.

Lemma user_ok (k b : bool) f A : (0 < drow A)%N -> (0 < dcol A)%N -> admissible f A -> (~~ k || ~~ b) ->
  ok k (if b then Lam f A else Mat f A).
Proof.
move=> m0 n0 /and5P[a1 a2 a3 a4 /andP[a5 a6]] kb.
have -> : ok k (if b then Lam f A else Mat f A) = ok false (Mat f A).
  case: b kb => kb; rewrite /L_LinOps2.ok /L_LinOps2.node_ok /consistent /sym_true /tflags /= ?dmul1r //.
  by rewrite orbF in kb; rewrite kb.
rewrite /L_LinOps2.ok /= m0 n0 /L_LinOps2.node_ok /consistent /tflags a4 a5 a6 implybT !andbT /=.
rewrite /sym_true /= a2 /flef /=.
have -> : fle (f_sym (base_flags (drow A) (dcol A))) (f_sym f).
  by rewrite /base_flags /=; case: eqP a1 => //= _ /andP[/eqP ->].
rewrite /is_square /rows /cols /=; case: (f_sym f == Some true) a3 => /= [/andP[-> ->]|_].
  by rewrite ?andbT; apply/implyP; rewrite ?andbT => ne; move: a1; rewrite ne => /andP[].
by rewrite ?andbT; apply/implyP; rewrite ?andbT => ne; move: a1; rewrite ne => /andP[].
Qed.
Lemma get2P (a b : option dmx) p f D : get2 a b p f = Some D ->
  exists A B, [/\ a = Some A, b = Some B, p A B & D = f A B].
Proof.
rewrite /get2; case: a => // A; case: b => // B; rewrite /oif; case: ifP => // pp [<-].
by exists A, B.
Qed.
Lemma oifP (b : bool) (x D : dmx) : oif b x = Some D -> b /\ x = D.
Proof. by rewrite /oif; case: ifP => // _ [<-]. Qed.
Lemma good_res k e D r : res trk k r D -> (r = run e) -> good k e D.
Proof. by move=> [t [-> ot dt]] e1; rewrite /good -e1. Qed.
Lemma dense_sel n idx : idx_ok n idx ->
  dense (sel R n idx) = mk (size idx) n (fun i j => (nth 0%N idx i == j)%:R).
Proof.
case/and4P=> _ _ _ lt; apply: dmx_ext => //= i j im jn; rewrite !get_mk //.
exact: (all_nthP 0%N lt).
Qed.
Lemma dense_emb m put : idx_ok m put ->
  dense (emb m (iota 0 (size put)) put (0 : R)) = mk m (size put) (fun i j => (nth 0%N put j == i)%:R).
Proof.
case/and4P=> _ _ _ lt; apply: dmx_ext => //= i j im jn; rewrite !get_mk //.
exact: (all_nthP 0%N lt).
Qed.
Lemma dense_syz n : (0 < n)%N -> dense (syz R n) = mk (n * n) (n * n) (fun i j =>
      ((i == j)%:R + (i == j %% n * n + j %/ n)%N%:R) / 2%:R).
Proof.
move=> n0; apply: dmx_ext => //= i j im jn.
have i1 : (i %/ n < n)%N by rewrite ltn_divLR.
have i2 : (i %% n < n)%N by rewrite ltn_mod.
have j1 : (j %/ n < n)%N by rewrite ltn_divLR.
have j2 : (j %% n < n)%N by rewrite ltn_mod.
rewrite !get_mk -?divn_eq //; last by apply: pair_lt.
rewrite mulrC mul1r; congr (_ * _); congr (_ + _); congr (_%:R); congr nat_of_bool.
apply/eqP/eqP => [<-|->].
  by rewrite modnMDl divnMDl // (divn_small i1) addn0 modn_small // -divn_eq.
by rewrite modnMDl divnMDl // (divn_small j1) addn0 modn_small // -divn_eq.
Qed.
Lemma syz_ok k n : (0 < n)%N -> ok k (syz R n).
Proof. by move=> n0; apply: base_ok => //=; rewrite ?/base_flags ?eqxx ?andbT. Qed.
Lemma dE_idk n b : denote trk (EIdK n b) = if (0 < n)%N then omap (dkron (did R n)) (denote trk b) else None.
Proof. by []. Qed.
Lemma dE_syk a : denote trk (ESyK a) = if denote trk a is Some A then oif (drow A == dcol A) (dkron A A) else None.
Proof. by []. Qed.
Lemma dE_blk l : denote trk (EBlk l) =
  if denotes trk l is Some s then oif (trk ==> all (@dsq R) s) (dblock s) else None.
Proof. by []. Qed.
Lemma dE_tra a : denote trk (ETra a) = omap (@dtr R) (denote trk a). Proof. by []. Qed.
Lemma dE_inv a : denote trk (EInv a) = if denote trk a is Some A then oif (dunit A) (dinv A) else None.
Proof. by []. Qed.
Lemma dE_sca c a : denote trk (ESca c a) = omap (dscale c) (denote trk a). Proof. by []. Qed.
Lemma dE_neg a : denote trk (ENeg a) = omap (@dopp R) (denote trk a). Proof. by []. Qed.
Lemma dE_one a : denotes trk (LOne a) = omap (fun A => [:: A]) (denote trk a). Proof. by []. Qed.
Lemma dE_cons a l : denotes trk (LCons a l) = if denote trk a is Some A then omap (cons A) (denotes trk l) else None.
Proof. by []. Qed.
Lemma eval_ok :
  (forall e k D, lamok k e -> denote trk e = Some D -> good k e D) /\
  (forall l k s, lamoks k l -> denotes trk l = Some s -> goods k l s).
Proof.
apply: lexp_ind2 => /=; rewrite /good /goods /=.
- move=> f A k D _ /oifP[/and3P[m0 n0 a] <-]; split=> //.
  by apply: (@user_ok k false) => //; rewrite orbT.
- move=> f A k D kk /oifP[/and3P[m0 n0 a] <-]; split; last by rewrite dmul1r.
  by apply: (@user_ok k true) => //; rewrite kk.
- by move=> n k D _ /oifP[n0 <-]; split=> //; exact: idn_ok.
- by move=> n c k D _ /oifP[n0 <-]; split; [exact: scC_ok|rewrite ScC_diag].
- by move=> d k D _ /oifP[n0 <-]; split=> //; exact: scV_ok.
- by move=> m n k D _ /oifP[/andP[m0 n0] <-]; split=> //; exact: zer_ok.
- by move=> n i k D _ /oifP[ii <-]; split; [exact: sel_ok|exact: dense_sel].
- by move=> n i k D _ /oifP[ii <-]; split; [exact: emb_ok|exact: dense_emb].
- by move=> n k D _ /oifP[n0 <-]; split; [exact: syz_ok|exact: dense_syz].
- move=> a IHa b IHb k D /andP[la lb] /get2P[A [B [ea eb _ ->]]].
  move: (IHa _ _ la ea) (IHb _ _ lb eb); case: (run a) => [x|] /=; last by move=> ->.
  move=> [ox dx]; case: (run b) => [y|] /=; last by move=> ->; rewrite orbT.
  by move=> [oy dy]; split; [exact: kro_ok|rewrite dx dy].
- move=> n b IHb k D lb; rewrite dE_idk; case: ifP => // n0; case eb: (denote trk b) => [B|] //= [<-].
  by move: (IHb _ _ lb eb); case: (run b) => [y|] //= [oy dy]; split; [exact: idk_ok|rewrite dy].
- move=> a IHa k D la; rewrite dE_syk; case ea: (denote trk a) => [A|] //= /oifP[/eqP q <-].
  move: (IHa _ _ la ea); case: (run a) => [x|] //= [ox dx]; split; last by rewrite dx.
  by apply: syk_ok => //; rewrite (ok_square_wf ox) dx q.
- move=> l IH k D ll; rewrite dE_blk; case el: (denotes trk l) => [s|] //= /oifP[q <-].
  move: (IH _ _ ll el); case: (runs l) => [t|] //= [ot t0 dt]; split; last by rewrite dt.
  by apply: blk_ok => // tt; rewrite -(dsq_all ot) dt; move: q; rewrite tt.
- move=> a IHa k D la; rewrite dE_tra; case ea: (denote trk a) => [A|] //= [<-].
  move: (IHa _ _ la ea); case: (run a) => [x|] //= [ox dx].
  by have [t [-> ot dt _]] := transpose_ok ox; rewrite -dx.
- move=> a IHa k D la; rewrite dE_inv; case ea: (denote trk a) => [A|] //= /oifP[u <-].
  move: (IHa _ _ la ea); case: (run a) => [x|] //= [ox dx].
  by have := @inv_ok R trk k x ox; rewrite dx => /(_ u); rewrite /iprop; case: (inv x) => // r; rewrite dx.
- move=> c a IHa k D la; rewrite dE_sca; case ea: (denote trk a) => [A|] //= [<-].
  by move: (IHa _ _ la ea); case: (run a) => [x|] //= [ox dx]; rewrite -dx; exact: mul_ok.
- move=> a IHa k D la; rewrite dE_neg; case ea: (denote trk a) => [A|] //= [<-].
  by move: (IHa _ _ la ea); case: (run a) => [x|] //= [ox dx]; rewrite -dx; exact: neg_ok.
- move=> a IHa b IHb k D /andP[la lb] /get2P[A [B [ea eb /eqP p ->]]].
  move: (IHa _ _ la ea) (IHb _ _ lb eb); case: (run a) => [x|] /=; last by move=> ->.
  move=> [ox dx]; case: (run b) => [y|] /=; last by move=> ->; rewrite orbT.
  move=> [oy dy]; have := add_ok same_ok ox oy; rewrite (ok_shape ox) (ok_shape oy) dx dy.
  by case/(_ p) => t [-> ot dt].
- move=> a IHa b IHb k D /andP[la lb] /get2P[A [B [ea eb /eqP p ->]]].
  move: (IHa _ _ la ea) (IHb _ _ lb eb); case: (run a) => [x|] /=; last by move=> ->.
  move=> [ox dx]; case: (run b) => [y|] /=; last by move=> ->; rewrite orbT.
  move=> [oy dy]; have := sub_ok same_ok ox oy; rewrite (ok_shape ox) (ok_shape oy) dx dy.
  by case/(_ p) => t [-> ot dt].
- move=> a IHa b IHb k D /andP[la lb] /get2P[A [B [ea eb /eqP p ->]]].
  move: (IHa _ _ la ea) (IHb _ _ lb eb); case: (run a) => [x|] /=; last by move=> ->.
  move=> [ox dx]; case: (run b) => [y|] /=; last by move=> ->; rewrite orbT.
  move=> [oy dy]; have := matmul_ok lazy ox oy; rewrite (ok_cols ox) (ok_rows oy) dx dy.
  by case/(_ p) => t [-> ot dt].
- move=> a IHa k s la; rewrite dE_one; case ea: (denote trk a) => [A|] //= [<-].
  by move: (IHa _ _ la ea); case: (run a) => [x|] //= [ox dx]; rewrite ox dx.
- move=> a IHa l IHl k s /andP[la ll]; rewrite dE_cons; case ea: (denote trk a) => [A|] //=.
  case el: (denotes trk l) => [t|] //= [<-].
  move: (IHa _ _ la ea) (IHl _ _ ll el); case: (run a) => [x|] /=; last by move=> ->.
  move=> [ox dx]; case: (runs l) => [u|] /=; last by move=> ->; rewrite orbT.
  by move=> [ou u0 du]; rewrite ox ou dx du.
Qed.
End Run.
End Exp.
