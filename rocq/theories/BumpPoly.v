(** Two families of polynomials with the same integrals. *)
From mathcomp Require Import all_ssreflect all_algebra.
From Verif Require Import BumpAlg.
Set Implicit Arguments. Unset Strict Implicit. Unset Printing Implicit Defensive.
Import GRing.Theory Num.Theory.
Local Open Scope ring_scope.

Section Poly.
Variable F : numFieldType.
Notation P := {poly F}.
Notation T := {poly P}.
Add Ring F_ring : (T_ring F).
Ltac rngF := fold_ring F; match goal with |- @eq _ ?x ?y => change (@eq (GRing.ComRing.sort F) x y); ring end.
Definition dd (r : T) : T := map_poly (fun p : P => p^`()) r.
Lemma dd_coef r i : (dd r)`_i = (r`_i)^`().
Proof. by rewrite /dd coef_map_id0 // linear0. Qed.
Lemma dd_add x y : dd (x + y) = dd x + dd y.
Proof. by apply/polyP => i; rewrite !(dd_coef, coefD) derivD. Qed.
Lemma dd_mul x y : dd (x * y) = dd x * y + x * dd y.
Proof.
  apply/polyP => i; rewrite dd_coef coefD !coefM raddf_sum -big_split /=.
  by apply: eq_bigr => j _; rewrite !dd_coef derivM.
Qed.
Definition V : T := ('X : P)%:P.
Notation a := ('X : T).
Lemma D_add (x y : T) : deriv (x + y) = deriv x + deriv y. Proof. exact: derivD. Qed.
Lemma D_mul (x y : T) : deriv (x * y) = deriv x * y + x * deriv y. Proof. exact: derivM. Qed.
Lemma D_a : deriv a = 1 :> T. Proof. exact: derivX. Qed.
Lemma D_V : deriv V = 0. Proof. exact: derivC. Qed.
Lemma dd_a : dd a = 0.
Proof. by apply/polyP => i; rewrite dd_coef coefX coef0; case: (i == 1%N); rewrite ?derivC //= -[1]/(1%:P) derivC. Qed.
Lemma dd_V : dd V = 1.
Proof. by apply/polyP => i; rewrite dd_coef /V coefC coef1; case: (i == 0%N); rewrite ?derivX // linear0. Qed.

Lemma ode_coef k (r : T) e : (ode (@deriv _) a k r)`_e.+1 =
  r`_e *+ (e * e.-1) - r`_e.+2 *+ (e.+2 * e.+1) *+ 4 - r`_e *+ e *+ (6 * k) + r`_e.+2 *+ e.+2 *+ (8 * k) + r`_e *+ (2 * k * (4 * k + 1)).
Proof.
  rewrite /ode.
  have -> : a * (a * a - 4%:R) * (r^`())^`() = a * (a * (a * (r^`())^`())) - (a * (r^`())^`()) *+ 4.
    by rewrite mulrBr mulrBl -!mulrA mulr_natl mulrnAr.
  have -> : (6%:R * k%:R * (a * a) - 8%:R * k%:R) * r^`() = (a * (a * r^`())) *+ (6 * k) - r^`() *+ (8 * k).
    by rewrite -!natrM mulrBl -!mulrA !mulr_natl.
  have -> : 2%:R * k%:R * (4%:R * k%:R + 1) * a * r = (a * r) *+ (2 * k * (4 * k + 1)).
    by rewrite -!natrM -[1]/(1%:R) -natrD -natrM -mulrA mulr_natl.
  rewrite !(coefD, coefN, coefMn, coefXM, coef_deriv) /= opprB.
  have -> : (if e == 0%N then 0 else if e.-1 == 0%N then 0 else r`_e.-1.-1.+2 *+ e.-1.-1.+2 *+ e.-1.-1.+1) = r`_e *+ (e * e.-1).
    by case: e => [|[|e]] //=; rewrite ?muln0 ?mulr0n // -mulrnA.
  have -> : (if e == 0%N then 0 else r`_e.-1.+1 *+ e.-1.+1) = r`_e *+ e.
    by case: e => [|e] //=; rewrite mulr0n.
  move: (r`_e) (r`_e.+2) => x y.
  rewrite -[y *+ _ *+ e.+1 + _]/(y *+ e.+2 *+ e.+1 *+ 4) -(mulrnA y e.+2 e.+1) [y *+ e.+2 *+ (8 * k) - _]addrC !addrA. by [].
Qed.

Section E.
Variable E : {additive P -> F}.
Hypothesis E_scale : forall (c : F) p, E (c *: p) = c * E p.
Definition g0 : P := 1 - 'X * 'X.
Hypothesis E_exact : forall j (q : P), E ((g0 ^+ j.+1 * q)^`()) = 0.
Notation gV := (gg V).
Notation rL k := ((gV * qL a V) ^+ k).
Notation rR k := ((gV * qR a V) ^+ k).
Lemma gV_C : gV = g0%:P. Proof. by rewrite /gg /g0 /V polyCB polyCM. Qed.
Lemma E_dd j (q : T) i : E (dd (gV ^+ j.+1 * q))`_i = 0.
Proof. by rewrite dd_coef gV_C -polyC_exp coefCM E_exact. Qed.

Definition same (r s : T) := forall e, E r`_e = E s`_e.
Definition fac (k e : nat) : F := ((2 * k)%:R - e%:R) * ((4 * k + 1)%:R - e%:R).
Lemma E_nat (x : P) n : E (x *+ n) = n%:R * E x. Proof. by rewrite (raddfMn E) mulr_natl. Qed.
Lemma ode_E k (r : T) (H : forall i, E (ode (@deriv _) a k r)`_i = 0) e :
  fac k e * E r`_e = (e.+2%:R * (4%:R * e.+1%:R - (8 * k)%:R)) * E r`_e.+2.
Proof.
  move: (H e.+1); rewrite ode_coef (raddfD E) (raddfD E) (raddfB E) (raddfB E).
  rewrite (E_nat _ 4) (E_nat _ (_ * e.+1)) (E_nat _ (6 * k)) (E_nat _ (8 * k)) (E_nat _ e) (E_nat _ e.+2) (E_nat _ (e * _)) (E_nat _ (2 * k * _)).
  move: (E r`_e) (E r`_e.+2) => x y H'.
  apply/eqP; rewrite -subr_eq0 -{}H'; apply/eqP.
  have -> : (e * e.-1)%:R = e%:R * (e%:R - 1) :> F.
    by case: e => [|e] /=; rewrite ?mul0r // natrM (mulrSr 1 e) addrK.
  rewrite /fac ?(natrM, natrD).
  rewrite (n2 F) (n4 F) (n6 F) (n8 F) (mulrSr 1 e.+1) (mulrSr 1 e) -[1%:R]/(1 : F). move: (e%:R) (k%:R) => e' k'. rngF.
Qed.
Lemma fac_nz k e : (e < 2 * k)%N -> fac k e != 0.
Proof.
  move=> H. rewrite /fac. apply: mulf_neq0; rewrite subr_eq0 eqr_nat.
  - by rewrite neq_ltn H orbT.
  - rewrite neq_ltn. apply/orP; right. apply: (ltn_trans H). by rewrite addn1 ltnS leq_mul2r orbT.
Qed.
(** Two solutions with the same highest coefficients agree. *)
Lemma ode_unique k (r s : T) : (forall i, E (ode (@deriv _) a k r)`_i = 0) -> (forall i, E (ode (@deriv _) a k s)`_i = 0) ->
  (forall e, (2 * k <= e)%N -> r`_e = s`_e) -> same r s.
Proof.
  move=> Hr Hs top e.
  have [n] : exists n, (2 * k <= e + n)%N by exists (2 * k)%N; rewrite leq_addl.
  elim: n {-2}n (leqnn n) e => [|n IH] m.
    by rewrite leqn0 => /eqP -> e; rewrite addn0 => /top ->.
  move=> Hm e He.
  have [/top -> //|lt] := leqP (2 * k) e.
  apply: (mulfI (fac_nz lt)). rewrite (ode_E Hr) (ode_E Hs). congr (_ * _).
  case: m Hm He => [|m] Hm He; first by move: He; rewrite addn0 leqNgt lt.
  apply: (IH m) => //. by rewrite !addSn -addnS; apply: (leq_trans He).
Qed.
Lemma monic_top (q : T) k : q \is monic -> size q = 3%N -> forall e, (2 * k <= e)%N -> (q ^+ k)`_e = (e == (2 * k)%N)%:R.
Proof.
  move=> mq sq e He. have mk : q ^+ k \is monic by apply: monic_exp.
  have sz : size (q ^+ k) = (2 * k).+1.
    by rewrite -[LHS]prednK ?size_exp ?sq // size_poly_gt0 monic_neq0.
  case: (ltngtP e (2 * k)) He => // [lt|->] _.
    by rewrite nth_default // sz.
  by move/monicP: mk; rewrite lead_coefE sz.
Qed.
Lemma X2_size (p q : P) : size ('X * 'X + p *: 'X + q%:P : T) = 3%N.
Proof.
  rewrite -addrA -expr2 size_addl ?size_polyXn //.
  rewrite ltnS (leq_trans (size_add _ _)) // geq_max (leq_trans (size_scale_leq _ _)) ?size_polyX //=.
  by rewrite (leq_trans (size_polyC_leq1 _)).
Qed.
Lemma X2_monic (p q : P) : ('X * 'X + p *: 'X + q%:P : T) \is monic.
Proof.
  apply/monicP. rewrite lead_coefE X2_size /= !coefD coefXM /= coefX /= coefZ coefX coefC /= mulr0 !addr0. by [].
Qed.
Lemma qL_form : qL a V = 'X * 'X + 0 *: 'X + (- (('X + 'X) * ('X + 'X)))%:P.
Proof. by rewrite /qL /V scale0r addr0 polyCN polyCM polyCD. Qed.
Lemma qR_form : qR a V = 'X * 'X + ('X + 'X) *: 'X + ('X * 'X - 1)%:P.
Proof.
  by rewrite qR_expand /V -mul_polyC polyCB polyCM polyCD.
Qed.
Lemma top_same k e : (2 * k <= e)%N -> (rL k)`_e = (rR k)`_e.
Proof.
  move=> He. rewrite gV_C !exprMn -polyC_exp !coefCM. congr (_ * _).
  by rewrite !(@monic_top _ k) // ?qL_form ?qR_form ?X2_size ?X2_monic.
Qed.
Lemma same_LR k : same (rL k) (rR k).
Proof.
  case: k => [|[|k]].
  - by move=> e; rewrite !expr0.
  - move=> e. rewrite !expr1.
    have := one_LR dd_add dd_mul dd_a dd_V => H.
    have := E_dd 1 (- (V + V + a)) e. rewrite -H coefD raddfD coefB raddfB => H2.
    apply/eqP. rewrite eq_sym -subr_eq0. move/eqP: H2. rewrite -mulr2n -mulr_natl mulf_eq0 pnatr_eq0 /=. by [].
  - apply: ode_unique; last by move=> e; apply: top_same.
    + move=> i. rewrite (ode_L D_add D_mul dd_add dd_mul D_a D_V dd_a dd_V). exact: E_dd.
    + move=> i. rewrite (ode_R D_add D_mul dd_add dd_mul D_a D_V dd_a dd_V). exact: E_dd.
Qed.
Lemma E_horner (r : T) (c : F) : E r.[c%:P] = \sum_(i < size r) E r`_i * c ^+ i.
Proof.
  rewrite horner_coef raddf_sum. apply: eq_bigr => i _.
  by rewrite -polyC_exp mulrC mul_polyC E_scale mulrC.
Qed.
Lemma same_horner r s c : same r s -> E r.[c%:P] = E s.[c%:P].
Proof.
  move=> H. rewrite !E_horner.
  pose m := maxn (size r) (size s).
  have W (t : T) : (size t <= m)%N -> \sum_(i < size t) E t`_i * c ^+ i = \sum_(i < m) E t`_i * c ^+ i.
    move=> le. rewrite (big_ord_widen m (fun i => E t`_i * c ^+ i) le) big_mkcond. apply: eq_bigr => i _.
    case: ltnP => // ge. by rewrite nth_default // raddf0 mul0r.
  rewrite (W r) ?leq_maxl // (W s) ?leq_maxr //. by apply: eq_bigr => i _; rewrite H.
Qed.
Lemma E_LR k (c : F) :
  E ((g0 * (c%:P * c%:P - ('X + 'X) * ('X + 'X))) ^+ k) = E ((g0 * ((c%:P + 'X) * (c%:P + 'X) - 1)) ^+ k).
Proof.
  have := @same_horner (rL k) (rR k) c (same_LR k).
  by rewrite !horner_exp !hornerM gV_C /qL /qR /V !(hornerE, hornerM, hornerD, hornerN, hornerC, hornerX).
Qed.
End E.
End Poly.
