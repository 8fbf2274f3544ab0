(** A polynomial identity in a commutative ring with two derivations. *)
From mathcomp Require Import all_ssreflect all_algebra.
From Coq Require Ring_theory Ring.
Set Implicit Arguments. Unset Strict Implicit. Unset Printing Implicit Defensive.
Import GRing.Theory.
Local Open Scope ring_scope.

Section Ops.
Variable T : comRingType.
Definition radd (x y : T) : T := x + y.
Definition rmul (x y : T) : T := x * y.
Definition ropp (x : T) : T := - x.
Definition rsub (x y : T) : T := x - y.
Definition r0 : T := 0.
Definition r1 : T := 1.
Lemma T_ring : @Ring_theory.ring_theory T r0 r1 radd rmul rsub ropp eq.
Proof.
  constructor.
  - exact: add0r. - exact: addrC. - exact: addrA. - exact: mul1r. - exact: mulrC. - exact: mulrA.
  - exact: mulrDl. - by []. - exact: subrr.
Qed.
End Ops.
Ltac fold_ring T :=
  repeat match goal with
  | |- context [@GRing.add ?Z ?x ?y] => change (@GRing.add Z x y) with (@radd T x y)
  | |- context [@GRing.mul ?Z ?x ?y] => change (@GRing.mul Z x y) with (@rmul T x y)
  | |- context [@GRing.opp ?Z ?x] => change (@GRing.opp Z x) with (@ropp T x)
  | |- context [@GRing.zero ?Z] => change (@GRing.zero Z) with (r0 T)
  | |- context [@GRing.one ?Z] => change (@GRing.one Z) with (r1 T)
  end.
Section Alg.
Variable T : comRingType.
Add Ring T_ring : (T_ring T).
Ltac rng := fold_ring T; match goal with |- @eq _ ?x ?y => change (@eq (GRing.ComRing.sort T) x y); ring end.
Section Der.
Variables (D : T -> T) (D_add : forall x y, D (x + y) = D x + D y) (D_mul : forall x y, D (x * y) = D x * y + x * D y).
Lemma D0 : D 0 = 0. Proof. have := D_add 0 0; rewrite addr0 => H. apply: (@addrI _ (D 0)). by rewrite addr0 -H. Qed.
Lemma D1 : D 1 = 0. Proof. have := D_mul 1 1; rewrite !mulr1 mul1r => H. apply: (@addrI _ (D 1)). by rewrite addr0 -H. Qed.
Lemma D_opp x : D (- x) = - D x.
Proof. apply: (@addrI _ (D x)). by rewrite -D_add !subrr D0. Qed.
Lemma D_nat n : D n%:R = 0. Proof. elim: n => [|n IH]; first exact: D0. by rewrite -addn1 natrD D_add IH D1 addr0. Qed.
Lemma D_exp x n : D (x ^+ n.+1) = n.+1%:R * x ^+ n * D x.
Proof.
  elim: n => [|n IH]; first by rewrite expr1 expr0 mulr1 mul1r.
  rewrite exprS D_mul IH (mulrSr 1 n.+1) !exprS. rng.
Qed.
End Der.

Variables (D d : T -> T).
Hypothesis D_add : forall x y, D (x + y) = D x + D y.
Hypothesis D_mul : forall x y, D (x * y) = D x * y + x * D y.
Hypothesis d_add : forall x y, d (x + y) = d x + d y.
Hypothesis d_mul : forall x y, d (x * y) = d x * y + x * d y.
Variables (a v : T).
Hypothesis (Da : D a = 1) (Dv : D v = 0) (da : d a = 0) (dv : d v = 1).
Definition ode (k : nat) (r : T) : T :=
  a * (a * a - 4%:R) * D (D r) - (6%:R * k%:R * (a * a) - 8%:R * k%:R) * D r + 2%:R * k%:R * (4%:R * k%:R + 1) * a * r.
Definition gg := 1 - v * v.
Definition qL := a * a - (v + v) * (v + v).
Definition qR := (a + v) * (a + v) - 1.

Definition der := (D_add, D_mul, d_add, d_mul, D_opp D_add, D_opp d_add, D1 D_mul, D1 d_mul, Da, Dv, da, dv, D_nat D_add D_mul, D_nat d_add d_mul).
Lemma n2 : 2%:R = 1 + 1 :> T. Proof. by rewrite -[2%N]/(1+1)%N natrD. Qed.
Lemma n4 : 4%:R = 1 + 1 + 1 + 1 :> T. Proof. by rewrite -[4%N]/(1+1+1+1)%N !natrD. Qed.
Lemma n6 : 6%:R = 1 + 1 + 1 + 1 + 1 + 1 :> T. Proof. by rewrite -[6%N]/(1+1+1+1+1+1)%N !natrD. Qed.
Lemma n8 : 8%:R = 1 + 1 + 1 + 1 + 1 + 1 + 1 + 1 :> T. Proof. by rewrite -[8%N]/(1+1+1+1+1+1+1+1)%N !natrD. Qed.
Lemma Dg : D gg = 0. Proof. rewrite /gg !der. rng. Qed.
Lemma dg : d gg = - (v + v). Proof. rewrite /gg !der. rng. Qed.
Lemma DqL : D qL = a + a. Proof. rewrite /qL !der. rng. Qed.
Lemma dqL : d qL = - (v + v + v + v + v + v + v + v). Proof. rewrite /qL !der. rng. Qed.
Lemma DqR : D qR = a + a + v + v. Proof. rewrite /qR !der. rng. Qed.
Lemma dqR : d qR = a + a + v + v. Proof. rewrite /qR !der. rng. Qed.

(** For [k >= 2] the operator maps [(g q)^k] to an inner derivative of a multiple of [g^(k+1)]. *)
Lemma ode_pow (q N : T) m (G := gg ^+ m) (H := q ^+ m) (K := m%:R : T) :
  ode m.+2 ((gg * q) ^+ m.+2) - d (gg ^+ m.+3 * (q ^+ m.+1 * N)) =
  gg ^+ m.+2 * q ^+ m *
  (a * (a * a - 4%:R) * ((K + 1 + 1) * (K + 1) * (D q * D q) + (K + 1 + 1) * q * D (D q))
   - (6%:R * (K + 1 + 1) * (a * a) - 8%:R * (K + 1 + 1)) * ((K + 1 + 1) * q * D q)
   + 2%:R * (K + 1 + 1) * (4%:R * (K + 1 + 1) + 1) * a * (q * q)
   - ((gg * d N - (K + 1 + 1 + 1) * (v + v) * N) * q + (K + 1) * gg * N * d q)).
Proof.
  rewrite /ode exprMn.
  have E j : j.+1%:R = j%:R + 1 :> T by rewrite -addn1 natrD.
  have Dgj j : D (gg ^+ j.+1) = 0 by rewrite (D_exp D_mul) Dg mulr0.
  rewrite !(D_mul, Dgj, D_exp D_mul, d_mul, D_exp d_mul, D_nat D_add D_mul, D0 D_add, D_add, Dg, dg).
  rewrite !exprS. rewrite !E -/G -/H -/K. move: (D (D q)) (D q) (d q) (d N) => D2 D1' d1 dN.
  move: gg => g0. clearbody G H K. rng.
Qed.
Lemma ode_L m : ode m.+2 ((gg * qL) ^+ m.+2) = d (gg ^+ m.+3 * (qL ^+ m.+1 * (8%:R * (m%:R + 1 + 1) * a * v))).
Proof.
  apply/eqP; rewrite -subr_eq0 ode_pow; apply/eqP.
  set c := (X in _ * X = 0). suff -> : c = 0 by rewrite mulr0.
  rewrite /c DqL dqL !der n2 n4 n6 n8 /gg /qL. move: m%:R => K. rng.
Qed.
Lemma ode_R m : ode m.+2 ((gg * qR) ^+ m.+2) = d (gg ^+ m.+3 * (qR ^+ m.+1 * - (2%:R * (m%:R + 1 + 1) * (2%:R + a * (a + v))))).
Proof.
  apply/eqP; rewrite -subr_eq0 ode_pow; apply/eqP.
  set c := (X in _ * X = 0). suff -> : c = 0 by rewrite mulr0.
  rewrite /c DqR dqR !der n2 n4 n6 n8 /gg /qR. move: m%:R => K. rng.
Qed.
Lemma qR_expand : qR = a * a + (v + v) * a + (v * v - 1). Proof. rewrite /qR. rng. Qed.
(** The case [k = 1]. *)
Lemma one_LR : gg * qR - gg * qL + (gg * qR - gg * qL) = d (gg ^+ 2 * - (v + v + a)).
Proof. rewrite expr2 d_mul d_mul dg !der /gg /qL /qR. rng. Qed.
End Alg.
