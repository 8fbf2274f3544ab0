(** The polynomial identity for integrals over [-1, 1]. *)
From Coq Require Import Reals Lra.
From mathcomp Require Import all_ssreflect all_algebra.
From Coquelicot Require Import Coquelicot.
From Verif Require Import RealField BumpAlg BumpPoly.
Set Implicit Arguments. Unset Strict Implicit. Unset Printing Implicit Defensive.
Import GRing.Theory.
Notation Rn := [numFieldType of R].
Delimit Scope R_scope with Re.
Local Open Scope R_scope.

Definition pe (p : {poly Rn}) (x : R) : R := (p.[x])%R.
Lemma pe_derive p x : is_derive (pe p) x (pe (deriv p) x).
Proof.
  elim/poly_ind: p => [|p c IH].
  - apply: (is_derive_ext (fun _ => 0)) => [t|]; first by rewrite /pe horner0.
    have -> : pe (deriv 0%R) x = 0 by rewrite /pe linear0 horner0.
    apply: @is_derive_const.
  - apply: (is_derive_ext (fun t => pe p t * t + c)) => [t|].
      by rewrite /pe hornerD hornerMX hornerC.
    have -> : pe (deriv (p * 'X + c%:P)%R) x = pe (deriv p) x * x + pe p x.
      by rewrite /pe derivD derivM derivC derivX addr0 mulr1 hornerD hornerMX.
    apply: (is_derive_ext (fun t => plus (mult (pe p t) t) c)) => [t //|].
    have -> : pe (deriv p) x * x + pe p x = plus (plus (mult (pe (deriv p) x) x) (mult (pe p x) one)) zero.
      by rewrite /plus /mult /one /zero /=; ring.
    apply: is_derive_plus; last by apply: @is_derive_const.
    apply: is_derive_mult => //; [exact: is_derive_id|exact: Rmult_comm].
Qed.
Lemma pe_cont p x : continuous (pe p) x.
Proof. apply: ex_derive_continuous. exists (pe (deriv p) x). exact: pe_derive. Qed.
Lemma pe_int p l h : ex_RInt (pe p) l h.
Proof. apply: ex_RInt_continuous => x _. exact: pe_cont. Qed.
Definition Ei (p : {poly Rn}) : R := RInt (pe p) (-1) 1.
Lemma Ei_additive : additive (Ei : {poly Rn} -> Rn).
Proof.
  move=> p q. rewrite /Ei.
  rewrite (RInt_ext _ (fun x => minus (pe p x) (pe q x))); last by move=> x _; rewrite /pe hornerD hornerN.
  rewrite RInt_minus; [by []|exact: pe_int|exact: pe_int].
Qed.
Canonical Ei_add := Additive Ei_additive.
Lemma Ei_scale (c : Rn) p : Ei (c *: p)%R = (c * Ei p)%R.
Proof.
  rewrite /Ei (RInt_ext _ (fun x => scal c (pe p x))); last by move=> x _; rewrite /pe hornerZ.
  rewrite RInt_scal; [by []|exact: pe_int].
Qed.
Lemma Ei_exact j (q : {poly Rn}) : Ei (deriv (g0 Rn ^+ j.+1 * q)%R) = 0.
Proof.
  rewrite /Ei. apply: is_RInt_unique.
  have Z x : x * x = 1 -> pe (g0 Rn ^+ j.+1 * q)%R x = 0.
    move=> Hx. rewrite /pe hornerM horner_exp /g0 hornerD hornerN hornerM hornerX hornerC.
    have -> : (1 - x * x = 0 :> Rn)%R by apply: Rminus_diag_eq; rewrite -[GRing.mul _ _]/(x * x) Hx.
    by rewrite expr0n /= mul0r.
  have -> : 0 = minus (pe (g0 Rn ^+ j.+1 * q)%R 1) (pe (g0 Rn ^+ j.+1 * q)%R (-1)).
    by rewrite !Z; [rewrite minus_eq_zero|ring|ring].
  apply: is_RInt_derive => x _; [exact: pe_derive|exact: pe_cont].
Qed.
Lemma expr_pow (x : Rn) n : (x ^+ n)%R = pow x n.
Proof. elim: n => [|n IH]; first by rewrite expr0. by rewrite exprS IH. Qed.
(** The identity. *)
Lemma bump_LR k c : RInt (fun v => ((1 - v * v) * (c * c - (v + v) * (v + v))) ^ k) (-1) 1 =
                    RInt (fun v => ((1 - v * v) * ((c + v) * (c + v) - 1)) ^ k) (-1) 1.
Proof.
  have H := @E_LR Rn Ei_add Ei_scale Ei_exact k c. rewrite -[LHS]/(Ei _) -[RHS]/(Ei _) in H.
  rewrite (RInt_ext _ (pe ((g0 Rn * (c%:P * c%:P - ('X + 'X) * ('X + 'X))) ^+ k)%R)); last first.
    move=> x _. by rewrite /pe horner_exp expr_pow /g0 !(hornerM, hornerD, hornerN, hornerC, hornerX).
  rewrite [RHS](RInt_ext _ (pe ((g0 Rn * ((c%:P + 'X) * (c%:P + 'X) - 1)) ^+ k)%R)); last first.
    move=> x _. by rewrite /pe horner_exp expr_pow /g0 !(hornerM, hornerD, hornerN, hornerC, hornerX).
  exact: H.
Qed.
