(** The real numbers of the standard library as a real closed field in the sense of
    mathcomp, so that the theorems on conditioning apply to real covariance functions.
    Equality is decided by [Req_EM_T]; the choice operator comes from
    [Coq.Logic.ClassicalEpsilon]. *)
From Coq Require Import Reals Lra ClassicalEpsilon FunctionalExtensionality.
From mathcomp Require Import all_ssreflect all_algebra.
From Verif Require Import Base.
Set Implicit Arguments. Unset Strict Implicit. Unset Printing Implicit Defensive.
Local Open Scope R_scope.

Definition eqr (r1 r2 : R) : bool := if Req_EM_T r1 r2 is left _ then true else false.
Lemma eqrP : Equality.axiom eqr.
Proof. by move=> r1 r2; rewrite /eqr; case: Req_EM_T => H; constructor. Qed.
Canonical R_eqMixin := EqMixin eqrP.
Canonical R_eqType := Eval hnf in EqType R R_eqMixin.

Definition pickR (P : pred R) (n : nat) : option R :=
  match excluded_middle_informative (exists x, P x) with
  | left H => Some (proj1_sig (constructive_indefinite_description (fun x => P x) H))
  | right _ => None
  end.
Lemma pickR_some P n x : pickR P n = Some x -> P x.
Proof. by rewrite /pickR; case: excluded_middle_informative => // H [<-]; case: constructive_indefinite_description. Qed.
Lemma pickR_ex (P : pred R) : (exists x, P x) -> exists n, pickR P n.
Proof. by move=> H; exists 0%N; rewrite /pickR; case: excluded_middle_informative. Qed.
Lemma pickR_ext (P Q : pred R) : P =1 Q -> pickR P =1 pickR Q.
Proof. by move=> e n; have -> : P = Q by apply: functional_extensionality. Qed.
Definition R_choiceMixin : choiceMixin R := Choice.Mixin pickR_some pickR_ex pickR_ext.
Canonical R_choiceType := Eval hnf in ChoiceType R R_choiceMixin.

Fact RplusA : associative Rplus. Proof. by move=> *; rewrite Rplus_assoc. Qed.
Definition R_zmodMixin := ZmodMixin RplusA Rplus_comm Rplus_0_l Rplus_opp_l.
Canonical R_zmodType := Eval hnf in ZmodType R R_zmodMixin.
Fact RmultA : associative Rmult. Proof. by move=> *; rewrite Rmult_assoc. Qed.
Fact R1_neq_0 : (1 : R) != 0. Proof. by apply/eqP; exact: R1_neq_R0. Qed.
Definition R_ringMixin := RingMixin RmultA Rmult_1_l Rmult_1_r Rmult_plus_distr_r Rmult_plus_distr_l R1_neq_0.
Canonical R_ringType := Eval hnf in RingType R R_ringMixin.
Canonical R_comRingType := Eval hnf in ComRingType R Rmult_comm.

Definition Rinvx (r : R) : R := if r != 0 then / r else r.
Definition unit_R (r : R) : bool := r != 0.
Lemma RmultRinvx : {in unit_R, left_inverse 1 Rinvx Rmult}.
Proof. by move=> r; rewrite -topredE /unit_R /Rinvx => /= rN0; rewrite rN0 Rinv_l //; apply/eqP. Qed.
Lemma RinvxRmult : {in unit_R, right_inverse 1 Rinvx Rmult}.
Proof. by move=> r; rewrite -topredE /unit_R /Rinvx => /= rN0; rewrite rN0 Rinv_r //; apply/eqP. Qed.
Lemma intro_unit_R x y : y * x = 1 /\ x * y = 1 -> unit_R x.
Proof. by case=> yx1 xy1; apply/eqP => x0; rewrite x0 Rmult_0_r in yx1; apply: R1_neq_R0. Qed.
Lemma RinvxRout : {in predC unit_R, Rinvx =1 id}.
Proof. by move=> x; rewrite inE /= /unit_R negbK /Rinvx => /eqP ->; rewrite eqxx. Qed.
Definition R_unitRingMixin := UnitRingMixin RmultRinvx RinvxRmult intro_unit_R RinvxRout.
Canonical R_unitRingType := Eval hnf in UnitRingType R R_unitRingMixin.
Canonical R_comUnitRingType := Eval hnf in [comUnitRingType of R].
Lemma R_idomainMixin x y : x * y = 0 -> (x == 0) || (y == 0).
Proof. by move=> /Rmult_integral [->|->]; rewrite eqxx ?orbT. Qed.
Canonical R_idomainType := Eval hnf in IdomainType R R_idomainMixin.
Lemma R_field_axiom : GRing.Field.mixin_of R_unitRingType. Proof. by done. Qed.
Definition R_fieldIdomainMixin := FieldIdomainMixin R_field_axiom.
Canonical R_fieldType := FieldType R R_field_axiom.

Definition Rleb (r1 r2 : R) : bool := if Rle_dec r1 r2 is left _ then true else false.
Definition Rltb (r1 r2 : R) : bool := Rleb r1 r2 && (r1 != r2).
Lemma RlebP r1 r2 : reflect (r1 <= r2) (Rleb r1 r2).
Proof. by rewrite /Rleb; case: Rle_dec => H; constructor. Qed.
Lemma RltbP r1 r2 : reflect (r1 < r2) (Rltb r1 r2).
Proof.
rewrite /Rltb; apply: (iffP andP) => [[/RlebP H /eqP N]|H]; first by case: H.
by split; [apply/RlebP; lra | apply/eqP; lra].
Qed.
Fact Rleb_norm_add x y : Rleb (Rabs (x + y)) (Rabs x + Rabs y).
Proof. by apply/RlebP; apply: Rabs_triang. Qed.
Fact addr_Rgtb0 x y : Rltb 0 x -> Rltb 0 y -> Rltb 0 (x + y).
Proof. by move=> /RltbP Hx /RltbP Hy; apply/RltbP; lra. Qed.
Fact Rnorm0_eq0 x : Rabs x = 0 -> x = 0.
Proof. by move=> H; case: (Req_dec x 0) => // N; have := Rabs_no_R0 x N. Qed.
Fact Rleb_leVge x y : Rleb 0 x -> Rleb 0 y -> (Rleb x y) || (Rleb y x).
Proof. by move=> _ _; case: (Rle_or_lt x y) => H; apply/orP; [left|right]; apply/RlebP; lra. Qed.
Fact RnormM : {morph Rabs : x y / x * y}. Proof. exact: Rabs_mult. Qed.
Fact Rleb_def x y : (Rleb x y) = (Rabs (y - x) == y - x).
Proof.
apply/RlebP/eqP => [H|H]; first by rewrite Rabs_pos_eq //; lra.
by have := Rabs_pos (y - x); lra.
Qed.
Fact Rltb_def x y : (Rltb x y) = (y != x) && (Rleb x y).
Proof. by rewrite /Rltb andbC eq_sym. Qed.
Definition R_numMixin := NumMixin Rleb_norm_add addr_Rgtb0 Rnorm0_eq0 Rleb_leVge RnormM Rleb_def Rltb_def.
Canonical R_porderType := POrderType ring_display R R_numMixin.
Canonical R_numDomainType := NumDomainType R R_numMixin.
Canonical R_normedZmodType := NormedZmodType R R R_numMixin.
Canonical R_numFieldType := [numFieldType of R].
Lemma R_total : totalPOrderMixin R_porderType.
Proof. by move=> x y; case: (Rle_or_lt x y) => H; apply/orP; [left|right]; apply/RlebP; lra. Qed.
Canonical R_latticeType := LatticeType R R_total.
Canonical R_distrLatticeType := DistrLatticeType R R_total.
Canonical R_orderType := OrderType R R_total.
Canonical R_realDomainType := [realDomainType of R].
Canonical R_realFieldType := [realFieldType of R].

(** The order and the operations are those of the standard library. *)
Lemma RleP (x y : R) : reflect (x <= y) (x <= y)%O. Proof. exact: RlebP. Qed.
Lemma RltP (x y : R) : reflect (x < y) (x < y)%O. Proof. exact: RltbP. Qed.
Lemma RaddE (x y : R) : (x + y)%R = Rplus x y. Proof. by []. Qed.

Import GRing.Theory Num.Theory.
Lemma continuity_horner (p : {poly R}) : continuity (fun x => p.[x]%R).
Proof.
elim/poly_ind: p => [|p c IH].
  have -> : (fun x : R => (0 : {poly R}).[x]%R) = (fun _ => 0) by apply: functional_extensionality => x; rewrite horner0.
  exact: continuity_const.
have -> : (fun x : R => (p * 'X + c%:P).[x]%R) = (fun x => p.[x]%R * x + c).
  by apply: functional_extensionality => x; rewrite hornerMXaddC.
apply: (continuity_plus (fun x => p.[x]%R * x) (fun _ => c)); last exact: continuity_const.
apply: (continuity_mult (fun x => p.[x]%R) (fun x => x)) => //; exact: (derivable_continuous _ derivable_id).
Qed.
Lemma Rreal_closed : Num.real_closed_axiom R_numDomainType.
Proof.
move=> p a b /RleP Hab /andP [/RleP Ha /RleP Hb].
have [z [Hz Ez]] : { z | a <= z <= b /\ p.[z]%R = 0 }.
  by apply: (IVT_cor (fun x => p.[x]%R)) => //; [exact: continuity_horner | change (0%R : R) with 0 in *; nra].
exists z; last by apply/eqP.
by apply/andP; split; apply/RleP; lra.
Qed.
Canonical R_rcfType := RcfType R Rreal_closed.
