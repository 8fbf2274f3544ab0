(** Derivatives at points of processes whose covariance function is a product of stationary
    functions of one variable are admissible for the theorems on conditioning. *)
From Coq Require Import Reals Lra FunctionalExtensionality.
From mathcomp Require Import all_ssreflect all_algebra.
From Verif Require Import Base NdArray FunExprModel DiffopModel DiffopSpec LfoSpec TensorSchur PsdBase PsdMat StatChain TensorStrict TensorObs Block2Spec MatPD NormalModel CondModel CondSpec RealField.
From Verif Require ParamSpec.
Set Implicit Arguments. Unset Strict Implicit. Unset Printing Implicit Defensive.
Import Order.TTheory GRing.Theory Num.Theory.
Local Open Scope ring_scope.
Notation Rf := [realFieldType of R].

Lemma tfun_cons c o s f : tfun ((c, o) :: s) f = c * pderiv o.1 f o.2 + tfun s f. Proof. by []. Qed.
Lemma tfun_cat s t f : tfun (s ++ t) f = tfun s f + tfun t f.
Proof.
elim: s => [|[c o] s IH]; first by rewrite add0r.
by rewrite cat_cons !tfun_cons IH addrA.
Qed.
Definition tscale (a : R) (s : tterms) : tterms := [seq (a * p.1, p.2) | p <- s].
Lemma tfun_tscale a s f : tfun (tscale a s) f = a * tfun s f.
Proof.
elim: s => [|[c o] s IH]; first by rewrite mulr0.
by rewrite /= !tfun_cons -/(tscale a s) IH mulrDr mulrA.
Qed.
Definition tcombo (I : Type) (v : I -> R) (ss : I -> tterms) (r : seq I) : tterms := flatten [seq tscale (v i) (ss i) | i <- r].
Lemma tfun_tcombo (I : Type) (v : I -> R) (ss : I -> tterms) r f : tfun (tcombo v ss r) f = \sum_(i <- r) v i * tfun (ss i) f.
Proof.
elim: r => [|i r IH]; first by rewrite big_nil.
by rewrite big_cons -IH /tcombo /= tfun_cat tfun_tscale.
Qed.
Section Adm.
Variables (n : nat) (T : nat -> nat).
Notation dom := (tdom n T).
(** Combinations of derivatives at points; multiplication by a number. *)
Definition tensor_functl (l : fn Rf array -> R) : Prop := exists2 s : tterms, dom s & forall f, l f = tfun s f.
Definition tensor_op (D : funop Rf array) : Prop := exists c : R, forall f x, D f x = c * f x.
Lemma dom_cat s t : dom s -> dom t -> dom (s ++ t).
Proof. by move=> S U p Hp; case: (List.in_app_or s t p Hp) => [/S|/U]. Qed.
Lemma dom_scale a s : dom s -> dom (tscale a s).
Proof. by move=> S p Hp; have [q [<- /S]] := proj1 (List.in_map_iff _ _ _) Hp. Qed.
Lemma dom_combo (I : Type) (v : I -> R) (ss : I -> tterms) r : (forall i, dom (ss i)) -> dom (tcombo v ss r).
Proof. by move=> H; elim: r => [|i r IH] //=; apply: dom_cat => //; apply: dom_scale. Qed.
Lemma regular_add f h : regular n T f -> regular n T h -> regular n T (fun x => f x + h x).
Proof.
move=> Hf Hh; have := regular_lin n T 1%R f h Hf Hh; congr regular; apply: functional_extensionality => x.
by rewrite Rmult_1_l.
Qed.
Lemma regular_scal c f : regular n T f -> regular n T (fun x => c * f x).
Proof.
move=> Hf; have := regular_lin n T c f _ Hf (regular_const n T 0%R); congr regular; apply: functional_extensionality => x.
exact: Rplus_0_r.
Qed.
Lemma tfun_add s f h : dom s -> regular n T f -> regular n T h -> tfun s (fun x => f x + h x) = tfun s f + tfun s h.
Proof.
move=> D Hf Hh; rewrite -[tfun s f]mul1r -[RHS](tfun_lin n T s 1%R f h D Hf Hh); congr tfun; apply: functional_extensionality => x.
by rewrite Rmult_1_l.
Qed.
Lemma regular_big (I : Type) (v : I -> R) (h : I -> array -> R) r : (forall i, regular n T (h i)) -> regular n T (fun x => \sum_(i <- r) v i * h i x).
Proof.
move=> H; elim: r => [|i r IH].
  have := regular_const n T 0%R; congr regular; by apply: functional_extensionality => x; rewrite big_nil.
have := regular_add (regular_scal (v i) (H i)) IH; congr regular; by apply: functional_extensionality => x; rewrite big_cons.
Qed.
Lemma tfun_big s (I : Type) (v : I -> R) (h : I -> array -> R) r : dom s -> (forall i, regular n T (h i)) ->
  tfun s (fun x => \sum_(i <- r) v i * h i x) = \sum_(i <- r) v i * tfun s (h i).
Proof.
move=> D H; elim: r => [|i r IH].
  rewrite big_nil -[RHS](mul0r (tfun s (fun _ => 0%R))) -[RHS](tfun_cscal s 0%R (fun _ => 0%R)).
  by congr tfun; apply: functional_extensionality => x; rewrite big_nil; exact: (esym (Rmult_0_l _)).
rewrite big_cons -IH -[X in X + _](tfun_cscal s (v i) (h i)) -[RHS](tfun_add D (regular_scal (v i) (H i)) (@regular_big I v h r H)).
by congr tfun; apply: functional_extensionality => x; rewrite big_cons.
Qed.
Variables (g : nat -> nat -> R -> R) (m : array -> R).
Hypothesis Hg : forall i, (i < n)%coq_nat -> chain (g i) (T i).
Hypothesis He : forall i, (i < n)%coq_nat -> even_fun (g i 0%N).
Hypothesis Hp : forall i, (i < n)%coq_nat -> ParamSpec.psd_kernel (fun x y : R => g i 0%N (Rminus x y) : car RF).
Hypothesis Hm : regular n T m.
Notation k := (prior n g).
Lemma reached_regular f : reached (F := Rf) m k tensor_functl tensor_op f -> regular n T f.
Proof.
elim=> {f} [|l [s D E]|f h _ Sf _ Sh|t f _ Sf|D f [c E] _ Sf|f h _ Sf e] //.
- have := section_regular n T g Hg s D; congr regular.
  by apply: functional_extensionality => x; rewrite E.
- exact: regular_add.
- exact: regular_scal.
- have := regular_scal c Sf; congr regular; by apply: functional_extensionality => x; rewrite E.
- by rewrite (_ : h = f) //; apply: functional_extensionality => x; rewrite e.
Qed.
Definition at_point (x : array) : tterms := [:: (1%R, (mi0 n, x))].
Lemma at_point_dom x : dom (at_point x).
Proof. by move=> p [<-|[]]; split=> // i Hi; rewrite /= mi0_entry //; apply: PeanoNat.Nat.le_0_l. Qed.
Lemma at_point_val x f : tfun (at_point x) f = f x.
Proof. by rewrite tfun_cons /= pderiv_mi0 mul1r addr0. Qed.
Lemma tensor_admissible : admissible (F := Rf) m k tensor_functl tensor_op.
Proof.
split.
- move=> l [s D E]; split=> [f h e|f h Rf Rh|t f Rf]; rewrite !E.
  + by congr tfun; apply: functional_extensionality.
  + exact: (tfun_add D (reached_regular Rf) (reached_regular Rh)).
  + exact: tfun_cscal.
- by move=> l l' [s D E] e; exists s => // f; rewrite -e E.
- by move=> x; exists (at_point x); [exact: at_point_dom | move=> f; rewrite at_point_val].
- move=> l D [s Ds E] [c ED]; exists (tscale c s); first exact: dom_scale.
  by move=> f; rewrite E tfun_tscale -[RHS](tfun_cscal s c f); congr tfun; apply: functional_extensionality => x; rewrite ED.
- move=> q ls /fin_all_exists2 [ss D E].
  have E2 i j : ls i (fun x => ls j (k x)) = tcov n g (ss i) (ss j).
    by rewrite E; congr tfun; apply: functional_extensionality => x; rewrite E.
  split; first by apply/matrixP=> i j; rewrite !mxE !E2; apply: (tcov_sym n T g Hg He).
  move=> v; pose t := tcombo (fun i => v i 0) ss (enum 'I_q).
  have Dt : dom t by apply: dom_combo.
  have /RleP P := tcov_nonneg n T g Hg He Hp t Dt; apply: le_trans P _.
  rewrite le_eqVlt; apply/orP; left; apply/eqP.
  rewrite /tcov tfun_tcombo big_enum /= /qform mxE.
  under [RHS]eq_bigr => j _ do rewrite !mxE big_distrl /=.
  rewrite exchange_big /=; apply: eq_bigr => i _.
  have -> : tfun (ss i) (fun x => tfun t (k x)) = tfun (ss i) (fun x => \sum_(j <- enum 'I_q) v j 0 * tfun (ss j) (k x)).
    by congr tfun; apply: functional_extensionality => x; rewrite tfun_tcombo.
  rewrite tfun_big //; last by move=> j; apply: (section_regular n T g Hg).
  rewrite big_enum big_distrr /=; apply: eq_bigr => j _.
  by rewrite !mxE E2 mulrA mulrAC.
Qed.
End Adm.
