(** Derivative observations of processes with smooth covariance functions are admissible
    for the theorems on conditioning. *)
From Coq Require Import Reals Lra FunctionalExtensionality.
From mathcomp Require Import all_ssreflect all_algebra.
From Verif Require Import Base NdArray FunExprModel DiffopModel DiffopSpec LfoModel LfoSpec LfoSmooth KernelSpec KernelSmooth TensorSchur PsdBase PdeCondBase Block2Spec MatPD
  NormalModel CondModel CondSpec CondPoint RealField.
From Verif Require ParamSpec.
Set Implicit Arguments. Unset Strict Implicit. Unset Printing Implicit Defensive.
Import Order.TTheory GRing.Theory Num.Theory.
Local Open Scope ring_scope.

(** Linear combinations of finitely many values and derivatives at points of shape [sh]. *)
Definition pde_functl (sh : shape) (l : fn [realFieldType of R] array -> R) : Prop := exists s, tdom sh s /\ forall f, l f = dfun s f.
(** Linear differential operators with constant coefficients. *)
Definition pde_op (sh : shape) (D : funop [realFieldType of R] array) : Prop := exists L, opdom sh L /\ forall f x, D f x = ksem L f x.

Lemma dfun_cons c L x s f : dfun ((c, (L, x)) :: s) f = c * ksem L f x + dfun s f. Proof. by []. Qed.
Lemma dfun_cat s t f : dfun (s ++ t) f = dfun s f + dfun t f.
Proof.
elim: s => [|[c [L x]] s IH]; first by rewrite add0r.
by rewrite cat_cons !dfun_cons IH addrA.
Qed.
Definition tscale (a : R) (s : terms) : terms := [seq (a * p.1, p.2) | p <- s].
Lemma dfun_tscale a s f : dfun (tscale a s) f = a * dfun s f.
Proof.
elim: s => [|[c [L x]] s IH]; first by rewrite mulr0.
by rewrite /= !dfun_cons -/(tscale a s) IH mulrDr mulrA.
Qed.
Lemma In_cat (T : Type) (x : T) s t : List.In x (s ++ t) -> List.In x s \/ List.In x t.
Proof. exact: (List.in_app_or s t x). Qed.
Lemma tdom_cat sh s t : tdom sh s -> tdom sh t -> tdom sh (s ++ t).
Proof. by move=> S T p Hp; case: (In_cat Hp) => [/S|/T]. Qed.
Lemma tdom_tscale sh a s : tdom sh s -> tdom sh (tscale a s).
Proof. by move=> S p Hp; have [q [<- /S]] := proj1 (List.in_map_iff _ _ _) Hp. Qed.
Definition tcombo (I : Type) (v : I -> R) (ss : I -> terms) (r : seq I) : terms := flatten [seq tscale (v i) (ss i) | i <- r].
Lemma dfun_tcombo (I : Type) (v : I -> R) (ss : I -> terms) r f : dfun (tcombo v ss r) f = \sum_(i <- r) v i * dfun (ss i) f.
Proof.
elim: r => [|i r IH]; first by rewrite big_nil.
by rewrite big_cons -IH /tcombo /= dfun_cat dfun_tscale.
Qed.
Lemma tdom_tcombo sh (I : Type) (v : I -> R) (ss : I -> terms) r : (forall i, tdom sh (ss i)) -> tdom sh (tcombo v ss r).
Proof. by move=> H; elim: r => [|i r IH] //=; apply: tdom_cat => //; apply: tdom_tscale. Qed.
Lemma smooth_big sh (I : Type) (v : I -> R) (h : I -> array -> R) r : (forall i, smooth sh (h i)) -> smooth sh (fun x => \sum_(i <- r) v i * h i x).
Proof.
move=> H; elim: r => [|i r IH].
  rewrite [X in smooth sh X](_ : _ = fun _ => 0%R); first exact: smooth_const.
  by apply: functional_extensionality => x; rewrite big_nil.
rewrite [X in smooth sh X](_ : _ = fun x => Rplus (Rmult (v i) (h i x)) (\sum_(i <- r) v i * h i x)).
  by apply: smooth_plus => //; apply: smooth_scal.
by apply: functional_extensionality => x; rewrite big_cons.
Qed.
Lemma dfun_big sh s (I : Type) (v : I -> R) (h : I -> array -> R) r : tdom sh s -> (forall i, smooth sh (h i)) ->
  dfun s (fun x => \sum_(i <- r) v i * h i x) = \sum_(i <- r) v i * dfun s (h i).
Proof.
move=> T H; elim: r => [|i r IH].
  rewrite big_nil -[RHS](mul0r (dfun s (fun _ => 0%R))) -[RHS](dfun_scal sh s 0%R (fun _ => 0%R) T (smooth_const sh 0%R)).
  by congr dfun; apply: functional_extensionality => x; rewrite big_nil; exact: (esym (Rmult_0_l _)).
rewrite big_cons -IH -[X in X + _](dfun_scal sh s (v i) (h i) T (H i)).
rewrite -[RHS](dfun_add sh s _ _ T (smooth_scal sh (v i) (h i) (H i)) (smooth_big v r H)).
by congr dfun; apply: functional_extensionality => x; rewrite big_cons.
Qed.

Section Adm.
Variables (sh : shape) (m : array -> R) (k : kernel).
Hypothesis Kk : kclass sh k.
Hypothesis Pk : ParamSpec.psd_kernel (k : array -> array -> car RF).
Hypothesis Sk : forall x y, k x y = k y x.
Hypothesis Sm : smooth sh m.
Lemma reached_smooth f : reached (F := [realFieldType of R]) m k (pde_functl sh) (pde_op sh) f -> smooth sh f.
Proof.
elim=> {f} [|l [s [T E]]|f h _ Sf _ Sh|t f _ Sf|D f [L [O E]] _ Sf|f h _ Sf e] //.
- rewrite [X in smooth sh X](_ : _ = fun x => dfun s (k x)); first exact: dfun_section.
  by apply: functional_extensionality => x; rewrite E.
- exact: smooth_plus.
- exact: smooth_scal.
- rewrite (_ : D f = ksem L f); first exact: ksem_smooth.
  by apply: functional_extensionality => x; rewrite E.
- by rewrite (_ : h = f) //; apply: functional_extensionality => x; rewrite e.
Qed.
Lemma pde_admissible : admissible (F := [realFieldType of R]) m k (pde_functl sh) (pde_op sh).
Proof.
split.
- move=> l [s [T E]]; split=> [f h e|f h Rf Rh|t f Rf]; rewrite !E.
  + by congr dfun; apply: functional_extensionality.
  + exact: (dfun_add sh s f h T (reached_smooth Rf) (reached_smooth Rh)).
  + exact: (dfun_scal sh s t f T (reached_smooth Rf)).
- by move=> l l' [s [T E]] e; exists s; split=> // f; rewrite -e E.
- move=> x; exists [:: (1%R, (OId [::] [::], x))]; split=> [p [<-|[]] //|f].
  by rewrite dfun_cons /= mul1r addr0.
- move=> l D [s [T E]] [L [O ED]]; exists (tcomp L s); split=> [|f]; first exact: tdom_comp.
  rewrite E -dfun_comp; congr dfun; by apply: functional_extensionality => x; rewrite ED.
- move=> n ls /fin_all_exists [ss Hs].
  have T i : tdom sh (ss i) by case: (Hs i).
  have E i f : ls i f = dfun (ss i) f by case: (Hs i).
  have E2 i j : ls i (fun x => ls j (k x)) = dfun (ss i) (fun x => dfun (ss j) (k x)).
    by rewrite E; congr dfun; apply: functional_extensionality => x; rewrite E.
  split; first by apply/matrixP=> i j; rewrite !mxE !E2; apply: (dfun_sym sh k Kk).
  move=> v; pose t := tcombo (fun i => v i 0) ss (enum 'I_n).
  have Tt : tdom sh t by apply: tdom_tcombo.
  have /RleP P := dfun_nonneg sh k Kk t Pk Tt; apply: le_trans P _.
  rewrite le_eqVlt; apply/orP; left; apply/eqP.
  rewrite dfun_tcombo big_enum /= /qform mxE.
  under [RHS]eq_bigr => j _ do rewrite !mxE big_distrl /=.
  rewrite exchange_big /=; apply: eq_bigr => i _.
  have -> : dfun (ss i) (fun x => dfun t (k x)) = dfun (ss i) (fun x => \sum_(j <- enum 'I_n) v j 0 * dfun (ss j) (k x)).
    by congr dfun; apply: functional_extensionality => x; rewrite dfun_tcombo.
  rewrite (dfun_big (sh := sh)) //; last by move=> j; apply: dfun_section.
  rewrite big_enum big_distrr /=; apply: eq_bigr => j _.
  by rewrite !mxE E2 mulrA mulrAC.
Qed.
End Adm.
