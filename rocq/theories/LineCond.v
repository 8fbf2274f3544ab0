(** Values and weighted integrals of processes on the real line are admissible for the
    theorems on conditioning. *)
From Coq Require Import Reals Lra FunctionalExtensionality.
From mathcomp Require Import all_ssreflect all_algebra.
From Verif Require Import Base TensorSchur PsdBase PsdIntegral LineObs Block2Spec MatPD NormalModel CondModel CondSpec CondPoint RealField.
From Verif Require ParamSpec.
Set Implicit Arguments. Unset Strict Implicit. Unset Printing Implicit Defensive.
Import Order.TTheory GRing.Theory Num.Theory.
Local Open Scope ring_scope.
Notation wobs := PsdIntegral.obs.

(** Linear combinations of finitely many observed quantities of a kind. *)
Definition line_functl (W : wobs -> Prop) (l : fn [realFieldType of R] R -> R) : Prop :=
  exists s : oterms, (forall p, List.In p s -> W p.2) /\ forall f, l f = ofun s f.
(** Multiplication by a number. *)
Definition line_op (D : funop [realFieldType of R] R) : Prop := exists c : R, forall f x, D f x = c * f x.

Lemma ofun_cons c o s f : ofun ((c, o) :: s) f = c * obs_val o f + ofun s f. Proof. by []. Qed.
Lemma ofun_cat s t f : ofun (s ++ t) f = ofun s f + ofun t f.
Proof.
elim: s => [|[c o] s IH]; first by rewrite add0r.
by rewrite cat_cons !ofun_cons IH addrA.
Qed.
Definition oscale (a : R) (s : oterms) : oterms := [seq (a * p.1, p.2) | p <- s].
Lemma ofun_oscale a s f : ofun (oscale a s) f = a * ofun s f.
Proof.
elim: s => [|[c o] s IH]; first by rewrite mulr0.
by rewrite /= !ofun_cons -/(oscale a s) IH mulrDr mulrA.
Qed.
Definition ocombo (I : Type) (v : I -> R) (ss : I -> oterms) (r : seq I) : oterms := flatten [seq oscale (v i) (ss i) | i <- r].
Lemma ofun_ocombo (I : Type) (v : I -> R) (ss : I -> oterms) r f : ofun (ocombo v ss r) f = \sum_(i <- r) v i * ofun (ss i) f.
Proof.
elim: r => [|i r IH]; first by rewrite big_nil.
by rewrite big_cons -IH /ocombo /= ofun_cat ofun_oscale.
Qed.
Section Kind.
Variable W : wobs -> Prop.
Hypothesis HW : forall o, W o -> obs_ok o.
Hypothesis WAt : forall x, W (At x).
Hypothesis WS : forall c p, W p.2 -> W (oscl c p).2.
Definition wdom (s : oterms) : Prop := forall p, List.In p s -> W p.2.
Lemma wdom_ok s : wdom s -> odom s. Proof. by move=> H p /H /HW. Qed.
Lemma wdom_cat s t : wdom s -> wdom t -> wdom (s ++ t).
Proof. by move=> S T p Hp; case: (List.in_app_or s t p Hp) => [/S|/T]. Qed.
Lemma wdom_scale a s : wdom s -> wdom (oscale a s).
Proof. by move=> S p Hp; have [q [<- /S]] := proj1 (List.in_map_iff _ _ _) Hp. Qed.
Lemma wdom_combo (I : Type) (v : I -> R) (ss : I -> oterms) r : (forall i, wdom (ss i)) -> wdom (ocombo v ss r).
Proof. by move=> H; elim: r => [|i r IH] //=; apply: wdom_cat => //; apply: wdom_scale. Qed.
Lemma cont_big (I : Type) (v : I -> R) (h : I -> R -> R) r : (forall i, cont (h i)) -> cont (fun x => \sum_(i <- r) v i * h i x).
Proof.
move=> H; elim: r => [|i r IH].
  rewrite [X in cont X](_ : _ = fun _ => 0%R); first exact: cont_const.
  by apply: functional_extensionality => x; rewrite big_nil.
rewrite [X in cont X](_ : _ = fun x => Rplus (Rmult (v i) (h i x)) (\sum_(i <- r) v i * h i x)).
  by apply: cont_plus => //; apply: cont_scal.
by apply: functional_extensionality => x; rewrite big_cons.
Qed.
Lemma ofun_big s (I : Type) (v : I -> R) (h : I -> R -> R) r : odom s -> (forall i, cont (h i)) ->
  ofun s (fun x => \sum_(i <- r) v i * h i x) = \sum_(i <- r) v i * ofun s (h i).
Proof.
have c0 := cont_const 0%R.
move=> T H; elim: r => [|i r IH].
  rewrite big_nil -[RHS](mul0r (ofun s (fun _ => 0%R))) -[RHS](ofun_scal s 0%R (fun _ => 0%R) T c0).
  by congr ofun; apply: functional_extensionality => x; rewrite big_nil; exact: (esym (Rmult_0_l _)).
rewrite big_cons -IH -[X in X + _](ofun_scal s (v i) (h i) T (H i)).
rewrite -[RHS](ofun_add s _ _ T (cont_scal (v i) (h i) (H i)) (@cont_big I v h r H)).
by congr ofun; apply: functional_extensionality => x; rewrite big_cons.
Qed.
Variables (m : R -> R) (k : R -> R -> R).
Hypotheses (Ck : cont2 k) (Pk : ParamSpec.psd_kernel (k : R -> R -> car RF)) (Sk : forall x y, k x y = k y x) (Cm : cont m).
Lemma reached_cont f : reached (F := [realFieldType of R]) m k (line_functl W) line_op f -> cont f.
Proof.
elim=> {f} [|l [s [T E]]|f h _ Sf _ Sh|t f _ Sf|D f [c E] _ Sf|f h _ Sf e] //.
- rewrite [X in cont X](_ : _ = fun x => ofun s (k x)); first exact: (ofun_cont k s Ck (wdom_ok T)).
  by apply: functional_extensionality => x; rewrite E.
- exact: cont_plus.
- exact: cont_scal.
- rewrite (_ : D f = fun x => Rmult c (f x)); first exact: cont_scal.
  by apply: functional_extensionality => x; rewrite E.
- by rewrite (_ : h = f) //; apply: functional_extensionality => x; rewrite e.
Qed.
Lemma line_admissible : admissible (F := [realFieldType of R]) m k (line_functl W) line_op.
Proof.
split.
- move=> l [s [T E]]; split=> [f h e|f h Rf Rh|t f Rf]; rewrite !E.
  + by congr ofun; apply: functional_extensionality.
  + exact: (ofun_add s f h (wdom_ok T) (reached_cont Rf) (reached_cont Rh)).
  + exact: (ofun_scal s t f (wdom_ok T) (reached_cont Rf)).
- by move=> l l' [s [T E]] e; exists s; split=> // f; rewrite -e E.
- move=> x; exists [:: (1%R, At x)]; split=> [p [<-|[]]|f]; first exact: WAt.
  by rewrite ofun_cons /= mul1r addr0.
- move=> l D [s [T E]] [c ED]; exists (List.map (oscl c) s); split=> [p /List.in_map_iff [q [<- /T]]|f]; first exact: WS.
  rewrite E -ofun_oscl; congr ofun; by apply: functional_extensionality => x; rewrite ED.
- move=> n ls /fin_all_exists [ss Hs].
  have T i : wdom (ss i) by case: (Hs i).
  have E i f : ls i f = ofun (ss i) f by case: (Hs i).
  have E2 i j : ls i (fun x => ls j (k x)) = ofun (ss i) (fun x => ofun (ss j) (k x)).
    by rewrite E; congr ofun; apply: functional_extensionality => x; rewrite E.
  split; first by apply/matrixP=> i j; rewrite !mxE !E2; apply: (ofun_sym k _ _ Ck Sk (wdom_ok (T _)) (wdom_ok (T _))).
  move=> v; pose t := ocombo (fun i => v i 0) ss (enum 'I_n).
  have Tt : odom t by apply: wdom_ok; apply: wdom_combo.
  have /RleP P := ofun_nonneg k t Ck Pk Tt; apply: le_trans P _.
  rewrite le_eqVlt; apply/orP; left; apply/eqP.
  rewrite ofun_ocombo big_enum /= /qform mxE.
  under [RHS]eq_bigr => j _ do rewrite !mxE big_distrl /=.
  rewrite exchange_big /=; apply: eq_bigr => i _.
  have -> : ofun (ss i) (fun x => ofun t (k x)) = ofun (ss i) (fun x => \sum_(j <- enum 'I_n) v j 0 * ofun (ss j) (k x)).
    by congr ofun; apply: functional_extensionality => x; rewrite ofun_ocombo.
  rewrite ofun_big //; [|exact: wdom_ok|by move=> j; apply: (ofun_cont k _ Ck (wdom_ok (T j)))].
  rewrite big_enum big_distrr /=; apply: eq_bigr => j _.
  by rewrite !mxE E2 mulrA mulrAC.
Qed.
End Kind.
