(** A family of admissible functionals and operators: finite combinations of
    point evaluations, for any positive semi-definite covariance function. *)
From mathcomp Require Import all_ssreflect all_algebra.
From Verif Require Import Base Block2Spec MatPD NormalModel CondModel CondSpec.
Set Implicit Arguments. Unset Strict Implicit. Unset Printing Implicit Defensive.
Import Order.TTheory GRing.Theory Num.Theory.
Local Open Scope ring_scope.

Section Point.
Variables (F : realFieldType) (X : Type).
(** A covariance function: every matrix it assigns to points is symmetric positive
    semi-definite. *)
Definition psd_kernel (k : X -> fn F X) : Prop :=
  forall n (xs : 'I_n -> X), possemidef (\matrix_(i, j) k (xs i) (xs j)).
Definition combo (s : seq (F * X)) (f : fn F X) : F := \sum_(a <- s) a.1 * f a.2.
Definition point_functl (l : fn F X -> F) : Prop := exists s, forall f, l f = combo s f.
Definition stencil_op (D : funop F X) : Prop := forall x, point_functl (fun f => D f x).

Lemma combo_ext s f h : f =1 h -> combo s f = combo s h.
Proof. by move=> e; apply: eq_bigr => a _; rewrite e. Qed.
Lemma combo_scale c s f : combo [seq (c * a.1, a.2) | a <- s] f = c * combo s f.
Proof. by rewrite /combo big_map big_distrr; apply: eq_bigr => a _ /=; rewrite mulrA. Qed.
Lemma combo_flatten ss f : combo (flatten ss) f = \sum_(s <- ss) combo s f.
Proof. by rewrite /combo big_flatten. Qed.
Lemma combo_sum s n (v : 'I_n -> F) (h : 'I_n -> fn F X) :
  combo s (fun x => \sum_j v j * h j x) = \sum_j v j * combo s (h j).
Proof.
rewrite /combo; under eq_bigr do rewrite big_distrr /=.
rewrite exchange_big /=; apply: eq_bigr => j _; rewrite big_distrr /=; apply: eq_bigr => a _; by rewrite mulrCA.
Qed.
Lemma combo_comp s D : stencil_op D -> exists t, forall f, combo s (D f) = combo t f.
Proof.
move=> HD; elim: s => [|[c x] s [t Ht]]; first by exists [::] => f; rewrite /combo !big_nil.
have [u Hu] := HD x; exists ([seq (c * a.1, a.2) | a <- u] ++ t) => f.
rewrite /combo big_cons big_cat /= -/(combo _ _) Ht; congr (_ + _).
by rewrite -/(combo _ _) combo_scale -Hu.
Qed.
Lemma psd_combo k s : psd_kernel k -> 0 <= combo s (fun x => combo s (k x)).
Proof.
move=> H; have [_ /(_ (\col_i (tnth (in_tuple s) i).1))] := H _ (fun i => (tnth (in_tuple s) i).2).
have -> : combo s (fun x => combo s (k x)) = \sum_(i < size s) (tnth (in_tuple s) i).1 *
  \sum_(j < size s) (tnth (in_tuple s) j).1 * k (tnth (in_tuple s) i).2 (tnth (in_tuple s) j).2.
  by rewrite /combo big_tnth; apply: eq_bigr => i _; rewrite big_tnth.
rewrite /qform mxE => P; apply: le_trans P _; rewrite le_eqVlt; apply/orP; left; apply/eqP.
under eq_bigr => j _ do rewrite !mxE big_distrl /=.
rewrite exchange_big /=; apply: eq_bigr => i _; rewrite big_distrr /=; apply: eq_bigr => j _.
by rewrite !mxE mulrA [RHS]mulrAC.
Qed.
Lemma psd_sym k x y : psd_kernel k -> k x y = k y x.
Proof.
move=> H; have [S _] := H 2%N (fun i => if i == 0 then x else y).
by have := congr1 (fun M : 'M_2 => M 0 1) S; rewrite !mxE.
Qed.
Lemma combo_sym k s t : psd_kernel k -> combo s (fun x => combo t (k x)) = combo t (fun x => combo s (k x)).
Proof.
move=> H; rewrite /combo; under eq_bigr do rewrite big_distrr /=; under [RHS]eq_bigr do rewrite big_distrr /=.
rewrite exchange_big /=; apply: eq_bigr => b _; apply: eq_bigr => a _; by rewrite mulrCA (psd_sym _ _ H).
Qed.
Lemma point_admissible m k : psd_kernel k -> admissible m k point_functl stencil_op.
Proof.
move=> H; split.
- move=> l [s Hs]; split=> [f h e|f h _ _|t f _]; rewrite !Hs.
  + exact: combo_ext.
  + by rewrite -big_split; apply: eq_bigr => a _; rewrite mulrDr.
  + by rewrite /combo big_distrr; apply: eq_bigr => a _; rewrite mulrCA.
- by move=> l l' [s Hs] e; exists s => f; rewrite -e Hs.
- by move=> x; exists [:: (1, x)] => f; rewrite /combo big_seq1 mul1r.
- by move=> l D [s Hs] HD; have [t Ht] := combo_comp s HD; exists t => f; rewrite Hs Ht.
- move=> n ls /fin_all_exists [ss Hs].
  have E i j : ls i (fun x => ls j (k x)) = combo (ss i) (fun x => combo (ss j) (k x)).
    by rewrite Hs; apply: combo_ext => x; rewrite Hs.
  split; first by apply/matrixP=> i j; rewrite !mxE !E combo_sym.
  move=> v; pose T := flatten [seq [seq (v i 0 * a.1, a.2) | a <- ss i] | i <- enum 'I_n].
  have ET f : combo T f = \sum_i v i 0 * combo (ss i) f.
    by rewrite /T combo_flatten big_map big_enum /=; apply: eq_bigr => i _; rewrite combo_scale.
  have := psd_combo T H; rewrite ET /qform mxE => P; apply: le_trans P _.
  rewrite le_eqVlt; apply/orP; left; apply/eqP.
  under [RHS]eq_bigr => j _ do rewrite !mxE big_distrl /=.
  rewrite exchange_big /=; apply: eq_bigr => i _; rewrite (combo_ext _ (fun x => ET (k x))) combo_sum.
  rewrite big_distrr /=; apply: eq_bigr => j _.
  by rewrite !mxE E mulrA mulrAC.
Qed.
End Point.
