(** Positive definite matrices over an ordered field: facts used for the block
    operator and for Gaussian conditioning. *)
From mathcomp Require Import all_ssreflect all_algebra.
From Verif Require Import Base Block2Model Block2Spec.
Set Implicit Arguments. Unset Strict Implicit. Unset Printing Implicit Defensive.
Import GRing.Theory Num.Theory Order.TTheory.
Local Open Scope ring_scope.

Section PD.
Variable F : realFieldType.

Lemma mx11_ext (A B : 'M[F]_1) : A 0 0 = B 0 0 -> A = B.
Proof. by move=> E; apply/matrixP=> i j; rewrite !ord1. Qed.

Lemma mx11D (A B : 'M[F]_1) : (A + B) 0 0 = A 0 0 + B 0 0. Proof. by rewrite mxE. Qed.
Lemma mx11Z t (A : 'M[F]_1) : (t *: A) 0 0 = t * A 0 0. Proof. by rewrite mxE. Qed.

Lemma trmx_eq0 m n (v : 'M[F]_(m, n)) : (v^T == 0) = (v == 0).
Proof. by apply/eqP/eqP => [E|->]; [rewrite -[v]trmxK E trmx0 | rewrite trmx0]. Qed.

Lemma invmx_mulmx n (A B : 'M[F]_n) : A \in unitmx -> B \in unitmx -> invmx (A *m B) = invmx B *m invmx A.
Proof.
move=> UA UB; have U : A *m B \in unitmx by rewrite unitmx_mul UA UB.
have E : A *m B *m (invmx B *m invmx A) = 1%:M by rewrite mulmxA mulmxK // mulmxV.
by rewrite -[RHS](mulKmx U) E mulmx1.
Qed.

Lemma posdef_unit n (A : 'M[F]_n) : posdef A -> A \in unitmx.
Proof.
move=> [_ P]; rewrite -row_free_unit; apply: inj_row_free => v vA.
apply/eqP; apply: contraT => v0.
have := P v^T; rewrite trmx_eq0 => /(_ v0).
by rewrite /qform trmxK vA mul0mx mxE ltxx.
Qed.

Lemma posdef_semi n (A : 'M[F]_n) : posdef A -> possemidef A.
Proof.
move=> [S P]; split=> // v; case: (eqVneq v 0) => [->|/P/ltW//].
by rewrite /qform mulmx0 mxE.
Qed.

(** Congruence keeps semi-definiteness. *)
Lemma possemidef_congr n p (A : 'M[F]_n) (X : 'M[F]_(n, p)) : possemidef A -> possemidef (X^T *m A *m X).
Proof.
move=> [S P]; split; first by rewrite !trmx_mul trmxK S mulmxA.
by move=> v; move: (P (X *m v)); rewrite /qform trmx_mul !mulmxA.
Qed.
Lemma possemidef_add n (A B : 'M[F]_n) : possemidef A -> possemidef B -> possemidef (A + B).
Proof.
move=> [SA PA] [SB PB]; split; first by rewrite linearD /= SA SB.
by move=> v; rewrite /qform mulmxDr mulmxDl mxE addr_ge0 ?PA ?PB.
Qed.
Lemma possemidef0 n : possemidef (0 : 'M[F]_n).
Proof. by split=> [|v]; rewrite ?trmx0 // /qform mulmx0 mul0mx mxE. Qed.

Lemma qform_ge0_1 n (v : 'cV[F]_n) : 0 <= qform 1%:M v.
Proof. by rewrite /qform mulmx1 mxE; apply: sumr_ge0 => i _; rewrite mxE -expr2 sqr_ge0. Qed.
Lemma qform1_eq0 n (v : 'cV[F]_n) : qform 1%:M v = 0 -> v = 0.
Proof.
rewrite /qform mulmx1 mxE => /eqP; rewrite psumr_eq0; last by move=> i _; rewrite mxE -expr2 sqr_ge0.
move=> /allP H; apply/matrixP=> i j; rewrite ord1 [RHS]mxE; apply/eqP.
by have := H i (mem_index_enum i); rewrite /= mxE -expr2 sqrf_eq0.
Qed.
Lemma gram_semi n p (X : 'M[F]_(n, p)) : possemidef (X^T *m X).
Proof.
rewrite -[X in _ *m X]mul1mx mulmxA; apply: possemidef_congr; split; first exact: trmx1.
exact: qform_ge0_1.
Qed.
Lemma posdef_congr n (A X : 'M[F]_n) : posdef A -> X \in unitmx -> posdef (X^T *m A *m X).
Proof.
move=> [S P] U; split; first by rewrite !trmx_mul trmxK S mulmxA.
move=> v v0; have := P (X *m v); rewrite /qform trmx_mul !mulmxA; apply.
by apply: contra v0 => /eqP E; rewrite -(mulKmx U v) E mulmx0.
Qed.
Lemma posdef_inv n (A : 'M[F]_n) : posdef A -> posdef (invmx A).
Proof.
move=> PA; have U := posdef_unit PA; case: (PA) => S _.
have -> : invmx A = (invmx A)^T *m A *m invmx A by rewrite trmx_inv S mulVmx ?mul1mx.
by apply: posdef_congr; rewrite ?unitmx_inv.
Qed.

(** ** Schur complements *)
Definition schur_of m n (A : 'M[F]_m) (B : 'M_(m, n)) (D : 'M_n) : 'M_n := D - B^T *m invmx A *m B.

Lemma qform_block m n (A : 'M[F]_m) (B : 'M_(m, n)) (D : 'M_n) (x : 'cV_m) (y : 'cV_n) :
  A \in unitmx -> A^T = A ->
  qform (block_mx A B B^T D) (col_mx x y) = qform A (x + invmx A *m B *m y) + qform (schur_of A B D) y.
Proof.
move=> U S; rewrite /qform /schur_of.
rewrite tr_col_mx mul_row_block mul_row_col [(x + _)^T]linearD /= !trmx_mul trmx_inv S.
rewrite mulmxBr mulmxBl !mulmxDl !mulmxDr.
have E1 : x^T *m A *m (invmx A *m B *m y) = x^T *m B *m y by rewrite !mulmxA mulmxK.
have E2 : y^T *m (B^T *m invmx A) *m A *m x = y^T *m B^T *m x by rewrite !mulmxA mulmxKV.
have E3 : y^T *m (B^T *m invmx A) *m A *m (invmx A *m B *m y) = y^T *m (B^T *m invmx A *m B) *m y.
  by rewrite !mulmxA mulmxKV.
rewrite E1 E2 E3; set P1 := x^T *m A *m x; set P2 := y^T *m B^T *m x; set P3 := x^T *m B *m y.
set P4 := y^T *m D *m y; set P5 := y^T *m _ *m y.
have -> : (P1 + P3 + (P2 + P5)) 0 0 + (P4 - P5) 0 0 = (P1 + P3 + (P2 + P5) + (P4 - P5)) 0 0 by rewrite [RHS]mxE.
congr (fun_of_matrix _ 0 0).
rewrite -!addrA; congr (_ + _); rewrite addrCA; congr (_ + _); congr (_ + _).
by rewrite addrC subrK.
Qed.

Lemma posdef_block_ul m n (A : 'M[F]_m) (B : 'M_(m, n)) C (D : 'M_n) : posdef (block_mx A B C D) -> posdef A.
Proof.
move=> [S P]; move: S; rewrite tr_block_mx => /eq_block_mx [SA _ _ _]; split=> // v v0.
have := P (col_mx v 0); rewrite col_mx_eq0 (negbTE v0) => /(_ isT).
by rewrite /qform tr_col_mx trmx0 mul_row_block !mul0mx !addr0 mul_row_col mulmx0 addr0.
Qed.
Lemma posdef_block_sym m n (A : 'M[F]_m) (B : 'M_(m, n)) C (D : 'M_n) : posdef (block_mx A B C D) -> C = B^T /\ D^T = D.
Proof. by move=> [S _]; move: S; rewrite tr_block_mx => /eq_block_mx [_ H _ H']; split; first by rewrite -H trmxK. Qed.
Lemma posdef_schur m n (A : 'M[F]_m) (B : 'M_(m, n)) (D : 'M_n) : posdef (block_mx A B B^T D) -> posdef (schur_of A B D).
Proof.
move=> PM; have PA := posdef_block_ul PM; have U := posdef_unit PA; case: (PA) => SA _.
have [_ SD] := posdef_block_sym PM; case: PM => _ P.
split; first by rewrite /schur_of linearB /= !trmx_mul trmxK trmx_inv SA SD mulmxA.
move=> y y0; have := P (col_mx (- (invmx A *m B *m y)) y).
rewrite col_mx_eq0 (negbTE y0) andbF => /(_ isT).
by rewrite qform_block // addNr /qform mulmx0 mxE add0r.
Qed.
Lemma posdef_block m n (A : 'M[F]_m) (B : 'M_(m, n)) (D : 'M_n) : posdef A -> posdef (schur_of A B D) -> posdef (block_mx A B B^T D).
Proof.
move=> PA PS; have U := posdef_unit PA; case: (PA) => SA QA; case: (PS) => SS QS.
have SD : D^T = D.
  have : schur_of A B D + B^T *m invmx A *m B = D by rewrite /schur_of subrK.
  by move=> <-; rewrite linearD /= SS !trmx_mul trmxK trmx_inv SA mulmxA.
split; first by rewrite tr_block_mx trmxK SA SD.
move=> v; rewrite -[v]vsubmxK col_mx_eq0 negb_and => H; rewrite qform_block //.
case: (eqVneq (dsubmx v) 0) => [y0|y0].
  rewrite y0 mulmx0 addr0 /qform !mulmx0 [X in _ + X]mxE addr0; apply: QA.
  by move: H; rewrite y0 eqxx orbF.
by apply: ltr_paddl; [apply: (posdef_semi PA).2 | exact: QS].
Qed.
Lemma possemidef_schur m n (A : 'M[F]_m) (B : 'M_(m, n)) (D : 'M_n) :
  A \in unitmx -> possemidef (block_mx A B B^T D) -> possemidef (schur_of A B D).
Proof.
move=> U [S P]; move: S; rewrite tr_block_mx trmxK => /eq_block_mx [SA _ _ SD].
split; first by rewrite /schur_of linearB /= !trmx_mul trmxK trmx_inv SA SD mulmxA.
move=> y; have := P (col_mx (- (invmx A *m B *m y)) y).
by rewrite qform_block // addNr /qform mulmx0 mxE add0r.
Qed.
(** Where the form of a semi-definite matrix vanishes, so does the matrix. *)
Lemma possemidef_kernel n (A : 'M[F]_n) v : possemidef A -> qform A v = 0 -> A *m v = 0.
Proof.
move=> [S P] E.
set w := A *m v; set a := qform A w; set b := qform 1%:M w.
have a0 : 0 <= a by exact: P.
have b0 : 0 <= b by exact: qform_ge0_1.
have Q t : 0 <= t * (t * a + (b + b)).
  have := P (v + t *: w); rewrite /qform [(v + _)^T]linearD /= [(t *: w)^T]linearZ /= !mulmxDl !mulmxDr.
  have -> : v^T *m A *m (t *: w) = t *: (w^T *m w).
    by rewrite -scalemxAr /w trmx_mul S.
  rewrite -!scalemxAl -!scalemxAr.
  have -> : w^T *m A *m v = w^T *m w by rewrite -mulmxA.
  have -> : (v^T *m A *m v + t *: (w^T *m w) + (t *: (w^T *m w) + t *: (t *: (w^T *m A *m w)))) 0 0
          = qform A v + (t * b + (t * b + t * (t * a))).
    rewrite /b /a /qform mulmx1 !mx11D !mx11Z. by rewrite -!addrA.
  by rewrite E add0r addrA -mulrDr -mulrDr [_ + t * a]addrC.
apply: qform1_eq0; rewrite -/b; apply/eqP; rewrite eq_le b0 andbT leNgt; apply/negP => bp.
have a1 : 0 < a + 1 by apply: ltr_paddl a0 ltr01.
have := Q (- (b / (a + 1))); rewrite leNgt => /negP; apply.
rewrite mulNr oppr_lt0; apply: mulr_gt0; first by apply: divr_gt0.
rewrite mulNr addrA; apply: ltr_paddl => //; rewrite addrC subr_ge0 -mulrA ler_pimulr // ler_pdivr_mull // mulr1.
by rewrite ler_addl ler01.
Qed.
(** A semi-definite invertible matrix is definite. *)
Lemma possemidef_unit_posdef n (A : 'M[F]_n) : possemidef A -> A \in unitmx -> posdef A.
Proof.
move=> PS U; have [S P] := PS; split=> // v v0; rewrite lt_neqAle P andbT eq_sym; apply: contra v0 => /eqP E.
by rewrite -(mulKmx U v) (possemidef_kernel PS E) mulmx0.
Qed.
End PD.
