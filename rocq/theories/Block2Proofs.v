(** Lemmas about the 2x2 block operator. *)
From mathcomp Require Import all_ssreflect all_algebra.
From Verif Require Import Base Block2Model Block2Spec MatPD.
Set Implicit Arguments. Unset Strict Implicit. Unset Printing Implicit Defensive.
Import GRing.Theory Num.Theory Order.TTheory.
Local Open Scope ring_scope.

Section Tri.
Variable F : realFieldType.
Lemma lower_block m n (A : 'M[F]_m) (C : 'M_(n, m)) (D : 'M_n) :
  lower_tri A -> lower_tri D -> lower_tri (block_mx A 0 C D).
Proof.
move=> LA LD i j; case: (split_ordP i) => i' ->; case: (split_ordP j) => j' ->.
- by rewrite block_mxEul => /LA.
- by rewrite block_mxEur mxE.
- by rewrite /= => H; move: (leq_trans H (ltnW (ltn_ord j'))); rewrite ltnNge leq_addr.
- by rewrite block_mxEdr /= ltn_add2l => /LD.
Qed.
Lemma upper_block m n (A : 'M[F]_m) (B : 'M_(m, n)) (D : 'M_n) :
  upper_tri A -> upper_tri D -> upper_tri (block_mx A B 0 D).
Proof.
move=> LA LD i j; case: (split_ordP i) => i' ->; case: (split_ordP j) => j' ->.
- by rewrite block_mxEul => /LA.
- by rewrite /= => H; move: (leq_trans H (ltnW (ltn_ord i'))); rewrite ltnNge leq_addr.
- by rewrite block_mxEdl mxE.
- by rewrite block_mxEdr /= ltn_add2l => /LD.
Qed.
Lemma lower_block_ur m n (A : 'M[F]_m) B (C : 'M_(n, m)) (D : 'M_n) : lower_tri (block_mx A B C D) -> B = 0.
Proof.
move=> L; apply/matrixP=> i j; have := L (lshift n i) (rshift m j).
by rewrite block_mxEur mxE /= => -> //; rewrite (leq_trans (ltn_ord i)) // leq_addr.
Qed.
Lemma upper_block_dl m n (A : 'M[F]_m) B (C : 'M_(n, m)) (D : 'M_n) : upper_tri (block_mx A B C D) -> C = 0.
Proof.
move=> L; apply/matrixP=> i j; have := L (rshift m i) (lshift n j).
by rewrite block_mxEdl mxE /= => -> //; rewrite (leq_trans (ltn_ord j)) // leq_addr.
Qed.
Lemma lower_T n (A : 'M[F]_n) : lower_tri A -> upper_tri A^T.
Proof. by move=> L i j H; rewrite mxE L. Qed.
Lemma upper_T n (A : 'M[F]_n) : upper_tri A -> lower_tri A^T.
Proof. by move=> L i j H; rewrite mxE L. Qed.

(** Inverses of block matrices. *)
Lemma block_unit_lower m n (A : 'M[F]_m) (C : 'M_(n, m)) (D : 'M_n) :
  (block_mx A 0 C D \in unitmx) = (A \in unitmx) && (D \in unitmx).
Proof. by rewrite !unitmxE det_lblock unitrM. Qed.
Lemma block_unit_upper m n (A : 'M[F]_m) B (D : 'M_n) :
  (block_mx A B 0 D \in unitmx) = (A \in unitmx) && (D \in unitmx).
Proof. by rewrite !unitmxE det_ublock unitrM. Qed.

(** Determinant by Schur complement. *)
Lemma det_schur m n (A : 'M[F]_m) (B : 'M_(m, n)) C (D : 'M_n) : A \in unitmx ->
  \det (block_mx A B C D) = \det A * \det (D - C *m invmx A *m B).
Proof.
move=> U; have -> : block_mx A B C D = block_mx A 0 C 1%:M *m block_mx 1%:M (invmx A *m B) 0 (D - C *m invmx A *m B).
  by rewrite mulmx_block !mul0mx !mulmx1 !mulmx0 !addr0 mul1mx mulKVmx // mulmxA addrC subrK.
by rewrite det_mulmx det_lblock det_ublock !det1 mulr1 mul1r.
Qed.

(** ** Existence of Cholesky factors over real closed fields *)
End Tri.

Section Chol.
Variable R : rcfType.
Fixpoint chol_rec (n : nat) : 'M[R]_n -> 'M[R]_n :=
  match n with
  | 0 => fun A => A
  | k.+1 => fun A : 'M[R]_(1 + k) =>
      let a := A 0 0 in
      let b := dlsubmx A in
      block_mx (Num.sqrt a)%:M 0 ((Num.sqrt a)^-1 *: b) (chol_rec (drsubmx A - a^-1 *: (b *m b^T)))
  end.
Lemma chol_exists : exists chol : forall n, 'M[R]_n -> 'M[R]_n, chol_spec chol.
Proof.
exists chol_rec; elim=> [|n IH] A PA; first by split; [case=> [] []|apply/matrixP=> [] []].
move: A PA; rewrite -[n.+1]/(1 + n)%N => A PA.
have [a [b [D EA]]] : exists a b D, A = block_mx a b^T b D :> 'M[R]_(1 + n).
  exists (ulsubmx A), (dlsubmx A), (drsubmx A); case: (PA) => S _.
  have -> : (dlsubmx A)^T = ursubmx A by rewrite trmx_dlsub S.
  by rewrite submxK.
move: PA; rewrite EA => PA {EA A}.
have PU := posdef_block_ul PA.
have Ea : a = (a 0 0)%:M by rewrite [LHS]mx11_scalar.
have a0 : 0 < a 0 0.
  have := PU.2 1%:M; rewrite /qform trmx1 mul1mx mulmx1; apply.
  by apply/eqP=> /matrixP/(_ 0 0); rewrite !mxE /= => /eqP; rewrite oner_eq0.
have := PA; rewrite -{2}[b]trmxK => PA'; have := posdef_schur PA'.
have -> : schur_of a b^T D = D - (a 0 0)^-1 *: (b *m b^T).
  by rewrite /schur_of trmxK {1}Ea invmx_scalar mul_mx_scalar scalemxAl.
move=> /IH [L E].
rewrite /= block_mxKdl block_mxKdr.
have -> : (block_mx a b^T b D : 'M[R]_(1 + n)) 0 0 = a 0 0.
  by have -> : (0 : 'I_(1 + n)) = lshift n 0; [exact: val_inj|rewrite block_mxEul].
have s0 : Num.sqrt (a 0 0) != 0 by rewrite sqrtr_eq0 -ltNge.
have ss : Num.sqrt (a 0 0) * Num.sqrt (a 0 0) = a 0 0 by rewrite -expr2 sqr_sqrtr // ltW.
split; first by apply: lower_block => // i j; rewrite !ord1.
rewrite tr_block_mx mulmx_block trmx0 !mul0mx !mulmx0 !addr0 tr_scalar_mx linearZ /= E.
rewrite -scalar_mxM ss -Ea mul_scalar_mx scalerA mulfV // scale1r mul_mx_scalar scalerA mulfV // scale1r.
congr block_mx; rewrite -scalemxAl -scalemxAr scalerA -invfM ss.
by rewrite addrC subrK.
Qed.
End Chol.
