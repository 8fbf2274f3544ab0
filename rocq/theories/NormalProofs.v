From mathcomp Require Import all_ssreflect all_algebra.
From Verif Require Import Base Block2Model Block2Spec MatPD Block2Props NormalModel NormalSpec.
Set Implicit Arguments. Unset Strict Implicit. Unset Printing Implicit Defensive.
Import GRing.Theory Num.Theory.
Local Open Scope ring_scope.

Section P.
Variable F : realFieldType.
Variable chol : forall n : nat, 'M[F]_n -> 'M[F]_n.
Hypothesis cholP : chol_spec chol.

Lemma predictiveE n p (prior : normal F n) (T : transform F n p) :
  predictive prior T = Normal (tmx T *m nmean prior) (tmx T *m ncov prior *m (tmx T)^T).
Proof. by case: p / T => //=; rewrite !mul1mx trmx1 mulmx1; case: prior. Qed.
Lemma crosscovE n p (prior : normal F n) (T : transform F n p) : crosscov prior T = tmx T *m ncov prior.
Proof. by case: p / T => //=; rewrite mul1mx. Qed.
Lemma cho_solveE n p (G : 'M[F]_p) (b : 'M[F]_(p, n)) : posdef G -> cho_solve (chol G) b = invmx G *m b.
Proof.
move=> PG; have [_ E] := cholP PG; have U := chol_unit cholP PG.
by rewrite /cho_solve mulmxA -invmx_mulmx ?unitmx_tr // E.
Qed.
Lemma add_noiseE p (m : 'cV[F]_p) S b : add_noise (Normal m S) b = Normal (m + noise_mean b) (S + noise_cov b).
Proof. by case: b => //=; rewrite !addr0. Qed.

Lemma conditionE damp n p (prior : normal F n) y b (T : transform F n p) :
  let A := tmx T in let S := ncov prior in let G := gram S A (noise_cov b) damp in
  ~~ (is_1d T && ~~ isSome b) -> posdef G -> S^T = S ->
  condition chol damp prior y b T =
    Ok (Normal (nmean prior + S *m A^T *m invmx G *m (y - (A *m nmean prior + noise_mean b)))
               (S - S *m A^T *m invmx G *m (A *m S))).
Proof.
move=> A S G ok PG SS.
rewrite /condition (negbTE ok) /=.
rewrite predictiveE add_noiseE /= -/A -/S crosscovE -/A -/S cho_solveE // -/(gram _ _ _ _) -/G.
have SG : G^T = G by case: PG.
by rewrite trmxK !trmx_mul trmx_inv SG SS !mulmxA.
Qed.

Lemma cond_is_conditional damp n p (prior : normal F n) y b (T : transform F n p) :
  let A := tmx T in let S := ncov prior in let G := gram S A (noise_cov b) damp in
  ~~ (is_1d T && ~~ isSome b) -> posdef G -> S^T = S ->
  exists2 post, condition chol damp prior y b T = Ok post &
    is_conditional prior (A *m nmean prior + noise_mean b) G (S *m A^T) y post.
Proof.
move=> A S G ok PG SS; eexists; first exact: conditionE.
have UG := posdef_unit PG; have SG : G^T = G by case: PG.
exists (S *m A^T *m invmx G); split=> //=; first by rewrite mulmxKV // subrr.
rewrite mulmxKV // !trmx_mul trmxK trmx_inv SG SS !mulmxA.
by rewrite [in RHS]addrNK.
Qed.

Lemma joint_semi n p (S : 'M[F]_n) (A : 'M[F]_(p, n)) (N : 'M[F]_p) : possemidef S -> possemidef N ->
  possemidef (block_mx (A *m S *m A^T + N) (A *m S) (A *m S)^T S).
Proof.
move=> PS PN; have [SS _] := PS.
have E : block_mx (A *m S *m A^T + N) (A *m S) (A *m S)^T S =
    (row_mx A^T 1%:M)^T *m S *m row_mx A^T 1%:M + (row_mx 1%:M 0)^T *m N *m row_mx 1%:M 0.
  rewrite !tr_row_mx !trmxK !trmx1 !trmx0 [col_mx A _ *m S]mul_col_mx [col_mx 1%:M 0 *m N]mul_col_mx !mul_col_row !mul1mx !mul0mx !mulmx1 !mulmx0.
  by rewrite add_block_mx !addr0 trmx_mul SS.
by rewrite E; apply: possemidef_add; apply: possemidef_congr.
Qed.

Lemma scal_semi n (d : F) : 0 <= d -> possemidef (d%:M : 'M[F]_n).
Proof.
move=> d0; split; first by rewrite tr_scalar_mx.
move=> v; rewrite /qform mul_mx_scalar -scalemxAl mxE mulr_ge0 //.
by rewrite -[v^T]mulmx1 -/(qform 1%:M v) qform_ge0_1.
Qed.

Lemma post_semi n p (S : 'M[F]_n) (A : 'M[F]_(p, n)) (N : 'M[F]_p) damp : 0 <= damp ->
  possemidef S -> possemidef N -> gram S A N damp \in unitmx ->
  possemidef (S - S *m A^T *m invmx (gram S A N damp) *m (A *m S)).
Proof.
move=> d0 PS PN U; have [SS _] := PS.
have PN' : possemidef (N + damp%:M) by apply: possemidef_add => //; apply: scal_semi.
have H := joint_semi A PS PN'; rewrite addrA -/(gram S A N damp) in H.
have := possemidef_schur U H.
by rewrite /schur_of trmx_mul SS.
Qed.
Lemma post_le n p (S : 'M[F]_n) (A : 'M[F]_(p, n)) (G : 'M[F]_p) : S^T = S ->
  posdef G -> loewner (S - S *m A^T *m invmx G *m (A *m S)) S.
Proof.
move=> SS PG; rewrite /loewner opprB addrCA subrr addr0.
have -> : S *m A^T = (A *m S)^T by rewrite trmx_mul SS.
by apply: possemidef_congr; apply: posdef_semi; apply: posdef_inv.
Qed.
Lemma gram_pd n p (S : 'M[F]_n) (A : 'M[F]_(p, n)) N damp : 0 <= damp -> possemidef S -> possemidef N ->
  gram S A N damp \in unitmx -> posdef (gram S A N damp).
Proof.
move=> d0 PS PN U; apply: possemidef_unit_posdef => //; apply: possemidef_add; last exact: scal_semi.
apply: possemidef_add => //; rewrite -{1}[A]trmxK; exact: possemidef_congr.
Qed.

(** Solving a block system through the Schur complement. *)
Lemma block_inv_col m n q (G1 : 'M[F]_m) (B : 'M[F]_(m, n)) (C : 'M[F]_(n, m)) (G2 : 'M[F]_n) (z1 : 'M[F]_(m, q)) (z2 : 'M[F]_(n, q)) :
  let S := G2 - C *m invmx G1 *m B in
  G1 \in unitmx -> S \in unitmx -> block_mx G1 B C G2 \in unitmx ->
  invmx (block_mx G1 B C G2) *m col_mx z1 z2 =
    col_mx (invmx G1 *m (z1 - B *m (invmx S *m (z2 - C *m invmx G1 *m z1)))) (invmx S *m (z2 - C *m invmx G1 *m z1)).
Proof.
move=> S U1 US U; apply: (canLR (mulKmx U)); rewrite mul_block_col mulKVmx // subrK; congr col_mx.
set w := z2 - _; set y := invmx S *m w.
have Sy : G2 *m y = w + C *m invmx G1 *m B *m y by rewrite -{1}(mulKVmx US w) -/y mulmxBl subrK.
clearbody y; rewrite Sy mulmxBr mulmxBr !mulmxA /w.
have aux (V : zmodType) (a1 c1 d1 : V) : a1 - c1 + (d1 - a1 + c1) = d1 by rewrite addrC addrA [LHS]addrAC addrK subrK.
by rewrite aux.
Qed.

Section Seq.
Variables (n p q : nat).
Variables (m : 'cV[F]_n) (S : 'M[F]_n) (A1 : 'M[F]_(p, n)) (A2 : 'M[F]_(q, n)).
Variables (N1 : 'M[F]_p) (N2 : 'M[F]_q) (damp : F).
Let G1 := gram S A1 N1 damp.
Let S' := S - S *m A1^T *m invmx G1 *m (A1 *m S).
Let G2 := gram S' A2 N2 damp.
Let G := gram S (col_mx A1 A2) (block_mx N1 0 0 N2) damp.

Lemma gram_block : G = block_mx G1 (A1 *m S *m A2^T) (A2 *m S *m A1^T) (gram S A2 N2 damp).
Proof.
by rewrite /G /G1 /gram scalar_mx_block mul_col_mx tr_col_mx mul_col_row !add_block_mx !addr0.
Qed.
Lemma gram2_schur : G2 = gram S A2 N2 damp - A2 *m S *m A1^T *m invmx G1 *m (A1 *m S *m A2^T).
Proof.
by rewrite /G2 /gram /S' mulmxBr mulmxBl !mulmxA -!addrA; congr (_ + _); rewrite [RHS]addrA addrC.
Qed.
Hypothesis (PS : possemidef S) (P1 : possemidef N1) (P2 : possemidef N2) (d0 : 0 <= damp).
Hypothesis UG : G \in unitmx.
Lemma seq_pd : posdef G1 /\ posdef G2.
Proof.
have PN : possemidef (block_mx N1 0 0 N2).
  have [[T1 Q1] [T2 Q2]] := (P1, P2).
  split; first by rewrite tr_block_mx !trmx0 T1 T2.
  move=> v; rewrite -[v]vsubmxK /qform tr_col_mx mul_row_block !mulmx0 !add0r !addr0 mul_row_col mxE.
  by rewrite addr_ge0 ?Q1 ?Q2.
have PG : posdef G by apply: gram_pd.
have [SS _] := PS.
rewrite gram_block in PG; have PG1 := posdef_block_ul PG; split=> //.
have [E _] := posdef_block_sym PG; rewrite E in PG.
by have := posdef_schur PG; rewrite /schur_of -E -gram2_schur.
Qed.
Lemma seq_apply r (z1 : 'M[F]_(p, r)) (z2 : 'M[F]_(q, r)) :
  S *m (col_mx A1 A2)^T *m invmx G *m col_mx z1 z2 =
  S *m A1^T *m invmx G1 *m z1 + S' *m A2^T *m invmx G2 *m (z2 - A2 *m (S *m A1^T *m invmx G1 *m z1)).
Proof.
have [PG1 PG2] := seq_pd; have [U1 U2] := (posdef_unit PG1, posdef_unit PG2).
rewrite -mulmxA gram_block block_inv_col // -?gram2_schur // -?gram_block //.
rewrite tr_col_mx mul_mx_row mul_row_col /S' !mulmxBl !mulmxBr !mulmxA -!addrA; congr (_ + _).
set a := S *m A2^T *m invmx G2 *m z2; set b := _ *m z1; set c := _ *m z2; set d := _ *m z1.
by rewrite addrC -!addrA; congr (_ + _); rewrite [RHS]addrCA.
Qed.
End Seq.

Lemma cond_seq damp n p q (prior : normal F n) y1 y2 (b1 : normal F p) (b2 : normal F q) A1 A2 :
  0 <= damp -> possemidef (ncov prior) -> possemidef (ncov b1) -> possemidef (ncov b2) ->
  gram (ncov prior) (col_mx A1 A2) (block_mx (ncov b1) 0 0 (ncov b2)) damp \in unitmx ->
  bind (condition chol damp prior y1 (Some b1) (TMat A1)) (fun mid => condition chol damp mid y2 (Some b2) (TMat A2)) =
  condition chol damp prior (col_mx y1 y2)
    (Some (Normal (col_mx (nmean b1) (nmean b2)) (block_mx (ncov b1) 0 0 (ncov b2)))) (TMat (col_mx A1 A2)).
Proof.
move=> d0 PS P1 P2 U; have [PG1 PG2] := seq_pd PS P1 P2 d0 U; have [SS _] := PS.
have PN : possemidef (block_mx (ncov b1) 0 0 (ncov b2)).
  have [[T1 Q1] [T2 Q2]] := (P1, P2).
  split; first by rewrite tr_block_mx !trmx0 T1 T2.
  move=> v; rewrite -[v]vsubmxK /qform tr_col_mx mul_row_block !mulmx0 !add0r !addr0 mul_row_col mxE.
  by rewrite addr_ge0 ?Q1 ?Q2.
have PG := gram_pd d0 PS PN U.
have SS' := post_semi d0 PS P1 (posdef_unit PG1).
rewrite conditionE //= conditionE //=; last by case: SS'.
rewrite conditionE //=; congr (Ok (Normal _ _)).
  rewrite mul_col_mx add_col_mx opp_col_mx add_col_mx seq_apply // -addrA; congr (_ + (_ + _)).
  by congr (_ *m _); rewrite -[RHS]addrA -opprD mulmxDr addrAC.
rewrite [in RHS]mul_col_mx seq_apply // opprD addrA; congr (_ - _ *m _).
by rewrite mulmxBr !mulmxA.
Qed.
End P.
