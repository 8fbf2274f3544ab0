(** C19: conditioning a normal random variable. *)
From mathcomp Require Import all_ssreflect all_algebra.
From Verif Require Import Base Block2Model Block2Spec MatPD Block2Proofs NormalModel NormalSpec NormalProofs.
Set Implicit Arguments. Unset Strict Implicit. Unset Printing Implicit Defensive.
Import GRing.Theory Num.Theory.
Local Open Scope ring_scope.

Section Props.
Variable F : realFieldType.
Variable chol : forall n : nat, 'M[F]_n -> 'M[F]_n.
Hypothesis cholP : chol_spec chol.

Lemma rejectedE n p (b : option (normal F p)) (T : transform F n p) : rejected b T = is_1d T && ~~ isSome b.
Proof. by case: T b => [|a|q A] [b|]. Qed.
(** The result is the conditional distribution of the prior given the data
    [y = A x + b]. *)
Theorem C19_is_conditional : forall damp n p (prior : normal F n) y b (T : transform F n p),
  let A := tmx T in let S := ncov prior in let G := gram S A (noise_cov b) damp in
  ~~ rejected b T -> posdef G -> S^T = S ->
  exists2 post, condition chol damp prior y b T = Ok post &
    is_conditional prior (A *m nmean prior + noise_mean b) G (S *m A^T) y post.
Proof. by move=> damp n p prior y b T A S G R PG SS; apply: cond_is_conditional => //; move: R; rewrite -rejectedE. Qed.
(** In closed form. *)
Theorem C19_formula : forall damp n p (prior : normal F n) y b (T : transform F n p),
  let A := tmx T in let S := ncov prior in let G := gram S A (noise_cov b) damp in
  ~~ rejected b T -> posdef G -> S^T = S ->
  condition chol damp prior y b T =
    Ok (Normal (nmean prior + S *m A^T *m invmx G *m (y - (A *m nmean prior + noise_mean b)))
               (S - S *m A^T *m invmx G *m (A *m S))).
Proof. by move=> damp n p prior y b T A S G R PG SS; apply: conditionE => //; move: R; rewrite -rejectedE. Qed.
(** A one-dimensional transform without noise is rejected, nothing else is. *)
Theorem C19_accepts : forall damp n p (prior : normal F n) y b (T : transform F n p),
  (exists post, condition chol damp prior y b T = Ok post) <-> ~~ rejected b T.
Proof. by move=> damp n p prior y b T; rewrite rejectedE /condition; case: ifP => _; split=> //; [by case | by move=> _; eexists]. Qed.
Theorem C19_vector_transform_without_noise : forall damp n (prior : normal F n) y a,
  condition chol damp prior y None (TVec a) = Err TypeError.
Proof. by []. Qed.
(** The Gram matrix is positive definite as soon as it is invertible. *)
Theorem C19_gram_posdef : forall n p (S : 'M[F]_n) (A : 'M[F]_(p, n)) N damp, 0 <= damp -> possemidef S -> possemidef N ->
  gram S A N damp \in unitmx -> posdef (gram S A N damp).
Proof. exact: gram_pd. Qed.
(** The posterior covariance is a covariance, bounded by the prior's. *)
Lemma psd damp n p (prior : normal F n) y b (T : transform F n p) post : 0 <= damp ->
  possemidef (ncov prior) -> possemidef (noise_cov b) -> gram (ncov prior) (tmx T) (noise_cov b) damp \in unitmx ->
  condition chol damp prior y b T = Ok post -> possemidef (ncov post) /\ loewner (ncov post) (ncov prior).
Proof.
move=> d0 PS PN U; have PG := gram_pd d0 PS PN U; have [SS _] := PS.
case ok : (is_1d T && ~~ isSome b); first by rewrite /condition ok.
rewrite (conditionE cholP y) // ?ok // => -[<-] /=.
by split; [apply: post_semi | apply: post_le].
Qed.
Theorem C19_posterior_covariance : forall damp n p (prior : normal F n) y b (T : transform F n p) post, 0 <= damp ->
  possemidef (ncov prior) -> possemidef (noise_cov b) -> gram (ncov prior) (tmx T) (noise_cov b) damp \in unitmx ->
  condition chol damp prior y b T = Ok post -> possemidef (ncov post) /\ loewner (ncov post) (ncov prior).
Proof. exact: psd. Qed.
(** Two observations with independent noise: one after the other or both at
    once. *)
Theorem C19_sequential : forall damp n p q (prior : normal F n) y1 y2 (b1 : normal F p) (b2 : normal F q) A1 A2,
  0 <= damp -> possemidef (ncov prior) -> possemidef (ncov b1) -> possemidef (ncov b2) ->
  gram (ncov prior) (col_mx A1 A2) (block_mx (ncov b1) 0 0 (ncov b2)) damp \in unitmx ->
  bind (condition chol damp prior y1 (Some b1) (TMat A1)) (fun mid => condition chol damp mid y2 (Some b2) (TMat A2)) =
  condition chol damp prior (col_mx y1 y2)
    (Some (Normal (col_mx (nmean b1) (nmean b2)) (block_mx (ncov b1) 0 0 (ncov b2)))) (TMat (col_mx A1 A2)).
Proof. exact: cond_seq. Qed.

(** The hypotheses are met by a standard normal vector observed twice with unit
    noise. *)
Example C19_example n (y : 'cV[F]_n) : exists2 post,
  condition chol 0 (Normal 0 1%:M) y (Some (Normal 0 1%:M)) (TMat 1%:M) = Ok post & ncov post = (2^-1)%:M.
Proof.
have E : gram (1%:M : 'M[F]_n) 1%:M 1%:M 0 = 2%:R%:M.
  by rewrite /gram !mul1mx trmx1 -[0%:M]/(scalar_mx 0) raddf0 addr0 -raddfD.
have U : (2%:R : F) \is a GRing.unit by rewrite unitfE pnatr_eq0.
have PI : possemidef (1%:M : 'M[F]_n) by exact: scal_semi ler01.
have PG : posdef (gram (1%:M : 'M[F]_n) 1%:M 1%:M 0).
  by apply: gram_pd => //; rewrite E unitmxE det_scalar unitrX.
eexists; first by rewrite (conditionE cholP) //= ?trmx1.
rewrite /= E invmx_scalar !mulmx1 trmx1 !mul1mx -raddfB.
by rewrite {1}[1]splitr mul1r addrK.
Qed.
End Props.
Print Assumptions C19_is_conditional. Print Assumptions C19_formula. Print Assumptions C19_accepts. Print Assumptions C19_vector_transform_without_noise.
Print Assumptions C19_gram_posdef. Print Assumptions C19_posterior_covariance. Print Assumptions C19_sequential.
