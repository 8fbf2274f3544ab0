(** Products of two shifted bumps. *)
From Coq Require Import Reals Lra Lia.
From Coquelicot Require Import Coquelicot.
From Verif Require Import BumpInt.
Local Open Scope R_scope.

(** [ball k s x y]: the integral of [(y^2 - u^2)^k (u^2 - x^2)^k] between [x] and [y]. *)
Definition bval (k : nat) (sg x : R) : R := RInt (fun u => ((u * u - x * x) * (sg * sg - u * u)) ^ k) x sg.
Lemma pow_cont (f : R -> R) k x : continuous f x -> continuous (fun u => f u ^ k) x.
Proof.
  intros H. induction k as [|k IH]; [apply (continuous_ext (fun _ => 1)); [reflexivity|apply continuous_const]|].
  apply (continuous_mult f (fun u => f u ^ k)); assumption.
Qed.
Lemma poly_ex (f : R -> R) k a b : (forall x, ex_derive f x) -> ex_RInt (fun u => f u ^ k) a b.
Proof. intros H. apply (@ex_RInt_continuous R_CompleteNormedModule). intros z _. apply pow_cont, (ex_derive_continuous f), H. Qed.
Lemma lin (f : R -> R) p q : ex_RInt f (p * -1 + q) (p * 1 + q) -> RInt f (p * -1 + q) (p * 1 + q) = RInt (fun v => p * f (p * v + q)) (-1) 1.
Proof. intros H. symmetry. exact (RInt_comp_lin f p q (-1) 1 H). Qed.
Lemma lin_pow (f : R -> R) (g : R -> R) p q d k : (forall x, ex_derive f x) -> (forall x, ex_derive g x) -> (forall v, f (p * v + q) = d * g v) ->
  RInt (fun u => f u ^ k) (p * -1 + q) (p * 1 + q) = p * d ^ k * RInt (fun v => g v ^ k) (-1) 1.
Proof.
  intros Hf Hg E. rewrite (lin (fun u => f u ^ k)) by now apply poly_ex.
  rewrite (RInt_ext _ (fun v => scal (p * d ^ k) (g v ^ k))).
  2:{ intros v _. rewrite E, Rpow_mult_distr. unfold scal. cbn. unfold mult. cbn. ring. }
  now rewrite (RInt_scal (V := R_CompleteNormedModule)) by now apply poly_ex.
Qed.
(** The product of two bumps of half width [sg / 2] at distance [x]. *)
Lemma bval_auto k sg x : 0 < sg -> 0 <= x <= sg ->
  bval k sg x = 4 ^ k * RInt (fun t => ((sg / 2 * (sg / 2) - t * t) * (sg / 2 * (sg / 2) - (t - x) * (t - x))) ^ k) (x - sg / 2) (sg / 2).
Proof.
  intros Hs Hx. unfold bval. destruct (Req_dec x sg) as [->|N].
  { replace (sg - sg / 2) with (sg / 2) by field. rewrite !RInt_point. unfold zero. cbn. ring. }
  set (p := (sg - x) / 2). set (c := (sg + x) / p). assert (Hp : p <> 0) by (unfold p; lra).
  assert (L : RInt (fun u => ((u * u - x * x) * (sg * sg - u * u)) ^ k) (p * -1 + (sg + x) / 2) (p * 1 + (sg + x) / 2) =
              p * (p ^ 4) ^ k * RInt (fun v => ((1 - v * v) * ((c + v) * (c + v) - 1)) ^ k) (-1) 1).
  { apply (lin_pow (fun u => (u * u - x * x) * (sg * sg - u * u)) (fun v => (1 - v * v) * ((c + v) * (c + v) - 1))).
    - intros z. auto_derive. trivial. - intros z. auto_derive. trivial.
    - intros v. unfold c. replace sg with (x + 2 * p) by (unfold p; field). field. exact Hp. }
  assert (A : RInt (fun t => ((sg / 2 * (sg / 2) - t * t) * (sg / 2 * (sg / 2) - (t - x) * (t - x))) ^ k) (p * -1 + x / 2) (p * 1 + x / 2) =
              p * (p ^ 4 / 4) ^ k * RInt (fun v => ((1 - v * v) * (c * c - (v + v) * (v + v))) ^ k) (-1) 1).
  { apply (lin_pow (fun t => (sg / 2 * (sg / 2) - t * t) * (sg / 2 * (sg / 2) - (t - x) * (t - x))) (fun v => (1 - v * v) * (c * c - (v + v) * (v + v)))).
    - intros z. auto_derive. trivial. - intros z. auto_derive. trivial.
    - intros v. unfold c. replace sg with (x + 2 * p) by (unfold p; field). field. exact Hp. }
  replace (p * -1 + (sg + x) / 2) with x in L by (unfold p; field). replace (p * 1 + (sg + x) / 2) with sg in L by (unfold p; field).
  replace (p * -1 + x / 2) with (x - sg / 2) in A by (unfold p; field). replace (p * 1 + x / 2) with (sg / 2) in A by (unfold p; field).
  rewrite L, A, bump_LR. replace (p ^ 4) with (4 * (p ^ 4 / 4)) at 1 by field. rewrite Rpow_mult_distr. ring.
Qed.
