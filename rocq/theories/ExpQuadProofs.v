(** The closed forms of the derivatives of the ExpQuad kernel. *)
From Coq Require Import List Reals Lra Lia Bool Arith FunctionalExtensionality.
From Coquelicot Require Import Coquelicot.
From Verif Require Import Base NdArray FunExprModel DiffopModel DiffopSpec LfoModel LfoSpec LfoSmooth
  KernelModel KernelSpec KernelCalc.
Import ListNotations.
Open Scope R_scope.

Section EQ.
Variable e : expquad.
Notation sh := (eq_shape e).
Notation I := (all_indices (eq_shape e)).
Definition bv : array := fun i => / eq_len e i ^ 2.
Definition Sm (c d : array) : R := total (map (fun i => c i * d i) I).
Definition Qd (c d : array) : R := total (map (fun i => c i * (d i) ^ 2) I).
Definition Tr (c : array) : R := total (map c I).
Definition Ex (d : array) : R := exp (- (/ 2) * Qd bv d).

Lemma grad_Sm c : grad sh (Sm c) (fun i _ => c i).
Proof.
  apply (grad_coordsum sh (fun i t => c i * t) (fun i _ => c i)).
  intros j t. auto_derive; [trivial|ring].
Qed.
Lemma grad_Qd c : grad sh (Qd c) (fun i d => 2 * c i * d i).
Proof.
  apply (grad_coordsum sh (fun i t => c i * t ^ 2) (fun i t => 2 * c i * t)).
  intros j t. auto_derive; [trivial|ring].
Qed.
Lemma grad_Ex : grad sh Ex (fun i d => - bv i * d i * Ex d).
Proof.
  unfold Ex. eapply grad_ext; [|apply (grad_comp sh exp exp); [intros u; apply is_derive_exp|apply grad_scal, grad_Qd]].
  intros i _ d. cbn beta. field.
Qed.
Lemma grad_SmEx c : grad sh (fun d => Sm c d * Ex d) (fun i d => (c i - bv i * d i * Sm c d) * Ex d).
Proof. eapply grad_ext; [|apply grad_mult; [apply grad_Sm|apply grad_Ex]]. intros i _ d. cbn beta. ring. Qed.
Lemma grad_coordEx (c : R) j : In j I ->
  grad sh (fun d => c * d j * Ex d) (fun i d => (c * (if list_eq_dec Nat.eq_dec j i then 1 else 0) - c * d j * bv i * d i) * Ex d).
Proof.
  intros J. eapply grad_ext; [|apply grad_mult; [apply grad_scal, (grad_coord sh j J)|apply grad_Ex]].
  intros i _ d. cbn beta. ring.
Qed.
Lemma grad_sec_Ex i : In i I -> grad sh (fun d => - bv i * d i * Ex d)
  (fun j d => (- bv i * (if list_eq_dec Nat.eq_dec i j then 1 else 0) + bv i * d i * bv j * d j) * Ex d).
Proof. intros J. eapply grad_ext; [|apply (grad_coordEx (- bv i) i J)]. intros j _ d. cbn beta. ring. Qed.
(** The Laplacian of the kernel. *)
Definition Lap (w d : array) : R := (Qd (fun i => w i * bv i ^ 2) d - Tr (fun i => w i * bv i)) * Ex d.
Lemma grad_Lap w : grad sh (Lap w) (fun i d => 2 * (w i * bv i ^ 2) * d i * Ex d - bv i * d i * Lap w d).
Proof.
  unfold Lap. eapply grad_ext.
  2:{ apply grad_mult; [|apply grad_Ex].
      apply (grad_plus sh (Qd (fun i => w i * bv i ^ 2)) (fun _ => - Tr (fun i => w i * bv i))); [apply grad_Qd|apply grad_const]. }
  intros i _ d. cbn beta. ring.
Qed.
Definition kron i j : R := if list_eq_dec Nat.eq_dec i j then 1 else 0.
Lemma grad_sec_SmEx c i : In i I -> grad sh (fun d => (c i - bv i * d i * Sm c d) * Ex d)
  (fun j d => (- bv i * kron i j * Sm c d - bv i * d i * c j - bv j * d j * (c i - bv i * d i * Sm c d)) * Ex d).
Proof.
  intros J. eapply grad_ext0 with (G := fun d => c i * Ex d + - bv i * (d i * (Sm c d * Ex d))).
  { intros d. ring. }
  eapply grad_ext; [|apply grad_plus; [apply grad_scal, grad_Ex|apply grad_scal, grad_mult;
     [apply (grad_coord sh i J)|apply grad_SmEx]]].
  intros j _ d. cbn beta. unfold kron. ring.
Qed.
Lemma grad_sec_Lap w i : In i I -> grad sh (fun d => 2 * (w i * bv i ^ 2) * d i * Ex d - bv i * d i * Lap w d)
  (fun j d => 2 * (w i * bv i ^ 2) * (kron i j - d i * bv j * d j) * Ex d
    - bv i * kron i j * Lap w d - bv i * d i * (2 * (w j * bv j ^ 2) * d j * Ex d - bv j * d j * Lap w d)).
Proof.
  intros J. eapply grad_ext0 with (G := fun d => 2 * (w i * bv i ^ 2) * d i * Ex d + - bv i * (d i * Lap w d)).
  { intros d. ring. }
  eapply grad_ext; [|apply grad_plus; [apply (grad_coordEx _ i J)|apply grad_scal, grad_mult; [apply (grad_coord sh i J)|apply grad_Lap]]].
  intros j _ d. cbn beta. unfold kron. ring.
Qed.

(** The closed forms of the code. *)
Lemma bsum_total a : bsum sh a = total (map a I). Proof. reflexivity. Qed.
Lemma scale_sq i : eq_scale e i ^ 2 = / 2 * bv i.
Proof.
  unfold eq_scale, bv. unfold Rdiv. rewrite Rmult_1_l. rewrite pow_inv, Rpow_mult_distr, Rinv_mult.
  f_equal. f_equal. replace (sqrt 2 ^ 2) with (sqrt 2 * sqrt 2) by ring. apply sqrt_sqrt. lra.
Qed.
Lemma half_norm (x0 x1 : array) : - (1/2) * bnorm_sq sh (fun i => vdiff x0 x1 i / eq_len e i) = - (/ 2) * Qd bv (vdiff x0 x1).
Proof.
  unfold bnorm_sq. rewrite bsum_total. unfold Qd. f_equal; [field|]. apply total_ext. intros i _.
  unfold bv, Rdiv. rewrite Rpow_mult_distr, pow_inv. ring.
Qed.
Lemma scaled_norm (x0 x1 : array) : - bnorm_sq sh (fun i => eq_scale e i * vdiff x0 x1 i) = - (/ 2) * Qd bv (vdiff x0 x1).
Proof.
  unfold bnorm_sq. rewrite bsum_total. unfold Qd. rewrite Ropp_mult_distr_l_reverse. f_equal. rewrite <- total_mult. apply total_ext.
  intros i _. rewrite Rpow_mult_distr, scale_sq. ring.
Qed.
Lemma ev_exp x0 x1 : ceval (CExp e) x0 x1 = Ex (vdiff x0 x1).
Proof.
  cbn [ceval]. unfold expquad_eval, Ex. f_equal. rewrite <- scaled_norm. f_equal. unfold bnorm_sq. f_equal.
  extensionality i. ring.
Qed.
Lemma ev_dir v r x0 x1 : ceval (CExpDir e v r) x0 x1 = (if r then -1 else 1) * (Sm (fun i => v i * bv i) (vdiff x0 x1) * Ex (vdiff x0 x1)).
Proof.
  cbn [ceval]. unfold expdir_eval, Ex. rewrite half_norm, bsum_total. rewrite <- Rmult_assoc. f_equal.
  unfold Sm. rewrite <- total_mult. apply total_ext. intros i _. unfold expdir_rescaled, bv. destruct r; unfold Rdiv; ring.
Qed.
Lemma ev_dirdir v0 v1 x0 x1 : ceval (CExpDirDir e v0 v1) x0 x1 =
  (Tr (fun i => v0 i * v1 i * bv i) - Sm (fun i => v0 i * bv i) (vdiff x0 x1) * Sm (fun i => v1 i * bv i) (vdiff x0 x1)) * Ex (vdiff x0 x1).
Proof.
  cbn [ceval]. unfold expdirdir_eval, Ex, expdirdir_inprod. rewrite half_norm, !bsum_total. f_equal. f_equal.
  apply total_ext. intros i _. unfold bv, Rdiv. ring.
Qed.
Lemma ev_lap w r x0 x1 : ceval (CExpLap e w r) x0 x1 = Lap w (vdiff x0 x1).
Proof.
  cbn [ceval]. unfold explap_eval, Lap, Ex, explap_trace. rewrite scaled_norm, !bsum_total. f_equal. f_equal.
  - apply total_ext. intros i _. unfold explap_sfsq, explap_winv. rewrite scale_sq. field.
  - apply total_ext. intros i _. rewrite scale_sq. field.
Qed.
Lemma ev_laplap w0 w1 x0 x1 : ceval (CExpLapLap e w0 w1) x0 x1 =
  ((Qd (fun i => w0 i * bv i ^ 2) (vdiff x0 x1) - Tr (fun i => w0 i * bv i)) *
   (Qd (fun i => w1 i * bv i ^ 2) (vdiff x0 x1) - Tr (fun i => w1 i * bv i))
   - 4 * Qd (fun i => w0 i * w1 i * bv i ^ 3) (vdiff x0 x1) + 2 * Tr (fun i => w0 i * w1 i * bv i ^ 2)) * Ex (vdiff x0 x1).
Proof.
  cbn [ceval]. unfold explaplap_eval, Ex, explap_trace, explaplap_trace. rewrite scaled_norm, !bsum_total. f_equal.
  f_equal; [f_equal; [f_equal; f_equal|f_equal]|f_equal]; apply total_ext; intros i _;
    unfold explap_sfsq, explap_winv; rewrite ?scale_sq; field.
Qed.
Lemma ev_dirlap v w r x0 x1 : ceval (CExpDirLap e v w r) x0 x1 =
  (if r then -1 else 1) * (2 * Sm (fun i => v i * w i * bv i ^ 2) (vdiff x0 x1) * Ex (vdiff x0 x1)
   - Sm (fun i => v i * bv i) (vdiff x0 x1) * Lap w (vdiff x0 x1)).
Proof.
  cbn [ceval]. unfold expdirlap_eval.
  change (expquad_eval e x0 x1) with (ceval (CExp e) x0 x1). change (explap_eval e w x0 x1) with (ceval (CExpLap e w true) x0 x1).
  rewrite ev_exp, ev_lap, !bsum_total.
  assert (E1 : total (map (fun i => expdirlap_rescaled e v i * explap_winv e w i * vdiff x0 x1 i) I)
               = Sm (fun i => v i * w i * bv i ^ 2) (vdiff x0 x1)).
  { apply total_ext. intros i _. unfold expdirlap_rescaled, explap_winv. rewrite scale_sq. field. }
  assert (E2 : total (map (fun i => expdirlap_rescaled e v i * vdiff x0 x1 i) I) = Sm (fun i => v i * bv i) (vdiff x0 x1)).
  { apply total_ext. intros i _. unfold expdirlap_rescaled. rewrite scale_sq. field. }
  rewrite E1, E2. destruct r; ring.
Qed.
Lemma ev_spec x0 x1 : ceval (CExp e) x0 x1 = expquad_fun sh (eq_len e) x0 x1.
Proof.
  rewrite ev_exp. unfold Ex, expquad_fun, Qd. f_equal. f_equal. apply total_ext. intros i _.
  unfold bv, vdiff, Rdiv. rewrite Rpow_mult_distr, pow_inv. ring.
Qed.

(** ** Every handler returns the derivative. *)
Ltac fold_total := rewrite <- ?total_mult, <- ?total_plus.
Lemma totalS (g : index -> R) s l : total (map g l) * s = total (map (fun i => g i * s) l).
Proof. rewrite Rmult_comm, <- total_mult. apply total_ext. intros; ring. Qed.
Lemma total_sub {A} (g h : A -> R) l : total (map g l) - total (map h l) = total (map (fun a => g a - h a) l).
Proof. unfold Rminus. rewrite total_plus. f_equal. replace (- total (map h l)) with (-1 * total (map h l)) by ring.
  rewrite <- total_mult. apply total_ext. intros; ring. Qed.

Variable a : nat.
Hypothesis Ha : a = 0%nat \/ a = 1%nat.
Notation o := (1 - a)%nat.

Lemma dir_exp v : in_arg a (dsem (DDir sh v)) (ceval (CExp e)) = ceval (CExpDir e v (is0 a)).
Proof.
  extensionality x0. extensionality x1. rewrite ev_dir.
  replace (ceval (CExp e)) with (fun x y => Ex (vdiff x y)) by (extensionality x; extensionality y; now rewrite ev_exp).
  rewrite (dir_vdiff sh v Ex _ a x0 x1 grad_Ex). unfold Sm. rewrite totalS, <- !total_mult. apply total_ext. intros i _.
  destruct Ha as [->| ->]; cbn [dsgn is0 Nat.eqb]; ring.
Qed.
Lemma lap_exp b w : in_arg a (dsem (DLap b sh w)) (ceval (CExp e)) = ceval (CExpLap e w (is0 a)).
Proof.
  extensionality x0. extensionality x1. rewrite ev_lap.
  replace (ceval (CExp e)) with (fun x y => Ex (vdiff x y)) by (extensionality x; extensionality y; now rewrite ev_exp).
  rewrite (lap_vdiff b sh w Ex _ _ a x0 x1 grad_Ex grad_sec_Ex). unfold Lap, Qd, Tr. rewrite total_sub, totalS.
  apply total_ext. intros i _. destruct (list_eq_dec Nat.eq_dec i i); [ring|congruence].
Qed.
(** The other argument carries the derivative already. *)
Lemma dir_dir v d : in_arg a (dsem (DDir sh v)) (ceval (CExpDir e d (is1 a)))
  = ceval (if is0 a then CExpDirDir e v d else CExpDirDir e d v).
Proof.
  extensionality x0. extensionality x1.
  replace (ceval (CExpDir e d (is1 a))) with (fun x y => (fun z => (if is1 a then -1 else 1) * (Sm (fun i => d i * bv i) z * Ex z)) (vdiff x y))
    by (extensionality x; extensionality y; now rewrite ev_dir).
  rewrite (dir_vdiff sh v _ _ a x0 x1 (grad_scal _ _ _ _ (grad_SmEx _))).
  destruct Ha as [->| ->]; cbn [dsgn is0 is1 Nat.eqb]; rewrite ev_dirdir; unfold Tr.
  - replace (Sm (fun i => v i * bv i) (vdiff x0 x1) * Sm (fun i => d i * bv i) (vdiff x0 x1)) with
      (total (map (fun i => v i * bv i * vdiff x0 x1 i * Sm (fun i => d i * bv i) (vdiff x0 x1)) I))
      by (rewrite <- totalS; reflexivity).
    rewrite total_sub, totalS, <- total_mult. apply total_ext. intros i _. ring.
  - replace (Sm (fun i => d i * bv i) (vdiff x0 x1) * Sm (fun i => v i * bv i) (vdiff x0 x1)) with
      (total (map (fun i => v i * bv i * vdiff x0 x1 i * Sm (fun i => d i * bv i) (vdiff x0 x1)) I))
      by (rewrite <- totalS; unfold Sm; ring).
    rewrite total_sub, totalS, <- total_mult. apply total_ext. intros i _. ring.
Qed.
Lemma lap_dir b w d : in_arg a (dsem (DLap b sh w)) (ceval (CExpDir e d (is1 a))) = ceval (CExpDirLap e d w (is0 a)).
Proof.
  extensionality x0. extensionality x1.
  replace (ceval (CExpDir e d (is1 a))) with (fun x y => (fun z => (if is1 a then -1 else 1) * (Sm (fun i => d i * bv i) z * Ex z)) (vdiff x y))
    by (extensionality x; extensionality y; now rewrite ev_dir).
  rewrite (lap_vdiff b sh w _ _ (fun i j z => (if is1 a then -1 else 1) *
     ((- bv i * kron i j * Sm (fun i => d i * bv i) z - bv i * z i * (d j * bv j) - bv j * z j * (d i * bv i - bv i * z i * Sm (fun i => d i * bv i) z)) * Ex z))
     a x0 x1 (grad_scal _ _ _ _ (grad_SmEx _)) (fun i J => grad_scal _ _ _ _ (grad_sec_SmEx _ i J))).
  rewrite ev_dirlap. unfold Lap. set (z := vdiff x0 x1). set (S0 := Sm (fun i => d i * bv i) z).
  assert (E1 : Sm (fun i => d i * w i * bv i ^ 2) z = total (map (fun i => d i * w i * bv i ^ 2 * z i) I)) by reflexivity.
  assert (E2 : Qd (fun i => w i * bv i ^ 2) z - Tr (fun i => w i * bv i) = total (map (fun i => w i * bv i ^ 2 * z i ^ 2 - w i * bv i) I)).
  { unfold Qd, Tr. apply total_sub. }
  rewrite E1, E2.
  transitivity ((if is0 a then -1 else 1) * Ex z * (2 * total (map (fun i => d i * w i * bv i ^ 2 * z i) I)
    - S0 * total (map (fun i => w i * bv i ^ 2 * z i ^ 2 - w i * bv i) I))); [|ring].
  rewrite <- !total_mult, total_sub, <- total_mult. apply total_ext. intros i _. unfold kron.
  destruct (list_eq_dec Nat.eq_dec i i) as [_|]; [|congruence].
  destruct Ha as [->| ->]; cbn [is0 is1 Nat.eqb]; ring.
Qed.
Lemma dir_lap v w : in_arg a (dsem (DDir sh v)) (ceval (CExpLap e w (is1 a))) = ceval (CExpDirLap e v w (is1 a)).
Proof.
  extensionality x0. extensionality x1.
  replace (ceval (CExpLap e w (is1 a))) with (fun x y => Lap w (vdiff x y)) by (extensionality x; extensionality y; now rewrite ev_lap).
  rewrite (dir_vdiff sh v _ _ a x0 x1 (grad_Lap w)), ev_dirlap. set (z := vdiff x0 x1).
  unfold Sm. transitivity ((if is1 a then -1 else 1) * (total (map (fun i => 2 * Ex z * (v i * w i * bv i ^ 2 * z i)) I)
     - total (map (fun i => Lap w z * (v i * bv i * z i)) I))); [|rewrite !total_mult; ring].
  rewrite total_sub, <- !total_mult. apply total_ext. intros i _. destruct Ha as [->| ->]; cbn [dsgn is1 Nat.eqb]; ring.
Qed.
Lemma lap_lap b w w' : in_arg a (dsem (DLap b sh w)) (ceval (CExpLap e w' (is1 a)))
  = ceval (if is0 a then CExpLapLap e w w' else CExpLapLap e w' w).
Proof.
  extensionality x0. extensionality x1.
  replace (ceval (CExpLap e w' (is1 a))) with (fun x y => Lap w' (vdiff x y)) by (extensionality x; extensionality y; now rewrite ev_lap).
  rewrite (lap_vdiff b sh w _ _ _ a x0 x1 (grad_Lap w') (grad_sec_Lap w')). set (z := vdiff x0 x1).
  transitivity (total (map (fun i => (w i * bv i ^ 2 * z i ^ 2 - w i * bv i) * (Qd (fun i => w' i * bv i ^ 2) z - Tr (fun i => w' i * bv i)) * Ex z
     - 4 * Ex z * (w i * w' i * bv i ^ 3 * z i ^ 2) + 2 * Ex z * (w i * w' i * bv i ^ 2)) I)).
  { apply total_ext. intros i _. unfold kron. destruct (list_eq_dec Nat.eq_dec i i) as [_|]; [|congruence].
    change (Lap w' z) with ((Qd (fun i => w' i * bv i ^ 2) z - Tr (fun i => w' i * bv i)) * Ex z). ring. }
  rewrite total_plus, <- total_sub, !total_mult. rewrite <- (totalS (fun i => (w i * bv i ^ 2 * z i ^ 2 - w i * bv i) * (Qd (fun i => w' i * bv i ^ 2) z - Tr (fun i => w' i * bv i))) (Ex z)).
  rewrite <- (totalS (fun i => w i * bv i ^ 2 * z i ^ 2 - w i * bv i)), <- total_sub.
  change (total (map (fun i => w i * bv i ^ 2 * z i ^ 2) I)) with (Qd (fun i => w i * bv i ^ 2) z).
  change (total (map (fun i => w i * bv i) I)) with (Tr (fun i => w i * bv i)).
  change (total (map (fun i => w i * w' i * bv i ^ 2) I)) with (Tr (fun i => w i * w' i * bv i ^ 2)).
  change (total (map (fun i => w i * w' i * bv i ^ 3 * z i ^ 2) I)) with (Qd (fun i => w i * w' i * bv i ^ 3) z).
  destruct (is0 a); rewrite ev_laplap; fold z; [ring|].
  assert (W : Tr (fun i => w' i * w i * bv i ^ 2) = Tr (fun i => w i * w' i * bv i ^ 2)).
  { apply total_ext. intros; ring. }
  assert (W3 : Qd (fun i => w' i * w i * bv i ^ 3) z = Qd (fun i => w i * w' i * bv i ^ 3) z).
  { apply total_ext. intros; ring. }
  rewrite W, W3. ring.
Qed.
End EQ.
