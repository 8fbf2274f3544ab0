(** An example for C58: the equation [- u'' = 1] at the point 1/2 with boundary values
    [u(0) = 0] and [u(1) = 2]; the prior covariance is a sum of two squared exponentials. *)
From Coq Require Import List Reals Lra Lia Bool Arith.
From Verif Require Import Base NdArray FunExprModel DiffopModel DiffopSpec LfoModel LfoSpec LfoSmooth KernelModel KernelSpec KernelProps PsdSpec PdeCondSpec SmoothSym.
Import ListNotations.
Open Scope R_scope.

Definition exp_pt (t : R) : array := fun _ => t.
Definition exp_k : kexpr := KAdd (KScale 2 (KExp (ExpQuad [] (fun _ => 3)))) (KExp (ExpQuad [] (fun _ => 1))).
Definition exp_lap : lfo := OScaled (-1) (ODiff (DLap true [] (fun _ => 1))).
Definition exp_obs (i : nat) : obs := match i with 0%nat => (None, exp_pt 0) | 1%nat => (None, exp_pt 1) | _ => (Some exp_lap, exp_pt (/ 2)) end.
Lemma exp_strict : kstrict [] exp_k.
Proof.
  apply kstrict_left; [apply kstrict_scale; [lra|]; constructor; [reflexivity|intros i _; cbn; lra]|]. now constructor.
Qed.
Lemma exp_built : exists k, kbuild 9 exp_k = Ok k /\ k <> CNotImpl /\ forall i j, exists c, gram_entry 9 k (exp_obs i) (exp_obs j) = Ok c.
Proof.
  eexists. split; [reflexivity|]. split; [discriminate|]. intros [|[|i]] [|[|j]]; eexists; lazy -[IZR Rmult Rplus Ropp exp]; reflexivity.
Qed.
Lemma exp_dom i : obs_dom [] (exp_obs i).
Proof. destruct i as [|[|i]]; cbn; auto. Qed.
Lemma exp_informative i : informative [] (exp_obs i).
Proof.
  destruct i as [|[|i]].
  - exists (fun _ => 1). split; [apply ci_const|]. cbn. lra.
  - exists (fun _ => 1). split; [apply ci_const|]. cbn. lra.
  - exists (lexp [] (fun _ => 1)). split; [apply ci_lexp|]. assert (V : valid_index [] []) by constructor.
    unfold observe. cbn. rewrite (lexp_pd [] _ [] V). rewrite (lexp_scal_pd [] _ _ [] V). unfold lexp, total. cbn.
    pose proof (exp_pos (1 * exp_pt (/ 2) [] + 0)). lra.
Qed.
Lemma exp_distinct i j : (i < 3)%nat -> (j < 3)%nat -> i <> j -> ~ agree [] (snd (exp_obs i)) (snd (exp_obs j)).
Proof.
  intros Hi Hj N A. assert (V : valid_index [] []) by constructor. specialize (A [] V).
  destruct i as [|[|[|i]]]; try lia; destruct j as [|[|[|j]]]; try lia; cbn in A; unfold exp_pt in A; lra.
Qed.
