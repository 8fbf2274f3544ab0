(** Vectorised callables: one application to a batch. *)
From Coq Require Import List Arith ZArith Bool Lia.
From Verif Require Import Base NdArray NdData BlockModel CovModel CrossModel CrossProofs CrossKern BatchProofs ShapedModel ShapedSpec ShapedProofs ShapedProps LambdaModel LambdaSpec.
Import ListNotations.
Local Open Scope nat_scope.

Lemma broadcast_rev_app s : forall t r b, length s = length t -> broadcast_rev s t = Ok r -> broadcast_rev (s ++ b) (t ++ b) = Ok (r ++ b).
Proof.
  induction s as [|x s IH]; intros [|y t] r b L H; cbn in L; try discriminate L.
  - cbn in H. injection H as <-. cbn [app]. apply broadcast_rev_same.
  - cbn in H. cbn [app broadcast_rev]. injection L as L.
    destruct (broadcast_rev s t) as [q|] eqn:Q; cbn [bind] in H; [|destruct (x =? y), (x =? 1), (y =? 1); discriminate].
    rewrite (IH t q b L Q). cbn [bind]. destruct (x =? y); [injection H as <-; reflexivity|]. destruct (x =? 1); [injection H as <-; reflexivity|].
    destruct (y =? 1); [injection H as <-; reflexivity|discriminate].
Qed.
Lemma broadcast_suffix b s t r : length s = length t -> broadcast_shapes s t = Ok r -> broadcast_shapes (b ++ s) (b ++ t) = Ok (b ++ r).
Proof.
  intros L H. unfold broadcast_shapes in *. rewrite !rev_app_distr. destruct (broadcast_rev (rev s) (rev t)) as [q|] eqn:Q; [|discriminate]. cbn [bind] in H. injection H as <-.
  rewrite (broadcast_rev_app _ _ _ (rev b)) with (2 := Q) by (now rewrite !rev_length). cbn [bind]. now rewrite rev_app_distr, rev_involutive.
Qed.
(** An array that broadcasts to a shape has at most its number of axes. *)
Lemma broadcast_to_rank s t : broadcast_shapes s t = Ok t -> length s <= length t.
Proof. intros H. apply broadcast_rank in H. lia. Qed.

Section LP.
Context {F : fops}.

Lemma vec1_ok fn (x : nd F) batch s ko : nshape x = batch ++ s ->
  vectorize1 (length s) ko fn x = bind (fn s) (fun '(o, v) =>
    if length o =? ko then Ok (Nd (batch ++ o) (fun l => v (pt x (firstn (length batch) l)) (skipn (length batch) l))) else Err ValueError).
Proof.
  intros E. unfold vectorize1. cbv zeta. rewrite E, app_length.
  destruct (Nat.ltb_spec (length batch + length s) (length s)) as [L|_]; [lia|].
  replace (length batch + length s - length s) with (length batch) by lia. now rewrite firstn_app_l, skipn_app_l by reflexivity.
Qed.
Lemma vec1_few fn (x : nd F) ki ko : length (nshape x) < ki -> vectorize1 ki ko fn x = Err ValueError.
Proof. intros L. unfold vectorize1. cbv zeta. now apply Nat.ltb_lt in L as ->. Qed.
Lemma vec2_ok fn (x0 x1 : nd F) b0 b1 s ki ko : nshape x0 = b0 ++ s -> nshape x1 = b1 ++ s -> ki = length s ->
  vectorize2 ki ko fn x0 x1 = bind (broadcast_shapes b0 b1) (fun b => bind (fn s s) (fun '(o, v) =>
    if length o =? ko then Ok (Nd (b ++ o) (fun l => let i := firstn (length b) l in
      v (pt x0 (operand_index b0 i)) (pt x1 (operand_index b1 i)) (skipn (length b) l))) else Err ValueError)).
Proof.
  intros E0 E1 ->. unfold vectorize2. cbv zeta. rewrite E0, E1, !app_length.
  destruct (Nat.ltb_spec (length b0 + length s) (length s)) as [L|_]; [lia|].
  destruct (Nat.ltb_spec (length b1 + length s) (length s)) as [L|_]; [lia|]. cbn [orb].
  replace (length b0 + length s - length s) with (length b0) by lia. replace (length b1 + length s - length s) with (length b1) by lia.
  rewrite !firstn_app_l, !skipn_app_l by reflexivity. now rewrite shape_eqb_refl.
Qed.
Lemma vec_pairwise (v : point F -> point F -> index -> F) (x0 x1 : nd F) b0 b1 b o :
  pairwise v x0 x1 b0 b1 b o (Nd (b ++ o) (fun l => let i := firstn (length b) l in
      v (pt x0 (operand_index b0 i)) (pt x1 (operand_index b1 i)) (skipn (length b) l))).
Proof.
  split; [reflexivity|]. intros i q Hi Hq. cbn [nat_]. cbv zeta.
  now rewrite firstn_app_l, skipn_app_l by exact (valid_index_length _ _ Hi).
Qed.
Lemma one_axis_le s : length s <= 1 -> one_axis s = length s.
Proof. destruct s as [|d [|e s]]; intros L; [reflexivity|reflexivity|cbn in L; lia]. Qed.
Lemma one_axis_cons s d : one_axis (s ++ [d]) = 1.
Proof. unfold one_axis. destruct (shape_eqb_spec (s ++ [d]) []) as [H|_]; [|reflexivity]. now destruct s. Qed.
Lemma one_axis_lt s : one_axis s <= length s.
Proof. unfold one_axis. destruct (shape_eqb_spec s []) as [->|N]; [cbn; lia|]. destruct s; [easy|cbn; lia]. Qed.
Lemma one_axis_big s : 2 <= length s -> one_axis s < length s.
Proof. unfold one_axis. destruct (shape_eqb_spec s []) as [->|N]; intros L; [cbn in L; lia|lia]. Qed.

End LP.
