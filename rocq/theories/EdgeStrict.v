(** Combinations of translates of a compactly supported function and its derivatives that is a
    polynomial at the edge of its support: such combinations vanish only if the weights cancel. *)
From Coq Require Import List Arith Lia Reals Lra.
From Coquelicot Require Import Coquelicot.
From Verif Require Import Base ParamSpec TensorSchur PsdBase.
Import ListNotations.
Local Open Scope R_scope.

Section Edge.
Variables (g A : nat -> R -> R) (L a : R) (k N : nat).
Hypothesis HL : 0 < L.
Hypothesis A_derive : forall n u, is_derive (A n) u (A (S n) u).
Hypothesis A_lead : forall u, A N u = a.
Hypothesis A_high : forall n u, (N < n)%nat -> A n u = 0.
Hypothesis Ha : a <> 0.
Hypothesis kN : (k <= N)%nat.
Hypothesis g_edge : forall n u, (n <= k)%nat -> - L < u < 0 -> g n u = A n u.
Hypothesis g_out : forall n u, (n <= k)%nat -> u <= - L -> g n u = 0.

Definition hsum (l : list (R * (nat * R))) (j : nat) (u : R) : R := sumR (fun p => fst p * A (fst (snd p) + j) u) l.
Lemma hsum_derive l j u : is_derive (hsum l j) u (hsum l (S j) u).
Proof.
  unfold hsum. induction l as [|p l IH]; [apply (is_derive_const 0)|].
  apply (is_derive_ext (fun u => fst p * A (fst (snd p) + j) u + sumR (fun p => fst p * A (fst (snd p) + j) u) l)); [intros; now rewrite sumR_cons|].
  rewrite sumR_cons. apply @is_derive_plus; [|exact IH]. apply is_derive_scal. replace (fst (snd p) + S j)%nat with (S (fst (snd p) + j)) by lia. apply A_derive.
Qed.
Lemma hsum_zero l b c : (forall u, b < u < c -> hsum l 0 u = 0) -> forall j u, b < u < c -> hsum l j u = 0.
Proof.
  intros H j. induction j as [|j IH]; intros u Hu; [now apply H|].
  pose proof (hsum_derive l j u) as D. apply is_derive_unique in D. rewrite <- D.
  rewrite (Derive_ext_loc (hsum l j) (fun _ => 0)); [apply Derive_const|].
  assert (P : 0 < Rmin (u - b) (c - u)) by (apply Rmin_pos; lra). exists (mkposreal _ P). intros y Hy.
  unfold ball in Hy; cbn in Hy; unfold AbsRing_ball, abs, minus, plus, opp in Hy; cbn in Hy. apply Rabs_lt_between in Hy.
  pose proof (Rmin_l (u - b) (c - u)). pose proof (Rmin_r (u - b) (c - u)). apply IH. lra.
Qed.
(** Different orders of derivatives at one point. *)
Lemma orders l b c : b < c -> (forall p, In p l -> (fst (snd p) <= k)%nat) -> (forall u, b < u < c -> hsum l 0 u = 0) ->
  forall phi : nat -> R, sumR (fun p => fst p * phi (fst (snd p))) l = 0.
Proof.
  intros bc O Z phi.
  assert (C : forall m, (m <= S N)%nat -> forall phi : nat -> R, sumR (fun p => fst p * if lt_dec (fst (snd p)) m then phi (fst (snd p)) else 0) l = 0).
  { induction m as [|m IH]; intros Hm ph.
    - etransitivity; [|apply (sumR_zero l)]. apply sumR_ext. intros p _. destruct (lt_dec (fst (snd p)) 0); [lia|ring].
    - specialize (IH ltac:(lia)).
      assert (W : sumR (fun p => fst p * if Nat.eq_dec (fst (snd p)) m then 1 else 0) l = 0).
      { apply (Rmult_eq_reg_l a); [|exact Ha]. rewrite Rmult_0_r. pose proof (hsum_zero l b c Z (N - m) ((b + c) / 2) ltac:(lra)) as H. unfold hsum in H.
        specialize (IH (fun n => A (n + (N - m)) ((b + c) / 2))).
        transitivity (sumR (fun p => fst p * if lt_dec (fst (snd p)) m then A (fst (snd p) + (N - m)) ((b + c) / 2) else 0) l + a * sumR (fun p => fst p * if Nat.eq_dec (fst (snd p)) m then 1 else 0) l); [rewrite IH; ring|].
        etransitivity; [|exact H]. rewrite sumR_scal, <- sumR_add. apply sumR_ext. intros p _.
        destruct (lt_dec (fst (snd p)) m), (Nat.eq_dec (fst (snd p)) m) as [E|E]; try lia.
        - ring.
        - rewrite E. replace (m + (N - m))%nat with N by lia. rewrite A_lead. ring.
        - rewrite A_high by lia. ring. }
      transitivity (sumR (fun p => fst p * if lt_dec (fst (snd p)) m then ph (fst (snd p)) else 0) l + ph m * sumR (fun p => fst p * if Nat.eq_dec (fst (snd p)) m then 1 else 0) l); [|rewrite IH, W; ring].
      rewrite sumR_scal, <- sumR_add. apply sumR_ext. intros p _.
      destruct (lt_dec (fst (snd p)) (S m)), (lt_dec (fst (snd p)) m), (Nat.eq_dec (fst (snd p)) m) as [E|E]; try lia; try rewrite E; ring. }
  rewrite <- (C (S N) (le_n _) phi). apply sumR_ext. intros p Hp. specialize (O p Hp). destruct (lt_dec (fst (snd p)) (S N)); [reflexivity|lia].
Qed.

Definition at_ (M : R) (p : R * (nat * R)) : bool := if Req_EM_T (snd (snd p)) M then true else false.
Lemma split_at M l (f : R * (nat * R) -> R) : sumR f l = sumR f (filter (at_ M) l) + sumR f (filter (fun p => negb (at_ M p)) l).
Proof. induction l as [|p l IH]; [unfold sumR; cbn; ring|]. cbn [filter]. destruct (at_ M p); cbn [negb]; rewrite !sumR_cons, IH; ring. Qed.
Lemma greatest (l : list (R * (nat * R))) : l <> [] -> exists p, In p l /\ forall q, In q l -> snd (snd q) <= snd (snd p).
Proof.
  induction l as [|p l IH]; intros H; [contradiction|]. destruct l as [|q l].
  - exists p. split; [now left|]. intros q [<-|[]]. lra.
  - destruct (IH ltac:(discriminate)) as (r & Hr & Hm). destruct (Rle_dec (snd (snd r)) (snd (snd p))).
    + exists p. split; [now left|]. intros s [<-|Hs]; [lra|]. specialize (Hm s Hs). lra.
    + exists r. split; [now right|]. intros s [<-|Hs]; [lra|]. auto.
Qed.
Lemma below M (l : list (R * (nat * R))) : (forall q, In q l -> snd (snd q) < M) -> exists M', M' < M /\ forall q, In q l -> snd (snd q) <= M'.
Proof.
  intros H. destruct l as [|p l].
  - exists (M - 1). split; [lra|intros q []].
  - destruct (greatest (p :: l) ltac:(discriminate)) as (q & Hq & Hm). exists (snd (snd q)). split; [now apply H|exact Hm].
Qed.
Theorem edge_strict l : (forall p, In p l -> (fst (snd p) <= k)%nat) -> (forall t, sumR (fun p => fst p * g (fst (snd p)) (snd (snd p) - t)) l = 0) ->
  forall phi : nat * R -> R, sumR (fun p => fst p * phi (snd p)) l = 0.
Proof.
  remember (length l) as s eqn:E. revert l E. induction s as [s IH] using (well_founded_induction lt_wf). intros l E O Z phi.
  destruct l as [|p0 l0]; [reflexivity|]. set (l := p0 :: l0) in *. destruct (greatest l ltac:(discriminate)) as (pm & Hpm & Hm).
  set (M := snd (snd pm)) in *. set (lM := filter (at_ M) l). set (lr := filter (fun p => negb (at_ M p)) l).
  assert (InM : forall p, In p lM -> In p l /\ snd (snd p) = M).
  { intros p Hp. apply filter_In in Hp as [H1 H2]. split; [exact H1|]. unfold at_ in H2. destruct (Req_EM_T (snd (snd p)) M); [assumption|discriminate]. }
  assert (Inr : forall p, In p lr -> In p l /\ snd (snd p) < M).
  { intros p Hp. apply filter_In in Hp as [H1 H2]. split; [exact H1|]. unfold at_ in H2. destruct (Req_EM_T (snd (snd p)) M); [discriminate|]. specialize (Hm p H1). lra. }
  destruct (below M lr (fun q Hq => proj2 (Inr q Hq))) as (M' & HM' & HB).
  set (c := Rmin 0 (M - M' - L)). assert (Hc : - L < c) by (apply Rmin_glb_lt; lra).
  assert (Zh : forall u, - L < u < c -> hsum lM 0 u = 0).
  { intros u Hu. pose proof (Rmin_l 0 (M - M' - L)). pose proof (Rmin_r 0 (M - M' - L)). fold c in H, H0.
    specialize (Z (M - u)). rewrite (split_at M) in Z. fold lM lr in Z.
    assert (Zr : sumR (fun p => fst p * g (fst (snd p)) (snd (snd p) - (M - u))) lr = 0).
    { etransitivity; [|apply (sumR_zero lr)]. apply sumR_ext. intros p Hp. rewrite g_out; [ring|apply O, Inr, Hp|]. specialize (HB p Hp). lra. }
    rewrite Zr, Rplus_0_r in Z. rewrite <- Z. apply sumR_ext. intros p Hp. destruct (InM p Hp) as [H1 H2]. rewrite H2, Nat.add_0_r. f_equal. replace (M - (M - u)) with u by ring.
    symmetry. apply g_edge; [now apply O|lra]. }
  assert (ZM : forall f : nat * R -> R, sumR (fun p => fst p * f (snd p)) lM = 0).
  { intros f. rewrite <- (orders lM (- L) c Hc (fun p Hp => O p (proj1 (InM p Hp))) Zh (fun n => f (n, M))). apply sumR_ext. intros p Hp. destruct (InM p Hp) as [_ H2]. rewrite <- H2. now destruct p as [? [? ?]]. }
  rewrite (split_at M l). fold lM lr. rewrite ZM, Rplus_0_l.
  apply (IH (length lr)); [|reflexivity|intros p Hp; apply O, Inr, Hp|].
  - subst s. assert (In pm lM) by (apply filter_In; split; [exact Hpm|]; unfold at_; fold M; destruct (Req_EM_T M M); [reflexivity|contradiction]).
    assert (length l = length lM + length lr)%nat.
    { unfold lM, lr. clear. induction l as [|p l IH]; [reflexivity|]. cbn [filter]. destruct (at_ M p); cbn [negb length]; rewrite IH; lia. }
    destruct lM; [contradiction|]. cbn [length] in *. lia.
  - intros t. specialize (Z t). rewrite (split_at M) in Z. fold lM lr in Z. rewrite (ZM (fun v => g (fst v) (snd v - t))) in Z. lra.
Qed.
End Edge.
