(** Integrals of positive semidefinite kernels against continuous weights, as limits of
    finite combinations of values. *)
From Coq Require Import List Arith Lia Reals Lra.
From Coquelicot Require Import Coquelicot.
From Verif Require Import Base ParamSpec ParamProofs TensorSpec TensorSchur PsdBase.
Import ListNotations.
Open Scope R_scope.

(** ** Riemann sums *)
Ltac rr := match goal with |- @eq _ ?a ?b => change (@eq R a b) end; ring.
Lemma cont_int (f : R -> R) a b : (forall x, continuous f x) -> ex_RInt f a b.
Proof. intros H. apply (@ex_RInt_continuous R_CompleteNormedModule). intros; apply H. Qed.
Lemma rint_minus (f g : R -> R) a b : (forall x, continuous f x) -> (forall x, continuous g x) -> RInt (fun x => f x - g x) a b = RInt f a b - RInt g a b.
Proof. intros Cf Cg. exact (@RInt_minus R_CompleteNormedModule f g a b (cont_int f a b Cf) (cont_int g a b Cg)). Qed.
Lemma rint_chasles (f : R -> R) a b c : (forall x, continuous f x) -> RInt f a c = RInt f a b + RInt f b c.
Proof. intros Cf. symmetry. exact (@RInt_Chasles R_CompleteNormedModule f a b c (cont_int f a b Cf) (cont_int f b c Cf)). Qed.
Lemma rint_const a b c : RInt (fun _ => c) a b = (b - a) * c.
Proof. exact (@RInt_const R_CompleteNormedModule a b c). Qed.
Definition knot (a h : R) (m : nat) : R := a + INR m * h.
Definition riemann (a b : R) (N : nat) (f : R -> R) : R :=
  sumR (fun m => (b - a) / INR N * f (knot a ((b - a) / INR N) m)) (seq 0 N).
Lemma sumR_snoc f n : sumR f (seq 0 (S n)) = sumR f (seq 0 n) + f n.
Proof.
  rewrite seq_S, Nat.add_0_l. induction (seq 0 n) as [|i s IH]; cbn [app].
  - rewrite !sumR_cons. change (sumR f []) with 0. ring.
  - rewrite !sumR_cons, IH. ring.
Qed.
Lemma knot_in a b N m : a <= b -> (0 < N)%nat -> (m <= N)%nat -> a <= knot a ((b - a) / INR N) m <= b.
Proof.
  intros H HN Hm. unfold knot. assert (0 < INR N) by (apply lt_0_INR; lia). assert (0 <= INR m <= INR N) by (split; [apply pos_INR|apply le_INR; lia]).
  set (q := INR m / INR N). assert (Q : 0 <= q <= 1).
  { unfold q. split; [apply Rmult_le_pos; [lra|left; now apply Rinv_0_lt_compat]|]. apply (Rmult_le_reg_r (INR N)); [assumption|]. unfold Rdiv. rewrite Rmult_assoc, Rinv_l by lra. lra. }
  replace (INR m * ((b - a) / INR N)) with (q * (b - a)) by (unfold q, Rdiv; ring). nra.
Qed.
Lemma riemann_err a b N f e : a <= b -> (0 < N)%nat -> (forall x, continuous f x) ->
  (forall x y, a <= x <= b -> a <= y <= b -> Rabs (x - y) <= (b - a) / INR N -> Rabs (f x - f y) <= e) ->
  Rabs (riemann a b N f - RInt f a b) <= e * (b - a).
Proof.
  intros Hab HN Cf Hm. set (h := (b - a) / INR N) in *. assert (HN' : 0 < INR N) by (apply lt_0_INR; lia).
  assert (Hh : 0 <= h) by (apply Rmult_le_pos; [lra|left; now apply Rinv_0_lt_compat]).
  assert (I : forall M, (M <= N)%nat -> Rabs (sumR (fun m => h * f (knot a h m)) (seq 0 M) - RInt f a (knot a h M)) <= e * (INR M * h)).
  { induction M as [|M IH]; intros HM.
    - unfold knot. cbn [INR]. rewrite Rmult_0_l, Rplus_0_r, RInt_point. change (sumR _ (seq 0 0)) with 0. unfold zero. cbn. rewrite Rminus_0_r, Rabs_R0. lra.
    - rewrite sumR_snoc. set (s := sumR _ (seq 0 M)) in *. set (t := knot a h M) in *. set (t' := knot a h (S M)).
      assert (Et : t' = t + h) by (unfold t, t', knot; rewrite S_INR; ring).
      assert (T : a <= t <= b) by (apply knot_in; auto; lia). assert (T' : a <= t' <= b) by (apply knot_in; auto; lia).
      rewrite (rint_chasles f a t t' Cf).
      assert (B : Rabs (RInt (fun x => f x - f t) t t') <= (t' - t) * e).
      { apply abs_RInt_le_const; [lra| |].
        - apply cont_int. intros x. apply (@continuous_minus R_UniformSpace R_AbsRing R_NormedModule f (fun _ => f t)); [apply Cf|apply continuous_const].
        - intros u Hu. apply Hm; [lra|exact T|]. rewrite Rabs_pos_eq by lra. lra. }
      assert (E : RInt (fun x => f x - f t) t t' = RInt f t t' - h * f t).
      { rewrite (rint_minus f (fun _ => f t)); [|exact Cf|intros; apply continuous_const]. rewrite rint_const, Et. rr. }
      rewrite E in B. specialize (IH ltac:(lia)). rewrite S_INR. replace (t' - t) with h in B by lra. fold t.
      replace (s + h * f t - (RInt f a t + RInt f t t')) with ((s - RInt f a t) - (RInt f t t' - h * f t)) by ring.
      eapply Rle_trans; [apply Rabs_triang|]. rewrite Rabs_Ropp. lra. }
  specialize (I N (le_n _)). unfold riemann. fold h. replace (knot a h N) with b in I.
  - replace (INR N * h) with (b - a) in I by (unfold h; field; lra). exact I.
  - unfold knot, h. field. lra.
Qed.

(** ** Kernels that are continuous on the plane *)
Definition cont2 (G : R -> R -> R) : Prop := forall x y, continuity_2d_pt G x y.
Lemma cont2_right G x : cont2 G -> forall y, continuous (G x) y.
Proof.
  intros H y. apply continuity_pt_filterlim. intros e He. destruct (H x y (mkposreal e He)) as [d Hd].
  exists d. split; [apply cond_pos|]. intros z [_ Hz]. apply Hd; [|exact Hz]. rewrite Rminus_eq_0, Rabs_R0. apply cond_pos.
Qed.
Lemma cont2_swap G : cont2 G -> cont2 (fun x y => G y x).
Proof. intros H x y e. destruct (H y x e) as [d Hd]. exists d. intros u v Hu Hv. now apply Hd. Qed.
Lemma cont2_left G y : cont2 G -> forall x, continuous (fun x => G x y) x.
Proof. intros H. exact (cont2_right _ y (cont2_swap G H)). Qed.
Lemma cont2_mult G H : cont2 G -> cont2 H -> cont2 (fun x y => G x y * H x y).
Proof. intros A B x y. now apply continuity_2d_pt_mult. Qed.
Lemma cont2_fst (g : R -> R) : (forall x, continuous g x) -> cont2 (fun x _ => g x).
Proof.
  intros H x y e. pose proof (proj2 (continuity_pt_filterlim g x) (H x)) as C. destruct (C e (cond_pos e)) as [d [Hd Cd]].
  exists (mkposreal d Hd). intros u v Hu _. destruct (Req_dec u x) as [->|N].
  - rewrite Rminus_eq_0, Rabs_R0. apply cond_pos.
  - apply Cd. repeat split; [congruence|exact Hu].
Qed.
Lemma cont2_snd (g : R -> R) : (forall x, continuous g x) -> cont2 (fun _ y => g y).
Proof. intros H. exact (cont2_swap _ (cont2_fst g H)). Qed.

Lemma unif G a b c d : cont2 G -> forall e : posreal, exists dl : posreal, forall x y u v, a <= x <= b -> c <= y <= d -> a <= u <= b -> c <= v <= d ->
  Rabs (u - x) < dl -> Rabs (v - y) < dl -> Rabs (G u v - G x y) < e.
Proof. intros H e. apply uniform_continuity_2d. intros; apply H. Qed.
(** The inner integral depends continuously on the other argument. *)
Lemma inner_cont G c d : c <= d -> cont2 G -> forall x, continuous (fun x => RInt (G x) c d) x.
Proof.
  intros Hcd HG x. apply continuity_pt_filterlim. intros e He.
  assert (He' : 0 < e / 2 / (d - c + 1)) by (apply Rdiv_lt_0_compat; lra).
  destruct (unif G (x - 1) (x + 1) c d HG (mkposreal _ He')) as [dl Hd]. exists (Rmin dl 1). split; [apply Rmin_pos; [apply cond_pos|lra]|].
  intros u [_ Hu]. cbn in Hu. unfold R_dist in Hu. pose proof (Rmin_l dl 1). pose proof (Rmin_r dl 1).
  assert (Hu1 : Rabs (u - x) < 1) by lra. apply Rabs_def2 in Hu1. change (Rabs (RInt (G u) c d - RInt (G x) c d) < e).
  rewrite <- (rint_minus (G u) (G x)); [|now apply cont2_right|now apply cont2_right].
  eapply Rle_lt_trans; [apply (abs_RInt_le_const _ c d (e / 2 / (d - c + 1)) Hcd)|].
  - apply cont_int. intros y. apply (@continuous_minus R_UniformSpace R_AbsRing R_NormedModule (G u) (G x)); now apply cont2_right.
  - intros t Ht. left. apply (Hd x t u t); try lra. rewrite Rminus_eq_0, Rabs_R0. apply cond_pos.
  - apply Rle_lt_trans with (e / 2); [|lra]. replace (e / 2) with ((d - c + 1) * (e / 2 / (d - c + 1))) at 2 by (field; lra). nra.
Qed.
Lemma riemann_ext a b N f g : (forall x, f x = g x) -> riemann a b N f = riemann a b N g.
Proof. intros H. unfold riemann. apply sumR_ext. intros m _. now rewrite H. Qed.
Lemma riemann_close a b N f g e : a <= b -> (0 < N)%nat -> (forall x, a <= x <= b -> Rabs (f x - g x) <= e) -> Rabs (riemann a b N f - riemann a b N g) <= e * (b - a).
Proof.
  intros Hab HN H. unfold riemann. set (h := (b - a) / INR N). assert (HN' : 0 < INR N) by (apply lt_0_INR; lia).
  assert (Hh : 0 <= h) by (apply Rmult_le_pos; [lra|left; now apply Rinv_0_lt_compat]).
  assert (I : forall M, (M <= N)%nat -> Rabs (sumR (fun m => h * f (knot a h m)) (seq 0 M) - sumR (fun m => h * g (knot a h m)) (seq 0 M)) <= e * (INR M * h)).
  { induction M as [|M IH]; intros HM.
    - change (sumR _ (seq 0 0)) with 0 at 1. change (sumR _ (seq 0 0)) with 0. cbn [INR]. rewrite Rminus_0_r, Rabs_R0. lra.
    - rewrite !sumR_snoc, S_INR. specialize (IH ltac:(lia)). set (s := sumR (fun m => h * f (knot a h m)) (seq 0 M)) in *. set (s' := sumR (fun m => h * g (knot a h m)) (seq 0 M)) in *. set (t := knot a h M).
      specialize (H t (knot_in a b N M Hab HN ltac:(lia))). replace (s + h * f t - (s' + h * g t)) with ((s - s') + h * (f t - g t)) by ring.
      eapply Rle_trans; [apply Rabs_triang|]. rewrite Rabs_mult, (Rabs_pos_eq h Hh).
      assert (h * Rabs (f t - g t) <= h * e) by (apply Rmult_le_compat_l; assumption). lra. }
  specialize (I N (le_n _)). replace (INR N * h) with (b - a) in I by (unfold h; field; lra). exact I.
Qed.
Lemma mesh a b (dl : posreal) : exists N0, forall N, (N0 <= N)%nat -> (0 < N)%nat /\ (b - a) / INR N < dl.
Proof.
  destruct (nfloor_ex (Rabs ((b - a) / dl))) as [n [H1 H2]]; [apply Rabs_pos|]. exists (S n). intros N HN. split; [lia|].
  assert (0 < INR N) by (apply lt_0_INR; lia). pose proof (cond_pos dl). apply (Rmult_lt_reg_r (INR N)); [assumption|].
  unfold Rdiv at 1. rewrite Rmult_assoc, Rinv_l by lra. rewrite Rmult_1_r.
  assert (INR (S n) <= INR N) by (apply le_INR; lia). rewrite S_INR in *. pose proof (Rle_abs ((b - a) / dl)).
  assert (b - a = dl * ((b - a) / dl)) by (field; lra). assert ((b - a) / dl < INR N) by lra. nra.
Qed.
(** Double Riemann sums converge to the iterated integral. *)
Lemma double_riemann G a b c d : a <= b -> c <= d -> cont2 G ->
  is_lim_seq (fun N => riemann a b (S N) (fun x => riemann c d (S N) (G x))) (RInt (fun x => RInt (G x) c d) a b).
Proof.
  intros Hab Hcd HG. apply is_lim_seq_spec. intros e. unfold eventually.
  set (L := (b - a) * (d - c) + 1). assert (HL : 0 < L) by (unfold L; nra).
  assert (He' : 0 < e / 3 / L) by (apply Rdiv_lt_0_compat; [|exact HL]; pose proof (cond_pos e); lra). set (e' := mkposreal _ He').
  destruct (unif G a b c d HG e') as [dl Hd]. destruct (mesh a b dl) as [N1 M1]. destruct (mesh c d dl) as [N2 M2].
  exists (N1 + N2)%nat. intros N HN. destruct (M1 (S N) ltac:(lia)) as [_ H1]. destruct (M2 (S N) ltac:(lia)) as [_ H2].
  set (F := fun x => RInt (G x) c d).
  assert (B1 : Rabs (riemann a b (S N) (fun x => riemann c d (S N) (G x)) - riemann a b (S N) F) <= (e' * (d - c)) * (b - a)).
  { apply riemann_close; [exact Hab|lia|]. intros x Hx. apply riemann_err; [exact Hcd|lia|now apply cont2_right|].
    intros y y' Hy Hy' D. left. apply Hd; try assumption; [rewrite Rminus_eq_0, Rabs_R0; apply cond_pos|lra]. }
  assert (B2 : Rabs (riemann a b (S N) F - RInt F a b) <= (e' * (d - c)) * (b - a)).
  { apply riemann_err; [exact Hab|lia|apply inner_cont; assumption|]. intros x x' Hx Hx' D.
    unfold F. rewrite <- (rint_minus (G x) (G x')); [|now apply cont2_right|now apply cont2_right]. rewrite (Rmult_comm e'). apply abs_RInt_le_const; [exact Hcd| |].
    - apply cont_int. intros y. apply (@continuous_minus R_UniformSpace R_AbsRing R_NormedModule (G x) (G x')); now apply cont2_right.
    - intros t Ht. left. apply Hd; try assumption; [lra|rewrite Rminus_eq_0, Rabs_R0; apply cond_pos]. }
  fold F. replace (riemann a b (S N) (fun x => riemann c d (S N) (G x)) - RInt F a b) with
    ((riemann a b (S N) (fun x => riemann c d (S N) (G x)) - riemann a b (S N) F) + (riemann a b (S N) F - RInt F a b)) by ring.
  eapply Rle_lt_trans; [apply Rabs_triang|]. apply Rle_lt_trans with (2 * (e' * ((d - c) * (b - a)))).
  { replace (2 * (e' * ((d - c) * (b - a)))) with (e' * (d - c) * (b - a) + e' * (d - c) * (b - a)) by ring. now apply Rplus_le_compat. }
  change (pos e') with (e / 3 / L). assert (e / 3 / L * ((d - c) * (b - a)) <= e / 3); [|pose proof (cond_pos e); lra].
  replace (e / 3) with (e / 3 / L * L) at 2 by (field; lra). apply Rmult_le_compat_l; [left; exact He'|unfold L; lra].
Qed.
Lemma single_riemann (f : R -> R) a b : a <= b -> (forall x, continuous f x) -> is_lim_seq (fun N => riemann a b (S N) f) (RInt f a b).
Proof.
  intros Hab Cf. pose proof (double_riemann (fun _ y => f y) 0 1 a b ltac:(lra) Hab (cont2_snd f Cf)) as H.
  change (is_lim_seq (fun N => riemann 0 1 (S N) (fun _ => riemann a b (S N) f)) (RInt (fun _ => RInt f a b) 0 1)) in H.
  rewrite rint_const, Rminus_0_r, Rmult_1_l in H.
  apply (is_lim_seq_ext (fun N => riemann 0 1 (S N) (fun _ => riemann a b (S N) f))) with (2 := H). intros N. unfold riemann at 1.
  set (r := riemann a b (S N) f). rewrite <- sumR_scal. assert (E : forall s : list nat, sumR (fun _ => r) s = INR (length s) * r).
  { induction s as [|i s IH]; [cbn; lra|]. rewrite sumR_cons, IH. cbn [length]. rewrite S_INR. ring. }
  rewrite E, seq_length. field. apply not_0_INR. lia.
Qed.
(** Order of integration *)
Lemma fubini G a b c d : a <= b -> c <= d -> cont2 G -> RInt (fun x => RInt (G x) c d) a b = RInt (fun y => RInt (fun x => G x y) a b) c d.
Proof.
  intros Hab Hcd HG. pose proof (double_riemann G a b c d Hab Hcd HG) as H1. pose proof (double_riemann (fun y x => G x y) c d a b Hcd Hab (cont2_swap G HG)) as H2.
  apply is_lim_seq_unique in H1. apply is_lim_seq_unique in H2.
  rewrite (Lim_seq_ext _ (fun N => riemann c d (S N) (fun y => riemann a b (S N) (fun x => G x y)))) in H1.
  - rewrite H1 in H2. now injection H2.
  - intros N. unfold riemann. set (h := (b - a) / INR (S N)). set (h' := (d - c) / INR (S N)).
    transitivity (sumR (fun m => sumR (fun m' => h * (h' * G (knot a h m) (knot c h' m'))) (seq 0 (S N))) (seq 0 (S N))).
    { apply sumR_ext. intros m _. now rewrite sumR_scal. }
    rewrite sumR_swap. apply sumR_ext. intros m' _. rewrite sumR_scal. apply sumR_ext. intros m _. ring.
Qed.

(** ** Functionals that are limits of finite combinations of values *)
Section Limits.
Context {X I : Type} (k : X -> X -> R) (mu : I -> nat -> list (R * X)) (K : I -> I -> R).
Definition pair (l m : list (R * X)) : R := sumR (fun p => sumR (fun q => fst p * fst q * k (snd p) (snd q)) m) l.
Lemma sumR_app {A} (f : A -> R) l m : sumR f (l ++ m) = sumR f l + sumR f m.
Proof. induction l as [|a l IH]; [change (sumR f []) with 0; symmetry; apply Rplus_0_l|]. cbn [app]. rewrite !sumR_cons, IH. ring. Qed.
Definition combine (l : list (R * I)) (n : nat) : list (R * X) :=
  flat_map (fun p => map (fun q => (fst p * fst q, snd q)) (mu (snd p) n)) l.
Lemma sumR_combine (f : R * X -> R) l n : (forall c p, f (c * fst p, snd p) = c * f p) ->
  sumR f (combine l n) = sumR (fun p => fst p * sumR f (mu (snd p) n)) l.
Proof.
  intros H. induction l as [|p l IH]; [reflexivity|]. cbn [combine flat_map]. rewrite sumR_app, sumR_cons, <- IH. f_equal.
  rewrite sumR_map, sumR_scal. apply sumR_ext. intros q _. apply H.
Qed.
Lemma form_combine l n : form k (combine l n) = form (fun i j => pair (mu i n) (mu j n)) l.
Proof.
  unfold form. rewrite sumR_combine.
  - apply sumR_ext. intros p _. rewrite sumR_scal.
    transitivity (sumR (fun a => fst p * sumR (fun b => fst b * sumR (fun q => fst a * fst q * k (snd a) (snd q)) (mu (snd b) n)) l) (mu (snd p) n)).
    { apply sumR_ext. intros a _. f_equal. apply sumR_combine. intros c q. cbn [fst snd]. ring. }
    transitivity (sumR (fun a => sumR (fun b => fst p * fst b * sumR (fun q => fst a * fst q * k (snd a) (snd q)) (mu (snd b) n)) l) (mu (snd p) n)).
    { apply sumR_ext. intros a _. rewrite sumR_scal. apply sumR_ext. intros b _. ring. }
    rewrite sumR_swap. apply sumR_ext. intros b _. unfold pair. now rewrite sumR_scal.
  - intros c p. cbn [fst snd]. rewrite sumR_scal. apply sumR_ext. intros q _. ring.
Qed.
Lemma psd_limit : psd_kernel (k : X -> X -> RF) -> (forall i j, is_lim_seq (fun n => pair (mu i n) (mu j n)) (K i j)) -> psd_kernel (K : I -> I -> RF).
Proof.
  intros Hk HL. apply (psd_lim (fun n i j => pair (mu i n) (mu j n))); [|exact HL].
  intros n l. change (0 <= form (fun i j => pair (mu i n) (mu j n)) l). rewrite <- form_combine. apply Hk.
Qed.
End Limits.

(** ** Values and weighted integrals *)
(** The value at a point, or the integral against a weight over an interval. *)
Inductive obs := At (x : R) | Int (g : R -> R) (a b : R).
Definition obs_ok (o : obs) : Prop := match o with At _ => True | Int g a b => a <= b /\ forall x, continuous g x end.
Definition obs_val (o : obs) (f : R -> R) : R := match o with At x => f x | Int g a b => RInt (fun t => g t * f t) a b end.
Definition obs_cov (k : R -> R -> R) (o o' : obs) : R := obs_val o (fun x => obs_val o' (k x)).
Definition obs_mu (o : obs) (N : nat) : list (R * R) :=
  match o with
  | At x => [(1, x)]
  | Int g a b => let h := (b - a) / INR (S N) in map (fun m => (h * g (knot a h m), knot a h m)) (seq 0 (S N))
  end.
Lemma mu_riemann g a b N (f : R -> R) : sumR (fun p => fst p * f (snd p)) (obs_mu (Int g a b) N) = riemann a b (S N) (fun t => g t * f t).
Proof. cbn [obs_mu]. rewrite sumR_map. unfold riemann. apply sumR_ext. intros m _. cbn [fst snd]. ring. Qed.
Lemma mu_at x N (f : R -> R) : sumR (fun p => fst p * f (snd p)) (obs_mu (At x) N) = f x.
Proof. cbn [obs_mu]. rewrite sumR_cons. change (sumR _ []) with 0. cbn [fst snd]. ring. Qed.
Lemma pair_iter (k : R -> R -> R) l m : pair k l m = sumR (fun p => fst p * sumR (fun q => fst q * k (snd p) (snd q)) m) l.
Proof. unfold pair. apply sumR_ext. intros p _. rewrite sumR_scal. apply sumR_ext. intros q _. ring. Qed.
Lemma cmul (f g : R -> R) : (forall x, continuous f x) -> (forall x, continuous g x) -> forall x, continuous (fun x => f x * g x) x.
Proof. intros A B x. exact (@continuous_mult R_UniformSpace R_AbsRing f g x (A x) (B x)). Qed.
Lemma obs_lim k o o' : cont2 k -> obs_ok o -> obs_ok o' -> is_lim_seq (fun N => pair k (obs_mu o N) (obs_mu o' N)) (obs_cov k o o').
Proof.
  intros Hk Ho Ho'. apply (is_lim_seq_ext (fun N => sumR (fun p => fst p * sumR (fun q => fst q * k (snd p) (snd q)) (obs_mu o' N)) (obs_mu o N))); [intros N; symmetry; apply pair_iter|].
  destruct o as [x|g a b], o' as [y|g' a' b']; unfold obs_cov, obs_val.
  - apply (is_lim_seq_ext (fun _ => k x y)); [|apply is_lim_seq_const]. intros N. symmetry. rewrite (mu_at x N (fun x => sumR (fun q => fst q * k x (snd q)) (obs_mu (At y) N))). apply mu_at.
  - apply (is_lim_seq_ext (fun N => riemann a' b' (S N) (fun t => g' t * k x t))).
    + intros N. symmetry. rewrite (mu_at x N (fun x => sumR (fun q => fst q * k x (snd q)) (obs_mu (Int g' a' b') N))). apply (mu_riemann g' a' b' N (k x)).
    + apply single_riemann; [apply Ho'|]. apply cmul; [apply Ho'|now apply cont2_right].
  - apply (is_lim_seq_ext (fun N => riemann a b (S N) (fun t => g t * k t y))).
    + intros N. symmetry. etransitivity; [apply (mu_riemann g a b N (fun x => sumR (fun q => fst q * k x (snd q)) (obs_mu (At y) N)))|]. apply riemann_ext. intros t. f_equal. apply mu_at.
    + apply single_riemann; [apply Ho|]. apply cmul; [apply Ho|now apply (cont2_left k y)].
  - destruct Ho as [Hab Cg], Ho' as [Hab' Cg'].
    assert (E : forall t, g t * RInt (fun u => g' u * k t u) a' b' = RInt (fun u => g t * (g' u * k t u)) a' b').
    { intros t. symmetry. apply (@RInt_scal R_CompleteNormedModule (fun u => g' u * k t u) a' b' (g t)). apply cont_int. apply cmul; [exact Cg'|now apply cont2_right]. }
    pose proof (double_riemann (fun t u => g t * (g' u * k t u)) a b a' b' Hab Hab'
      (cont2_mult _ _ (cont2_fst g Cg) (cont2_mult _ _ (cont2_snd g' Cg') Hk))) as L.
    rewrite (RInt_ext _ (fun t => RInt (fun u => g t * (g' u * k t u)) a' b')) by (intros t _; apply E).
    apply (is_lim_seq_ext (fun N => riemann a b (S N) (fun x => riemann a' b' (S N) (fun u => g x * (g' u * k x u))))) with (2 := L).
    intros N. symmetry. etransitivity; [apply (mu_riemann g a b N (fun x => sumR (fun q => fst q * k x (snd q)) (obs_mu (Int g' a' b') N)))|].
    apply riemann_ext. intros t. etransitivity; [apply f_equal; apply (mu_riemann g' a' b' N (k t))|]. unfold riemann. rewrite sumR_scal. apply sumR_ext. intros m _. ring.
Qed.
(** The joint covariance of values and integrals of a process with a continuous covariance
    function is positive semidefinite, and symmetric. *)
Lemma obs_psd k : cont2 k -> psd_kernel (k : R -> R -> RF) ->
  psd_kernel (fun o o' : {o : obs | obs_ok o} => obs_cov k (proj1_sig o) (proj1_sig o') : car RF).
Proof. intros Hk Pk. apply (psd_limit k (fun o => obs_mu (proj1_sig o))); [exact Pk|]. intros [o Ho] [o' Ho']. now apply obs_lim. Qed.
Lemma pair_sym (k : R -> R -> R) l m : (forall x y, k x y = k y x) -> pair k l m = pair k m l.
Proof. intros S. unfold pair. rewrite sumR_swap. apply sumR_ext. intros q _. apply sumR_ext. intros p _. rewrite S. ring. Qed.
Lemma obs_sym k o o' : cont2 k -> (forall x y, k x y = k y x) -> obs_ok o -> obs_ok o' -> obs_cov k o o' = obs_cov k o' o.
Proof.
  intros Hk S Ho Ho'. pose proof (obs_lim k o o' Hk Ho Ho') as H1. pose proof (obs_lim k o' o Hk Ho' Ho) as H2.
  apply is_lim_seq_unique in H1. apply is_lim_seq_unique in H2.
  rewrite (Lim_seq_ext _ (fun N => pair k (obs_mu o' N) (obs_mu o N))) in H1 by (intros N; now apply pair_sym). rewrite H1 in H2. now injection H2.
Qed.
