(** The Wendland functions with the highest admissible exponent as mixtures of integrals of
    bumps. *)
From Coq Require Import List Arith Lia Reals Lra.
From Coquelicot Require Import Coquelicot.
From Verif Require Import Base TensorSchur PsdIntegral BumpAuto WendlandSpec WendlandProofs.
Import ListNotations.
Local Open Scope R_scope.

Definition tail (n : nat) (q : R -> R) (u : R) : R := RInt (fun s => (s * s - u * u) ^ n * q s) u 1.
Lemma tail_1 n q : tail n q 1 = 0. Proof. unfold tail. exact (RInt_point (V := R_CompleteNormedModule) 1 _). Qed.
Lemma const_derive (c x : R) : is_derive (fun _ : R => c) x 0. Proof. auto_derive; trivial. Qed.
Lemma cont2_pow G n : cont2 G -> cont2 (fun x y => G x y ^ n).
Proof.
  intros H. induction n as [|n IH]; [intros x y; apply (continuity_2d_pt_ext (fun _ _ => 1)); [reflexivity|apply continuity_2d_pt_const]|]. exact (cont2_mult G (fun x y => G x y ^ n) H IH).
Qed.
Lemma cont2_sq : cont2 (fun u s => s * s - u * u).
Proof.
  intros x y. apply continuity_2d_pt_minus; apply continuity_2d_pt_mult; try apply continuity_2d_pt_id1; apply continuity_2d_pt_id2.
Qed.
Lemma tail_derive n (q : R -> R) (u : R) : (forall x, continuous q x) -> is_derive (tail (S n) q) u (- (2 * u * INR (S n) * tail n q u)).
Proof.
  intros Hq.
  assert (E : forall z t : R, is_derive (fun z => (t * t - z * z) ^ S n * q t) z (- (2 * z) * INR (S n) * ((t * t - z * z) ^ n * q t))).
  { intros z t. generalize (q t) as c. intros c. auto_derive; [trivial|]. change (match n with 0%nat => 1 | S _ => INR n + 1 end) with (INR (S n)). replace (t * t + - (z * z)) with (t * t - z * z) by reflexivity. generalize (INR (S n)). intros N. cbn in z. ring. }
  assert (C : forall m, cont2 (fun u s => (s * s - u * u) ^ m * q s)).
  { intros m. apply (cont2_mult (fun u s => (s * s - u * u) ^ m) (fun _ s => q s)); [apply (cont2_pow _ m cont2_sq)|apply (cont2_snd q Hq)]. }
  assert (C' : cont2 (fun z v => Derive (fun z => (v * v - z * z) ^ S n * q v) z)).
  { intros x y. apply (continuity_2d_pt_ext (fun z v => - (2 * z) * INR (S n) * ((v * v - z * z) ^ n * q v))).
    - intros z v. symmetry. apply is_derive_unique, E.
    - apply (cont2_mult (fun z _ => - (2 * z) * INR (S n)) (fun z v => (v * v - z * z) ^ n * q v)); [|apply C].
      apply (cont2_fst (fun z => - (2 * z) * INR (S n))). intros z. apply (ex_derive_continuous (fun z => - (2 * z) * INR (S n))). auto_derive. trivial. }
  assert (I : forall z a b, ex_RInt (fun t => (t * t - z * z) ^ S n * q t) a b).
  { intros z a b. apply cont_int. exact (cont2_right _ z (C (S n))). }
  evar_last.
  - apply (is_derive_RInt_param_bound_comp (fun z t => (t * t - z * z) ^ S n * q t) (fun z => z) (fun _ => 1) u 1 0).
    + apply filter_forall. intros z. apply I.
    + exists (mkposreal 1 Rlt_0_1). apply filter_forall. intros z. apply I.
    + exists (mkposreal 1 Rlt_0_1). apply filter_forall. intros z. apply I.
    + apply (is_derive_id (K := R_AbsRing)).
    + apply const_derive.
    + exists (mkposreal 1 Rlt_0_1). apply filter_forall. intros z t _. eexists. apply E.
    + intros t _. apply C'.
    + exists (mkposreal 1 Rlt_0_1). intros z t _ _. apply C'.
    + exists (mkposreal 1 Rlt_0_1). intros z t _ _. apply C'.
    + apply continuity_pt_filterlim. exact (cont2_right _ u (C (S n)) u).
    + apply continuity_pt_filterlim. exact (cont2_right _ u (C (S n)) 1).
  - rewrite (RInt_ext _ (fun t => scal (- (2 * u) * INR (S n)) ((t * t - u * u) ^ n * q t))).
    2:{ intros t _. apply is_derive_unique. exact (E u t). }
    rewrite (RInt_scal (V := R_CompleteNormedModule)) by (apply cont_int; exact (cont2_right _ u (C n))).
    unfold tail. unfold scal. cbn -[INR]. unfold mult. cbn -[INR]. rewrite Rminus_diag_eq by reflexivity. ring.
Qed.
Lemma tail_0_derive (q : R -> R) (u : R) : (forall x, continuous q x) -> is_derive (tail 0 q) u (- q u).
Proof.
  intros Hq. apply (is_derive_ext (fun u => RInt q u 1)).
  { intros t. unfold tail. apply RInt_ext. intros s _. cbn [pow]. now rewrite Rmult_1_l. }
  apply (is_derive_RInt' (V := R_NormedModule) q (fun u => RInt q u 1) u 1); [|apply Hq].
  apply filter_forall. intros b. apply (RInt_correct (V := R_CompleteNormedModule)). now apply cont_int.
Qed.
(** Functions that are continuous to the right of zero. *)
Lemma max_cont (d x : R) : continuous (fun t => Rmax t d) x.
Proof.
  assert (E : forall t : R, (t + d + Rabs (t - d)) / 2 = Rmax t d).
  { intros t. unfold Rmax. destruct (Rle_dec t d) as [H|H]; [rewrite Rabs_left1 by lra|rewrite Rabs_right by lra]; field. }
  apply (continuous_ext (fun t => (t + d + Rabs (t - d)) / 2) _ x E).
  apply (continuous_mult (fun t => t + d + Rabs (t - d)) (fun _ => / 2)); [|apply continuous_const].
  apply (continuous_plus (fun t => t + d) (fun t => Rabs (t - d))).
  - apply (continuous_plus (fun t => t) (fun _ => d)); [apply continuous_id|apply continuous_const].
  - apply (continuous_comp (fun t => t - d) Rabs); [|apply continuous_Rabs].
    apply (continuous_minus (fun t => t) (fun _ => d)); [apply continuous_id|apply continuous_const].
Qed.
Definition pos_cont (q : R -> R) : Prop := forall x : R, 0 < x -> continuous q x.
Lemma cut_cont q d : pos_cont q -> 0 < d -> forall x, continuous (fun t => q (Rmax t d)) x.
Proof. intros H Hd x. apply (continuous_comp (fun t => Rmax t d) q); [apply max_cont|]. apply H. pose proof (Rmax_r x d). lra. Qed.
Lemma cut_tail n q d u : 0 < d -> d <= u -> d <= 1 -> tail n (fun t => q (Rmax t d)) u = tail n q u.
Proof.
  intros Hd Hu H1. unfold tail. apply RInt_ext. intros s Hs. rewrite (Rmax_left s d); [reflexivity|]. apply Rlt_le, Rle_lt_trans with (Rmin u 1); [apply Rmin_glb; lra|apply Hs].
Qed.
Lemma locally_above u d : d < u -> locally u (fun t => d < t).
Proof. intros H. exact (open_gt d u H). Qed.
Lemma pos_tail_derive n q u : pos_cont q -> 0 < u <= 1 -> is_derive (tail (S n) q) u (- (2 * u * INR (S n) * tail n q u)).
Proof.
  intros H Hu. rewrite <- (cut_tail n q (u / 2)) by lra.
  apply (is_derive_ext_loc (tail (S n) (fun t => q (Rmax t (u / 2))))).
  - apply (filter_imp (fun t => u / 2 < t)); [|apply locally_above; lra]. intros t Ht. apply cut_tail; lra.
  - apply tail_derive. apply cut_cont; [exact H|lra].
Qed.
Lemma pos_tail_0_derive q u : pos_cont q -> 0 < u <= 1 -> is_derive (tail 0 q) u (- q u).
Proof.
  intros H Hu. replace (q u) with ((fun t => q (Rmax t (u / 2))) u) by (cbn beta; f_equal; apply Rmax_left; lra).
  apply (is_derive_ext_loc (tail 0 (fun t => q (Rmax t (u / 2))))).
  - apply (filter_imp (fun t => u / 2 < t)); [|apply locally_above; lra]. intros t Ht. apply cut_tail; lra.
  - apply (tail_0_derive (fun t => q (Rmax t (u / 2)))). apply cut_cont; [exact H|lra].
Qed.
Lemma eq_by_derive (f g d : R -> R) u : u <= 1 -> (forall t, u <= t <= 1 -> is_derive f t (d t)) -> (forall t, u <= t <= 1 -> is_derive g t (d t)) -> f 1 = g 1 -> f u = g u.
Proof.
  intros Hu Hf Hg E. destruct (MVT_gen (fun t => f t - g t) u 1 (fun _ => 0)) as (c & _ & M).
  - intros t. rewrite Rmin_left, Rmax_right by lra. intros Ht. replace 0 with (minus (d t) (d t)) by (unfold minus, plus, opp; cbn; ring).
    apply (is_derive_minus (V := R_NormedModule)); [apply Hf|apply Hg]; lra.
  - intros t. rewrite Rmin_left, Rmax_right by lra. intros Ht. apply continuity_pt_filterlim.
    apply (continuous_minus f g); [apply (ex_derive_continuous f)|apply (ex_derive_continuous g)]; eexists; [apply Hf|apply Hg]; lra.
  - lra.
Qed.

(** Sums of [c (1 - u)^a u^-b]. *)
Definition term : Type := R * (nat * nat).
Definition ev (ts : list term) (u : R) : R := sumR (fun p => fst p * ((1 - u) ^ fst (snd p) * (/ u) ^ snd (snd p))) ts.
Definition good (n : nat) (ts : list term) : Prop := forall p, In p ts -> 0 <= fst p /\ (n <= fst (snd p))%nat.
Definition nderiv (ts : list term) : list term :=
  flat_map (fun p => [(fst p * INR (fst (snd p)), (pred (fst (snd p)), snd (snd p))); (fst p * INR (snd (snd p)), (fst (snd p), S (snd (snd p))))]) ts.
Definition over2u (ts : list term) : list term := map (fun p => (fst p / 2, (fst (snd p), S (snd (snd p))))) ts.
Definition tscale (c : R) (ts : list term) : list term := map (fun p => (c * fst p, snd p)) ts.
Lemma ev_cons p ts u : ev (p :: ts) u = fst p * ((1 - u) ^ fst (snd p) * (/ u) ^ snd (snd p)) + ev ts u. Proof. exact (sumR_cons (fun p => fst p * ((1 - u) ^ fst (snd p) * (/ u) ^ snd (snd p))) p ts). Qed.
Lemma ev_derive ts u : 0 < u -> is_derive (ev ts) u (- ev (nderiv ts) u).
Proof.
  intros Hu. induction ts as [|[c [a b]] ts IH].
  - replace (- ev (nderiv []) u) with 0 by (unfold ev, nderiv, sumR; cbn; ring).
    apply (is_derive_ext (fun _ => 0)); [reflexivity|apply const_derive].
  - apply (is_derive_ext (fun t => plus (c * ((1 - t) ^ a * (/ t) ^ b)) (ev ts t))); [intros t; rewrite ev_cons; reflexivity|].
    assert (T : is_derive (fun t => c * ((1 - t) ^ a * (/ t) ^ b)) u (c * (- INR a * (1 - u) ^ pred a * (/ u) ^ b - (1 - u) ^ a * (INR b * (/ u) ^ S b)))).
    { auto_derive; [lra|]. change (1 + - u) with (1 - u). generalize ((1 - u) ^ Init.Nat.pred a) as P, ((1 - u) ^ a) as Q. intros P Q. destruct b as [|b]; cbn [Init.Nat.pred]; [cbn [INR pow]; field; lra|]. generalize (INR (S b)) as N. intros N. rewrite <- !tech_pow_Rmult. generalize ((/ u) ^ b) as Z. intros Z. field. lra. }
    evar_last; [apply (is_derive_plus (V := R_NormedModule) _ _ _ _ _ T IH)|].
    cbn [nderiv flat_map fst snd app]. fold (nderiv ts). rewrite !ev_cons. cbn [fst snd]. unfold plus. cbn -[INR pow]. ring.
Qed.
Lemma ev_cont ts : pos_cont (ev ts).
Proof. intros u Hu. apply (ex_derive_continuous (ev ts)). eexists. now apply ev_derive. Qed.
Lemma ev_over2u ts u : 0 < u -> ev ts u = 2 * u * ev (over2u ts) u.
Proof.
  intros Hu. induction ts as [|[c [a b]] ts IH]; [unfold ev, over2u, sumR; cbn; ring|].
  cbn [over2u map fst snd]. fold (over2u ts). rewrite !ev_cons, IH. cbn [fst snd pow]. field. lra.
Qed.
Lemma ev_scale c ts u : ev (tscale c ts) u = c * ev ts u.
Proof. unfold ev, tscale. rewrite sumR_map, sumR_scal. apply sumR_ext. intros p _. cbn [fst snd]. ring. Qed.
Lemma ev_nonneg n ts u : good n ts -> 0 < u <= 1 -> 0 <= ev ts u.
Proof.
  intros G Hu. apply sumR_nonneg. intros p Hp. destruct (G p Hp). apply Rmult_le_pos; [assumption|]. apply Rmult_le_pos; apply pow_le; [lra|]. apply Rlt_le, Rinv_0_lt_compat. lra.
Qed.
Lemma good_nderiv n ts : good (S n) ts -> good n (nderiv ts).
Proof.
  intros G p Hp. unfold nderiv in Hp. apply in_flat_map in Hp. destruct Hp as ([c [a b]] & Hq & [<-|[<-|[]]]); destruct (G _ Hq) as [Hc Ha]; cbn [fst snd] in *; (split; [apply Rmult_le_pos; [exact Hc|apply pos_INR]|lia]).
Qed.
Lemma good_nderiv0 ts : good 0 ts -> good 0 (nderiv ts).
Proof.
  intros G p Hp. unfold nderiv in Hp. apply in_flat_map in Hp. destruct Hp as ([c [a b]] & Hq & [<-|[<-|[]]]); destruct (G _ Hq) as [Hc Ha]; cbn [fst snd] in *; (split; [apply Rmult_le_pos; [exact Hc|apply pos_INR]|lia]).
Qed.
Lemma good_over2u n ts : good n ts -> good n (over2u ts).
Proof. intros G p Hp. unfold over2u in Hp. apply in_map_iff in Hp. destruct Hp as (q & <- & Hq). destruct (G q Hq). cbn [fst snd]. split; [lra|assumption]. Qed.
Lemma good_scale n c ts : 0 <= c -> good n ts -> good n (tscale c ts).
Proof. intros Hc G p Hp. unfold tscale in Hp. apply in_map_iff in Hp. destruct Hp as (q & <- & Hq). destruct (G q Hq). cbn [fst snd]. split; [now apply Rmult_le_pos|assumption]. Qed.
Lemma ev_at1 ts : good 0 ts -> 0 <= ev ts 1 /\ ((exists c b, In (c, (0%nat, b)) ts /\ 0 < c) -> 0 < ev ts 1).
Proof.
  intros G. split; [apply (ev_nonneg 0); [exact G|lra]|]. intros (c & b & I & Hc). induction ts as [|p ts IH]; [destruct I|].
  rewrite ev_cons. assert (G' : good 0 ts) by (intros q Hq; apply G; now right). pose proof (ev_nonneg 0 ts 1 G' ltac:(lra)).
  destruct I as [->|I].
  - cbn [fst snd pow]. rewrite Rinv_1, pow1. lra.
  - specialize (IH G' I). destruct (G p (or_introl eq_refl)) as [Hp _]. assert (0 <= fst p * ((1 - 1) ^ fst (snd p) * (/ 1) ^ snd (snd p))); [|lra].
    apply Rmult_le_pos; [exact Hp|]. apply Rmult_le_pos; apply pow_le; lra.
Qed.
Lemma ev_1 n ts : good (S n) ts -> ev ts 1 = 0.
Proof.
  intros G. unfold ev. rewrite (sumR_ext _ (fun _ => 0)); [apply TensorSchur.sumR_zero|]. intros p Hp. destruct (G p Hp) as [_ H].
  destruct (fst (snd p)) as [|a]; [lia|]. cbn [pow]. ring.
Qed.
Lemma tail_scal n c q u : pos_cont q -> 0 < u <= 1 -> tail n (fun s => c * q s) u = c * tail n q u.
Proof.
  intros Hq Hu. unfold tail. rewrite (RInt_ext _ (fun s => scal c ((s * s - u * u) ^ n * q s))) by (intros; unfold scal; cbn; unfold mult; cbn; ring).
  rewrite (RInt_scal (V := R_CompleteNormedModule)); [reflexivity|]. apply (@ex_RInt_continuous R_CompleteNormedModule). intros z. rewrite Rmin_left, Rmax_right by lra. intros Hz.
  apply (continuous_mult (fun s => (s * s - u * u) ^ n) q); [|apply Hq; lra]. apply (ex_derive_continuous (fun s => (s * s - u * u) ^ n)). auto_derive. trivial.
Qed.
Lemma tail_ext n q q' u : 0 < u <= 1 -> (forall s, 0 < s <= 1 -> q s = q' s) -> tail n q u = tail n q' u.
Proof. intros Hu E. unfold tail. apply RInt_ext. intros s. rewrite Rmin_left, Rmax_right by lra. intros Hs. rewrite E by lra. reflexivity. Qed.
(** Every such sum with exponents at least [n] is a mixture of truncated powers. *)
Theorem mixture n : forall ts, good n ts -> exists ka ws, 0 <= ka /\ good 0 ws /\ ((exists c b, In (c, (n, b)) ts /\ 0 < c) -> 0 < ka) /\
  forall u, 0 < u <= 1 -> ev ts u = ka * (1 - u * u) ^ n + tail n (ev ws) u.
Proof.
  induction n as [|n IH]; intros ts G.
  - exists (ev ts 1), (nderiv ts). destruct (ev_at1 ts G) as [P0 P1]. split; [exact P0|]. split; [now apply good_nderiv0|]. split; [exact P1|].
    intros u Hu. apply (eq_by_derive (ev ts) (fun u => ev ts 1 * (1 - u * u) ^ 0 + tail 0 (ev (nderiv ts)) u) (fun t => - ev (nderiv ts) t)); [lra| | |].
    + intros t Ht. apply ev_derive. lra.
    + intros t Ht. replace (- ev (nderiv ts) t) with (plus 0 (- ev (nderiv ts) t)) by (unfold plus; cbn; ring).
      apply (is_derive_plus (V := R_NormedModule) (fun u => ev ts 1 * (1 - u * u) ^ 0)); [cbn [pow]; apply const_derive|].
      apply pos_tail_0_derive; [apply ev_cont|lra].
    + rewrite tail_1. cbn [pow]. ring.
  - set (hs := over2u (nderiv ts)). destruct (IH hs) as (ka & ws & Hka & Hws & Pos & E); [apply good_over2u, good_nderiv, G|].
    assert (Sn : INR (S n) <> 0) by (apply not_0_INR; lia). assert (Sp : 0 < / INR (S n)) by (apply Rinv_0_lt_compat, lt_0_INR; lia).
    exists (/ INR (S n) * ka), (tscale (/ INR (S n)) ws). split; [apply Rmult_le_pos; lra|]. split; [apply good_scale; [lra|exact Hws]|]. split.
    + intros (c & b & I & Hc). apply Rmult_lt_0_compat; [exact Sp|]. apply Pos. exists (c * INR (S n) / 2), (S b). split.
      * unfold hs, over2u. apply in_map_iff. exists (c * INR (S n), (n, b)). split; [reflexivity|]. unfold nderiv. apply in_flat_map. exists (c, (S n, b)). split; [exact I|now left].
      * assert (0 < INR (S n)) by (apply lt_0_INR; lia). assert (0 < c * INR (S n)) by now apply Rmult_lt_0_compat. lra.
    + intros u Hu. apply (eq_by_derive (ev ts) (fun u => / INR (S n) * ka * (1 - u * u) ^ S n + tail (S n) (ev (tscale (/ INR (S n)) ws)) u) (fun t => - ev (nderiv ts) t)); [lra| | |].
      * intros t Ht. apply ev_derive. lra.
      * intros t Ht. rewrite (ev_over2u (nderiv ts)) by lra. fold hs. rewrite (E t) by lra.
        replace (- (2 * t * (ka * (1 - t * t) ^ n + tail n (ev ws) t))) with (plus (- (2 * t * ka * (1 - t * t) ^ n)) (- (2 * t * INR (S n) * tail n (ev (tscale (/ INR (S n)) ws)) t))).
        -- apply (is_derive_plus (V := R_NormedModule) (fun u => / INR (S n) * ka * (1 - u * u) ^ S n)).
           ++ evar_last; [apply is_derive_scal, is_derive_pow; auto_derive; [trivial|reflexivity]|]. cbn [pred]. field. exact Sn.
           ++ apply pos_tail_derive; [apply ev_cont|lra].
        -- rewrite (tail_ext n (ev (tscale (/ INR (S n)) ws)) (fun s => / INR (S n) * ev ws s)) by (try lra; intros; apply ev_scale).
           rewrite tail_scal by (try lra; apply ev_cont). unfold plus. cbn -[INR pow]. field. exact Sn.
      * rewrite tail_1, (ev_1 n ts G). cbn [pow]. ring.
Qed.

(** The Wendland functions as such integrals. *)
Definition wfac (j : nat) : R := / (2 ^ j * INR (fact j)).
Lemma wfac_pos j : 0 < wfac j.
Proof. unfold wfac. apply Rinv_0_lt_compat, Rmult_lt_0_compat; [apply pow_lt; lra|apply INR_fact_lt_0]. Qed.
Lemma wend_tail l : forall j x, x <= 1 -> wend (S l) j x = wfac j * tail j (fun u => INR (S l) * (1 - u) ^ l) x.
Proof.
  assert (Q : forall x, continuous (fun u => INR (S l) * (1 - u) ^ l) x).
  { intros x. apply (ex_derive_continuous (fun u => INR (S l) * (1 - u) ^ l)). auto_derive. trivial. }
  induction j as [|j IH]; intros x Hx.
  - unfold wfac. cbn [fact]. change (INR 1) with 1. rewrite pow_O, Rmult_1_r, Rinv_1, Rmult_1_l.
    apply (eq_by_derive (wend (S l) 0) (tail 0 (fun u => INR (S l) * (1 - u) ^ l)) (fun u => - (INR (S l) * (1 - u) ^ l))); [exact Hx| | |].
    + intros t _. cbn [wend]. evar_last; [apply is_derive_pow; auto_derive; [trivial|reflexivity]|]. cbn [pred]. ring.
    + intros t _. exact (tail_0_derive (fun u => INR (S l) * (1 - u) ^ l) t Q).
    + rewrite tail_1. cbn [wend pow]. ring.
  - apply (eq_by_derive (wend (S l) (S j)) (fun x => wfac (S j) * tail (S j) (fun u => INR (S l) * (1 - u) ^ l) x) (fun t => - (t * wend (S l) j t))); [exact Hx| | |].
    + intros t _. apply wend_derive.
    + intros t Ht. rewrite IH by lra. evar_last; [apply is_derive_scal; apply tail_derive; exact Q|].
      unfold wfac. replace (fact (S j)) with (S j * fact j)%nat by reflexivity. rewrite mult_INR. cbn [pow]. field.
      repeat split; try apply INR_fact_neq_0; try (apply pow_nonzero; lra); apply not_0_INR; lia.
    + rewrite tail_1, wend_1 by lia. ring.
Qed.
