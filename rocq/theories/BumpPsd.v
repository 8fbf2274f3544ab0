(** Integrals of products of two shifted bumps form a strictly positive definite kernel. *)
From Coq Require Import List Arith Lia Reals Lra.
From Coquelicot Require Import Coquelicot.
From Verif Require Import Base ParamSpec TensorSchur PsdBase MaternStrict BumpAuto.
Import ListNotations.
Local Open Scope R_scope.

(** Integrals of functions that vanish outside an interval. *)
Lemma zero_int (f : R -> R) a b : a <= b -> (forall t, a < t < b -> f t = 0) -> is_RInt f a b 0.
Proof.
  intros H Z. apply (is_RInt_ext (fun _ => 0)).
  - intros t. rewrite Rmin_left, Rmax_right by lra. intros Ht. symmetry. now apply Z.
  - pose proof (is_RInt_const a b 0) as C. unfold scal in C. cbn in C. unfold mult in C. cbn in C. now rewrite Rmult_0_r in C.
Qed.
Lemma clip_int (f g : R -> R) al be l h : l <= al -> al <= be -> be <= h -> ex_RInt g al be -> (forall t, al < t < be -> f t = g t) ->
  (forall t, t < al \/ be < t -> f t = 0) -> is_RInt f l h (RInt g al be).
Proof.
  intros H1 H2 H3 I E Z.
  replace (RInt g al be) with (plus 0 (plus (RInt g al be) 0)) by (unfold plus; cbn; ring).
  apply (is_RInt_Chasles f l al h); [apply zero_int; [lra|]; intros t Ht; apply Z; lra|].
  apply (is_RInt_Chasles f al be h); [|apply zero_int; [lra|]; intros t Ht; apply Z; lra].
  apply (is_RInt_ext g); [|apply (RInt_correct (V := R_CompleteNormedModule)), I].
  intros t. rewrite Rmin_left, Rmax_right by lra. intros Ht. symmetry. now apply E.
Qed.

Section Bump.
Variables (k : nat) (sg : R).
Hypothesis Hs : 0 < sg.
Notation s := (sg / 2).
Definition bmp (t : R) : R := if Rle_dec (Rabs t) s then (s * s - t * t) ^ k else 0.
(** The kernel. *)
Definition bker (d : R) : R := if Rle_dec (Rabs d) sg then bval k sg (Rabs d) else 0.
Lemma bmp_in t : - s <= t <= s -> bmp t = (s * s - t * t) ^ k.
Proof. intros H. unfold bmp. destruct (Rle_dec (Rabs t) s) as [_|N]; [reflexivity|]. exfalso. apply N, Rabs_le. lra. Qed.
Lemma bmp_out t : t < - s \/ s < t -> bmp t = 0.
Proof. intros H. unfold bmp. destruct (Rle_dec (Rabs t) s) as [N|_]; [|reflexivity]. apply Rabs_le_between in N. lra. Qed.
Lemma corr_le x y M : x <= y -> Rabs x + Rabs y + s <= M -> is_RInt (fun t => bmp (t - x) * bmp (t - y)) (- M) M (bker (x - y) / 4 ^ k).
Proof.
  intros Hxy HM. pose proof (Rle_abs x). pose proof (Rle_abs y). pose proof (Rle_abs (- x)) as A. pose proof (Rle_abs (- y)) as B. rewrite Rabs_Ropp in A, B.
  unfold bker. rewrite Rabs_minus_sym, Rabs_right by lra. destruct (Rle_dec (y - x) sg) as [D|D].
  - set (g := fun t => ((s * s - (t - x) * (t - x)) * (s * s - (t - y) * (t - y))) ^ k).
    assert (ex : ex_RInt g (y - s) (x + s)).
    { apply (poly_ex (fun t => (s * s - (t - x) * (t - x)) * (s * s - (t - y) * (t - y)))). intros z. auto_derive. trivial. }
    replace (bval k sg (y - x) / 4 ^ k) with (RInt g (y - s) (x + s)).
    + apply clip_int; try lra; [exact ex| |].
      * intros t Ht. rewrite !bmp_in by lra. unfold g. now rewrite Rpow_mult_distr.
      * intros t [Ht|Ht]; [rewrite (bmp_out (t - y)) by lra|rewrite (bmp_out (t - x)) by lra]; ring.
    + rewrite (bval_auto k sg (y - x)) by lra. match goal with |- _ = 4 ^ k * ?j / 4 ^ k => set (J := j) end.
      assert (Q : forall J : R, 4 ^ k * J / 4 ^ k = J) by (intros; field; apply pow_nonzero; lra). rewrite Q.
      pose proof (RInt_comp_lin g 1 x (y - x - s) s) as L. replace (1 * (y - x - s) + x) with (y - s) in L by ring. replace (1 * s + x) with (x + s) in L by ring.
      specialize (L ex). transitivity (RInt (fun y0 : R => scal 1 (g (1 * y0 + x))) (y - x - s) s); [symmetry; exact L|].
      unfold J. apply RInt_ext. intros t _. unfold scal. cbn. unfold mult. cbn. unfold g. rewrite Rmult_1_l. f_equal. ring.
  - replace (0 / 4 ^ k) with 0 by (unfold Rdiv; ring). apply zero_int; [lra|]. intros t _.
    destruct (Rlt_dec t (y - s)); [rewrite (bmp_out (t - y)) by lra|rewrite (bmp_out (t - x)) by lra]; ring.
Qed.
Lemma bker_even d : bker (- d) = bker d. Proof. unfold bker. now rewrite Rabs_Ropp. Qed.
Lemma corr x y M : Rabs x + Rabs y + s <= M -> is_RInt (fun t => bmp (t - x) * bmp (t - y)) (- M) M (bker (x - y) / 4 ^ k).
Proof.
  intros HM. destruct (Rle_dec x y) as [H|H]; [now apply corr_le|].
  replace (x - y) with (- (y - x)) by ring. rewrite bker_even.
  apply (is_RInt_ext (fun t => bmp (t - y) * bmp (t - x))); [intros; apply Rmult_comm|]. apply corr_le; lra.
Qed.
Lemma corr_ex x y M : 0 <= M -> ex_RInt (fun t => bmp (t - x) * bmp (t - y)) (- M) M.
Proof.
  intros HM. set (N := Rmax M (Rabs x + Rabs y + s)). pose proof (Rmax_l M (Rabs x + Rabs y + s)). pose proof (Rmax_r M (Rabs x + Rabs y + s)). fold N in H, H0.
  assert (E : ex_RInt (fun t => bmp (t - x) * bmp (t - y)) (- N) N) by (eexists; apply corr; lra).
  apply (ex_RInt_Chasles_2 (V := R_CompleteNormedModule)) with (- N); [lra|].
  apply (ex_RInt_Chasles_1 (V := R_CompleteNormedModule)) with N; [lra|exact E].
Qed.
Theorem bker_psd : psd_kernel (fun x y => bker (x - y) : car RF).
Proof.
  apply (psd_ext (fun x y => 4 ^ k * (bker (x - y) / 4 ^ k) : car RF)).
  { intros x y. cbn [car RF]. field. apply pow_nonzero. lra. }
  apply psd_scal; [apply pow_le; lra|].
  apply (psd_lim (fun n x y => RInt (fun t => bmp (t - x) * bmp (t - y)) (- INR n) (INR n))).
  - intros n. pose proof (pos_INR n). apply (psd_RInt (fun t x y => bmp (t - x) * bmp (t - y))); [lra| |].
    + intros t _. apply (psd_rank1 (fun x => bmp (t - x))).
    + intros x y. apply corr_ex. lra.
  - intros x y. apply (is_lim_seq_ext_loc (fun _ => bker (x - y) / 4 ^ k)); [|apply is_lim_seq_const].
    destruct (nfloor_ex (Rabs x + Rabs y + s)) as [N0 [_ HN]]; [pose proof (Rabs_pos x); pose proof (Rabs_pos y); lra|]; set (N := S N0); assert (HN' : Rabs x + Rabs y + s < INR N) by (unfold N; rewrite S_INR; exact HN). exists N. intros n Hn. symmetry. apply is_RInt_unique, corr. apply le_INR in Hn. lra.
Qed.
(** The form is the integral of a square. *)
Definition comb (l : list (R * R)) (t : R) : R := sumR (fun p => fst p * bmp (t - snd p)) l.
Definition reach (l : list (R * R)) (M : R) : Prop := forall p, In p l -> 2 * Rabs (snd p) + s <= M.
Lemma reach_ex l B : exists M, reach l M /\ B <= M.
Proof.
  induction l as [|p l [M [H HB]]]; [exists B; split; [intros q []|lra]|].
  exists (Rmax M (2 * Rabs (snd p) + s)). pose proof (Rmax_l M (2 * Rabs (snd p) + s)). pose proof (Rmax_r M (2 * Rabs (snd p) + s)). split; [|lra].
  intros q [<-|Hq]; [lra|]. specialize (H q Hq). lra.
Qed.
Lemma form_comb l M : reach l M -> is_RInt (fun t => comb l t ^ 2) (- M) M (form (fun x y => bker (x - y) / 4 ^ k) l).
Proof.
  intros H.
  assert (I : forall p q, In p l -> In q l -> is_RInt (fun t => bmp (t - snd p) * bmp (t - snd q)) (- M) M (bker (snd p - snd q) / 4 ^ k)).
  { intros p q Hp Hq. apply corr. pose proof (H p Hp). pose proof (H q Hq). lra. }
  pose proof (form_int (fun t x y => bmp (t - x) * bmp (t - y)) l (- M) M (fun p q Hp Hq => ex_intro _ _ (I p q Hp Hq))) as F.
  replace (form (fun x y => bker (x - y) / 4 ^ k) l) with (form (fun x y => RInt (fun u => bmp (u - x) * bmp (u - y)) (- M) M) l).
  - apply (is_RInt_ext (fun u => form (fun x y => bmp (u - x) * bmp (u - y)) l)); [|exact F].
    intros t _. unfold form, comb. simpl pow. rewrite Rmult_1_r, sumR_scal_r. apply sumR_ext. intros p _. rewrite sumR_scal. apply sumR_ext. intros q _. ring.
  - unfold form. apply sumR_ext. intros p Hp. apply sumR_ext. intros q Hq. f_equal. now apply is_RInt_unique, I.
Qed.
Lemma form_zero l : form (fun x y => bker (x - y)) l = 0 -> form (fun x y => bker (x - y) / 4 ^ k) l = 0.
Proof.
  intros Z. rewrite (MaternStrict.form_ext _ (fun x y => / 4 ^ k * bker (x - y))) by (intros; unfold Rdiv; ring).
  rewrite MaternStrict.form_scal, Z. ring.
Qed.
(** The leftmost point. *)
Lemma leftmost (l : list (R * R)) : l <> [] -> exists m, In m (map snd l) /\ forall p, In p l -> m <= snd p.
Proof.
  induction l as [|p l IH]; intros N; [now destruct N|]. destruct l as [|q l].
  - exists (snd p). split; [now left|]. intros r [<-|[]]. lra.
  - destruct (IH ltac:(discriminate)) as (m & Hm & L). destruct (Rle_dec m (snd p)) as [H|H].
    + exists m. split; [now right|]. intros r [<-|Hr]; [exact H|now apply L].
    + exists (snd p). split; [now left|]. intros r [<-|Hr]; [lra|]. specialize (L r Hr). lra.
Qed.
Lemma gap (l : list (R * R)) m : (forall p, In p l -> m <= snd p) -> exists e, 0 < e <= s /\ forall p, In p l -> snd p = m \/ m + e <= snd p.
Proof.
  induction l as [|p l IH]; intros H; [exists s; split; [lra|intros p []]|].
  destruct IH as (e & He & G); [intros q Hq; apply H; now right|]. destruct (Req_dec (snd p) m) as [E|E].
  - exists e. split; [exact He|]. intros q [<-|Hq]; [now left|now apply G].
  - assert (Hp : m <= snd p) by (apply H; now left). exists (Rmin e (snd p - m)). pose proof (Rmin_l e (snd p - m)). pose proof (Rmin_r e (snd p - m)).
    split; [split; [apply Rmin_glb_lt; lra|lra]|]. intros q [<-|Hq]; [right; lra|]. destruct (G q Hq); [now left|right; lra].
Qed.
Definition at_ (m : R) (p : R * R) : bool := if Req_EM_T (snd p) m then true else false.
Definition rest (m : R) (l : list (R * R)) := filter (fun p => negb (at_ m p)) l.
Lemma split_sum (phi : R -> R) m l : sumR (fun p => phi (snd p) * fst p) l = phi m * sumR fst (filter (at_ m) l) + sumR (fun p => phi (snd p) * fst p) (rest m l).
Proof.
  unfold rest. induction l as [|p l IH]; [unfold sumR; cbn; ring|]. rewrite sumR_cons, IH. cbn [filter]. unfold at_ at 3 6. destruct (Req_EM_T (snd p) m) as [E|E]; cbn [negb].
  - rewrite sumR_cons, E. ring.
  - rewrite sumR_cons. ring.
Qed.
Lemma comb_split m l t : comb l t = bmp (t - m) * sumR fst (filter (at_ m) l) + comb (rest m l) t.
Proof.
  unfold comb. rewrite (sumR_ext (fun p => fst p * bmp (t - snd p)) (fun p => bmp (t - snd p) * fst p)) by (intros; ring).
  rewrite (split_sum (fun x => bmp (t - x)) m l). f_equal. apply sumR_ext. intros; ring.
Qed.
Lemma rest_length m l : In m (map snd l) -> (length (rest m l) < length l)%nat.
Proof.
  unfold rest. assert (L : forall l, (length (filter (fun p => negb (at_ m p)) l) <= length l)%nat).
  { clear. induction l as [|p l IH]; [cbn; lia|]. cbn [filter]. destruct (negb (at_ m p)); cbn [length]; lia. }
  induction l as [|p l IH]; [intros []|]. intros [E|H]; cbn [filter].
  - unfold at_ at 1. destruct (Req_EM_T (snd p) m) as [_|N]; [|contradiction]. cbn [negb length]. specialize (L l). lia.
  - specialize (IH H). destruct (negb (at_ m p)); cbn [length]; lia.
Qed.
Theorem bker_strict l : form (fun x y => bker (x - y)) l = 0 -> forall phi : R -> R, sumR (fun p => phi (snd p) * fst p) l = 0.
Proof.
  remember (length l) as n eqn:En. revert l En. induction n as [n IH] using lt_wf_ind. intros l En Z phi.
  destruct l as [|p0 l0] eqn:El; [reflexivity|]. rewrite <- El in *.
  destruct (leftmost l ltac:(congruence)) as (m & Hm & L). destruct (gap l m L) as (e & He & G).
  destruct (reach_ex l (Rabs m + s + e)) as (M & RM & HM). pose proof (Rle_abs m). pose proof (Rle_abs (- m)) as A. rewrite Rabs_Ropp in A.
  pose proof (form_comb l M RM) as F. rewrite (form_zero l Z) in F.
  set (W := sumR fst (filter (at_ m) l)).
  assert (HW : W = 0).
  { destruct (Req_dec W 0) as [E|N]; [exact E|exfalso].
    assert (I : forall a b, - M <= a -> a <= b -> b <= M -> ex_RInt (fun t => comb l t ^ 2) a b).
    { intros a b H1 H2 H3. apply (ex_RInt_Chasles_2 (V := R_CompleteNormedModule)) with (- M); [lra|].
      apply (ex_RInt_Chasles_1 (V := R_CompleteNormedModule)) with M; [lra|]. eexists. exact F. }
    assert (P : forall a b, - M <= a -> a <= b -> b <= M -> 0 <= RInt (fun t => comb l t ^ 2) a b).
    { intros a b H1 H2 H3. apply RInt_ge_0; [exact H2|now apply I|]. intros t _. apply pow2_ge_0. }
    assert (T : 0 = RInt (fun t => comb l t ^ 2) (- M) (m - s) + RInt (fun t => comb l t ^ 2) (m - s) (m - s + e) + RInt (fun t => comb l t ^ 2) (m - s + e) M).
    { rewrite <- (is_RInt_unique _ _ _ _ F).
      rewrite <- (RInt_Chasles (V := R_CompleteNormedModule) (fun t => comb l t ^ 2) (- M) (m - s + e) M) by (apply I; lra).
      rewrite <- (RInt_Chasles (V := R_CompleteNormedModule) (fun t => comb l t ^ 2) (- M) (m - s) (m - s + e)) by (apply I; lra). reflexivity. }
    pose proof (P (- M) (m - s)). pose proof (P (m - s + e) M).
    assert (Pos : 0 < RInt (fun t => comb l t ^ 2) (m - s) (m - s + e)); [|lra].
    rewrite (RInt_ext _ (fun t => ((s * s - (t - m) * (t - m)) ^ k * W) ^ 2)).
    - apply RInt_gt_0; [lra| |].
      + intros t Ht. apply pow2_gt_0. apply Rmult_integral_contrapositive_currified; [|exact N]. apply pow_nonzero. nra.
      + intros t Ht. apply (ex_derive_continuous (fun t => ((s * s - (t - m) * (t - m)) ^ k * W) ^ 2)). auto_derive. trivial.
    - intros t. rewrite Rmin_left, Rmax_right by lra. intros Ht. f_equal. rewrite (comb_split m). fold W. rewrite bmp_in by lra.
      replace (comb (rest m l) t) with 0; [ring|]. unfold comb. symmetry. rewrite (sumR_ext _ (fun _ => 0)); [apply TensorSchur.sumR_zero|].
      intros p Hp. unfold rest in Hp. apply filter_In in Hp. destruct Hp as [Hp Np]. unfold at_ in Np. destruct (Req_EM_T (snd p) m) as [_|Np']; [discriminate|].
      destruct (G p Hp) as [Q|Q]; [contradiction|]. rewrite bmp_out by lra. ring. }
  rewrite (split_sum phi m l). fold W. rewrite HW, Rmult_0_r, Rplus_0_l.
  apply (IH (length (rest m l))); [rewrite En; now apply rest_length|reflexivity|].
  assert (RM' : reach (rest m l) M) by (intros p Hp; unfold rest in Hp; apply filter_In in Hp; now apply RM).
  assert (F' : form (fun x y => bker (x - y) / 4 ^ k) (rest m l) = 0).
  { rewrite <- (is_RInt_unique _ _ _ _ (form_comb (rest m l) M RM')). rewrite <- (is_RInt_unique _ _ _ _ F). apply RInt_ext. intros t _. f_equal.
    rewrite (comb_split m l). fold W. rewrite HW. ring. }
  rewrite (MaternStrict.form_ext _ (fun x y => 4 ^ k * (bker (x - y) / 4 ^ k))) by (intros; field; apply pow_nonzero; lra).
  rewrite MaternStrict.form_scal, F'. ring.
Qed.
End Bump.
