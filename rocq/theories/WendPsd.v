(** The Wendland covariance functions on the line are strictly positive definite. *)
From Coq Require Import List Arith Lia Reals Lra.
From Coquelicot Require Import Coquelicot.
From Verif Require Import Base ParamSpec TensorSchur PsdBase PsdIntegral MaternStrict BumpAuto BumpPsd WendlandSpec WendlandProofs WendTail.
Import ListNotations.
Local Open Scope R_scope.

Section K.
Variable k : nat.
Definition wtail (x : R) : R := tail k (fun u => (1 - u) ^ k) x.
Lemma wend_wtail x : x <= 1 -> wend (S k) k x = wfac k * INR (S k) * wtail x.
Proof.
  intros Hx. rewrite wend_tail by exact Hx. rewrite Rmult_assoc. f_equal. unfold wtail, tail.
  rewrite (RInt_ext _ (fun s => scal (INR (S k)) ((s * s - x * x) ^ k * (1 - s) ^ k))) by (intros; unfold scal; cbn -[INR]; unfold mult; cbn -[INR]; ring).
  rewrite (RInt_scal (V := R_CompleteNormedModule)); [reflexivity|]. apply cont_int. intros z. apply (ex_derive_continuous (fun s => (s * s - x * x) ^ k * (1 - s) ^ k)). auto_derive. trivial.
Qed.
Lemma cst_pos : 0 < wfac k * INR (S k). Proof. apply Rmult_lt_0_compat; [apply wfac_pos|apply lt_0_INR; lia]. Qed.
Lemma wtail_pos : 0 < wtail 0.
Proof.
  pose proof (wend_pos (S k) k 0 ltac:(lra)) as H. rewrite wend_wtail in H by lra. pose proof cst_pos.
  apply (Rmult_lt_reg_l (wfac k * INR (S k))); [assumption|]. lra.
Qed.
Definition wker (d : R) : R := if Rle_dec (Rabs d) 1 then wtail (Rabs d) else 0.
Lemma wend_wker d : wend_radial (S k) k d = / wtail 0 * wker d.
Proof.
  unfold wend_radial, wker. destruct (Rle_dec (Rabs d) 1) as [H|H]; [|ring]. rewrite !wend_wtail by lra. pose proof cst_pos. pose proof wtail_pos. pose proof (wfac_pos k). assert (0 < INR (S k)) by (apply lt_0_INR; lia). field. lra.
Qed.
End K.

Section Pos.
Variable j : nat.
Notation k := (S j).
(** The bump kernel as an integral up to 1. *)
Definition plus_ (y : R) : R := Rmax y 0.
Lemma bker_full sg x : 0 < sg <= 1 -> 0 <= x <= 1 -> bker k sg x = RInt (fun u => (u * u - x * x) ^ k * plus_ (sg * sg - u * u) ^ k) x 1.
Proof.
  intros Hs Hx. unfold bker. rewrite Rabs_right by lra. symmetry. apply is_RInt_unique. destruct (Rle_dec x sg) as [H|H].
  - replace (bval k sg x) with (plus (bval k sg x) 0) by (unfold plus; cbn; ring). apply (is_RInt_Chasles (V := R_NormedModule) _ x sg 1).
    + apply (is_RInt_ext (fun u => ((u * u - x * x) * (sg * sg - u * u)) ^ k)).
      * intros u. rewrite Rmin_left, Rmax_right by lra. intros Hu. unfold plus_. rewrite Rmax_left by nra. apply Rpow_mult_distr.
      * apply (RInt_correct (V := R_CompleteNormedModule)). apply (poly_ex (fun u => (u * u - x * x) * (sg * sg - u * u))). intros z. auto_derive. trivial.
    + apply zero_int; [lra|]. intros u Hu. unfold plus_. rewrite Rmax_right by nra. cbn [pow]. ring.
  - apply zero_int; [lra|]. intros u Hu. unfold plus_. rewrite Rmax_right by nra. cbn [pow]. ring.
Qed.
Variables (ka : R) (ws : list term).
Hypothesis Hka : 0 <= ka.
Hypothesis Hws : good 0 ws.
Hypothesis Mix : forall u, 0 < u <= 1 -> (1 - u) ^ k = ka * (1 - u * u) ^ k + tail k (ev ws) u.
Definition nker (d : R) : R := wker k d - ka * bker k 1 d.
Definition ncut (dl d : R) : R := RInt (fun sg => ev ws sg * bker k sg d) dl 1.
Section Cut.
Variables (dl x : R).
Hypothesis Hd : 0 < dl <= 1.
Hypothesis Hx : 0 <= x <= 1.
Notation om := (fun sg => ev ws (Rmax sg dl)).
Lemma om_cont : forall sg, continuous om sg.
Proof. apply (cut_cont (ev ws) dl); [apply ev_cont|lra]. Qed.
Lemma om_nonneg sg : sg <= 1 -> 0 <= om sg.
Proof. intros H. apply (ev_nonneg 0); [exact Hws|]. split; [pose proof (Rmax_r sg dl); lra|apply Rmax_lub; lra]. Qed.
Definition hker (sg u : R) : R := om sg * plus_ (sg * sg - u * u) ^ k.
Lemma plus_cont2 : cont2 (fun sg u => plus_ (sg * sg - u * u)).
Proof.
  intros a b. apply (continuity_2d_pt_ext (fun sg u => (fun t => Rmax t 0) ((fun u s => s * s - u * u) u sg))); [reflexivity|].
  apply (continuity_1d_2d_pt_comp (fun t => Rmax t 0) (fun sg u => sg * sg - u * u)).
  - apply continuity_pt_filterlim. apply (max_cont 0).
  - exact (cont2_swap _ cont2_sq a b).
Qed.
Lemma hker_cont : cont2 hker.
Proof. apply (cont2_mult (fun sg _ => om sg) (fun sg u => plus_ (sg * sg - u * u) ^ k)); [apply (cont2_fst om), om_cont|apply (cont2_pow _ k plus_cont2)]. Qed.
Definition cut (u : R) : R := RInt (fun sg => hker sg u) dl 1.
Lemma cut_continuous : forall u, continuous cut u.
Proof. apply (inner_cont (fun u sg => hker sg u) dl 1); [lra|exact (cont2_swap _ hker_cont)]. Qed.
Lemma hker_nonneg sg u : sg <= 1 -> 0 <= hker sg u.
Proof. intros H. apply Rmult_le_pos; [now apply om_nonneg|]. apply pow_le, Rmax_r. Qed.
Lemma cut_above u : dl <= u <= 1 -> cut u = tail k (ev ws) u.
Proof.
  intros Hu. unfold cut. apply is_RInt_unique. replace (tail k (ev ws) u) with (plus 0 (tail k (ev ws) u)) by (unfold plus; cbn; ring).
  apply (is_RInt_Chasles (V := R_NormedModule) _ dl u 1).
  - apply zero_int; [lra|]. intros sg Hs. unfold hker, plus_. rewrite (Rmax_right _ 0) by nra. cbn [pow]. ring.
  - rewrite <- (cut_tail k (ev ws) dl u) by lra.
    apply (is_RInt_ext (fun s => (s * s - u * u) ^ k * om s)).
    + intros s. rewrite Rmin_left, Rmax_right by lra. intros Hs. unfold hker, plus_. rewrite (Rmax_left _ 0) by nra. apply Rmult_comm.
    + apply (RInt_correct (V := R_CompleteNormedModule)). apply cont_int. intros z. apply (continuous_mult (fun s => (s * s - u * u) ^ k) om); [|apply om_cont].
      apply (ex_derive_continuous (fun s => (s * s - u * u) ^ k)). auto_derive. trivial.
Qed.
Lemma pos_ex u : 0 < u -> forall a b, u <= a <= 1 -> u <= b <= 1 -> ex_RInt (fun s => (s * s - u * u) ^ k * ev ws s) a b.
Proof.
  intros Hu a b Ha Hb. apply (@ex_RInt_continuous R_CompleteNormedModule). intros z Hz.
  assert (0 < z) by (apply Rlt_le_trans with (Rmin a b); [apply Rmin_glb_lt; lra|apply Hz]).
  apply (continuous_mult (fun s => (s * s - u * u) ^ k) (ev ws)); [|apply ev_cont; lra]. apply (ex_derive_continuous (fun s => (s * s - u * u) ^ k)). auto_derive. trivial.
Qed.
Lemma cut_below u : 0 < u < dl -> 0 <= cut u <= tail k (ev ws) u.
Proof.
  intros Hu.
  assert (E : cut u = RInt (fun s => (s * s - u * u) ^ k * ev ws s) dl 1).
  { unfold cut. apply RInt_ext. intros s. rewrite Rmin_left, Rmax_right by lra. intros Hs. unfold hker, plus_. rewrite (Rmax_left s dl), (Rmax_left _ 0) by nra. apply Rmult_comm. }
  assert (P : forall a b, u <= a -> a <= b -> b <= 1 -> 0 <= RInt (fun s => (s * s - u * u) ^ k * ev ws s) a b).
  { intros a b H1 H2 H3. apply RInt_ge_0; [lra|apply pos_ex; lra|]. intros s Hs. apply Rmult_le_pos; [apply pow_le; nra|]. apply (ev_nonneg 0); [exact Hws|lra]. }
  rewrite E. split; [apply P; lra|]. unfold tail. rewrite <- (RInt_Chasles (V := R_CompleteNormedModule) (fun s => (s * s - u * u) ^ k * ev ws s) u dl 1) by (apply pos_ex; lra).
  pose proof (P u dl ltac:(lra) ltac:(lra) ltac:(lra)). match goal with |- _ <= plus ?a ?b => change (plus a b) with (Rplus a b) end. apply Rle_trans with (0 + RInt (fun s => (s * s - u * u) ^ k * ev ws s) dl 1); [rewrite Rplus_0_l; apply Rle_refl|apply Rplus_le_compat_r; assumption].
Qed.
Definition rem (u : R) : R := (1 - u) ^ k - ka * (1 - u * u) ^ k.
Lemma rem_tail u : 0 < u <= 1 -> rem u = tail k (ev ws) u. Proof. intros H. unfold rem. rewrite (Mix u H). ring. Qed.
Lemma rem_le u : 0 < u <= 1 -> rem u <= 1.
Proof.
  intros H. unfold rem. assert (0 <= ka * (1 - u * u) ^ k) by (apply Rmult_le_pos; [exact Hka|apply pow_le; nra]).
  assert ((1 - u) ^ k <= 1); [|lra]. apply Rle_trans with (1 ^ k); [apply pow_incr; lra|rewrite pow1; lra].
Qed.
Lemma ncut_cut : ncut dl x = RInt (fun u => (u * u - x * x) ^ k * cut u) x 1.
Proof.
  unfold ncut.
  rewrite (RInt_ext _ (fun sg => RInt (fun u => (u * u - x * x) ^ k * hker sg u) x 1)).
  2:{ intros sg. rewrite Rmin_left, Rmax_right by lra. intros Hs. rewrite bker_full by lra.
      rewrite (RInt_ext (fun u => (u * u - x * x) ^ k * hker sg u) (fun u => scal (ev ws sg) ((u * u - x * x) ^ k * plus_ (sg * sg - u * u) ^ k))).
      - rewrite (RInt_scal (V := R_CompleteNormedModule)); [reflexivity|]. apply cont_int. intros z.
        apply (continuous_mult (fun u => (u * u - x * x) ^ k) (fun u => plus_ (sg * sg - u * u) ^ k)).
        + apply (ex_derive_continuous (fun u => (u * u - x * x) ^ k)). auto_derive. trivial.
        + exact (cont2_right _ sg (cont2_pow _ k plus_cont2) z).
      - intros u _. unfold hker. rewrite (Rmax_left sg dl) by lra. unfold scal. cbn -[pow]. unfold mult. cbn -[pow]. ring. }
  assert (C : cont2 (fun sg u => (u * u - x * x) ^ k * hker sg u)).
  { apply (cont2_mult (fun _ u => (u * u - x * x) ^ k) hker); [|exact hker_cont]. apply (cont2_snd (fun u => (u * u - x * x) ^ k)).
    intros u. apply (ex_derive_continuous (fun u => (u * u - x * x) ^ k)). auto_derive. trivial. }
  rewrite (fubini (fun sg u => (u * u - x * x) ^ k * hker sg u) dl 1 x 1) by (try lra; exact C).
  apply RInt_ext. intros u _. unfold cut.
  rewrite (RInt_ext _ (fun sg => scal ((u * u - x * x) ^ k) (hker sg u))) by reflexivity.
  rewrite (RInt_scal (V := R_CompleteNormedModule)); [reflexivity|]. apply cont_int. exact (cont2_left _ u hker_cont).
Qed.
Lemma nker_rem : nker x = RInt (fun u => (u * u - x * x) ^ k * rem u) x 1.
Proof.
  unfold nker, wker, bker. rewrite Rabs_right by lra. destruct (Rle_dec x 1) as [_|N]; [|lra].
  assert (I : forall f : R -> R, (forall z : R, ex_derive f z) -> ex_RInt f x 1) by (intros f Hf; apply cont_int; intros z; apply (ex_derive_continuous f), Hf).
  rewrite (RInt_ext (fun u => (u * u - x * x) ^ k * rem u) (fun u => minus ((u * u - x * x) ^ k * (1 - u) ^ k) (scal ka (((u * u - x * x) * (1 * 1 - u * u)) ^ k)))).
  - rewrite (RInt_minus (V := R_CompleteNormedModule)), (RInt_scal (V := R_CompleteNormedModule)); [reflexivity| | |].
    + apply I. intros z. auto_derive. trivial.
    + apply I. intros z. auto_derive. trivial.
    + apply (I (fun u => ka * ((u * u - x * x) * (1 * 1 - u * u)) ^ k)). intros z. auto_derive. trivial.
  - intros u _. unfold rem, minus, plus, opp, scal. cbn -[pow]. unfold mult. cbn -[pow]. rewrite Rpow_mult_distr, Rmult_1_l. ring.
Qed.
Lemma cut_close : nker x - dl <= ncut dl x <= nker x.
Proof.
  rewrite ncut_cut, nker_rem.
  set (f := fun u => (u * u - x * x) ^ k * rem u). set (g := fun u => (u * u - x * x) ^ k * cut u).
  assert (Cp : forall u, continuous (fun u => (u * u - x * x) ^ k) u) by (intros u; apply (ex_derive_continuous (fun u => (u * u - x * x) ^ k)); auto_derive; trivial).
  assert (Cf : forall u, continuous f u).
  { intros u. apply (continuous_mult (fun u => (u * u - x * x) ^ k) rem); [apply Cp|]. apply (ex_derive_continuous rem). unfold rem. auto_derive. trivial. }
  assert (Cg : forall u, continuous g u).
  { intros u. apply (continuous_mult (fun u => (u * u - x * x) ^ k) cut); [apply Cp|apply cut_continuous]. }
  set (h := (fun u => f u - g u) : R -> R).
  assert (Cd : forall u, continuous h u) by (intros u; apply (continuous_minus f g); [apply Cf|apply Cg]).
  assert (B : 0 <= RInt h x 1 <= dl).
  { assert (Z : forall a b, dl <= a -> a <= b -> b <= 1 -> RInt h a b = 0).
    { intros a b H1 H2 H3. apply is_RInt_unique, zero_int; [exact H2|]. intros u Hu. unfold h, f, g. rewrite cut_above, rem_tail by lra. ring. }
    destruct (Rle_dec dl x) as [H|H]; [rewrite Z by lra; lra|].
    rewrite (rint_chasles h x dl 1 Cd), (Z dl 1) by lra. rewrite Rplus_0_r.
    assert (P : forall u, x < u < dl -> 0 <= h u <= 1).
    { intros u Hu. unfold h, f, g. pose proof (cut_below u ltac:(lra)) as C. pose proof (rem_tail u ltac:(lra)) as T. pose proof (rem_le u ltac:(lra)) as L.
      assert (Q : 0 <= (u * u - x * x) ^ k <= 1). { split; [apply pow_le; nra|]. apply Rle_trans with (1 ^ k); [apply pow_incr; nra|rewrite pow1; lra]. }
      rewrite <- Rmult_minus_distr_l. nra. }
    split; [apply RInt_ge_0; [lra|apply cont_int, Cd|intros u Hu; now apply P]|].
    apply Rle_trans with (RInt (fun _ => 1) x dl); [|rewrite rint_const; lra].
    apply RInt_le; [lra|apply cont_int, Cd|apply cont_int; intros; apply continuous_const|intros u Hu; now apply P]. }
  assert (E : RInt h x 1 = RInt f x 1 - RInt g x 1) by exact (rint_minus f g x 1 Cf Cg). lra.
Qed.
Lemma ncut_ex : ex_RInt (fun sg => ev ws sg * bker k sg x) dl 1.
Proof.
  apply (ex_RInt_ext (fun sg => om sg * RInt (fun u => (u * u - x * x) ^ k * plus_ (sg * sg - u * u) ^ k) x 1)).
  - intros sg. rewrite Rmin_left, Rmax_right by lra. intros Hs. rewrite bker_full, (Rmax_left sg dl) by lra. reflexivity.
  - apply cont_int. intros sg. apply (continuous_mult om (fun sg => RInt (fun u => (u * u - x * x) ^ k * plus_ (sg * sg - u * u) ^ k) x 1)); [apply om_cont|].
    apply (inner_cont (fun sg u => (u * u - x * x) ^ k * plus_ (sg * sg - u * u) ^ k) x 1); [lra|].
    apply (cont2_mult (fun _ u => (u * u - x * x) ^ k)); [|apply (cont2_pow _ k plus_cont2)]. apply (cont2_snd (fun u => (u * u - x * x) ^ k)).
    intros u. apply (ex_derive_continuous (fun u => (u * u - x * x) ^ k)). auto_derive. trivial.
Qed.
End Cut.
Lemma bker_abs sg d : bker k sg d = bker k sg (Rabs d). Proof. unfold bker. now rewrite Rabs_Rabsolu. Qed.
Lemma bker_far sg d : 0 < sg <= 1 -> 1 < Rabs d -> bker k sg d = 0.
Proof. intros Hs H. unfold bker. destruct (Rle_dec (Rabs d) sg) as [N|_]; [lra|reflexivity]. Qed.
Lemma ncut_far dl d : 0 < dl <= 1 -> 1 < Rabs d -> is_RInt (fun sg => ev ws sg * bker k sg d) dl 1 0.
Proof. intros Hd H. apply zero_int; [lra|]. intros sg Hs. rewrite bker_far by lra. ring. Qed.
Lemma close dl d : 0 < dl <= 1 -> nker d - dl <= ncut dl d <= nker d.
Proof.
  intros Hd. destruct (Rle_dec (Rabs d) 1) as [H|H].
  - replace (nker d) with (nker (Rabs d)) by (unfold nker, wker, bker; now rewrite Rabs_Rabsolu).
    replace (ncut dl d) with (ncut dl (Rabs d)); [apply cut_close; [exact Hd|pose proof (Rabs_pos d); lra]|].
    unfold ncut. apply RInt_ext. intros sg _. now rewrite <- bker_abs.
  - unfold ncut. rewrite (is_RInt_unique _ _ _ _ (ncut_far dl d Hd ltac:(lra))). unfold nker. rewrite bker_far by lra. unfold wker. destruct (Rle_dec (Rabs d) 1) as [N|_]; [contradiction|lra].
Qed.
Lemma cut_ex dl d : 0 < dl <= 1 -> ex_RInt (fun sg => ev ws sg * bker k sg d) dl 1.
Proof.
  intros Hd. destruct (Rle_dec (Rabs d) 1) as [H|H]; [|eexists; apply ncut_far; lra].
  apply (ex_RInt_ext (fun sg => ev ws sg * bker k sg (Rabs d))); [intros sg _; now rewrite <- bker_abs|]. apply ncut_ex; [exact Hd|pose proof (Rabs_pos d); lra].
Qed.
Lemma nker_psd : psd_kernel (fun x y => nker (x - y) : car RF).
Proof.
  assert (D : forall n, 0 < / INR (S n) <= 1).
  { intros n. assert (0 < INR (S n)) by (apply lt_0_INR; lia). split; [now apply Rinv_0_lt_compat|]. rewrite <- Rinv_1. apply Rinv_le_contravar; [lra|]. change 1 with (INR 1). apply le_INR. lia. }
  apply (psd_lim (fun n x y => ncut (/ INR (S n)) (x - y))).
  - intros n. specialize (D n). apply (psd_RInt (fun sg x y => ev ws sg * bker k sg (x - y))); [lra| |].
    + intros sg Hs. apply (psd_scal (ev ws sg) (fun x y => bker k sg (x - y))); [apply (ev_nonneg 0); [exact Hws|lra]|]. apply bker_psd. lra.
    + intros x y. now apply cut_ex.
  - intros x y. apply (is_lim_seq_le_le (fun n => nker (x - y) - / INR (S n)) _ (fun _ => nker (x - y))).
    + intros n. apply close, D.
    + replace (Finite (nker (x - y))) with (Rbar_minus (nker (x - y)) 0) by (cbn; f_equal; ring).
      apply (is_lim_seq_minus' (fun _ => nker (x - y)) (fun n => / INR (S n)) (nker (x - y)) 0); [apply is_lim_seq_const|].
      apply (is_lim_seq_incr_1 (fun n => / INR n)). replace (Finite 0) with (Rbar_inv p_infty) by reflexivity. apply is_lim_seq_inv; [apply is_lim_seq_INR|discriminate].
    + apply is_lim_seq_const.
Qed.
End Pos.

(** The profile dominates a positive multiple of the bump kernel. *)
Theorem wker_split k : exists ka, 0 < ka /\ psd_kernel (fun x y => wker k (x - y) - ka * bker k 1 (x - y) : car RF).
Proof.
  destruct k as [|j].
  - exists 1. split; [lra|]. apply (psd_ext (fun _ _ => 0 : car RF)); [|apply psd_zero].
    intros x y. cbn [car RF]. unfold wker, bker. destruct (Rle_dec (Rabs (x - y)) 1) as [H|H]; [|ring]. unfold wtail, tail, bval. cbn [pow].
    rewrite (RInt_ext (fun s => 1 * 1) (fun _ => 1)) by (intros; apply Rmult_1_r). rewrite rint_const. ring.
  - destruct (mixture (S j) [(1, (S j, 0%nat))]) as (ka & ws & Hka & Hws & Pos & E).
    { intros p [<-|[]]. cbn [fst snd]. split; [lra|lia]. }
    exists ka. split; [apply Pos; exists 1, 0%nat; split; [now left|lra]|].
    apply (nker_psd j ka ws Hka Hws). intros u Hu. rewrite <- (E u Hu), ev_cons. unfold ev, sumR. cbn [fst snd map fsum RF fold_right]. rewrite pow_O. cbn -[pow]. ring.
Qed.
Theorem wend_psd k : psd_kernel (fun x y => wend_radial (S k) k (x - y) : car RF).
Proof.
  destruct (wker_split k) as (ka & Hka & P).
  apply (psd_ext (fun x y => / wtail k 0 * (wker k (x - y) - ka * bker k 1 (x - y) + ka * bker k 1 (x - y)) : car RF)).
  { intros x y. cbn [car RF]. rewrite wend_wker. ring. }
  apply psd_scal; [apply Rlt_le, Rinv_0_lt_compat, wtail_pos|]. apply psd_add; [exact P|]. apply (psd_scal ka (fun x y => bker k 1 (x - y))); [lra|apply bker_psd; lra].
Qed.
Theorem wend_strict k l : form (fun x y => wend_radial (S k) k (x - y)) l = 0 -> forall phi : R -> R, sumR (fun p => phi (snd p) * fst p) l = 0.
Proof.
  intros Z. destruct (wker_split k) as (ka & Hka & P). specialize (P l). change (0 <= form (fun x y => wker k (x - y) - ka * bker k 1 (x - y)) l) in P.
  rewrite (form_sub (fun x y => wker k (x - y)) (fun x y => bker k 1 (x - y))) in P.
  rewrite (MaternStrict.form_ext _ (fun x y => / wtail k 0 * wker k (x - y))) in Z by (intros; apply wend_wker). rewrite MaternStrict.form_scal in Z.
  pose proof (Rinv_0_lt_compat _ (wtail_pos k)) as W. assert (Z' : form (fun x y => wker k (x - y)) l = 0) by (apply (Rmult_eq_reg_l (/ wtail k 0)); lra).
  apply (bker_strict k 1 ltac:(lra)). pose proof (bker_psd k 1 ltac:(lra) l) as B. change (0 <= form (fun x y => bker k 1 (x - y)) l) in B. nra.
Qed.
