(** C81: arithmetic of polynomials in double precision. *)
From Coq Require Import List Reals Bool Arith ZArith Lia Lra Psatz.
From Coq.Floats Require Import SpecFloat.
From Flocq Require Import Core Relative BinarySingleNaN.
From Verif Require Import Base FloatModel FloatProofs FloatRoundSpec FloatRound FloatErr FloatRoundProps FloatUniformProps FloatGridModel FloatGridProps FloatPolyModel.
Import ListNotations.
Open Scope R_scope.
#[local] Existing Instance FloatRound.Hprec.
#[local] Existing Instance FloatRound.Hmax.
Notation u := u64.
Notation eta := eta64.

(** ** Specification *)
(** Coefficient [k], zero beyond the degree *)
Definition co (p : fpoly) (k : nat) : spec_float := nth k p fzero.
Definition finite_poly (p : fpoly) : Prop := List.Forall (fun c => valid c /\ fin c) p.

Lemma co_ok p k : finite_poly p -> valid (co p k) /\ fin (co p k).
Proof.
  intros F. unfold co. destruct (Nat.lt_ge_cases k (length p)) as [H|H]; [|rewrite nth_overflow by exact H; split; reflexivity]. unfold finite_poly in F. rewrite Forall_forall in F. apply F, nth_In, H.
Qed.
Lemma add_comm a b : fadd a b = fadd b a.
Proof.
  destruct a as [s|s| |s m e], b as [t|t| |t n f]; cbn; try reflexivity; try (destruct s, t; reflexivity). rewrite (Z.min_comm f e), Z.add_comm. reflexivity.
Qed.
Lemma fzip_len f p : forall q, length (fzip f p q) = Nat.max (length p) (length q).
Proof.
  induction p as [|a p IH]; intros [|b q]; cbn [fzip length map]; try rewrite map_length; try reflexivity; rewrite IH; cbn [length]; lia.
Qed.
Lemma fzip_nth f d p : forall q k, (k < Nat.max (length p) (length q))%nat -> nth k (fzip f p q) d = f (co p k) (co q k).
Proof.
  unfold co. induction p as [|a p IH]; intros q k Hk.
  - cbn [fzip]. cbn [length Nat.max] in Hk. rewrite (nth_indep _ d (f fzero fzero)) by (rewrite map_length; exact Hk). rewrite map_nth. destruct k; reflexivity.
  - destruct q as [|b q]; cbn [fzip]; destruct k as [|k]; try reflexivity; cbn [nth]; rewrite IH by (cbn [length] in *; lia); [|reflexivity]. destruct k; reflexivity.
Qed.
Lemma mk_len p : p <> [] -> mk_fpoly p = p.
Proof. destruct p; [congruence|reflexivity]. Qed.
Lemma nonempty (p : fpoly) : (0 < length p)%nat -> p <> [].
Proof. destruct p; cbn; [lia|congruence]. Qed.

Lemma rnd0 : rnd64 0 = 0.
Proof. unfold rnd64. apply round_0, valid_rnd_N. Qed.
Lemma no_overflow_0 : no_overflow 0.
Proof. unfold no_overflow. rewrite rnd0, Rabs_R0. apply pow_lt. lra. Qed.

(** ** Evaluation *)
Lemma eval_horner p x : p <> [] -> fpeval p x = fhorner p x.
Proof.
  intros N. unfold fpeval, fpdegree. rewrite fold_right_rev_seq. induction p as [|c p IH]; [congruence|]. destruct p as [|c' p]; [reflexivity|].
  cbn [length]. replace (S (S (length p)) - 1)%nat with (S (length p)) by lia. cbn [seq]. rewrite <- seq_shift. cbn [fold_right]. rewrite fold_right_map. cbn [nth].
  specialize (IH ltac:(discriminate)). cbn [length] in IH. replace (S (length p) - 1)%nat with (length p) in IH by lia.
  change (fhorner (c :: c' :: p) x) with (fadd (fmul (fhorner (c' :: p) x) x) c). f_equal. f_equal. exact IH.
Qed.
(** Horner's method: the error is bounded by the polynomial of the absolute values. *)
Theorem C81_eval : forall p x, p <> [] -> List.Forall valid p -> valid x -> fin (fpeval p x) ->
  Rabs (val (fpeval p x) - poly_at (map val p) (val x)) <= horner_bound (map val p) (val x).
Proof. intros p x N V Vx F. rewrite eval_horner in * by exact N. now apply fhorner_bound. Qed.
(** The value at 0 is the first coefficient, exactly. *)
Theorem C81_at_zero : forall p s, p <> [] -> finite_poly p -> fin (fpeval p (S754_zero s)) /\ val (fpeval p (S754_zero s)) = val (co p 0).
Proof.
  intros p s N F. rewrite eval_horner by exact N. induction F as [|c p [Vc Fc] F IH]; [congruence|]. destruct p as [|c' p]; [split; [exact Fc|reflexivity]|].
  change (fhorner (c :: c' :: p) (S754_zero s)) with (fadd (fmul (fhorner (c' :: p) (S754_zero s)) (S754_zero s)) c). destruct (IH ltac:(discriminate)) as [IF _].
  assert (Vh : valid (fhorner (c' :: p) (S754_zero s))). { apply fhorner_valid; [|reflexivity]. clear - F. induction F as [|? ? [? ?] ? ?]; constructor; auto. }
  set (h := fhorner _ _) in *. clearbody h. clear - IF Fc Vc. assert (Z : exists t, fmul h (S754_zero s) = S754_zero t) by (destruct h; try discriminate IF; eexists; reflexivity). destruct Z as [t ->].
  assert (A := add_ok (S754_zero t) c eq_refl Vc). assert (R : rnd64 (val (S754_zero t) + val c) = val c) by (change (val (S754_zero t)) with 0; rewrite Rplus_0_l; now apply rnd_id).
  assert (G : fin (fadd (S754_zero t) c)). { apply A. split; [reflexivity|]. split; [exact Fc|]. unfold no_overflow. rewrite R. now apply val_lt. }
  split; [exact G|]. rewrite (proj2 A G), R. reflexivity.
Qed.

(** ** Sums and differences *)
Lemma sum_nonempty f p q : p <> [] -> fzip f p q <> [].
Proof. intros N. apply nonempty. rewrite fzip_len. destruct p; [congruence|]. cbn [length]. lia. Qed.
(** A sum has the larger degree; each coefficient is the sum of the coefficients, rounded once. *)
Theorem C81_add : forall p q, p <> [] -> finite_poly p -> finite_poly q ->
  length (fpadd p q) = Nat.max (length p) (length q) /\
  forall k, (fin (co (fpadd p q) k) <-> no_overflow (val (co p k) + val (co q k))) /\ (fin (co (fpadd p q) k) -> val (co (fpadd p q) k) = rnd64 (val (co p k) + val (co q k)) /\
    Rabs (val (co (fpadd p q) k) - (val (co p k) + val (co q k))) <= / 2 ^ 53 * Rabs (val (co p k) + val (co q k))).
Proof.
  intros p q N Fp Fq. unfold fpadd. rewrite mk_len by now apply sum_nonempty. split; [apply fzip_len|]. intros k. destruct (co_ok p k Fp) as [Vp Gp], (co_ok q k Fq) as [Vq Gq]. split.
  { destruct (Nat.lt_ge_cases k (Nat.max (length p) (length q))) as [H|H].
    - assert (D : co (fzip fadd p q) k = fadd (co p k) (co q k)) by (unfold co at 1; now apply fzip_nth). rewrite D. assert (A := proj1 (add_ok _ _ Vp Vq)). tauto.
    - unfold co. rewrite !nth_overflow by (rewrite ?fzip_len; lia). change (val fzero) with 0. rewrite Rplus_0_r. split; [intros _; apply no_overflow_0|reflexivity]. }
  intros F. assert (E : val (co (fzip fadd p q) k) = rnd64 (val (co p k) + val (co q k))).
  { destruct (Nat.lt_ge_cases k (Nat.max (length p) (length q))) as [H|H].
    - assert (D : co (fzip fadd p q) k = fadd (co p k) (co q k)) by (unfold co at 1; now apply fzip_nth). rewrite D in *. now apply add_ok.
    - unfold co. rewrite !nth_overflow by (rewrite ?fzip_len; lia). change (val fzero) with 0. rewrite Rplus_0_r. unfold rnd64. symmetry. apply round_0, valid_rnd_N. }
  split; [exact E|]. rewrite E. change (/ 2 ^ 53) with u. assert (R := rnd_plus _ _ (val_format _ Vp) (val_format _ Vq)). rewrite Rplus_0_r in R. exact R.
Qed.
Theorem C81_sub : forall p q, p <> [] -> finite_poly p -> finite_poly q ->
  length (fpsub p q) = Nat.max (length p) (length q) /\
  forall k, (fin (co (fpsub p q) k) <-> no_overflow (val (co p k) - val (co q k))) /\ (fin (co (fpsub p q) k) -> val (co (fpsub p q) k) = rnd64 (val (co p k) - val (co q k)) /\
    Rabs (val (co (fpsub p q) k) - (val (co p k) - val (co q k))) <= / 2 ^ 53 * Rabs (val (co p k) - val (co q k))).
Proof.
  intros p q N Fp Fq. unfold fpsub. rewrite mk_len by now apply sum_nonempty. split; [apply fzip_len|]. intros k. destruct (co_ok p k Fp) as [Vp Gp], (co_ok q k Fq) as [Vq Gq]. split.
  { destruct (Nat.lt_ge_cases k (Nat.max (length p) (length q))) as [H|H].
    - assert (D : co (fzip fsub p q) k = fsub (co p k) (co q k)) by (unfold co at 1; now apply fzip_nth). rewrite D. assert (A := proj1 (sub_ok _ _ Vp Vq)). tauto.
    - unfold co. rewrite !nth_overflow by (rewrite ?fzip_len; lia). change (val fzero) with 0. rewrite Rminus_0_r. split; [intros _; apply no_overflow_0|reflexivity]. }
  intros F. assert (E : val (co (fzip fsub p q) k) = rnd64 (val (co p k) - val (co q k))).
  { destruct (Nat.lt_ge_cases k (Nat.max (length p) (length q))) as [H|H].
    - assert (D : co (fzip fsub p q) k = fsub (co p k) (co q k)) by (unfold co at 1; now apply fzip_nth). rewrite D in *. now apply sub_ok.
    - unfold co. rewrite !nth_overflow by (rewrite ?fzip_len; lia). change (val fzero) with 0. rewrite Rminus_0_r. unfold rnd64. symmetry. apply round_0, valid_rnd_N. }
  split; [exact E|]. rewrite E. change (/ 2 ^ 53) with u. assert (R := rnd_plus _ _ (val_format _ Vp) (generic_format_opp _ _ _ (val_format _ Vq))). rewrite Rplus_0_r in R. exact R.
Qed.
(** Exchanging the summands gives the same bits. *)
Theorem C81_add_comm : forall p q, fpadd p q = fpadd q p.
Proof.
  intros p q. unfold fpadd. f_equal. apply (nth_ext _ _ fzero fzero); [rewrite !fzip_len; apply Nat.max_comm|]. intros k Hk. rewrite fzip_len in Hk. rewrite !fzip_nth by lia. apply add_comm.
Qed.
(** A polynomial minus itself is zero, exactly. *)
Theorem C81_sub_self : forall p, p <> [] -> finite_poly p -> fpsub p p = repeat fzero (length p).
Proof.
  intros p N F. unfold fpsub. rewrite mk_len by now apply sum_nonempty. apply (nth_ext _ _ fzero fzero); [rewrite fzip_len, repeat_length; lia|]. intros k Hk. rewrite fzip_len in Hk. rewrite fzip_nth by exact Hk.
  rewrite (nth_repeat fzero (length p) k). destruct (co_ok p k F) as [_ G]. apply sub_self. destruct (co p k); try discriminate G; reflexivity.
Qed.
(** A constant changes the first coefficient only. *)
Theorem C81_add_const : forall p v, p <> [] -> finite_poly p -> valid v ->
  length (fpadd_const p v) = length p /\ (forall k, co (fpadd_const p v) (S k) = co p (S k)) /\
  (fin v -> (fin (co (fpadd_const p v) 0) <-> no_overflow (val (co p 0) + val v))) /\
  (fin (co (fpadd_const p v) 0) -> val (co (fpadd_const p v) 0) = rnd64 (val (co p 0) + val v)).
Proof.
  intros [|c p] v N F V; [congruence|]. unfold fpadd_const. cbn [mk_fpoly tl length]. split; [reflexivity|]. split; [reflexivity|]. unfold co. cbn [nth]. inversion F as [|? ? [Vc Fc] Fp]; subst. assert (A := proj1 (add_ok c v Vc V)). split; [tauto|]. intros G. now apply add_ok.
Qed.

(** ** Negation and scaling *)
(** Negation is exact, and twice is the same bits. *)
Theorem C81_neg : forall p, p <> [] -> (forall k, val (co (fpneg p) k) = - val (co p k)) /\ length (fpneg p) = length p /\ fpneg (fpneg p) = p.
Proof.
  intros p N. unfold fpneg. rewrite (mk_len (map SFopp p)) by (destruct p; [congruence|discriminate]). split; [|split; [apply map_length|]].
  - intros k. unfold co. destruct (Nat.lt_ge_cases k (length p)) as [H|H]; [|rewrite !nth_overflow by (rewrite ?map_length; exact H); change (val fzero) with 0; ring].
    rewrite (nth_indep _ fzero (SFopp fzero)) by (rewrite map_length; exact H). rewrite map_nth. generalize (nth k p fzero). intros [s|s| |s m e]; unfold val; cbn [SFopp SF2R]; try ring. rewrite cond_Zopp_negb, F2R_Zopp. reflexivity.
  - rewrite map_map, (map_ext _ (fun a => a)) by apply opp_opp. rewrite map_id. now apply mk_len.
Qed.
(** The values of the negative are the negative values, exactly. *)
Theorem C81_neg_eval : forall p x, p <> [] -> List.Forall valid p -> valid x -> fin (fpeval p x) ->
  fin (fpeval (fpneg p) x) /\ val (fpeval (fpneg p) x) = - val (fpeval p x).
Proof.
  intros p x N V Vx. unfold fpneg. rewrite mk_len by (destruct p; [congruence|discriminate]). rewrite !eval_horner by (destruct p; [congruence|discriminate]).
  assert (O : forall a, (fin (SFopp a) <-> fin a) /\ val (SFopp a) = - val a).
  { intros [s|s| |s m e]; (split; [reflexivity|]); unfold val; cbn [SFopp SF2R]; try ring. rewrite cond_Zopp_negb, F2R_Zopp. reflexivity. }
  assert (RO : forall r, rnd64 (- r) = - rnd64 r) by (intros r; unfold rnd64; apply round_NE_opp).
  induction V as [|c p Vc V IH]; [congruence|]. intros F. destruct p as [|c' p]; [cbn; split; apply O; exact F|]. specialize (IH ltac:(discriminate)). cbn [map] in *.
  change (fhorner (c :: c' :: p) x) with (fadd (fmul (fhorner (c' :: p) x) x) c) in *. change (fhorner (SFopp c :: SFopp c' :: map SFopp p) x) with (fadd (fmul (fhorner (SFopp c' :: map SFopp p) x) x) (SFopp c)).
  assert (Vh : valid (fhorner (c' :: p) x)) by now apply fhorner_valid.
  assert (Vh' : valid (fhorner (SFopp c' :: map SFopp p) x)). { apply fhorner_valid; [|exact Vx]. change (SFopp c' :: map SFopp p) with (map SFopp (c' :: p)). clear - V. induction V; cbn; constructor; auto. now apply valid_opp. }
  set (h := fhorner (c' :: p) x) in *. set (h' := fhorner (SFopp c' :: map SFopp p) x) in *. clearbody h h'.
  destruct (add_ok _ c (valid_mul h x Vh Vx) Vc) as [A1 A2]. destruct (mul_ok h x Vh Vx) as [M1 M2]. destruct (proj1 A1 F) as (Fm & Fc & NA). destruct (proj1 M1 Fm) as (Fh & Fx & NM).
  destruct (IH Fh) as [Fh' Eh']. destruct (mul_ok h' x Vh' Vx) as [M1' M2']. rewrite Eh' in M1', M2'. rewrite Ropp_mult_distr_l_reverse in M1', M2'. unfold no_overflow in M1', NM.
  assert (Fm' : fin (fmul h' x)) by (apply M1'; rewrite RO, Rabs_Ropp; auto). specialize (M2' Fm'). rewrite RO in M2'. specialize (M2 Fm).
  destruct (add_ok _ (SFopp c) (valid_mul h' x Vh' Vx) (valid_opp c Vc)) as [A1' A2']. rewrite (proj2 (O c)), M2', <- M2 in A1', A2'. rewrite <- Ropp_plus_distr in A1', A2'. unfold no_overflow in A1', NA.
  assert (F' : fin (fadd (fmul h' x) (SFopp c))). { apply A1'. split; [exact Fm'|]. split; [now apply O|]. rewrite RO, Rabs_Ropp. exact NA. }
  split; [exact F'|]. rewrite (A2' F'), (A2 F), RO. reflexivity.
Qed.
Theorem C81_scale : forall a p k, p <> [] -> valid a -> finite_poly p -> length (fpscale a p) = length p /\
  ((k < length p)%nat -> fin a -> (fin (co (fpscale a p) k) <-> no_overflow (val a * val (co p k)))) /\
  ((k < length p)%nat -> fin (co (fpscale a p) k) -> val (co (fpscale a p) k) = rnd64 (val a * val (co p k)) /\
   Rabs (val (co (fpscale a p) k) - val a * val (co p k)) <= / 2 ^ 53 * Rabs (val a * val (co p k)) + / 2 ^ 1075).
Proof.
  intros a p k N Va F. unfold fpscale. rewrite mk_len by (destruct p; [congruence|discriminate]). split; [apply map_length|].
  assert (D : (k < length p)%nat -> co (map (fmul a) p) k = fmul a (co p k)) by (intros Hk; unfold co at 1; rewrite (nth_indep _ fzero (fmul a fzero)) by (rewrite map_length; exact Hk); now rewrite map_nth).
  split; [intros Hk Fa; rewrite D by exact Hk; destruct (co_ok p k F) as [Vc Fc]; assert (A := proj1 (mul_ok a (co p k) Va Vc)); tauto|]. intros Hk G. specialize (D Hk).
  assert (E : val (co (map (fmul a) p) k) = rnd64 (val a * val (co p k))).
  { rewrite D in *. apply mul_ok; [exact Va|now apply co_ok|exact G]. }
  split; [exact E|]. rewrite E. apply rnd_error.
Qed.

(** ** Derivatives and antiderivatives *)
Lemma nth_combine_map (g : spec_float * nat -> spec_float) (l : fpoly) s k : (k < length l)%nat -> nth k (map g (combine l (seq s (length l)))) fzero = g (co l k, (s + k)%nat).
Proof.
  intros H. rewrite (nth_indep _ fzero (g (fzero, 0%nat))) by (rewrite map_length, combine_length, seq_length; lia). rewrite map_nth, combine_nth by (rewrite seq_length; reflexivity). now rewrite seq_nth.
Qed.
Lemma count_ok k : (0 < k)%nat -> INR k <= 2 ^ 53 -> valid (of_nat k) /\ fin (of_nat k) /\ val (of_nat k) = INR k /\ 1 <= INR k.
Proof. intros H1 H2. destruct (of_nat_ok k H2) as (A & B & C). repeat split; auto. change 1 with (INR 1). apply le_INR. lia. Qed.
(** The derivative has one coefficient less, or is the constant 0; each coefficient is rounded once. *)
Theorem C81_differentiate : forall p, p <> [] -> finite_poly p -> INR (length p) <= 2 ^ 53 ->
  length (fpdiff p) = Nat.max 1 (length p - 1) /\ (length p = 1%nat -> fpdiff p = [fzero]) /\
  forall k, (fin (co (fpdiff p) k) <-> no_overflow (val (co p (S k)) * INR (S k))) /\ (fin (co (fpdiff p) k) -> val (co (fpdiff p) k) = rnd64 (val (co p (S k)) * INR (S k)) /\
    Rabs (val (co (fpdiff p) k) - val (co p (S k)) * INR (S k)) <= / 2 ^ 53 * Rabs (val (co p (S k)) * INR (S k)) + / 2 ^ 1075).
Proof.
  intros p N F L. destruct p as [|c p]; [congruence|]. assert (Fp : finite_poly p) by (inversion F; assumption). unfold fpdiff. cbn [tl length] in *. split; [|split].
  - destruct p as [|c' p]; [reflexivity|]. rewrite mk_len by discriminate. rewrite map_length, combine_length, seq_length. cbn [length]. lia.
  - destruct p; [reflexivity|discriminate].
  - intros k. change (co (c :: p) (S k)) with (co p k). set (d := mk_fpoly _) in *.
    assert (E : (fin (co d k) <-> no_overflow (val (co p k) * INR (S k))) /\ (fin (co d k) -> val (co d k) = rnd64 (val (co p k) * INR (S k)))).
    { destruct (Nat.lt_ge_cases k (length p)) as [H|H].
      - assert (D : co d k = fmul (co p k) (of_nat (S k))).
        { unfold d. rewrite mk_len by (destruct p; [cbn in H; lia|discriminate]). unfold co at 1. rewrite nth_combine_map by exact H. reflexivity. }
        destruct (count_ok (S k) ltac:(lia)) as (Vn & Fn & En & _); [eapply Rle_trans; [apply le_INR|exact L]; lia|]. rewrite D. rewrite <- En. destruct (co_ok p k Fp) as [Vc Fc]. assert (A := mul_ok (co p k) (of_nat (S k)) Vc Vn). tauto.
      - assert (D : co d k = fzero). { unfold d, co. destruct p as [|c' p]; [destruct k as [|[|k]]; reflexivity|]. rewrite mk_len by discriminate. apply nth_overflow. rewrite map_length, combine_length, seq_length. lia. }
        rewrite D. unfold co. rewrite nth_overflow by exact H. change (val fzero) with 0. rewrite Rmult_0_l, rnd0. split; [split; [intros _; apply no_overflow_0|reflexivity]|reflexivity]. }
    split; [apply E|]. intros G. apply (proj2 E) in G. split; [exact G|]. rewrite G. apply rnd_error.
Qed.
Lemma int_co p k : (k < length p)%nat -> co (fpint p) (S k) = fdiv (co p k) (of_nat (S k)).
Proof. intros H. unfold fpint. cbn [mk_fpoly]. unfold co at 1. cbn [nth]. rewrite nth_combine_map by exact H. cbn [fst snd Nat.add]. replace (k + 1)%nat with (S k) by lia. reflexivity. Qed.
Lemma int_ok p k : finite_poly p -> (k < length p)%nat -> INR (length p) <= 2 ^ 53 ->
  valid (co (fpint p) (S k)) /\ fin (co (fpint p) (S k)) /\ val (co (fpint p) (S k)) = rnd64 (val (co p k) / INR (S k)) /\ Rabs (val (co (fpint p) (S k))) <= Rabs (val (co p k)).
Proof.
  intros F H L. rewrite int_co by exact H. destruct (count_ok (S k) ltac:(lia)) as (Vn & Fn & En & G1); [eapply Rle_trans; [apply le_INR|exact L]; lia|]. destruct (co_ok p k F) as [Vc Fc].
  assert (I : 0 < / INR (S k) <= 1). { split; [apply Rinv_0_lt_compat; lra|]. rewrite <- Rinv_1. apply Rinv_le_contravar; lra. }
  assert (Q : Rabs (rnd64 (val (co p k) / INR (S k))) <= Rabs (val (co p k))).
  { assert (B : - Rabs (val (co p k)) <= val (co p k) / INR (S k) <= Rabs (val (co p k))).
    { apply Rabs_le_inv. unfold Rdiv. rewrite Rabs_mult, (Rabs_pos_eq (/ INR (S k))) by lra. assert (P := Rabs_pos (val (co p k))). nra. }
    assert (A : rnd64 (Rabs (val (co p k))) = Rabs (val (co p k))). { unfold rnd64. apply round_generic; [apply valid_rnd_N|]. apply generic_format_abs, val_format, Vc. }
    destruct B as [B1 B2]. apply rnd_mono in B1, B2. unfold rnd64 in B1 at 1. rewrite round_NE_opp in B1. fold (rnd64 (Rabs (val (co p k)))) in B1. rewrite A in B1, B2. now apply Rabs_le. }
  destruct (div_ok (co p k) (of_nat (S k)) Vc Vn Fc ltac:(rewrite En; lra)) as [D1 D2]. rewrite En in *.
  assert (G : fin (fdiv (co p k) (of_nat (S k)))). { apply D1. unfold no_overflow. eapply Rle_lt_trans; [exact Q|]. now apply val_lt. }
  split; [now apply valid_div|]. split; [exact G|]. rewrite (D2 G). split; [reflexivity|exact Q].
Qed.
(** The antiderivative has value 0 at 0, one coefficient more, never overflows, and each coefficient is rounded once. *)
Theorem C81_integrate : forall p, finite_poly p -> INR (length p) <= 2 ^ 53 ->
  length (fpint p) = S (length p) /\ co (fpint p) 0 = fzero /\ finite_poly (fpint p) /\
  forall k, (k < length p)%nat -> val (co (fpint p) (S k)) = rnd64 (val (co p k) / INR (S k)) /\
    Rabs (val (co (fpint p) (S k)) - val (co p k) / INR (S k)) <= / 2 ^ 53 * Rabs (val (co p k) / INR (S k)) + / 2 ^ 1075.
Proof.
  intros p F L. assert (Len : length (fpint p) = S (length p)) by (unfold fpint; cbn [mk_fpoly length]; rewrite map_length, combine_length, seq_length; lia).
  split; [exact Len|]. split; [reflexivity|]. split.
  - apply Forall_forall. intros c Hc. apply (In_nth _ _ fzero) in Hc. destruct Hc as (k & Hk & <-). rewrite Len in Hk. destruct k as [|k]; [split; reflexivity|]. destruct (int_ok p k F ltac:(lia) L) as (A & B & _). split; assumption.
  - intros k Hk. destruct (int_ok p k F Hk L) as (_ & _ & E & _). split; [exact E|]. rewrite E. apply rnd_error.
Qed.
(** Differentiating the antiderivative gives the coefficients up to two roundings, if no quotient is subnormal. *)
Theorem C81_roundtrip : forall p k, p <> [] -> finite_poly p -> INR (length p) < 2 ^ 53 -> (k < length p)%nat -> / 2 ^ 1022 <= Rabs (val (co p k) / INR (S k)) \/ val (co p k) = 0 ->
  length (fpdiff (fpint p)) = length p /\
  (fin (co (fpdiff (fpint p)) k) -> Rabs (val (co (fpdiff (fpint p)) k) - val (co p k)) <= 3 * / 2 ^ 53 * Rabs (val (co p k))).
Proof.
  intros p k N F L Hk S0. assert (L' : INR (length p) <= 2 ^ 53) by now apply Rlt_le. destruct (C81_integrate p F L') as (Len & _ & FI & I). assert (NI : fpint p <> []) by (apply nonempty; lia).
  assert (LI : INR (length (fpint p)) <= 2 ^ 53).
  { rewrite Len, S_INR. assert (E53 : 2 ^ 53 = INR (2 ^ 53)) by (rewrite pow_INR; reflexivity). rewrite E53 in L |- *. apply INR_lt in L. rewrite <- S_INR. apply le_INR. exact L. }
  destruct (C81_differentiate (fpint p) NI FI LI) as (LD & _ & D). split; [rewrite LD, Len; destruct p; [congruence|cbn [length]; lia]|].
  intros G. destruct (proj2 (D k) G) as [E _]. destruct (I k Hk) as [EI _]. rewrite EI in E. change (/ 2 ^ 53) with u. rewrite E. clear - S0. assert (U := u_lt). destruct u_eta as (_ & _ & U3).
  set (c := val (co p k)) in *. assert (G1 : 1 <= INR (S k)) by (change 1 with (INR 1); apply le_INR; lia). set (n := INR (S k)) in *. clearbody n c. destruct S0 as [S0| ->].
  2: { unfold Rdiv. rewrite Rmult_0_l. assert (Z : rnd64 0 = 0) by (unfold rnd64; apply round_0, valid_rnd_N). rewrite Z, Rmult_0_l, Z, Rminus_0_r, Rabs_R0. lra. }
  set (q := c / n) in *. assert (Ec : c = q * n) by (unfold q; field; lra). assert (R1 := near_cst q S0). unfold near in R1. cbn [pow] in R1. rewrite Rplus_0_r in R1. assert (Pq := Rabs_pos q).
  assert (R1' : Rabs (rnd64 q - q) <= u * Rabs q) by (eapply Rle_trans; [exact R1|]; right; ring). clear R1.
  assert (M : / 2 ^ 1022 <= Rabs (rnd64 q)).
  { assert (E22 : rnd64 (/ 2 ^ 1022) = / 2 ^ 1022). { assert (B : / 2 ^ 1022 = bpow radix2 (- (1022))) by (rewrite bpow_opp; change 1022%Z with (Z.of_nat 1022); rewrite bpow_powerRZ, <- pow_powerRZ; reflexivity). rewrite B. unfold rnd64. apply round_generic; [apply valid_rnd_N|]. apply generic_format_bpow. unfold FLT_exp. lia. }
    unfold rnd64. rewrite <- round_NE_abs by (apply FLT_exp_valid; reflexivity). fold (rnd64 (Rabs q)). rewrite <- E22. now apply rnd_mono. }
  set (v := rnd64 q) in *. assert (N2 : normal (v * n)). { unfold normal. rewrite Rabs_mult, (Rabs_pos_eq n) by lra. eapply Rle_trans; [exact M|]. assert (P := Rabs_pos v). nra. }
  apply near_cst in N2. unfold near in N2. cbn [pow] in N2. rewrite Rplus_0_r in N2. assert (R2 : Rabs (rnd64 (v * n) - v * n) <= u * Rabs (v * n)) by (eapply Rle_trans; [exact N2|]; right; ring). clear N2 M S0.
  rewrite Ec. rewrite !Rabs_mult, (Rabs_pos_eq n) in * by lra.
  assert (Vb : Rabs v <= (1 + u) * Rabs q). { replace v with (q + (v - q)) by ring. eapply Rle_trans; [apply Rabs_triang|]. lra. }
  replace (rnd64 (v * n) - q * n) with ((rnd64 (v * n) - v * n) + (v - q) * n) by ring. eapply Rle_trans; [apply Rabs_triang|]. rewrite Rabs_mult, (Rabs_pos_eq n) by lra.
  assert (A1 : Rabs (v - q) * n <= u * Rabs q * n) by (apply Rmult_le_compat_r; lra). assert (A2 : u * (Rabs v * n) <= u * ((1 + u) * Rabs q * n)) by (apply Rmult_le_compat_l; [lra|]; apply Rmult_le_compat_r; lra).
  assert (A3 : u * (u * (Rabs q * n)) <= 1 * (u * (Rabs q * n))). { apply Rmult_le_compat_r; [|lra]. apply Rmult_le_pos; [lra|]. apply Rmult_le_pos; lra. }
  lra.
Qed.
(** ** Division by a monomial *)
Theorem C81_floordiv : forall p d, p <> [] -> finite_poly p ->
  ((length p <= d)%nat \/ (exists k, (k < d)%nat /\ val (co p k) <> 0) -> fpfloordiv p d = Err ValueError) /\
  ((d < length p)%nat -> (forall k, (k < d)%nat -> val (co p k) = 0) -> exists q, fpfloordiv p d = Ok q /\ length q = (length p - d)%nat /\ forall k, co q k = co p (d + k)).
Proof.
  intros p d N F. assert (P : (0 < length p)%nat) by (destruct p; [congruence|cbn; lia]). unfold fpfloordiv, fpdegree.
  assert (X : (d < length p)%nat -> (existsb (fun c => negb (SFeqb c fzero)) (firstn d p) = true <-> exists k, (k < d)%nat /\ val (co p k) <> 0)).
  { intros Hd. rewrite existsb_exists. split.
    - intros (c & Hc & E). apply (In_nth _ _ fzero) in Hc. destruct Hc as (k & Hk & <-). rewrite firstn_length_le in Hk by lia. exists k. split; [exact Hk|]. intros Z. apply negb_true_iff in E. rewrite <- not_true_iff_false in E. apply E.
      assert (Nk : nth k (firstn d p) fzero = co p k). { unfold co. rewrite <- (firstn_skipn d p) at 2. rewrite app_nth1 by (rewrite firstn_length_le; lia). reflexivity. } rewrite Nk. apply eqb_zero; [now apply co_ok|exact Z].
    - intros (k & Hk & Z). assert (Nk : nth k (firstn d p) fzero = co p k). { unfold co. rewrite <- (firstn_skipn d p) at 2. rewrite app_nth1 by (rewrite firstn_length_le; lia). reflexivity. }
      exists (co p k). split; [rewrite <- Nk; apply nth_In; rewrite firstn_length_le; lia|]. apply negb_true_iff, not_true_iff_false. intros E. apply Z. apply eqb_zero in E; [exact E|now apply co_ok]. }
  destruct (Nat.leb_spec d (length p - 1)) as [H|H]; cbn [negb].
  - specialize (X ltac:(lia)). destruct (existsb _ _); split.
    + reflexivity.
    + intros _ Z. destruct (proj1 X eq_refl) as (k & Hk & Nz). specialize (Z k Hk). contradiction.
    + intros [K|K]; [lia|]. apply X in K. discriminate.
    + intros _ _. eexists. split; [reflexivity|]. rewrite mk_len by (apply nonempty; rewrite skipn_length; lia). split; [apply skipn_length|]. intros k. unfold co. rewrite <- (firstn_skipn d p) at 2. rewrite app_nth2 by (rewrite firstn_length_le; lia). rewrite firstn_length_le by lia. f_equal. lia.
  - split; [reflexivity|]. intros K. lia.
Qed.
(** ** What fails *)
Definition one : spec_float := SFone 53 1024.
(** The derivative of the antiderivative of [x^48] is not [x^48]. *)
Theorem C81_roundtrip_refuted : let p := repeat fzero 48 ++ [one] in co p 48 = one /\ co (fpdiff (fpint p)) 48 = S754_finite false 9007199254740991 (-53).
Proof. vm_compute. split; reflexivity. Qed.
(** Sums of polynomials are not associative: the constant term of [(p + q) + r] can be 0 where that of [p + (q + r)] is 1. *)
Theorem C81_assoc_refuted : let big := S754_finite false 4503599627370496 2 in
  fpadd (fpadd [one] [big]) [SFopp big] = [fzero] /\ fpadd [one] (fpadd [big] [SFopp big]) = [one].
Proof. vm_compute. split; reflexivity. Qed.
(** ** Examples *)
Example C81_ex : let p := [one; of_nat 3; SFopp one] in let q := [of_nat 2; one] in
  p <> [] /\ finite_poly p /\ finite_poly q /\ INR (length p) < 2 ^ 53 /\ fpeval p (of_nat 2) = of_nat 3 /\
  fpadd p q = [of_nat 3; of_nat 4; SFopp one] /\ fpdiff p = [of_nat 3; SFopp (of_nat 2)] /\ fpfloordiv [fzero; one; one] 1 = Ok [one; one] /\
  / 2 ^ 1022 <= Rabs (val (co p 0) / INR 1).
Proof.
  intros p q. split; [discriminate|]. split; [repeat constructor|]. split; [repeat constructor|]. split; [cbn; lra|]. repeat (split; [vm_compute; reflexivity|]).
  change (co p 0) with (fone 53 1024). destruct fone_val as (_ & _ & ->). cbn [INR]. replace (1 / 1) with 1 by lra. rewrite Rabs_R1. apply Rle_trans with (/ 1); [|rewrite Rinv_1; apply Rle_refl]. apply Rinv_le_contravar; [lra|]. apply pow_R1_Rle. lra.
Qed.
Print Assumptions C81_eval.
Print Assumptions C81_at_zero.
Print Assumptions C81_add.
Print Assumptions C81_sub.
Print Assumptions C81_add_comm.
Print Assumptions C81_sub_self.
Print Assumptions C81_add_const.
Print Assumptions C81_neg.
Print Assumptions C81_neg_eval.
Print Assumptions C81_scale.
Print Assumptions C81_differentiate.
Print Assumptions C81_integrate.
Print Assumptions C81_roundtrip.
Print Assumptions C81_floordiv.
Print Assumptions C81_roundtrip_refuted.
Print Assumptions C81_assoc_refuted.
